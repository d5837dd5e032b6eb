(** C114: convergence of GMRES in exact arithmetic, over real or complex scalars. *)
From Coq Require Import Reals Lra Ring.
From Coquelicot Require Import Complex.
From Verif Require Import Base GmresModel GmresSpec GmresProofs GmresProofs2 GmresProofs3 GmresProps GcrSpec GcrProofs GcrProofs2 GcrProofs3 GcrProofs4.
Set Implicit Arguments.

Lemma nth_error_rev_ (T : Type) (l : list T) : forall i, i < length l -> nth_error (rev l) i = nth_error l (length l - 1 - i).
Proof.
  induction l as [|x l IH] using rev_ind; intros i Hi; [cbn in Hi; lia|]. rewrite rev_app_distr, app_length in *. cbn in Hi |- *. destruct i as [|i]; cbn.
  - rewrite nth_error_app2 by lia. replace (length l + 1 - 1 - 0 - length l) with 0 by lia. reflexivity.
  - rewrite IH by lia. rewrite nth_error_app1 by lia. f_equal. lia.
Qed.
Section G.
Variables V K : Type.
Variable sc : scalars K.
Variable vo : vops V K.
Variable vs : vspace vo.
Variable dot : V -> V -> K.
Variable q : V -> R.
Hypothesis IP : inner_product sc vo dot q.
Variable A : V -> V.
Hypothesis HA : GmresSpec.linear vo A.
Variable no : nops R.
Hypothesis HC : exact_comparisons no.
Notation norm := (gnorm sc dot).
Notation inv := (ginv sc).

Lemma norm_sq u : (norm u ^ 2 = q u)%R.
Proof. rewrite (@gnorm_q V K sc vo dot q IP). cbn [pow]. rewrite Rmult_1_r. apply sqrt_sqrt, (ip_pos IP). Qed.
Lemma norm_pos u : (0 <= norm u)%R.
Proof. apply sqrt_pos. Qed.
Lemma sq_le x y : (0 <= y -> x ^ 2 <= y ^ 2 -> x <= y)%R.
Proof. intros Hy H. destruct (Rle_lt_dec x y) as [L|L]; [exact L|]. nra. Qed.
Lemma sq_lt x y : (0 <= y -> x ^ 2 < y ^ 2 -> x < y)%R.
Proof. intros Hy H. destruct (Rlt_le_dec x y) as [L|L]; [exact L|]. nra. Qed.

Lemma coercive_definite al be : coercive sc A dot q al be -> definite sc A dot q.
Proof.
  intros (Ha & Hb & H1 & _) u Hu. specialize (H1 u). rewrite Hu in H1. unfold kabs in H1. rewrite (abs2_K0 sc), sqrt_0 in H1.
  pose proof (ip_pos IP u). nra.
Qed.

Variable a : gargs R.
Variable b : V.
Variable x0 : option V.
Variables (out : goutcome V R) (st : gst V R).
Hypothesis Hrun : gmres_run vo no A dot norm inv a b x0 = (out, st).

Lemma hist_nth (HD : definite sc A dot q) i nr : nth_error (g_norms st) i = Some nr ->
  exists r, nth_error (map snd (g_seen st)) i = Some r /\ nr = norm r.
Proof.
  rewrite (@run_norms V K sc vo vs dot A HA no a b x0 out st Hrun). rewrite nth_error_map. intros H.
  rewrite nth_error_map. destruct (nth_error (g_seen st) i) as [p|]; [|discriminate]. injection H as <-. exists (snd p). auto.
Qed.
Lemma hist_step (HD : definite sc A dot q) i x y : nth_error (g_norms st) i = Some x -> nth_error (g_norms st) (S i) = Some y ->
  exists r r', x = norm r /\ y = norm r' /\ step sc dot q A r r'.
Proof.
  intros H1 H2. destruct (hist_nth HD _ H1) as (r & E1 & ->). destruct (hist_nth HD _ H2) as (r' & E2 & ->).
  exists r, r'. split; [reflexivity|]. split; [reflexivity|].
  pose proof (@run_good V K sc vo vs dot q IP A HA HD no HC a b x0 out st Hrun) as (G1 & _).
  exact (@chain_nth V K sc dot q A _ G1 i r r' E1 E2).
Qed.
Lemma hist_mono (HD : definite sc A dot q) i x y : nth_error (g_norms st) i = Some x -> nth_error (g_norms st) (S i) = Some y -> (0 <= y <= x)%R.
Proof.
  intros H1 H2. destruct (hist_step HD _ H1 H2) as (r & r' & -> & -> & S1 & _). split; [apply norm_pos|].
  apply sq_le; [apply norm_pos|]. rewrite !norm_sq. exact S1.
Qed.
Lemma hist_pos (HD : definite sc A dot q) i x : nth_error (g_norms st) i = Some x -> (0 <= x)%R.
Proof. intros H. destruct (hist_nth HD _ H) as (r & _ & ->). apply norm_pos. Qed.
Lemma hist_between (HD : definite sc A dot q) i k x : nth_error (g_norms st) (i + k) = Some x -> exists y, nth_error (g_norms st) i = Some y.
Proof.
  intros H. destruct (nth_error (g_norms st) i) as [y|] eqn:E; [exists y; reflexivity|]. apply nth_error_None in E.
  assert (i + k < length (g_norms st)) by (apply nth_error_Some; congruence). lia.
Qed.
Lemma hist_zero (HD : definite sc A dot q) i k x y : nth_error (g_norms st) i = Some x -> nth_error (g_norms st) (i + k) = Some y -> x = 0%R -> y = 0%R.
Proof.
  revert y. induction k as [|k IH]; intros y H1 H2 Hx.
  - rewrite Nat.add_0_r in H2. congruence.
  - rewrite <- plus_n_Sm in H2. destruct (hist_between HD (i + k) 1 ltac:(rewrite Nat.add_1_r; exact H2)) as [z Hz].
    pose proof (IH z H1 Hz Hx). pose proof (hist_mono HD _ Hz H2). lra.
Qed.

Lemma rate_step al be r r' : coercive sc A dot q al be -> step sc dot q A r r' -> (q r' <= (1 - (al / be) ^ 2) * q r)%R.
Proof.
  intros (Ha & Hb & H1 & H2) [S1 S2]. specialize (H1 r). specialize (H2 r).
  pose proof (ip_pos IP r) as Pr. pose proof (ip_pos IP r') as Pr'. pose proof (ip_pos IP (A r)) as PA.
  set (c := kabs2 sc (dot r (A r))) in *. pose proof (abs2_pos sc (dot r (A r))) as Pc. fold c in Pc.
  assert (C : (al ^ 2 * q r ^ 2 <= c)%R).
  { unfold kabs in H1. fold c in H1. assert (X : ((al * q r) ^ 2 <= sqrt c ^ 2)%R) by (apply pow_incr; split; [nra|exact H1]).
    replace (sqrt c ^ 2)%R with c in X by (cbn [pow]; rewrite Rmult_1_r; symmetry; apply sqrt_sqrt; exact Pc). nra. }
  assert (D : (al ^ 2 * q r ^ 2 <= (q r - q r') * (be ^ 2 * q r))%R).
  { eapply Rle_trans; [exact C|]. eapply Rle_trans; [exact S2|]. apply Rmult_le_compat_l; lra. }
  destruct (Req_dec (q r) 0) as [Z|Z]; [rewrite Z in *; nra|].
  assert (E : (al ^ 2 * q r <= (q r - q r') * be ^ 2)%R).
  { apply Rmult_le_reg_r with (q r); [lra|]. nra. }
  assert (F : ((al / be) ^ 2 * q r <= q r - q r')%R).
  { replace ((al / be) ^ 2 * q r)%R with ((al ^ 2 * q r) / be ^ 2)%R by (field; lra).
    apply Rmult_le_reg_r with (be ^ 2)%R; [nra|]. unfold Rdiv. rewrite Rmult_assoc, Rinv_l by nra. lra. }
  lra.
Qed.
Lemma rate_pos al be r : coercive sc A dot q al be -> q r <> 0%R -> (0 <= 1 - (al / be) ^ 2)%R.
Proof.
  intros (Ha & Hb & H1 & H2) Z. specialize (H1 r). specialize (H2 r). pose proof (ip_pos IP r) as Pr.
  pose proof (@cauchy V K sc vo vs dot q IP r (A r)) as C. pose proof (abs2_pos sc (dot r (A r))) as Pc.
  set (c := kabs2 sc (dot r (A r))) in *.
  assert (X : (al ^ 2 * q r ^ 2 <= c)%R).
  { unfold kabs in H1. fold c in H1. assert (X : ((al * q r) ^ 2 <= sqrt c ^ 2)%R) by (apply pow_incr; split; [nra|exact H1]).
    replace (sqrt c ^ 2)%R with c in X by (cbn [pow]; rewrite Rmult_1_r; symmetry; apply sqrt_sqrt; exact Pc). nra. }
  assert (Y : (al ^ 2 * q r ^ 2 <= be ^ 2 * q r ^ 2)%R) by nra.
  assert (W : (al ^ 2 <= be ^ 2)%R) by (apply Rmult_le_reg_r with (q r ^ 2)%R; [nra|exact Y]).
  assert (F : ((al / be) ^ 2 <= 1)%R).
  { replace ((al / be) ^ 2)%R with (al ^ 2 / be ^ 2)%R by (field; lra).
    apply Rmult_le_reg_r with (be ^ 2)%R; [nra|]. unfold Rdiv. rewrite Rmult_assoc, Rinv_l by nra. lra. }
  lra.
Qed.
Lemma hist_rate al be i k x y : coercive sc A dot q al be -> nth_error (g_norms st) i = Some x -> nth_error (g_norms st) (i + k) = Some y ->
  (y ^ 2 <= (1 - (al / be) ^ 2) ^ k * x ^ 2)%R.
Proof.
  intros Hc H1. pose proof (coercive_definite Hc) as HD. revert y. induction k as [|k IH]; intros y H2.
  - rewrite Nat.add_0_r in H2. assert (x = y) by congruence. subst y. cbn [pow]. lra.
  - destruct (Req_dec x 0) as [Z|Z].
    { rewrite (hist_zero HD i (S k) H1 H2 Z), Z. cbn [pow]. lra. }
    rewrite <- plus_n_Sm in H2. destruct (hist_between HD (i + k) 1 ltac:(rewrite Nat.add_1_r; exact H2)) as [z Hz].
    specialize (IH z Hz). destruct (hist_step HD _ Hz H2) as (r & r' & -> & -> & Hs).
    pose proof (rate_step Hc Hs) as Hr. rewrite !norm_sq in *.
    destruct (hist_nth HD _ H1) as (u & _ & ->).
    assert (P : (0 <= 1 - (al / be) ^ 2)%R).
    { apply (@rate_pos al be u Hc). intros E. apply Z. rewrite (@gnorm_q V K sc vo dot q IP), E. apply sqrt_0. }
    rewrite norm_sq in *. change ((1 - (al / be) ^ 2) ^ S k)%R with ((1 - (al / be) ^ 2) * (1 - (al / be) ^ 2) ^ k)%R.
    eapply Rle_trans; [exact Hr|]. rewrite Rmult_assoc. apply Rmult_le_compat_l; [exact P|exact IH].
Qed.
Lemma hist_head : 0 < a_maxiter a -> nth_error (g_norms st) 0 = Some (norm (vsub vo b (A (initial_guess vs x0)))).
Proof.
  intros Hm. rewrite (@run_norms V K sc vo vs dot A HA no a b x0 out st Hrun), nth_error_map.
  rewrite (@run_head V K sc vo vs dot A HA no a b x0 out st Hm Hrun). reflexivity.
Qed.
End G.

(** ** The theorems *)

(** For a coercive operator every iteration shrinks the residual by a fixed factor, whatever
    the restart length. *)
Theorem gmres_linear_rate : forall V K (sc : scalars K) (vo : vops V K) (vs : vspace vo) dot q, inner_product sc vo dot q ->
  forall A, GmresSpec.linear vo A -> forall alpha beta, coercive sc A dot q alpha beta ->
  forall no, exact_comparisons no -> forall a b x0 out st,
  gmres_run vo no A dot (gnorm sc dot) (ginv sc) a b x0 = (out, st) ->
  forall i k x y, nth_error (g_norms st) i = Some x -> nth_error (g_norms st) (i + k) = Some y ->
  (y ^ 2 <= (1 - (alpha / beta) ^ 2) ^ k * x ^ 2)%R.
Proof.
  intros V K sc vo vs dot q IP A HA al be Hc no HC a b x0 out st H i k x y H1 H2.
  exact (@hist_rate V K sc vo vs dot q IP A HA no HC a b x0 out st H al be i k x y Hc H1 H2).
Qed.
Print Assumptions gmres_linear_rate.

(** Hence it returns success within [m] iterations as soon as [m] steps of that rate reach
    the tolerance, provided the stall test cannot fire at that rate. *)
Theorem gmres_converges : forall V K (sc : scalars K) (vo : vops V K) (vs : vspace vo) dot q, inner_product sc vo dot q ->
  forall A, GmresSpec.linear vo A -> forall alpha beta, coercive sc A dot q alpha beta ->
  forall no, exact_comparisons no -> forall a b x0 out st,
  gmres_run vo no A dot (gnorm sc dot) (ginv sc) a b x0 = (out, st) ->
  forall m, 1 <= a_restart a -> m < a_maxiter a -> (0 < a_tol a)%R ->
  ((1 - (alpha / beta) ^ 2) ^ m * gnorm sc dot (vsub vo b (A (initial_guess vs x0))) ^ 2 < (a_tol a * gnorm sc dot b) ^ 2)%R ->
  a_stall a = 0 \/ (0 < a_npf a /\ a_npf a ^ 2 * (1 - (alpha / beta) ^ 2) ^ (a_stall a - 1) <= 1)%R ->
  exists res, out = GReturn res /\ success res = true /\ iteration_count res <= m.
Proof.
  intros V K sc vo vs dot q IP A HA al be Hc no HC a b x0 out st H m Hr Hm Ht Hsm Hst.
  pose proof (@coercive_definite V K sc vo dot q IP A al be Hc) as HD.
  pose proof (norm_pos sc dot b) as Nb.
  apply (@outcome_success V K sc vo vs dot A HA no HC a b x0 out st m Hr Hm H).
  - intros i nr Hi Hmi. unfold converged. apply orb_true_iff. left. apply (proj1 HC). rewrite (proj1 (proj2 (proj2 HC))).
    apply sq_lt; [nra|]. eapply Rle_lt_trans; [|exact Hsm].
    destruct (@hist_between V K sc dot q A st HD m (i - m) nr ltac:(replace (m + (i - m)) with i by lia; exact Hi)) as [z Hz].
    assert (X : (nr <= z)%R).
    { clear - Hi Hz Hmi H HD HC IP HA vs. revert nr Hi. induction Hmi as [|i Hmi IH]; intros nr Hi; [assert (nr = z) by congruence; lra|].
      destruct (@hist_between V K sc dot q A st HD i 1 nr ltac:(rewrite Nat.add_1_r; exact Hi)) as [w Hw].
      pose proof (@hist_mono V K sc vo vs dot q IP A HA no HC a b x0 out st H HD i w nr Hw Hi). specialize (IH w Hw). lra. }
    assert (P : (0 <= nr)%R) by exact (@hist_pos V K sc vo vs dot q A HA no a b x0 out st H HD i nr Hi).
    eapply Rle_trans; [apply pow_incr; split; [exact P|exact X]|].
    exact (@hist_rate V K sc vo vs dot q IP A HA no HC a b x0 out st H al be 0 m _ z Hc
             (@hist_head V K sc vo vs dot A HA no a b x0 out st H ltac:(lia)) Hz).
  - intros i x y. exact (@hist_mono V K sc vo vs dot q IP A HA no HC a b x0 out st H HD i x y).
  - intros nr _ Hnp Hl. unfold no_progress in Hnp. apply andb_true_iff in Hnp. destruct Hnp as [Hnp Ho].
    apply andb_true_iff in Hnp. destruct Hnp as [N1 N2]. apply Nat.ltb_lt in N1, N2.
    destruct Hst as [Z|[P Hst]]; [lia|].
    destruct (nth_error (rev (g_norms st)) (a_stall a - 1)) as [old|] eqn:Eo; [|discriminate].
    assert (E1 : nth_error (g_norms st) (length (g_norms st) - a_stall a) = Some old).
    { rewrite <- Eo. rewrite nth_error_rev_ by lia. f_equal. lia. }
    assert (R1 : (nr ^ 2 <= (1 - (al / be) ^ 2) ^ (a_stall a - 1) * old ^ 2)%R).
    { refine (@hist_rate V K sc vo vs dot q IP A HA no HC a b x0 out st H al be _ _ _ _ Hc E1 _).
      rewrite <- Hl. f_equal. lia. }
    apply (proj1 HC) in Ho. rewrite (proj1 (proj2 (proj2 (proj2 HC)))) in Ho.
    assert (Po : (0 <= old)%R) by exact (@hist_pos V K sc vo vs dot q A HA no a b x0 out st H HD _ old E1).
    assert (Pn : (0 <= nr)%R) by exact (@hist_pos V K sc vo vs dot q A HA no a b x0 out st H HD _ nr Hl).
    assert (L : (old < nr * a_npf a)%R).
    { apply Rmult_lt_reg_r with (/ a_npf a)%R; [apply Rinv_0_lt_compat; exact P|]. rewrite Rmult_assoc, Rinv_r by lra. unfold Rdiv in Ho. lra. }
    assert (L2 : (old ^ 2 < nr ^ 2 * a_npf a ^ 2)%R) by nra.
    assert (L3 : (a_npf a ^ 2 * nr ^ 2 <= (a_npf a ^ 2 * (1 - (al / be) ^ 2) ^ (a_stall a - 1)) * old ^ 2)%R).
    { rewrite Rmult_assoc. apply Rmult_le_compat_l; [nra|exact R1]. }
    assert (L4 : ((a_npf a ^ 2 * (1 - (al / be) ^ 2) ^ (a_stall a - 1)) * old ^ 2 <= 1 * old ^ 2)%R) by (apply Rmult_le_compat_r; [nra|exact Hst]).
    lra.
Qed.
Print Assumptions gmres_converges.

(** In particular, with the stall test disabled, any positive tolerance is reached, for every
    right-hand side that is not zero, every initial guess, and every restart length. *)
Theorem gmres_always_converges : forall V K (sc : scalars K) (vo : vops V K) (vs : vspace vo) dot q, inner_product sc vo dot q ->
  forall A, GmresSpec.linear vo A -> forall alpha beta, coercive sc A dot q alpha beta ->
  forall no, exact_comparisons no -> forall b x0 tol, q b <> 0%R -> (0 < tol)%R ->
  exists m, forall a, 1 <= a_restart a -> a_tol a = tol -> m < a_maxiter a -> a_stall a = 0 ->
  forall out st, gmres_run vo no A dot (gnorm sc dot) (ginv sc) a b x0 = (out, st) ->
  exists res, out = GReturn res /\ success res = true /\ iteration_count res <= m.
Proof.
  intros V K sc vo vs dot q IP A HA al be Hc no HC b x0 tol Hb Ht.
  pose proof (@rate_pos V K sc vo vs dot q IP A al be b Hc Hb) as P.
  assert (P1 : (1 - (al / be) ^ 2 < 1)%R).
  { destruct Hc as (Ha & Hbe & _). assert (0 < al / be)%R by (apply Rdiv_lt_0_compat; assumption). nra. }
  set (rho := (1 - (al / be) ^ 2)%R) in *. set (n0 := (gnorm sc dot (vsub vo b (A (initial_guess vs x0))) ^ 2)%R).
  assert (N0 : (0 <= n0)%R) by (unfold n0; apply pow2_ge_0).
  assert (T : (0 < (tol * gnorm sc dot b) ^ 2)%R).
  { rewrite Rpow_mult_distr, (@norm_sq V K sc vo dot q IP). pose proof (ip_pos IP b). apply Rmult_lt_0_compat; [nra|lra]. }
  destruct (@pow_lt_1_zero rho ltac:(rewrite Rabs_pos_eq; assumption) ((tol * gnorm sc dot b) ^ 2 / (n0 + 1)) ltac:(apply Rdiv_lt_0_compat; lra)) as [m Hm].
  exists m. intros a Hr Et Hmi Hs out st H.
  apply (@gmres_converges V K sc vo vs dot q IP A HA al be Hc no HC a b x0 out st H m Hr Hmi); [lra| |left; exact Hs].
  fold rho. fold n0. rewrite Et. specialize (Hm m (le_n m)). rewrite Rabs_pos_eq in Hm by (apply pow_le; exact P).
  assert (X : (rho ^ m * (n0 + 1) < (tol * gnorm sc dot b) ^ 2)%R).
  { apply Rmult_lt_reg_r with (/ (n0 + 1))%R; [apply Rinv_0_lt_compat; lra|]. rewrite Rmult_assoc, Rinv_r by lra. unfold Rdiv in Hm. lra. }
  pose proof (pow_le rho m P). nra.
Qed.
Print Assumptions gmres_always_converges.

(** On a space of dimension [n] a definite operator is solved exactly in [n] iterations when
    no restart intervenes: the residual is zero, whatever the tolerance. *)
Theorem gmres_exact_in_n_steps : forall V K (sc : scalars K) (vo : vops V K) (vs : vspace vo) dot q, inner_product sc vo dot q ->
  forall A, GmresSpec.linear vo A -> definite sc A dot q -> forall n, dimension_at_most sc dot q n ->
  forall no, exact_comparisons no -> forall a b x0 out st,
  gmres_run vo no A dot (gnorm sc dot) (ginv sc) a b x0 = (out, st) ->
  1 <= a_restart a -> n <= a_restart a -> n < a_maxiter a -> a_stall a = 0 \/ n < a_stall a ->
  (exists res, out = GReturn res /\ success res = true /\ iteration_count res <= n)
  /\ forall nr, nth_error (g_norms st) n = Some nr -> nr = 0%R.
Proof.
  intros V K sc vo vs dot q IP A HA HD n Hn no HC a b x0 out st H Hr Hrn Hm Hst.
  assert (Z : forall nr, nth_error (g_norms st) n = Some nr -> nr = 0%R).
  { intros nr Hi. rewrite (@run_norms V K sc vo vs dot A HA no a b x0 out st H), nth_error_map in Hi.
    destruct (nth_error (g_seen st) n) as [p|] eqn:E; [|discriminate]. injection Hi as <-.
    pose proof (@run_good V K sc vo vs dot q IP A HA HD no HC a b x0 out st H) as (_ & _ & G).
    destruct (Req_dec (q (snd p)) 0) as [Q|Q]; [rewrite (@gnorm_q V K sc vo dot q IP), Q; apply sqrt_0|].
    exfalso. pose proof (G n n p Hn E Hrn Q). lia. }
  split; [|exact Z].
  apply (@outcome_success V K sc vo vs dot A HA no HC a b x0 out st n Hr Hm H).
  - intros i nr Hi Hmi. unfold converged. apply orb_true_iff. right. apply (proj1 (proj2 HC)).
    destruct (@hist_between V K sc dot q A st HD n (i - n) nr ltac:(replace (n + (i - n)) with i by lia; exact Hi)) as [z Hz].
    refine (@hist_zero V K sc vo vs dot q IP A HA no HC a b x0 out st H HD n (i - n) z nr Hz _ (Z z Hz)).
    replace (n + (i - n)) with i by lia. exact Hi.
  - intros i x y. exact (@hist_mono V K sc vo vs dot q IP A HA no HC a b x0 out st H HD i x y).
  - intros nr Hl Hnp _. unfold no_progress in Hnp. apply andb_true_iff in Hnp. destruct Hnp as [Hnp _].
    apply andb_true_iff in Hnp. destruct Hnp as [N1 N2]. apply Nat.ltb_lt in N1, N2. lia.
Qed.
Print Assumptions gmres_exact_in_n_steps.

(** So a system of 1 to 9 unknowns with a definite operator is solved by the default
    arguments (with any tolerance, initial guess and monotonicity setting). *)
Theorem gmres_defaults_solve_small_systems : forall V K (sc : scalars K) (vo : vops V K) (vs : vspace vo) dot q, inner_product sc vo dot q ->
  forall A, GmresSpec.linear vo A -> definite sc A dot q -> forall n, dimension_at_most sc dot q n -> 1 <= n <= 9 ->
  forall no, exact_comparisons no -> forall dflt_tol dflt_npf tol hard mono b x0 out st,
  gmres_run vo no A dot (gnorm sc dot) (ginv sc) (process dflt_tol dflt_npf n None tol None hard mono None None) b x0 = (out, st) ->
  exists res, out = GReturn res /\ success res = true /\ iteration_count res <= n.
Proof.
  intros V K sc vo vs dot q IP A HA HD n Hn Hb no HC dt dn tol hard mono b x0 out st H.
  apply (@gmres_exact_in_n_steps V K sc vo vs dot q IP A HA HD n Hn no HC _ b x0 out st H); cbn; lia.
Qed.
Print Assumptions gmres_defaults_solve_small_systems.

(** Up to the first restart, iterate [m] minimises the residual over all of
    [x0 + span (r0, A r0, ..., A^(m-1) r0)], and is itself in that set. *)
Theorem gmres_minimises_residual : forall V K (sc : scalars K) (vo : vops V K) (vs : vspace vo), module_laws sc vs ->
  forall dot q, inner_product sc vo dot q -> forall A, GmresSpec.linear vo A -> definite sc A dot q ->
  forall no, exact_comparisons no -> forall a b x0 out st,
  gmres_run vo no A dot (gnorm sc dot) (ginv sc) a b x0 = (out, st) ->
  let r0 := vsub vo b (A (initial_guess vs x0)) in
  forall m x r, nth_error (g_seen st) m = Some (x, r) -> m <= a_restart a ->
  r = vsub vo b (A x)
  /\ (exists s, span vs (krylov A r0 m) s /\ x = vadd vo (initial_guess vs x0) s)
  /\ forall z, span vs (krylov A r0 m) z -> (gnorm sc dot r <= gnorm sc dot (vsub vo b (A (vadd vo (initial_guess vs x0) z))))%R.
Proof.
  intros V K sc vo vs ML dot q IP A HA HD no HC a b x0 out st H r0 m x r Hm Hr.
  pose proof (@run_good V K sc vo vs dot q IP A HA HD no HC a b x0 out st H) as (_ & G & _).
  rewrite Forall_forall in G. split; [exact (G (x, r) (nth_error_In _ _ Hm))|].
  destruct (@run_kgood V K sc vo vs ML dot q IP A HA HD no HC a b (initial_guess vs x0) x0 out st eq_refl H m x r Hm Hr) as [(s & Es & Ss) M].
  split; [exists s; auto|]. intros z Hz. rewrite !(@gnorm_q V K sc vo dot q IP). apply sqrt_le_1_alt. exact (M z Hz).
Qed.
Print Assumptions gmres_minimises_residual.

(** ** The hypotheses are met: a rotation plus the identity on R^2 *)
Definition rscalars : scalars R.
Proof.
  refine (@Scalars R 0%R 1%R Rplus Rmult Rminus Ropp RTheory (fun x => x) (fun x => x) (fun x => x * x)%R _ _ _ _ _ _ _ _ _ _ _);
    intros; try reflexivity; try assumption; [apply Rle_0_sqr|]. destruct (Rmult_integral _ _ H); assumption.
Defined.
Definition exact_nops : nops R :=
  NOps (fun x y => if Rlt_dec x y then true else false) (fun x => if Req_EM_T x 0 then true else false) Rmult Rdiv (5 / 4)%R.
Example exact_nops_exact : exact_comparisons exact_nops.
Proof.
  repeat split; cbn; try (destruct (Rlt_dec x y)); try (destruct (Req_EM_T x 0)); auto; try discriminate; tauto.
Qed.
Definition r2vo : vops (R * R) R :=
  VOps (fun u v => (fst u + fst v, snd u + snd v)%R) (fun u v => (fst u - fst v, snd u - snd v)%R) (fun c u => (c * fst u, c * snd u)%R) 0%R.
Definition r2vs : vspace r2vo.
Proof.
  refine (@VSpace (R * R) R r2vo (0, 0)%R (fun u => (- fst u, - snd u)%R) _ _ _ _ _ _ _); intros; cbn; f_equal; try ring;
    repeat match goal with u : (R * R)%type |- _ => destruct u end; cbn; f_equal; ring.
Defined.
Definition r2dot (u v : R * R) : R := (fst u * fst v + snd u * snd v)%R.
Definition r2q (u : R * R) : R := r2dot u u.
Definition rotid (u : R * R) : R * R := (fst u - snd u, fst u + snd u)%R.
Example r2_module : module_laws rscalars r2vs.
Proof.
  constructor; cbn; intros; try reflexivity; repeat match goal with u : (R * R)%type |- _ => destruct u end; cbn; f_equal; ring.
Qed.
Example r2_ip : inner_product rscalars r2vo r2dot r2q.
Proof. constructor; unfold r2q, r2dot; cbn; intros; try ring. nra. Qed.
Example rotid_linear : GmresSpec.linear r2vo rotid.
Proof. split; intros; unfold rotid; cbn; f_equal; ring. Qed.
Example rotid_coercive : coercive rscalars rotid r2dot r2q 1 (sqrt 2).
Proof.
  split; [lra|]. split; [apply sqrt_lt_R0; lra|]. split; intros u.
  - unfold kabs; cbn. change (r2dot u (rotid u) * r2dot u (rotid u))%R with (Rsqr (r2dot u (rotid u))).
    rewrite sqrt_Rsqr_abs. eapply Rle_trans; [|apply RRle_abs]. unfold r2q, r2dot, rotid; cbn. lra.
  - replace (sqrt 2 ^ 2)%R with 2%R by (cbn [pow]; rewrite Rmult_1_r; symmetry; apply sqrt_sqrt; lra). unfold r2q, r2dot, rotid; cbn. lra.
Qed.
Example r2_dimension : dimension_at_most rscalars r2dot r2q 2.
Proof.
  intros [|u [|v [|w l]]] H1 H2; cbn; try lia. exfalso.
  inversion H1 as [|? ? F1 H3]; subst. inversion F1 as [|? ? E1 F2]; subst. inversion F2 as [|? ? E2 _]; subst.
  inversion H3 as [|? ? F3 _]; subst. inversion F3 as [|? ? E3 _]; subst.
  inversion H2 as [|? ? Q1 H4]; subst. inversion H4 as [|? ? Q2 H5]; subst. inversion H5 as [|? ? Q3 _]; subst.
  destruct u as [u1 u2], v as [v1 v2], w as [w1 w2]. unfold r2q, r2dot in *. cbn in *.
  set (d1 := (u1 * v2 - u2 * v1)%R). set (d2 := (u1 * w2 - u2 * w1)%R).
  assert (I1 : (d1 * d2 = 0)%R).
  { transitivity ((u1 * u1 + u2 * u2) * (v1 * w1 + v2 * w2) - (u1 * v1 + u2 * v2) * (u1 * w1 + u2 * w2))%R; [unfold d1, d2; ring|].
    rewrite E1, E2, E3. ring. }
  assert (I2 : (d1 * d1 = (u1 * u1 + u2 * u2) * (v1 * v1 + v2 * v2))%R).
  { transitivity ((u1 * u1 + u2 * u2) * (v1 * v1 + v2 * v2) - (u1 * v1 + u2 * v2) * (u1 * v1 + u2 * v2))%R; [unfold d1; ring|]. rewrite E1. ring. }
  assert (I3 : (d2 * d2 = (u1 * u1 + u2 * u2) * (w1 * w1 + w2 * w2))%R).
  { transitivity ((u1 * u1 + u2 * u2) * (w1 * w1 + w2 * w2) - (u1 * w1 + u2 * w2) * (u1 * w1 + u2 * w2))%R; [unfold d2; ring|]. rewrite E2. ring. }
  destruct (Rmult_integral _ _ I1) as [Z|Z]; [rewrite Z in I2|rewrite Z in I3].
  - assert (X : ((u1 * u1 + u2 * u2) * (v1 * v1 + v2 * v2))%R = 0%R) by lra. apply Rmult_integral in X. tauto.
  - assert (X : ((u1 * u1 + u2 * u2) * (w1 * w1 + w2 * w2))%R = 0%R) by lra. apply Rmult_integral in X. tauto.
Qed.
(** The defaults solve that system, for every right-hand side and initial guess. *)
Example rotid_solved : forall b x0, exists res st,
  gmres_run r2vo exact_nops rotid r2dot (gnorm rscalars r2dot) (ginv rscalars) (process (1 / 100000) (5 / 4) 2 None None None None true None None)%R b x0
    = (GReturn res, st) /\ success res = true /\ iteration_count res <= 2.
Proof.
  intros b x0. match goal with |- exists res st, ?g = _ /\ _ => destruct g as [out st] eqn:E end.
  destruct (@gmres_defaults_solve_small_systems _ _ rscalars r2vo r2vs r2dot r2q r2_ip rotid rotid_linear
    (@coercive_definite _ _ rscalars r2vo r2dot r2q r2_ip rotid _ _ rotid_coercive) 2 r2_dimension ltac:(lia) exact_nops exact_nops_exact
    _ _ _ _ _ b x0 out st E) as (res & -> & S1 & S2).
  exists res, st. auto.
Qed.
(** Complex scalars. *)
Definition cscalars : scalars C.
Proof.
  refine (@Scalars C (RtoC 0) (RtoC 1) Cplus Cmult Cminus Copp _ (fun c => (fst c, - snd c)%R) RtoC (fun c => fst c * fst c + snd c * snd c)%R _ _ _ _ _ _ _ _ _ _ _).
  - constructor; intros; try ring.
  - intros; apply injective_projections; cbn; ring.
  - intros; apply injective_projections; cbn; ring.
  - intros; apply injective_projections; cbn; ring.
  - intros; apply injective_projections; cbn; ring.
  - intros; apply injective_projections; cbn; ring.
  - intros; apply injective_projections; cbn; ring.
  - reflexivity.
  - intros x y H. injection H; auto.
  - intros; apply injective_projections; cbn; ring.
  - intros. cbn. nra.
  - intros [x y]; cbn. intros H. assert (x = 0%R) by nra. assert (y = 0%R) by nra. subst. reflexivity.
Defined.
Definition c1vo : vops C C := VOps Cplus Cminus Cmult (RtoC 0).
Definition c1vs : vspace c1vo.
Proof. refine (@VSpace C C c1vo (RtoC 0) Copp _ _ _ _ _ _ _); intros; cbn; ring. Defined.
Definition c1dot (u v : C) : C := Cmult (kconj cscalars u) v.
Example c1_module : module_laws cscalars c1vs.
Proof. constructor; cbn; intros; try reflexivity; ring. Qed.
Example c1_ip : inner_product cscalars c1vo c1dot (kabs2 cscalars).
Proof.
  constructor.
  - intros. unfold c1dot. cbn. ring.
  - intros. unfold c1dot. cbn. ring.
  - intros. unfold c1dot. apply injective_projections; cbn; ring.
  - intros. unfold c1dot. apply injective_projections; cbn; ring.
  - apply (abs2_pos cscalars).
Qed.
(** [A u = i u] is definite (but not coercive for the real part). *)
Example c1_definite : GmresSpec.linear c1vo (Cmult Ci) /\ definite cscalars (Cmult Ci) c1dot (kabs2 cscalars).
Proof.
  split; [split; intros; cbn; ring|]. intros [x y] H. unfold c1dot, Cmult, Ci in H. cbn in H. injection H as H1 H2. cbn. nra.
Qed.
