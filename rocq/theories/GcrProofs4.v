(** The iterates minimise the residual over the Krylov spaces. *)
From Coq Require Import Reals Lra Ring.
From Verif Require Import Base GmresModel GmresSpec GmresProofs GmresProofs2 GmresProofs3 GmresProps GcrSpec GcrProofs GcrProofs2 GcrProofs3.
Set Implicit Arguments.

Section G.
Variables V K : Type.
Variable sc : scalars K.
Variable vo : vops V K.
Variable vs : vspace vo.
Hypothesis ML : module_laws sc vs.
Variable dot : V -> V -> K.
Variable q : V -> R.
Hypothesis IP : inner_product sc vo dot q.
Variable A : V -> V.
Hypothesis HA : GmresSpec.linear vo A.
Hypothesis HD : definite sc A dot q.
Variable no : nops R.
Hypothesis HC : exact_comparisons no.
Variable a : gargs R.
Variable b : V.
Variable X0 : V.
Notation "a +v b" := (vadd vo a b) (at level 50, left associativity).
Notation "a -v b" := (vsub vo a b) (at level 50, left associativity).
Notation "c *v b" := (vscale vo c b) (at level 40).
Notation "a *k b" := (kmul sc a b) (at level 40, left associativity).
Notation norm := (gnorm sc dot).
Notation inv := (ginv sc).
Notation core := (core sc vo dot q A a b).
Notation tres := (tres vo A b).
Notation span := (span vs).
Add Ring KR : (k_ring sc).

(** ** Subspaces *)
Lemma scale_k0 u : k0 sc *v u = vzero vs.
Proof. rewrite <- (m_zero ML). apply (scale_zero vs). Qed.
Lemma opp_scale u : vopp vs u = kopp sc (k1 sc) *v u.
Proof.
  symmetry. apply (opp_unique vs). rewrite <- (m_one ML u) at 1. rewrite <- (m_add ML).
  replace (kadd sc (k1 sc) (kopp sc (k1 sc))) with (k0 sc) by ring. apply scale_k0.
Qed.
Lemma span_sub P u v : span P u -> span P v -> span P (u -v v).
Proof. intros Hu Hv. rewrite (sub_def vs), opp_scale. apply sp_add; [exact Hu|]. apply sp_scale. exact Hv. Qed.
Lemma span_mono (P Q : V -> Prop) u : (forall x, P x -> span Q x) -> span P u -> span Q u.
Proof.
  intros H. induction 1 as [|u Hu|c u _ IH|u v _ IH1 _ IH2]; [apply sp_zero|apply H; exact Hu|apply sp_scale; exact IH|apply sp_add; assumption].
Qed.
Lemma span_image (P Q : V -> Prop) u : (forall x, P x -> span Q (A x)) -> span P u -> span Q (A u).
Proof.
  intros H. induction 1 as [|u Hu|c u _ IH|u v _ IH1 _ IH2].
  - rewrite (A_zero vs HA). apply sp_zero.
  - apply H. exact Hu.
  - rewrite (proj2 HA). apply sp_scale. exact IH.
  - rewrite (proj1 HA). apply sp_add; assumption.
Qed.
Lemma add_sub u v : (u +v v) -v v = u.
Proof. rewrite (sub_def vs), <- (add_assoc vs), (add_opp vs). apply (add_zero vs). Qed.
Lemma sub_add u v : (u -v v) +v v = u.
Proof. rewrite (sub_def vs), <- (add_assoc vs), (add_comm vs (vopp vs v)), (add_opp vs). apply (add_zero vs). Qed.
Lemma span_add_l P u v : span P (u +v v) -> span P v -> span P u.
Proof. intros H1 H2. rewrite <- (add_sub u v). apply span_sub; assumption. Qed.
Lemma span_sub_l P u v : span P (u -v v) -> span P v -> span P u.
Proof. intros H1 H2. rewrite <- (sub_add u v). apply sp_add; assumption. Qed.
Lemma scale_sub c u v : c *v (u -v v) = c *v u -v c *v v.
Proof. rewrite !(sub_def vs), (scale_add vs), !opp_scale, !(m_mul ML). do 2 f_equal. ring. Qed.

Definition kinv (c : K) : K := of_real sc (/ kabs2 sc c)%R *k kconj sc c.
Lemma kinv_spec c : c <> k0 sc -> kinv c *k c = k1 sc.
Proof.
  intros H. unfold kinv. transitivity (of_real sc (/ kabs2 sc c)%R *k (c *k kconj sc c)); [ring|].
  rewrite (abs2_spec sc), <- (real_mul sc), Rinv_l, (real_one sc); [reflexivity|]. pose proof (abs2_nonzero sc H). lra.
Qed.

(** ** Orthogonalisation stays in, and comes from, the generated spaces *)
Lemma orth_span Ae e P : forall js w rp w' rp', (forall j y, In j js -> slot e j y -> span P y) -> span P rp ->
  orth vo dot Ae e js w rp = Ok (w', rp') -> span P rp'.
Proof.
  induction js as [|j js IH]; intros w rp w' rp' He Hr H; cbn [orth] in H.
  - injection H as <- <-. exact Hr.
  - destruct (rd Ae j) as [aj|]; cbn [bind] in H; [|discriminate]. destruct (rd e j) as [ej|] eqn:Ee; cbn [bind] in H; [|discriminate].
    eapply IH; [|  |exact H]; [intros i y Hi; apply He; right; exact Hi|]. apply span_sub; [exact Hr|]. apply sp_scale.
    apply (He j ej); [left; reflexivity|]. unfold rd in Ee. unfold slot. destruct (nth_error e j) as [[x|]|]; try discriminate. congruence.
Qed.
Lemma orth_back Ae e P : forall js w rp w' rp', (forall j y, In j js -> slot Ae j y -> span P y) ->
  orth vo dot Ae e js w rp = Ok (w', rp') -> span P w' -> span P w.
Proof.
  induction js as [|j js IH]; intros w rp w' rp' Ha H Hw; cbn [orth] in H.
  - injection H as <- <-. exact Hw.
  - destruct (rd Ae j) as [aj|] eqn:Ea; cbn [bind] in H; [|discriminate]. destruct (rd e j) as [ej|]; cbn [bind] in H; [|discriminate].
    assert (X : span P (w -v dot aj w *v aj)) by (eapply IH; [|exact H|exact Hw]; intros i y Hi; apply Ha; right; exact Hi).
    eapply span_sub_l; [exact X|]. apply sp_scale. apply (Ha j aj); [left; reflexivity|].
    unfold rd in Ea. unfold slot. destruct (nth_error Ae j) as [[x|]|]; try discriminate. congruence.
Qed.
Lemma trip_span Ae e m P w rp w1 rp1 : (forall j y, j < m -> slot e j y -> span P y) -> span P rp ->
  trip vo dot norm inv Ae e m w rp = Ok (w1, rp1) -> span P rp1.
Proof.
  intros He Hr H. unfold trip in H. destruct (orth vo dot Ae e (seq 0 m) w rp) as [[w' rp']|] eqn:E; cbn [bind] in H; [|discriminate].
  injection H as <- <-. apply sp_scale. eapply orth_span; [|exact Hr|exact E]. intros j y Hj. apply in_seq in Hj. apply He. lia.
Qed.
Lemma trip_back Ae e m P w rp w1 rp1 : (forall j y, j < m -> slot Ae j y -> span P y) ->
  trip vo dot norm inv Ae e m w rp = Ok (w1, rp1) -> q w1 = 1%R -> span P w1 -> span P w.
Proof.
  intros Ha H Hq Hs. unfold trip in H. destruct (orth vo dot Ae e (seq 0 m) w rp) as [[w' rp']|] eqn:E; cbn [bind] in H; [|discriminate].
  injection H as <- <-. eapply orth_back; [|exact E|]; [intros j y Hj; apply in_seq in Hj; apply Ha; lia|].
  assert (N : norm w' <> 0%R).
  { intros Z. rewrite (q_scale IP) in Hq. rewrite (@gnorm_q V K sc vo dot q IP) in Z.
    assert (X : q w' = 0%R) by (apply sqrt_eq_0; [apply (ip_pos IP)|exact Z]). rewrite X in Hq. lra. }
  rewrite <- (m_one ML w'). rewrite <- (real_one sc), <- (Rinv_r (norm w') N), (real_mul sc), <- (m_mul ML). apply sp_scale. exact Hs.
Qed.

(** ** The invariant of the first cycle *)
Let r0 := tres X0.
Definition slots (Ae : list (option V)) (m : nat) (u : V) : Prop := exists i, i < m /\ slot Ae i u.
Record kry (st : gst V R) : Prop := Kry {
  y_x : exists s, g_x st = X0 +v s /\ span (krylov A r0 (length (g_seen st))) s;
  y_e : forall j y, j < length (g_seen st) -> slot (g_e st) j y -> span (krylov A r0 (length (g_seen st))) y;
  y_b : forall z, span (krylov A r0 (length (g_seen st))) z -> span (slots (g_Ae st) (length (g_seen st))) (A z);
  y_f : forall i u, i < length (g_seen st) -> slot (g_Ae st) i u ->
        exists c, span (slots (g_Ae st) (length (g_seen st))) (A u +v c *v A (tres (g_x st))) }.
Definition kcore (st : gst V R) : Prop := core st /\ (length (g_seen st) <= a_restart a -> kry st).

Lemma tres_shift s : tres (X0 +v s) = r0 -v A s.
Proof.
  unfold r0, GcrProofs2.tres. rewrite (proj1 HA), !(sub_def vs), (opp_add vs), (add_assoc vs). reflexivity.
Qed.
Lemma kstep st oc st1 st2 nr rc st3 : kcore st -> check vo A norm a b st = (oc, st1) -> niszero no (norm (g_r st1)) = false ->
  same_core st2 st1 -> update vo A dot norm inv st2 oc nr rc = Ok st3 -> kcore st3 /\ g_seen st3 = g_seen st1.
Proof.
  intros [Hc Hy] Hk Hz Hs Hu.
  destruct (@step_core V K sc vo vs dot q IP A HA HD no HC a b st oc st1 st2 nr rc st3 Hc Hk Hz Hs Hu) as [Hc3 Hsn].
  split; [|exact Hsn]. split; [exact Hc3|]. intros L3.
  destruct (@update_core V K sc vo vs dot q IP A HA HD no HC a b st oc st1 st2 nr rc st3 Hc Hk Hz Hs Hu)
    as (w1 & rp1 & w2 & rp2 & T1 & T2 & P2 & Q2 & N2 & M & I2 & Hx & Hx' & Hs3 & _ & _ & L1 & L2 & Hkk).
  cbv zeta in *. set (r := tres (g_x st)) in *. set (m := length (g_seen st)) in *.
  assert (Em : length (g_seen st3) = S m) by (rewrite Hs3, app_length; cbn; lia). rewrite Em in L3.
  assert (Ek : g_k st = m) by (apply (c_count Hc); fold m; lia). rewrite Ek in *.
  replace (m =? a_restart a) with false in Hkk by (symmetry; apply Nat.eqb_neq; lia).
  destruct Hkk as (_ & _ & SA & SE & OA).
  destruct (Hy ltac:(lia)) as [(s & Ex & Hsp) Ye Yb Yf]. fold m in Hsp, Ye, Yb, Yf. fold r in Yf.
  assert (Q1 : q w1 = 1%R).
  { assert (Hq : q r <> 0%R).
    { intros Z. assert (X : niszero no (norm (g_r st1)) = true); [|congruence]. apply (proj1 (proj2 HC)).
      destruct (@check_core V K sc vo dot q A a b st oc st1 Hc Hk) as (_ & -> & _). fold r. rewrite (@gnorm_q V K sc vo dot q IP), Z. apply sqrt_0. }
    pose proof (c_on Hc) as CO. pose proof (c_perp Hc) as CP. rewrite Ek in CO, CP.
    apply (@trip_dot V K sc vo vs dot q IP (g_Ae st) (g_e st) m (A r) r w1 rp1 r CO CP) in T1; [tauto|].
    intros Z. exact (Hq (HD Z)). }
  assert (Er : r = r0 -v A s) by (unfold r; rewrite Ex; apply tres_shift).
  assert (Kmono : forall u, span (krylov A r0 m) u -> span (krylov A r0 (S m)) u).
  { intros u. apply span_mono. intros x (j & Hj & ->). apply sp_in. exists j. split; [lia|reflexivity]. }
  assert (Kimg : forall u, span (krylov A r0 m) u -> span (krylov A r0 (S m)) (A u)).
  { intros u. apply span_image. intros x (j & Hj & ->). apply sp_in. exists (S j). split; [lia|reflexivity]. }
  assert (Kr : span (krylov A r0 (S m)) r).
  { rewrite Er. apply span_sub; [apply sp_in; exists 0; split; [lia|reflexivity]|]. apply Kimg. exact Hsp. }
  assert (Krp : span (krylov A r0 (S m)) rp2).
  { eapply trip_span; [| |exact T2]; [intros j y Hj Sy; apply Kmono; exact (Ye j y Hj Sy)|].
    eapply trip_span; [| |exact T1]; [intros j y Hj Sy; apply Kmono; exact (Ye j y Hj Sy)|exact Kr]. }
  set (Q := slots (g_Ae st3) (S m)).
  assert (Qw : span Q w2) by (apply sp_in; exists m; split; [lia|exact SA]).
  assert (Qold : forall u, span (slots (g_Ae st) m) u -> span Q u).
  { intros u. apply span_mono. intros x (i & Hi & Sx). apply sp_in. exists i. split; [lia|]. unfold slot in *.
    rewrite (proj1 (OA i ltac:(lia))). exact Sx. }
  assert (Qar : span Q (A r)).
  { assert (Ha : forall j y, j < m -> slot (g_Ae st) j y -> span Q y) by (intros j y Hj Sy; apply Qold; apply sp_in; exists j; auto).
    eapply trip_back; [exact Ha|exact T1|exact Q1|]. eapply trip_back; [exact Ha|exact T2|exact Q2|exact Qw]. }
  assert (QA : forall u, span (slots (g_Ae st) m) u -> span Q (A u)).
  { intros u. apply span_image. intros x (i & Hi & Sx). destruct (Yf i x Hi Sx) as [c Hcx].
    eapply span_add_l; [exact (Qold _ Hcx)|]. apply sp_scale. exact Qar. }
  constructor; rewrite Em.
  - exists (s +v dot w2 r *v rp2). split; [rewrite Hx', Ex, (add_assoc vs); reflexivity|].
    apply sp_add; [apply Kmono; exact Hsp|apply sp_scale; exact Krp].
  - intros j y Hj Sy. destruct (Nat.eq_dec j m) as [->|Hne].
    + assert (y = rp2) by (unfold slot in *; congruence). subst y. exact Krp.
    + apply Kmono. apply (Ye j y); [lia|]. unfold slot in *. rewrite <- (proj2 (OA j Hne)). exact Sy.
  - intros z. apply span_image. intros x (j & Hj & ->). destruct j as [|j].
    + cbn [Nat.iter nat_rect]. assert (E0 : r0 = r +v A s) by (rewrite Er; symmetry; apply sub_add). rewrite E0.
      rewrite (proj1 HA). apply sp_add; [exact Qar|]. apply QA. apply Yb. exact Hsp.
    + apply QA. change (Nat.iter (S j) A r0) with (A (Nat.iter j A r0)). apply Yb. apply sp_in. exists j. split; [lia|reflexivity].
  - intros i u Hi Su. fold Q. destruct (Nat.eq_dec i m) as [->|Hne].
    + assert (u = w2) by (unfold slot in *; congruence). subst u. set (d := dot w2 r) in *.
      assert (Hd : d <> k0 sc) by (intros Z; apply N2; apply (dot_flip IP); exact Z).
      exists (kinv d). rewrite Hx, (A_sub vs HA), (proj2 HA), scale_sub, (m_mul ML), (kinv_spec Hd), (m_one ML).
      rewrite (add_comm vs). rewrite sub_add. apply sp_scale. exact Qar.
    + exists (k0 sc). rewrite scale_k0, (add_zero vs). apply QA. apply sp_in. exists i. split; [lia|].
      unfold slot in *. rewrite <- (proj1 (OA i Hne)). exact Su.
Qed.

Definition kgood (seen : list (V * V)) : Prop :=
  forall m x r, nth_error seen m = Some (x, r) -> m <= a_restart a ->
    (exists s, x = X0 +v s /\ span (krylov A r0 m) s)
    /\ forall z, span (krylov A r0 m) z -> (q r <= q (b -v A (X0 +v z)))%R.
Lemma q_pythagoras u v : dot v u = k0 sc -> (q u <= q (u +v v))%R.
Proof.
  intros H. assert (E : q (u +v v) = (q u + q v)%R).
  { apply (real_inj sc). rewrite <- (ip_self IP), (ip_add IP), !(dot_add_l IP), (real_add sc), <- !(ip_self IP), H, (dot_flip IP _ _ H). ring. }
  rewrite E. pose proof (ip_pos IP v). lra.
Qed.
Lemma check_kgood st oc st1 : kcore st -> kgood (g_seen st) -> check vo A norm a b st = (oc, st1) -> kgood (g_seen st1).
Proof.
  intros [Hc Hy] HG Hk. destruct (@check_core V K sc vo dot q A a b st oc st1 Hc Hk) as (_ & _ & _ & _ & -> & _).
  intros m x r Hm Hr. destruct (Nat.lt_ge_cases m (length (g_seen st))) as [L|L].
  - rewrite nth_error_app1 in Hm by exact L. exact (HG m x r Hm Hr).
  - rewrite nth_error_app2 in Hm by exact L. destruct (m - length (g_seen st)) as [|z] eqn:E; [|destruct z; discriminate].
    injection Hm as <- <-. assert (m = length (g_seen st)) by lia. subst m.
    destruct (Hy Hr) as [(s & Ex & Hsp) _ Yb _]. split; [exists s; auto|]. intros z Hz.
    assert (Ez : b -v A (X0 +v z) = tres (g_x st) +v A (s -v z)).
    { rewrite Ex. unfold GcrProofs2.tres. rewrite (A_sub vs HA), !(proj1 HA), !(sub_def vs), !(opp_add vs).
      rewrite <- !(add_assoc vs). do 2 f_equal. rewrite (add_assoc vs (vopp vs (A s))), (add_comm vs (vopp vs (A s))), (add_opp vs).
      rewrite (add_comm vs). rewrite !(add_zero vs). rewrite ?(add_comm vs (vzero vs)), ?(add_zero vs). reflexivity. }
    rewrite Ez. apply q_pythagoras.
    assert (Sp : span (slots (g_Ae st) (length (g_seen st))) (A (s -v z))) by (apply Yb; apply span_sub; assumption).
    pose proof (c_perp Hc) as CP. rewrite (c_count Hc Hr) in CP.
    revert Sp. generalize (A (s -v z)). intros y Sp. apply (dot_flip IP).
    induction Sp as [|u (i & Hi & Su)|c u _ IH|u v _ IH1 _ IH2].
    + apply (dot_zero_r vs IP).
    + apply (dot_flip IP). apply (CP i u Hi Su).
    + rewrite (ip_scale IP), IH. ring.
    + rewrite (ip_add IP), IH1, IH2. ring.
Qed.
Lemma run_kgood x0 out st : X0 = initial_guess vs x0 -> gmres_run vo no A dot norm inv a b x0 = (out, st) -> kgood (g_seen st).
Proof.
  intros HX H. unfold gmres_run in H.
  refine (@loop_ind V K R vo no A dot norm inv a b kcore kgood _ _ _ _ _ _ _ _ _ _ H).
  - intros s oc s1 Hc Hg Hk. exact (check_kgood Hc Hg Hk).
  - intros s oc s1 s2 nr rc s3 Hc Hk Hz Hs Hu. exact (@kstep s oc s1 s2 nr rc s3 Hc Hk Hz Hs Hu).
  - split; [apply (init_core sc vs dot q HA)|]. intros _.
    assert (E : g_seen (ginit vo a b x0) = []) by (destruct x0; reflexivity).
    assert (Ez : forall z, span (krylov A r0 0) z -> z = vzero vs).
    { intros z. induction 1 as [|u (j & Hj & _)|c u _ IH|u v _ IH1 _ IH2]; [reflexivity|lia| |].
      - rewrite IH. apply (scale_vzero vs).
      - rewrite IH1, IH2. apply (add_zero vs). }
    constructor; rewrite E; cbn [length]; try (intros; lia).
    + exists (vzero vs). split; [|apply sp_zero]. rewrite (add_zero vs), HX. destruct x0 as [x|]; cbn; [reflexivity|]. apply (scale_zero vs).
    + intros z Hz. rewrite (Ez z Hz), (A_zero vs HA). apply sp_zero.
  - intros m x r Hm. destruct x0; destruct m; discriminate.
Qed.
End G.
