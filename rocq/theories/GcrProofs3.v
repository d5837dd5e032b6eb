(** From the invariant to the outcome. *)
From Coq Require Import Reals Lra Ring.
From Verif Require Import Base GmresModel GmresSpec GmresProofs GmresProofs2 GmresProofs3 GmresProps GcrSpec GcrProofs GcrProofs2.
Set Implicit Arguments.

Lemma FOP_map (T U : Type) (P : U -> U -> Prop) (f : T -> U) : forall l,
  ForallOrdPairs (fun x y => P (f x) (f y)) l -> ForallOrdPairs P (map f l).
Proof.
  induction 1 as [|x l H _ IH]; cbn; constructor; [|exact IH]. apply Forall_map. exact H.
Qed.
Lemma FOP_seq (P : nat -> nat -> Prop) : forall k s, (forall i j, s <= i -> i < j -> j < s + k -> P i j) -> ForallOrdPairs P (seq s k).
Proof.
  induction k as [|k IH]; intros s H; cbn; constructor.
  - apply Forall_forall. intros x Hx. apply in_seq in Hx. apply H; lia.
  - apply IH. intros i j Hi Hj Hk. apply H; lia.
Qed.
Lemma FOP_snoc (T : Type) (P : T -> T -> Prop) x : forall l, ForallOrdPairs P l -> Forall (fun y => P y x) l -> ForallOrdPairs P (l ++ [x]).
Proof.
  induction 1 as [|y l H _ IH]; cbn; intros F; constructor; try constructor.
  - inversion F as [|? ? F1 F2]; subst. apply Forall_app. split; [exact H|]. constructor; [exact F1|constructor].
  - inversion F as [|? ? F1 F2]; subst. exact (IH F2).
Qed.

Section G.
Variables V K : Type.
Variable sc : scalars K.
Variable vo : vops V K.
Variable vs : vspace vo.
Variable dot : V -> V -> K.
Variable q : V -> R.
Hypothesis IP : inner_product sc vo dot q.
Variable A : V -> V.
Hypothesis HA : GmresSpec.linear vo A.
Hypothesis HD : definite sc A dot q.
Variable no : nops R.
Hypothesis HC : exact_comparisons no.
Variable a : gargs R.
Variable b : V.
Notation "a +v b" := (vadd vo a b) (at level 50, left associativity).
Notation "a -v b" := (vsub vo a b) (at level 50, left associativity).
Notation "c *v b" := (vscale vo c b) (at level 40).
Notation norm := (gnorm sc dot).
Notation inv := (ginv sc).
Notation core := (core sc vo dot q A a b).
Notation tres := (tres vo A b).
Notation chain := (chain sc dot q A).

Lemma init_core x0 : core (ginit vo a b x0).
Proof.
  unfold ginit. destruct x0 as [x|]; (constructor; cbn [g_Ae g_e g_k g_x g_r g_recalc g_seen map app GcrProofs2.chain length];
    [split; apply repeat_length|lia|intros j Hj; lia|intros i j x' y Hi; lia|intros i x' Hi; lia| |exact I|constructor|reflexivity]).
  - discriminate.
  - intros _. unfold GcrProofs2.tres. apply (A_init vs HA).
Qed.

Definition good (seen : list (V * V)) : Prop :=
  chain (map snd seen) /\ Forall (fun p => snd p = tres (fst p)) seen
  /\ (forall n m p, dimension_at_most sc dot q n -> nth_error seen m = Some p -> m <= a_restart a -> q (snd p) <> 0%R -> m < n).
Lemma check_good st oc st1 : core st -> good (g_seen st) -> check vo A norm a b st = (oc, st1) -> good (g_seen st1).
Proof.
  intros Hc (G1 & G2 & G3) Hk. destruct (@check_core V K sc vo dot q A a b st oc st1 Hc Hk) as (_ & _ & _ & _ & -> & _).
  split; [rewrite map_app; exact (c_chain Hc)|]. split; [apply Forall_app; split; [exact G2|constructor; [reflexivity|constructor]]|].
  intros n m p Hn Hm Hr Hq. destruct (Nat.lt_ge_cases m (length (g_seen st))) as [L|L].
  - rewrite nth_error_app1 in Hm by exact L. exact (G3 n m p Hn Hm Hr Hq).
  - rewrite nth_error_app2 in Hm by exact L. destruct (m - length (g_seen st)) as [|z] eqn:E; [|destruct z; discriminate].
    injection Hm as <-. cbn [snd] in Hq. assert (m = length (g_seen st)) by lia. subst m.
    pose proof (c_count Hc Hr) as Ek.
    set (f := fun i => match nth i (g_Ae st) None with Some x => x | None => b end).
    assert (Hf : forall i, i < g_k st -> slot (g_Ae st) i (f i)).
    { intros i Hi. destruct (c_fill Hc Hi) as (x & y & X & _). unfold slot, f. rewrite (nth_error_nth _ _ _ X). exact X. }
    assert (D : length (map f (seq 0 (g_k st)) ++ [tres (g_x st)]) <= n).
    { apply Hn.
      - apply FOP_snoc.
        + apply FOP_map. apply FOP_seq. intros i j _ Hij Hj.
          rewrite (c_on Hc (i := i) (j := j)) by (auto; try (apply Hf); lia).
          destruct (Nat.eqb_spec i j); [lia|reflexivity].
        + apply Forall_map. apply Forall_forall. intros i Hi. apply in_seq in Hi. apply (c_perp Hc (i := i)); [lia|apply Hf; lia].
      - apply Forall_app. split; [|constructor; [exact Hq|constructor]].
        apply Forall_map. apply Forall_forall. intros i Hi. apply in_seq in Hi.
        assert (X : q (f i) = 1%R); [|rewrite X; lra].
        apply (real_inj sc). rewrite <- (ip_self IP), (real_one sc). rewrite (c_on Hc (i := i) (j := i)) by (auto; try (apply Hf); lia).
        rewrite Nat.eqb_refl. reflexivity. }
    rewrite app_length, map_length, seq_length in D. cbn [length] in D. lia.
Qed.
Lemma run_good x0 out st : gmres_run vo no A dot norm inv a b x0 = (out, st) -> good (g_seen st).
Proof.
  intros H. unfold gmres_run in H.
  refine (@loop_ind V K R vo no A dot norm inv a b core good _ _ _ _ _ _ _ _ _ _ H).
  - intros s oc s1 Hc Hg Hk. exact (check_good Hc Hg Hk).
  - intros s oc s1 s2 nr rc s3 Hc Hk Hz Hs Hu. exact (@step_core V K sc vo vs dot q IP A HA HD no HC a b s oc s1 s2 nr rc s3 Hc Hk Hz Hs Hu).
  - apply init_core.
  - split; [destruct x0; exact I|]. split; [destruct x0; constructor|]. intros n m p _ Hm. destruct x0; destruct m; discriminate.
Qed.

(** The recorded norms. *)
Lemma run_norms x0 out st : gmres_run vo no A dot norm inv a b x0 = (out, st) -> g_norms st = map (fun p => norm (snd p)) (g_seen st).
Proof.
  intros H. destruct (@gmres_tracks_true_residual V K R vo no A dot norm inv vs HA a b x0 out st H) as (T1 & T2 & _).
  rewrite T2. apply map_ext_in. intros [x r] Hi. cbn [fst snd]. rewrite (T1 x r Hi). reflexivity.
Qed.

Lemma run_head x0 out st : 0 < a_maxiter a -> gmres_run vo no A dot norm inv a b x0 = (out, st) ->
  nth_error (g_seen st) 0 = Some (initial_guess vs x0, tres (initial_guess vs x0)).
Proof.
  intros Hm H. destruct (@gmres_tracks_true_residual V K R vo no A dot norm inv vs HA a b x0 out st H) as (T1 & _ & T3).
  destruct (T3 Hm) as (r & l & E). rewrite E. cbn. do 2 f_equal. unfold GcrProofs2.tres. apply T1. rewrite E. left. reflexivity.
Qed.

(** A step relation along the history. *)
Lemma chain_nth l : chain l -> forall i r r', nth_error l i = Some r -> nth_error l (S i) = Some r' -> step sc dot q A r r'.
Proof.
  induction l as [|x l IH]; intros H i r r' H1 H2; [destruct i; discriminate|].
  destruct l as [|y l]; [destruct i as [|[|]]; discriminate|]. cbn [GcrProofs2.chain] in H. destruct H as [Hs Hc].
  destruct i as [|i].
  - cbn in H1, H2. injection H1 as <-. injection H2 as <-. exact Hs.
  - exact (IH Hc i r r' H1 H2).
Qed.

(** What the history decides. *)
Lemma outcome_success x0 out st m : 0 < a_restart a -> m < a_maxiter a ->
  gmres_run vo no A dot norm inv a b x0 = (out, st) ->
  (forall i nr, nth_error (g_norms st) i = Some nr -> m <= i -> converged no a (norm b) nr = true) ->
  (forall i x y, nth_error (g_norms st) i = Some x -> nth_error (g_norms st) (S i) = Some y -> (0 <= y <= x)%R) ->
  (forall nr, length (g_norms st) <= S m -> no_progress no a (g_norms st) nr = true ->
     nth_error (g_norms st) (length (g_norms st) - 1) = Some nr -> False) ->
  exists res, out = GReturn res /\ success res = true /\ iteration_count res <= m.
Proof.
  intros Hr Hm H Hcv Hmo Hst.
  destruct (@gmres_outcome_determined_by_history V K R vo no A dot norm inv a b x0 out st H) as [W O].
  set (h := g_norms st) in *.
  assert (last_rev : forall l : list R, l <> [] -> exists nr rest, rev l = nr :: rest /\ nth_error l (length l - 1) = Some nr
            /\ forall prev rest', rest = prev :: rest' -> nth_error l (length l - 2) = Some prev).
  { intros l Hl. destruct (exists_last Hl) as (l' & nr & ->). exists nr, (rev l'). rewrite rev_app_distr, app_length. cbn.
    split; [reflexivity|]. split; [rewrite nth_error_app2 by lia; replace (length l' + 1 - 1 - length l') with 0 by lia; reflexivity|].
    intros prev rest' E. assert (E' : l' = rev rest' ++ [prev]) by (rewrite <- (rev_involutive l'), E; reflexivity).
    rewrite E', app_length. cbn. rewrite nth_error_app1 by (rewrite app_length; cbn; lia). rewrite nth_error_app2 by lia.
    replace (length (rev rest') + 1 + 1 - 2 - length (rev rest')) with 0 by lia. reflexivity. }
  assert (Hlen : length h <= S m).
  { destruct (Nat.le_gt_cases (length h) (S m)) as [L|L]; [exact L|exfalso].
    pose proof (W (S m) L) as X. unfold classify in X.
    assert (NE : firstn (S m) h <> []) by (destruct h; [cbn in L; lia|discriminate]).
    destruct (last_rev _ NE) as (nr & rest & E1 & E2 & _). rewrite E1 in X.
    rewrite firstn_length, Nat.min_l in E2 by lia.
    assert (E3 : nth_error h m = Some nr).
    { replace (S m - 1) with m in E2 by lia. rewrite <- (firstn_skipn (S m) h). rewrite nth_error_app1; [exact E2|]. rewrite firstn_length. lia. }
    rewrite (Hcv m nr E3 (le_n m)) in X. discriminate. }
  assert (Hne : h <> []).
  { intros Z. rewrite Z in O. cbn [classify rev] in O. unfold h in Z. pose proof (run_norms _ H) as E. rewrite Z in E.
    pose proof (run_head x0 ltac:(lia) H) as X. destruct (g_seen st); [discriminate X|discriminate E]. }
  destruct (last_rev h Hne) as (nr & rest & E1 & E2 & E3).
  assert (Hcl : classify no a (norm b) h = Some GSuccess \/ classify no a (norm b) h = None).
  { unfold classify. rewrite E1. destruct (converged no a (norm b) nr); [left; reflexivity|right].
    destruct rest as [|prev rest]; [reflexivity|]. specialize (E3 prev rest eq_refl).
    assert (L2 : 2 <= length h) by (rewrite <- (rev_length h), E1; cbn; lia).
    assert (G : grew no prev nr = false).
    { unfold grew. destruct (nltb no (nmul no (n125 no) prev) nr) eqn:G; [|reflexivity].
      destruct HC as (C1 & C2 & C3 & C4 & C5). apply C1 in G. rewrite C3, C5 in G.
      assert (X : (0 <= nr <= prev)%R).
      { apply (Hmo (length h - 2)); [exact E3|]. replace (S (length h - 2)) with (length h - 1) by lia. exact E2. }
      lra. }
    rewrite G, andb_false_r. destruct (no_progress no a h nr) eqn:NP; [|reflexivity]. exfalso. exact (Hst nr Hlen NP E2). }
  destruct out as [res|s|e].
  - destruct O as (O1 & O2 & O3 & O4). exists res. split; [reflexivity|].
    destruct Hcl as [Hcl|Hcl]; rewrite Hcl in O4.
    + destruct O4 as [O4 O5]. split; [apply O2; exact O4|]. rewrite O1 in O5. lia.
    + exfalso. destruct O4 as (_ & O5 & _). rewrite O1 in O5.
      assert (X : converged no a (norm b) nr = true) by (apply (Hcv (length h - 1) nr E2); lia).
      unfold classify in Hcl. rewrite E1, X in Hcl. discriminate.
  - exfalso. destruct O as (_ & O2 & O3). destruct Hcl as [Hcl|Hcl]; rewrite Hcl in O3; [congruence|].
    destruct O3 as [_ O5]. assert (X : converged no a (norm b) nr = true) by (apply (Hcv (length h - 1) nr E2); lia).
    unfold classify in Hcl. rewrite E1, X in Hcl. discriminate.
  - exfalso. destruct O as [_ O]. lia.
Qed.
End G.
