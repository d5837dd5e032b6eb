From Verif Require Import Base RefineModel RefineSpec.
From Coq Require Import QArith Permutation.
Set Implicit Arguments.
Open Scope nat_scope.

(** * Binary search and elements *)

Lemma find_some_rev (f : nat -> bool) n e :
  e < n -> f e = true -> (forall i, e < i < n -> f i = false) ->
  find f (rev (seq 0 n)) = Some e.
Proof.
  induction n as [|n IH]; intros He Hf Hi; [lia|].
  rewrite seq_S, rev_app_distr. cbn [rev app find plus].
  destruct (Nat.eq_dec e n) as [->|Hn].
  - rewrite Hf. reflexivity.
  - rewrite (Hi n) by lia. apply IH; [lia|exact Hf|]. intros i H. apply Hi. lia.
Qed.

Lemma bsearch_spec l v e :
  e < length l -> nth e l 0 <= v -> (forall i, e < i < length l -> v < nth i l 0) ->
  bsearch l v = e.
Proof.
  intros He Hv Hi. unfold bsearch. rewrite (@find_some_rev _ _ e); auto.
  - apply Nat.leb_le. exact Hv.
  - intros i H. apply Nat.leb_gt. apply Hi. exact H.
Qed.

Lemma group_starts_length base gs : length (group_starts base gs) = S (list_sum (map fst gs)).
Proof.
  revert base. induction gs as [|[nel nu] gs IH]; intros base; cbn [group_starts map list_sum fst length]; [reflexivity|].
  rewrite app_length, map_length, seq_length, IH. unfold list_sum. cbn [fold_right]. fold (list_sum (map fst gs)). lia.
Qed.

Lemma group_starts_ge base gs i : i < length (group_starts base gs) -> base <= nth i (group_starts base gs) 0.
Proof.
  revert base i. induction gs as [|[nel nu] gs IH]; intros base i Hi; cbn [group_starts] in *.
  - cbn in Hi. destruct i as [|i]; [cbn; lia|cbn in Hi; lia].
  - rewrite app_length, map_length, seq_length in Hi.
    destruct (Nat.lt_ge_cases i nel) as [L|L].
    + rewrite app_nth1 by (rewrite map_length, seq_length; exact L).
      rewrite (nth_indep _ 0 (base + 0 * nu)) by (rewrite map_length, seq_length; exact L).
      rewrite (map_nth (fun k => base + k * nu)). lia.
    + rewrite app_nth2 by (rewrite map_length, seq_length; exact L).
      rewrite map_length, seq_length.
      specialize (IH (base + nel * nu) (i - nel)). lia.
Qed.

Lemma owns_starts gs : forall base e n, owns gs e n ->
  e < list_sum (map fst gs) /\ nth e (group_starts base gs) 0 <= base + n
  /\ forall i, e < i < length (group_starts base gs) -> base + n < nth i (group_starts base gs) 0.
Proof.
  induction gs as [|[nel nu] gs IH]; intros base e n H; cbn [owns] in H; [contradiction|].
  cbn [group_starts map fst]. unfold list_sum. cbn [fold_right]. fold (list_sum (map fst gs)).
  rewrite app_length, map_length, seq_length.
  destruct H as [[He Hn]|(He & Hn & H)].
  - split; [lia|]. split.
    + rewrite app_nth1 by (rewrite map_length, seq_length; exact He).
      rewrite (nth_indep _ 0 (base + 0 * nu)) by (rewrite map_length, seq_length; exact He).
      rewrite (map_nth (fun k => base + k * nu)), seq_nth by exact He. lia.
    + intros i Hi. destruct (Nat.lt_ge_cases i nel) as [L|L].
      * rewrite app_nth1 by (rewrite map_length, seq_length; exact L).
        rewrite (nth_indep _ 0 (base + 0 * nu)) by (rewrite map_length, seq_length; exact L).
        rewrite (map_nth (fun k => base + k * nu)), seq_nth by exact L.
        assert (S e * nu <= i * nu) by (apply Nat.mul_le_mono_r; lia). lia.
      * rewrite app_nth2 by (rewrite map_length, seq_length; exact L). rewrite map_length, seq_length.
        assert (G := group_starts_ge (base + nel * nu) gs (i := i - nel)).
        assert (S e * nu <= nel * nu) by (apply Nat.mul_le_mono_r; lia). lia.
  - destruct (IH (base + nel * nu) (e - nel) (n - nel * nu) H) as (A & B & C).
    split; [lia|]. split.
    + rewrite app_nth2 by (rewrite map_length, seq_length; lia). rewrite map_length, seq_length. lia.
    + intros i Hi. rewrite app_nth2 by (rewrite map_length, seq_length; lia). rewrite map_length, seq_length.
      specialize (C (i - nel)). lia.
Qed.

Lemma owns_total gs : Forall (fun g => 0 < snd g) gs -> forall n,
  n < list_sum (map (fun g => fst g * snd g) gs) -> exists e, owns gs e n.
Proof.
  induction 1 as [|[nel nu] gs Hnu F IH]; intros n Hn; cbn in Hn; [lia|].
  fold (list_sum (map (fun g => fst g * snd g) gs)) in Hn. cbn [snd] in Hnu. cbn [owns].
  destruct (Nat.lt_ge_cases n (nel * nu)) as [L|L].
  - exists (n / nu). left.
    assert (D := Nat.div_mod n nu ltac:(lia)). assert (M := Nat.mod_upper_bound n nu ltac:(lia)).
    split; [apply Nat.div_lt_upper_bound; nia|]. nia.
  - destruct (IH (n - nel * nu)) as [e He]; [change (n - nel * nu < list_sum (map (fun g => fst g * snd g) gs)); lia|].
    exists (nel + e). right. replace (nel + e - nel) with e by lia. repeat split; auto; lia.
Qed.

Lemma owns_lt gs : forall e n, owns gs e n -> n < list_sum (map (fun g => fst g * snd g) gs).
Proof.
  induction gs as [|[nel nu] gs IH]; intros e n H; cbn [owns] in H; [contradiction|].
  cbn [map fst snd]. unfold list_sum. cbn [fold_right]. fold (list_sum (map (fun g => fst g * snd g) gs)).
  destruct H as [[He Hn]|(He & Hn & H)].
  - assert (S e * nu <= nel * nu) by (apply Nat.mul_le_mono_r; lia). lia.
  - apply IH in H. lia.
Qed.

Lemma owner_of_node d e n : on_element d e n -> bsearch (element_to_source_starts d) n = e.
Proof.
  intros H. destruct (owns_starts _ 0 _ _ H) as (A & B & C).
  apply bsearch_spec.
  - unfold element_to_source_starts. rewrite group_starts_length. lia.
  - exact B.
  - exact C.
Qed.

Lemma owner_of_center d e c : on_element d e (c / 2) -> bsearch (element_to_center_starts d) c = e.
Proof.
  intros H. destruct (owns_starts _ 0 _ _ H) as (A & B & C). cbn [plus] in *.
  assert (D := Nat.div_mod c 2 ltac:(lia)). assert (M := Nat.mod_upper_bound c 2 ltac:(lia)).
  unfold element_to_center_starts, element_to_source_starts.
  assert (N : forall i, nth i (map (fun s => 2 * s) (group_starts 0 (d_groups d))) 0 = 2 * nth i (group_starts 0 (d_groups d)) 0).
  { intros i. exact (map_nth (fun s => 2 * s) (group_starts 0 (d_groups d)) 0 i). }
  apply bsearch_spec.
  - rewrite map_length, group_starts_length. lia.
  - rewrite N. lia.
  - intros i Hi. rewrite map_length in Hi. rewrite N. specialize (C i Hi). lia.
Qed.

Lemma on_element_lt d e n : on_element d e n -> e < nelements d /\ n < ndofs d.
Proof. intros H. destruct (owns_starts _ 0 _ _ H) as (A & _). split; [exact A|]. eapply owns_lt; eauto. Qed.

(** * Kernels *)

Lemma set_flag_length fl i : length (set_flag fl i) = length fl.
Proof.
  unfold set_flag. destruct (skipn i fl) eqn:E.
  - rewrite app_nil_r, firstn_length. assert (L := skipn_length i fl). rewrite E in L. cbn in L. lia.
  - assert (L := skipn_length i fl). rewrite E in L. cbn [length] in L.
    rewrite app_length, firstn_length. cbn [length]. lia.
Qed.

Lemma set_flag_nth fl i e : e < length fl ->
  nth e (set_flag fl i) false = (if e =? i then true else nth e fl false).
Proof.
  revert i e. induction fl as [|b fl IH]; intros i e He; [cbn in He; lia|].
  destruct i as [|i]; [destruct e; reflexivity|].
  destruct e as [|e]; [reflexivity|]. cbn in He. apply (IH i e). lia.
Qed.

Lemma run_kernel_spec order hit flags : 
  length (fst (run_kernel order hit flags)) = length flags
  /\ (forall e, e < length flags ->
       (flagged (fst (run_kernel order hit flags)) e <-> flagged flags e \/ exists i, In i order /\ hit i = Some e))
  /\ (snd (run_kernel order hit flags) = true <-> exists i e, In i order /\ hit i = Some e).
Proof.
  unfold run_kernel.
  assert (G : forall order fl fo,
    let r := fold_left (fun '(fl, found) i =>
               match hit i with Some e => (set_flag fl e, true) | None => (fl, found) end) order (fl, fo) in
    length (fst r) = length fl
    /\ (forall e, e < length fl -> (flagged (fst r) e <-> flagged fl e \/ exists i, In i order /\ hit i = Some e))
    /\ (snd r = true <-> fo = true \/ exists i e, In i order /\ hit i = Some e)).
  { clear. induction order as [|i order IH]; intros fl fo; cbn [fold_left].
    - cbn. split; [reflexivity|]. split.
      + intros e _. split; [auto|]. intros [H|(i & [] & _)]. exact H.
      + split; [auto|]. intros [H|(i & e & [] & _)]. exact H.
    - destruct (hit i) as [e0|] eqn:Hi.
      + destruct (IH (set_flag fl e0) true) as (A & B & C).
        rewrite set_flag_length in A, B. split; [exact A|]. split.
        * intros e He. rewrite (B e He). unfold flagged at 1. rewrite set_flag_nth by exact He.
          destruct (Nat.eqb_spec e e0) as [->|Hn].
          -- split; [|auto]. intros _. right. exists i. split; [left; reflexivity|exact Hi].
          -- split.
             ++ intros [H|(j & Hj & Hh)]; [left; exact H|right; exists j; split; [right; exact Hj|exact Hh]].
             ++ intros [H|(j & [Hj|Hj] & Hh)]; [left; exact H| |right; eauto].
                subst j. rewrite Hi in Hh. congruence.
        * rewrite C. split.
          -- intros _. right. exists i, e0. split; [left; reflexivity|exact Hi].
          -- auto.
      + destruct (IH fl fo) as (A & B & C). split; [exact A|]. split.
        * intros e He. rewrite (B e He). split.
          -- intros [H|(j & Hj & Hh)]; [left; exact H|right; exists j; split; [right; exact Hj|exact Hh]].
          -- intros [H|(j & [Hj|Hj] & Hh)]; [left; exact H| |right; eauto]. subst j. congruence.
        * rewrite C. split.
          -- intros [H|(j & e & Hj & Hh)]; [left; exact H|right; exists j, e; split; [right; exact Hj|exact Hh]].
          -- intros [H|(j & e & [Hj|Hj] & Hh)]; [left; exact H| |right; eauto]. subst j. congruence. }
  destruct (G order flags false) as (A & B & C). split; [exact A|]. split; [exact B|].
  rewrite C. split; [intros [H|H]; [discriminate|exact H]|auto].
Qed.

Lemma In_order E n i : schedules_ok E -> (In i (e_order E n) <-> i < n).
Proof.
  intros H. split; intros X.
  - apply (Permutation_in _ (H n)), in_seq in X. lia.
  - apply (Permutation_in _ (Permutation_sym (H n))), in_seq. lia.
Qed.

(** What a check must do: set the flags of [P] on top of what is there, and report it. *)
Definition marks (n : nat) (P : nat -> Prop) (flags : list bool) (r : list bool * bool) : Prop :=
  length (fst r) = length flags
  /\ (forall e, e < n -> (flagged (fst r) e <-> flagged flags e \/ P e))
  /\ (snd r = true <-> exists e, e < n /\ P e).

Lemma Qle_bool_false x y : Qle_bool x y = false <-> (y < x)%Q.
Proof.
  rewrite <- not_true_iff_false, Qle_bool_iff. split; [apply Qnot_le_lt|]. apply Qlt_not_le.
Qed.

Lemma check_prop_marks E n prop th flags : schedules_ok E -> length flags = n ->
  marks n (fun e => (th < prop e)%Q) flags (check_prop E n prop th flags).
Proof.
  intros HS L. unfold check_prop.
  destruct (run_kernel_spec (e_order E n) (fun i => if Qle_bool (prop i) th then None else Some i) flags) as (A & B & C).
  split; [exact A|]. split.
  - intros e He. rewrite L in B. rewrite (B e He). split; (intros [H|H]; [left; exact H|right]).
    + destruct H as (i & Hi & Hh). destruct (Qle_bool (prop i) th) eqn:Q; [discriminate|].
      assert (i = e) by congruence. subst. apply Qle_bool_false. exact Q.
    + exists e. apply (In_order n e HS) in He. split; [exact He|]. apply Qle_bool_false in H. rewrite H. reflexivity.
  - rewrite C. split.
    + intros (i & e & Hi & Hh). apply (In_order n i HS) in Hi. exists i. split; [exact Hi|].
      destruct (Qle_bool (prop i) th) eqn:Q; [discriminate|]. apply Qle_bool_false. exact Q.
    + intros (e & He & H). exists e, e. split; [apply In_order; auto|].
      apply Qle_bool_false in H. rewrite H. reflexivity.
Qed.

Lemma check_disks_marks E k d t flags : schedules_ok E -> proper d -> tree1_ok E (k_tol k) d t ->
  length flags = nelements d ->
  marks (nelements d) (disturbed E k d) flags (check_disks E d t (k_tol k) flags).
Proof.
  intros HS HP [T1 T2] L. unfold check_disks.
  match goal with |- marks _ _ _ (run_kernel ?o ?h ?f) =>
    destruct (run_kernel_spec o h f) as (A & B & C); set (hit := h) in * end.
  assert (K : forall c e, In c (e_order E (2 * ndofs d)) /\ hit c = Some e <->
     c < 2 * ndofs d /\ on_element d e (c / 2) /\ exists s, s < ndofs d
     /\ (e_dist E (e_center E d c) (e_node E d s) <= (1 - k_tol k) * e_radius E d (c / 2))%Q).
  { intros c e. rewrite (In_order _ c HS). split.
    - intros [Hc Hh]. unfold hit in Hh.
      destruct (existsb _ (t_visit t c)) eqn:X; [|discriminate].
      apply existsb_exists in X. destruct X as (b & Hb & X).
      apply existsb_exists in X. destruct X as (s & Hs & X). apply Qle_bool_iff in X.
      assert (c / 2 < ndofs d) by (apply Nat.div_lt_upper_bound; lia).
      destruct (owns_total HP (n := c / 2)) as [e' He']; [assumption|].
      change (on_element d e' (c / 2)) in He'.
      rewrite (owner_of_center _ _ _ He') in Hh. assert (e = e') by congruence. subst e'.
      split; [exact Hc|]. split; [exact He'|]. exists s. split; [eauto|exact X].
    - intros (Hc & He & s & Hs & X). split; [exact Hc|]. unfold hit.
      destruct (T2 c s Hc Hs X) as (b & Hb & Hb').
      rewrite (owner_of_center _ _ _ He).
      replace (existsb _ (t_visit t c)) with true; [reflexivity|]. symmetry. apply existsb_exists. exists b. split; [exact Hb|].
      apply existsb_exists. exists s. split; [exact Hb'|]. apply Qle_bool_iff. exact X. }
  assert (D : forall e, disturbed E k d e <-> exists c, In c (e_order E (2 * ndofs d)) /\ hit c = Some e).
  { intros e. split.
    - intros (c & s & He & Hs & X). exists c. apply K. split; [|eauto].
      apply on_element_lt in He. destruct He as [_ He].
      assert (DM := Nat.div_mod c 2 ltac:(lia)). assert (M := Nat.mod_upper_bound c 2 ltac:(lia)). lia.
    - intros (c & Hc). apply K in Hc. destruct Hc as (Hc & He & s & Hs & X). exists c, s. auto. }
  split; [exact A|]. split.
  - intros e He. rewrite L in B. rewrite (B e He), (D e). tauto.
  - rewrite C. split.
    + intros (c & e & H). assert (X : disturbed E k d e) by (apply D; eauto). exists e. split; [|exact X].
      destruct X as (c' & s & He & _). apply on_element_lt in He. tauto.
    + intros (e & He & X). apply D in X. destruct X as (c & H). eauto.
Qed.

Lemma check_quad_marks E d1 d2 q t flags : schedules_ok E -> proper q -> nelements q = nelements d2 ->
  tree2_ok E d1 d2 q t -> length flags = nelements d2 ->
  marks (nelements d2) (under_resolved E d1 d2 q) flags (check_quad E d1 d2 q t flags).
Proof.
  intros HS HP HN [T1 T2] L. unfold check_quad.
  match goal with |- marks _ _ _ (run_kernel ?o ?h ?f) =>
    destruct (run_kernel_spec o h f) as (A & B & C); set (hit := h) in * end.
  assert (K : forall s e, In s (e_order E (ndofs q)) /\ hit s = Some e <->
     on_element q e s /\ exists c, c < 2 * ndofs d1
     /\ (e_dist E (e_node E q s) (e_center E d1 c) <= e_danger E d2 e)%Q).
  { intros s e. rewrite (In_order _ s HS). split.
    - intros [Hs Hh]. unfold hit in Hh.
      destruct (owns_total HP (n := s)) as [e' He']; [exact Hs|]. change (on_element q e' s) in He'.
      rewrite (owner_of_node _ _ _ He') in Hh.
      destruct (existsb _ (t_visit t s)) eqn:X; [|discriminate].
      apply existsb_exists in X. destruct X as (b & Hb & X).
      apply existsb_exists in X. destruct X as (c & Hc & X). apply Qle_bool_iff in X.
      assert (e = e') by congruence. subst e'. split; [exact He'|]. eauto.
    - intros (He & c & Hc & X). split; [apply on_element_lt in He; tauto|]. unfold hit.
      destruct (T2 s c e He Hc X) as (b & Hb & Hb'). rewrite (owner_of_node _ _ _ He).
      replace (existsb _ (t_visit t s)) with true; [reflexivity|]. symmetry. apply existsb_exists. exists b. split; [exact Hb|].
      apply existsb_exists. exists c. split; [exact Hb'|]. apply Qle_bool_iff. exact X. }
  assert (D : forall e, under_resolved E d1 d2 q e <-> exists s, In s (e_order E (ndofs q)) /\ hit s = Some e).
  { intros e. split.
    - intros (s & c & He & Hc & X). exists s. apply K. eauto.
    - intros (s & Hs). apply K in Hs. destruct Hs as (He & c & Hc & X). exists s, c. auto. }
  split; [exact A|]. split.
  - intros e He. rewrite L in B. rewrite (B e He), (D e). tauto.
  - rewrite C. split.
    + intros (s & e & H). assert (X : under_resolved E d1 d2 q e) by (apply D; eauto). exists e. split; [|exact X].
      destruct X as (s' & c & He & _). apply on_element_lt in He. rewrite <- HN. tauto.
    + intros (e & He & X). apply D in X. destruct X as (s & H). eauto.
Qed.

Lemma empty_flags_spec d : length (empty_flags d) = nelements d /\ forall e, ~ flagged (empty_flags d) e.
Proof.
  unfold empty_flags, flagged. split; [apply repeat_length|]. intros e.
  destruct (Nat.lt_ge_cases e (nelements d)).
  - rewrite nth_repeat. discriminate.
  - rewrite nth_overflow by (rewrite repeat_length; lia). discriminate.
Qed.

(** * One round *)

Lemma stage1_checks_spec E k d flags v : schedules_ok E -> proper d -> tree1_ok E (k_tol k) d (e_tree1 E d) ->
  stage1_checks E k d = (flags, v) ->
  length flags = nelements d
  /\ (forall e, e < nelements d -> (flagged flags e <-> stage1_target E k d e))
  /\ (v = false <-> stage1_criteria_hold E k d).
Proof.
  intros HS HP HT. unfold stage1_checks.
  destruct (empty_flags_spec d) as [L0 F0].
  assert (M1 : marks (nelements d) (too_long E k d) (empty_flags d)
     (match k_length k with Some th => check_prop E (nelements d) (e_quad_res E d) th (empty_flags d)
                          | None => (empty_flags d, false) end)).
  { unfold too_long. destruct (k_length k) as [th|].
    - apply check_prop_marks; assumption.
    - split; [reflexivity|]. cbn [fst snd]. split; [intros e _; tauto|].
      split; [discriminate|intros (e & _ & [])]. }
  destruct (match k_length k with Some th => check_prop E (nelements d) (e_quad_res E d) th (empty_flags d)
                          | None => (empty_flags d, false) end) as [f1 v1].
  destruct M1 as (L1 & F1 & V1). cbn [fst snd] in *.
  assert (M2 : marks (nelements d) (too_curved E k d) f1
     (match k_curv k with Some th => check_prop E (nelements d) (e_curvature E d) th f1
                          | None => (f1, false) end)).
  { unfold too_curved. destruct (k_curv k) as [th|].
    - apply check_prop_marks; [assumption|congruence].
    - split; [reflexivity|]. cbn [fst snd]. split; [intros e _; tauto|].
      split; [discriminate|intros (e & _ & [])]. }
  destruct (match k_curv k with Some th => check_prop E (nelements d) (e_curvature E d) th f1
                          | None => (f1, false) end) as [f2 v2].
  destruct M2 as (L2 & F2 & V2). cbn [fst snd] in *.
  destruct (v1 || v2) eqn:V.
  - intros X. assert (f2 = flags) by congruence. assert (v = true) by congruence. subst f2 v. clear X.
    apply orb_prop in V.
    assert (W : exists e, e < nelements d /\ (too_long E k d e \/ too_curved E k d e)).
    { destruct V as [V|V]; [apply V1 in V|apply V2 in V]; destruct V as (e & He & V); exists e; auto. }
    split; [congruence|]. split.
    + intros e He. rewrite (F2 e He), (F1 e He). unfold stage1_target. specialize (F0 e). split; [tauto|].
      intros [H|[H _]]; [tauto|]. destruct W as (e' & He' & W). exfalso. exact (H e' He' W).
    + split; [discriminate|]. intros H. destruct W as (e & He & W). specialize (H e He). tauto.
  - apply orb_false_iff in V. destruct V as [-> ->].
    intros X.
    assert (M3 := @check_disks_marks E k d _ f2 HS HP HT ltac:(congruence)). rewrite X in M3.
    destruct M3 as (L3 & F3 & V3). cbn [fst snd] in *.
    assert (NL : forall e, e < nelements d -> ~ too_long E k d e).
    { intros e He H. assert (false = true) by (apply V1; eauto). discriminate. }
    assert (NC : forall e, e < nelements d -> ~ too_curved E k d e).
    { intros e He H. assert (false = true) by (apply V2; eauto). discriminate. }
    split; [congruence|]. split.
    + intros e He. rewrite (F3 e He), (F2 e He), (F1 e He). unfold stage1_target. specialize (F0 e).
      specialize (NL e He) as NLe. specialize (NC e He) as NCe. split.
      * intros [[[H|H]|H]|H]; try tauto. right. split; [|exact H]. intros e' He' [H'|H']; [eapply NL|eapply NC]; eauto.
      * intros [H|[_ H]]; tauto.
    + split.
      * intros -> e He. split; [apply NL; exact He|]. split; [apply NC; exact He|].
        intros H. assert (false = true) by (apply V3; eauto). discriminate.
      * intros H. destruct v; [|reflexivity]. destruct (proj1 V3 eq_refl) as (e & He & X').
        specialize (H e He). tauto.
Qed.

Lemma make_quad_nelements E l clk d : nelements (make_quad E l clk d) = nelements d.
Proof.
  unfold nelements, make_quad. cbn [d_groups]. rewrite map_map. f_equal.
  generalize 0 as o. induction (d_groups d) as [|[a b] gs IH]; intros o; [reflexivity|].
  cbn [length seq combine map fst]. f_equal. apply IH.
Qed.
Lemma make_quad_proper E l clk d : (forall g, 0 < l_fine_nu l g) -> proper (make_quad E l clk d).
Proof.
  intros H. unfold proper, make_quad. cbn [d_groups]. rewrite Forall_map. apply Forall_forall.
  intros [g [a b]] _. apply H.
Qed.

Lemma stage2_checks_spec E l d1 clk d2 flags v : schedules_ok E -> (forall g, 0 < l_fine_nu l g) ->
  (forall clk d2, tree2_ok E d1 d2 (make_quad E l clk d2) (e_tree2 E d1 (make_quad E l clk d2))) ->
  stage2_checks E l d1 clk d2 = (flags, v) ->
  length flags = nelements d2
  /\ (forall e, e < nelements d2 -> (flagged flags e <-> under_resolved E d1 d2 (make_quad E l clk d2) e))
  /\ (v = false <-> stage2_criterion_holds E d1 d2 (make_quad E l clk d2)).
Proof.
  intros HS HN HT X. unfold stage2_checks in X. destruct (empty_flags_spec d2) as [L0 F0].
  assert (M := @check_quad_marks E d1 d2 (make_quad E l clk d2) _ (empty_flags d2) HS
     (make_quad_proper _ _ _ _ HN) (make_quad_nelements _ _ _ _) (HT clk d2) L0).
  rewrite X in M. destruct M as (L & F & V). cbn [fst snd] in *.
  split; [congruence|]. split.
  - intros e He. rewrite (F e He). specialize (F0 e). tauto.
  - split.
    + intros -> e He H. assert (false = true) by (apply V; eauto). discriminate.
    + intros H. destruct v; [|reflexivity]. destruct (proj1 V eq_refl) as (e & He & X'). exfalso. exact (H e He X').
Qed.

(** * Loops *)

Lemma links_app a b c xs ys : links_from a xs b -> links_from b ys c -> links_from a (xs ++ ys) c.
Proof. induction 1; intros H'; cbn [app]; [exact H'|]. constructor; auto. Qed.

Lemma links_last a xs b : links_from a xs b -> last (map conn_to xs) a = b.
Proof.
  induction 1 as [d|d c ls d' Hc Hl IH]; [reflexivity|]. cbn [map].
  destruct ls as [|c' ls]; [cbn in *; inversion Hl; reflexivity|].
  cbn [map] in IH |- *. change (last (conn_to c :: conn_to c' :: map conn_to ls) d) with (last (conn_to c' :: map conn_to ls) d).
  rewrite <- IH. generalize (conn_to c' ) (map conn_to ls) (conn_to c) d. clear.
  intros x l a b. revert x. induction l as [|y l IH]; intros x; [reflexivity|]. exact (IH y).
Qed.

Lemma refine_loop_spec E mode checks (target : discr -> nat -> Prop) (good : nat -> discr -> Prop) (inv : discr -> Prop) :
  (forall clk d flags v, inv d -> checks clk d = (flags, v) ->
     length flags = nelements d /\ (forall e, e < nelements d -> (flagged flags e <-> target d e)) /\ (v = false <-> good clk d)) ->
  (forall clk d fl d', inv d -> e_refine E clk d fl = Ok d' -> inv d') ->
  forall fuel clk d o, inv d -> refine_loop E mode checks fuel clk d = Ok o ->
  inv (o_discr o) /\ links_from d (o_links o) (o_discr o) /\ length (o_links o) <= fuel
  /\ o_clk o = clk + length (o_links o)
  /\ Forall (exact_round target) (o_links o)
  /\ (o_warn o = false -> good (o_clk o) (o_discr o))
  /\ (o_warn o = true -> length (o_links o) = fuel)
  /\ (mode = ERROR_ON_REFINEMENT -> o_discr o = d /\ o_links o = []).
Proof.
  intros HC HR. induction fuel as [|fuel IH]; intros clk d o Hd H; cbn [refine_loop] in H.
  - assert (o = Out d [] true clk) by congruence. subst o. cbn [o_discr o_links o_clk o_warn length].
    repeat split; auto; try lia; try constructor; try discriminate.
  - destruct (checks clk d) as [flags v] eqn:X. destruct (HC _ _ _ _ Hd X) as (L & F & V).
    destruct v.
    + destruct mode; [| |discriminate];
      (destruct (e_refine E clk d flags) as [d'|] eqn:R; cbn [bind] in H; [|discriminate];
       destruct (refine_loop E _ checks fuel (S clk) d') as [o'|] eqn:Y; cbn [bind] in H; [|discriminate];
       match type of H with Ok ?rhs = _ => assert (o = rhs) by congruence end; subst o;
       destruct (IH (S clk) d' o' ltac:(eauto) Y) as (A & B & C & D & G & I & J & K);
       cbn [o_discr o_links o_clk o_warn length];
       (repeat split); [exact A|constructor; [reflexivity|exact B]|lia|lia|constructor; [exists d, d', flags; auto|exact G]|exact I|intros W; rewrite (J W); reflexivity|discriminate|discriminate]).
    + assert (o = Out d [] false clk) by congruence. subst o. cbn [o_discr o_links o_clk o_warn length].
      repeat split; auto; try lia; try constructor; try discriminate. intros _. apply V. reflexivity.
Qed.

Lemma uniform_rounds_spec E : (forall clk d fl d', proper d -> e_refine E clk d fl = Ok d' -> proper d') ->
  forall n clk d o, proper d -> uniform_rounds E n clk d = Ok o ->
  proper (o_discr o) /\ links_from d (o_links o) (o_discr o) /\ length (o_links o) = n /\ o_clk o = clk + n
  /\ Forall (exact_round (fun _ _ => True)) (o_links o).
Proof.
  intros HR. induction n as [|n IH]; intros clk d o Hd H; cbn [uniform_rounds] in H.
  - assert (o = Out d [] false clk) by congruence. subst o. cbn. repeat split; auto; try constructor; lia.
  - destruct (e_refine E clk d _) as [d'|] eqn:R; cbn [bind] in H; [|discriminate].
    destruct (uniform_rounds E n (S clk) d') as [o'|] eqn:Y; cbn [bind] in H; [|discriminate].
    match type of H with Ok ?rhs = _ => assert (o = rhs) by congruence end. subst o.
    destruct (IH (S clk) d' o' ltac:(eauto) Y) as (A & B & C & D & G).
    cbn [o_discr o_links o_clk length]. repeat split; auto; try lia.
    + constructor; [reflexivity|exact B].
    + constructor; [|exact G]. exists d, d', (repeat true (nelements d)). split; [reflexivity|].
      split; [apply repeat_length|]. intros e He. split; [auto|]. intros _. unfold flagged.
      rewrite nth_indep with (d' := true) by (rewrite repeat_length; exact He). apply nth_repeat.
Qed.
