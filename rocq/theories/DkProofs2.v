From Coq Require Import QArith Qcanon Permutation.
From Verif Require Import Base RefineModel AssocModel AssocSpec FmmModel FmmSpec FmmProofs FmmProofs2 FmmProofs3 FmmProofs4 FmlModel FmlSpec FmlProofs2 FmlProofs3 FmlProofs4 MatModel CostModel
  KrnModel KrnSpec KrnProofs KrnProofs2 KrnProofs3 KrnProofs4 AkModel AkSpec AkProofs AkProofs4 DkModel DkProofs.
Set Implicit Arguments.
Open Scope string_scope. Open Scope list_scope. Open Scope nat_scope.

(** *** Numbers *)
Definition numbers_from (s : nat) (tt : list Z) : list nat := map snd (filter (fun p => (0 <=? fst p)%Z) (combine tt (seq s (length tt)))).
Lemma numbers_app a b : forall s, numbers_from s (a ++ b) = numbers_from s a ++ numbers_from (s + length a) b.
Proof.
  induction a as [|z a IH]; intros s; [cbn [app length]; rewrite Nat.add_0_r; reflexivity|]. unfold numbers_from in *. cbn [app length seq combine filter fst].
  specialize (IH (S s)). replace (S s + length a) with (s + S (length a)) in IH by lia. destruct (0 <=? z)%Z; cbn [map snd app]; rewrite IH; reflexivity.
Qed.
Lemma numbers_length tt : forall s, length (numbers_from s tt) = nonneg tt.
Proof.
  induction tt as [|z tt IH]; intros s; [reflexivity|]. unfold numbers_from, nonneg in *. cbn [length seq combine filter fst].
  destruct (0 <=? z)%Z; cbn [map snd length]; rewrite IH; reflexivity.
Qed.
Lemma nonneg_app a b : nonneg (a ++ b) = nonneg a + nonneg b.
Proof. unfold nonneg. rewrite filter_app, app_length. reflexivity. Qed.
Lemma split_at (tt : list Z) i : i < length tt -> tt = firstn i tt ++ nth i tt (-1)%Z :: skipn (S i) tt.
Proof. revert i; induction tt as [|z tt IH]; intros [|i] L; cbn in L |- *; try lia; [reflexivity|]. f_equal. apply IH. lia. Qed.
Lemma firstn_S_nth (tt : list Z) i : i < length tt -> firstn (i + 1) tt = firstn i tt ++ [nth i tt (-1)%Z].
Proof. revert i; induction tt as [|z tt IH]; intros [|i] L; cbn in L |- *; try lia; [reflexivity|]. f_equal. apply IH. lia. Qed.
Lemma nonneg_le tt : nonneg tt <= length tt.
Proof. unfold nonneg. induction tt as [|z tt IH]; cbn; [lia|]. destruct (0 <=? z)%Z; cbn; lia. Qed.
Lemma position tt i : i < length tt -> (0 <= nth i tt (-1))%Z -> nth_error (qbx_tgt_numbers tt) (nonneg (firstn i tt)) = Some i.
Proof.
  intros L P. change (qbx_tgt_numbers tt) with (numbers_from 0 tt). rewrite (split_at tt L) at 1. rewrite numbers_app.
  rewrite nth_error_app2; rewrite numbers_length; [|lia]. rewrite Nat.sub_diag. unfold numbers_from. cbn [length seq combine filter fst].
  apply Z.leb_le in P. rewrite P. cbn [map snd nth_error plus]. rewrite firstn_length_le by lia. reflexivity.
Qed.
Definition numbers_final (tt : list Z) : list nat := nonneg tt :: qbx_tgt_numbers tt ++ repeat 0 (length tt - nonneg tt).
Lemma numberer_iff junk tt r : launch (numberer_knl junk tt) (length tt) (repeat 0 (1 + length tt)) r <-> r = numbers_final tt.
Proof.
  assert (LQ : length (qbx_tgt_numbers tt) = nonneg tt) by (apply (numbers_length tt 0)).
  assert (LF : length (numbers_final tt) = 1 + length tt).
  { unfold numbers_final. cbn [length]. rewrite app_length, repeat_length, LQ. pose proof (nonneg_le tt). lia. }
  assert (FI : forall i, i < length tt -> (0 <= nth i tt (-1))%Z -> nth_error (numbers_final tt) (1 + nonneg (firstn i tt)) = Some i).
  { intros i L P. unfold numbers_final. cbn [nth_error plus]. assert (X := position tt L P). rewrite nth_error_app1; [exact X|]. apply nth_error_Some. congruence. }
  apply ww_launch_iff with (v := fun x => nth x (numbers_final tt) 0) (ok := fun _ _ => True)
    (W := fun i => (if (0 <=? nth i tt (-1))%Z then [1 + nonneg (firstn i tt)] else []) ++ (if i + 1 =? length tt then [0] else [])).
  - intros i p Hi. unfold numberer_knl; cbn [k_body k_iname Block].
    apply ww_lets with (u := VNum (nonneg (firstn (i + 1) tt))); [drd; reflexivity|].
    apply ww_lets with (u := VNum (nonneg (firstn i tt))); [drd; reflexivity|].
    assert (ES := firstn_S_nth tt Hi).
    assert (EN : nonneg (firstn (i + 1) tt) = nonneg (firstn i tt) + if (0 <=? nth i tt (-1))%Z then 1 else 0).
    { rewrite ES, nonneg_app. unfold nonneg at 2. cbn [filter]. destruct (0 <=? nth i tt (-1))%Z; reflexivity. }
    apply ww_seq.
    assert (Second : forall p1 V1, p1 "item" = VNum (nonneg (firstn (i + 1) tt)) -> p1 "i" = VNum i ->
      ww (fun x => nth x (numbers_final tt) 0) (fun _ _ => True)
        (Seq (If (fun p => num junk p "i" + 1 =? length tt) (Store (fun _ => 0) (fun p _ => num junk p "item"))) Skip) p1
        (fun V2 _ => V1 ++ V2 = V1 ++ (if i + 1 =? length tt then [0] else []))).
    { intros p1 V1 Q1 Q2. apply ww_seq. apply ww_if; unfold num; rewrite Q2; intros E; rewrite E.
      - apply ww_store; [|apply ww_skip; reflexivity]. intros _ _. rewrite Q1. unfold numbers_final. cbn [nth]. f_equal. apply Nat.eqb_eq in E. rewrite E. apply firstn_all.
      - apply ww_skip. reflexivity. }
    apply ww_if; drd; rewrite EN; destruct (0 <=? nth i tt (-1))%Z eqn:B; intros E.
    + apply ww_store.
      * drd. intros _ _. replace (1 + (nonneg (firstn i tt) + 1 - 1)) with (1 + nonneg (firstn i tt)) by lia.
        apply Z.leb_le in B. erewrite nth_error_nth; [reflexivity|apply FI; assumption].
      * drd. eapply ww_mono; [|apply (Second _ [1 + (nonneg (firstn i tt) + 1 - 1)]); drd; rewrite ?EN; reflexivity].
        intros W' p' H. rewrite H. replace (1 + (nonneg (firstn i tt) + 1 - 1)) with (1 + nonneg (firstn i tt)) by lia. reflexivity.
    + exfalso. rewrite Nat.add_0_r, Nat.eqb_refl in E. discriminate.
    + exfalso. apply negb_false_iff, Nat.eqb_eq in E. lia.
    + eapply ww_mono; [|apply (Second _ []); drd; rewrite ?EN; reflexivity]. intros W' p' H. exact H.
  - auto.
  - auto.
  - rewrite LF, repeat_length. reflexivity.
  - intros i x _ _ Lx. rewrite repeat_length in Lx. apply nth_error_nth'. rewrite LF. exact Lx.
  - intros x N. destruct x as [|j].
    + destruct tt as [|z tt0]; [reflexivity|]. exfalso. apply (N (length tt0)); [cbn; lia|]. apply in_or_app. right. cbn [length].
      replace (length tt0 + 1 =? S (length tt0)) with true; [left; reflexivity|]. symmetry. apply Nat.eqb_eq. lia.
    + cbn [nth_error numbers_final repeat plus]. destruct (Nat.ltb_spec j (nonneg tt)) as [Hj|Hj].
      * exfalso. assert (Lj : j < length (qbx_tgt_numbers tt)) by lia. set (i := nth j (qbx_tgt_numbers tt) 0).
        assert (I : In i (qbx_tgt_numbers tt)) by (apply nth_In; exact Lj). apply qbx_tgt_numbers_In in I. destruct I as (Li & Pi).
        apply (N i Li). apply in_or_app. left. assert (Pi' := Pi). apply Z.leb_le in Pi'. rewrite Pi'. left. cbn [plus]. f_equal.
        assert (X := position tt Li Pi). apply (proj1 (NoDup_nth_error (qbx_tgt_numbers tt)) (qbx_tgt_numbers_NoDup tt)); [apply nth_error_Some; congruence|].
        rewrite X. symmetry. apply nth_error_nth'. exact Lj.
      * rewrite nth_error_app2 by lia. rewrite LQ. destruct (Nat.ltb_spec j (length tt)) as [Hl|Hl].
        -- rewrite (@nth_error_nth' _ (repeat 0 (length tt - nonneg tt)) _ 0) by (rewrite repeat_length; lia).
           rewrite (@nth_error_nth' _ (repeat 0 (length tt)) _ 0) by (rewrite repeat_length; lia). rewrite !nth_rep. reflexivity.
        -- transitivity (@None nat); [|symmetry]; apply nth_error_None; rewrite repeat_length; lia.
  - reflexivity.
Qed.
Lemma numbers_iff junk tt count numbers : dev_numbers junk tt count numbers <-> count = length (qbx_tgt_numbers tt) /\ numbers = qbx_tgt_numbers tt.
Proof.
  assert (LQ : length (qbx_tgt_numbers tt) = nonneg tt) by (apply (numbers_length tt 0)).
  assert (E : firstn (nonneg tt) (tl (numbers_final tt)) = qbx_tgt_numbers tt).
  { unfold numbers_final. cbn [tl]. rewrite <- LQ at 1. rewrite firstn_app, Nat.sub_diag, firstn_all. apply app_nil_r. }
  unfold dev_numbers. split.
  - intros (m & L & -> & ->). apply numberer_iff in L. subst m. cbn [nth numbers_final]. rewrite LQ. auto.
  - intros (-> & ->). exists (numbers_final tt). split; [apply numberer_iff; reflexivity|]. cbn [nth numbers_final]. rewrite LQ. auto.
Qed.

Lemma firstn_S_err A (l : list A) : forall s y, nth_error l s = Some y -> firstn (S s) l = firstn s l ++ [y].
Proof. induction l as [|z l IH]; intros [|s] y N; cbn in N |- *; try discriminate; [injection N as ->; reflexivity|]. f_equal. apply IH. exact N. Qed.
(** *** Rows *)
Section Subset.
Variable junk : nat.
Variable q : qsource.
Variable nknl : nat.
Variable tt : list Z.
Variable x : list pt.
Notation nc := (length (q_ctr q)).
Notation nq := (q_nquad q).
Hypothesis HQ : 0 < nq.
Hypothesis HL : length tt = length x.
Hypothesis HC : forall i, i < length x -> (0 <= nth i tt (-1))%Z -> Z.to_nat (nth i tt (-1)%Z) < nc.
Notation nums := (qbx_tgt_numbers tt).
Notation cnums := (map (fun i => Z.to_nat (nth i tt (-1)%Z)) nums).
Notation cen t := (Z.to_nat (nth t tt (-1)%Z)).
Definition via_row (t : nat) : list (list (option contr)) := map (fun k => map Some (eval k (all_sources nq) (Via (cen t)) t)) (seq 0 nknl).
Definition sub_row (t : nat) : list (list (option contr)) :=
  map (fun k => map Some (nth t (apply_on_subset nq tt k (p2p nq x k)) [])) (seq 0 nknl).
Definition sub_final : list (list (list (option contr))) := map sub_row (seq 0 (length x)).
Lemma subset_nth k t : t < length x -> nth t (apply_on_subset nq tt k (p2p nq x k)) [] =
  if (0 <=? nth t tt (-1))%Z then eval k (all_sources nq) (Via (cen t)) t else nth t (p2p nq x k) [].
Proof.
  intros Lt. set (wr := fun i : nat => Some (i, eval k (all_sources nq) (Via (cen i)) i)).
  assert (E : apply_on_subset nq tt k (p2p nq x k) = fold_left (write_step wr) nums (p2p nq x k)) by (unfold apply_on_subset; apply fold_left_ext'; reflexivity).
  assert (LP : length (p2p nq x k) = length x) by (unfold p2p; rewrite map_length; apply seq_length).
  rewrite E. destruct (0 <=? nth t tt (-1))%Z eqn:B.
  - apply Z.leb_le in B. apply (writes_some wr).
    + rewrite LP. exact Lt.
    + intros i' v' _ W. unfold wr in W. injection W as -> <-. reflexivity.
    + right. exists t. split; [apply qbx_tgt_numbers_In; split; [lia|exact B]|]. reflexivity.
  - apply writes_none. intros i' v' J W. unfold wr in W. injection W as -> _. apply qbx_tgt_numbers_In in J. apply Z.leb_gt in B. lia.
Qed.
Lemma sub_row_via t : t < length x -> (0 <= nth t tt (-1))%Z -> sub_row t = via_row t.
Proof. intros Lt P. unfold sub_row, via_row. apply map_ext. intros k. rewrite subset_nth by exact Lt. apply Z.leb_le in P. rewrite P. reflexivity. Qed.
Lemma p2p_rows_nth t : t < length x -> nth_error (p2p_rows q nknl x) t = Some (map (fun k => map Some (nth t (p2p nq x k) [])) (seq 0 nknl)).
Proof. intros Lt. unfold p2p_rows. rewrite map_seq_error by exact Lt. reflexivity. Qed.
Lemma final_nth t : t < length x -> nth_error sub_final t = Some (sub_row t).
Proof. intros Lt. unfold sub_final. apply map_seq_error. exact Lt. Qed.
Lemma final_other t : t < length x -> ~ In t nums -> nth_error sub_final t = nth_error (p2p_rows q nknl x) t.
Proof.
  intros Lt N. rewrite final_nth, p2p_rows_nth by exact Lt. f_equal. unfold sub_row. apply map_ext. intros k. rewrite subset_nth by exact Lt.
  destruct (0 <=? nth t tt (-1))%Z eqn:B; [|reflexivity]. exfalso. apply N. apply qbx_tgt_numbers_In. apply Z.leb_le in B. split; [lia|exact B].
Qed.
Notation sk := (subset_knl junk nknl (seq 0 nq) (seq 0 nq) (seq 0 (length x)) (flat_centers nc) (flat_expansion_radii nc) nums cnums).
Definition partial (t s : nat) : list (list (option contr)) := map (fun k => map Some (eval k (firstn s (all_sources nq)) (Via (cen t)) t)) (seq 0 nknl).
Lemma set_over A (Vv Z : list A) (d : A) i : i < length Vv -> length Z = length Vv -> set_nth (firstn i Vv ++ skipn i Z) i (nth i Vv d) = firstn (S i) Vv ++ skipn (S i) Z.
Proof.
  revert Z i; induction Vv as [|v Vv IH]; intros [|z Z] [|i] L E; cbn [length] in *; try lia.
  - reflexivity.
  - rewrite !firstn_cons, !skipn_cons. cbn [nth app set_nth]. f_equal. apply IH; lia.
Qed.
Lemma subset_item i p : i < length nums -> wp (eq (nth i nums 0)) (k_body sk) (assign_var p (k_iname sk) (VNum i)) (p2p_rows q nknl x)
  (fun _ m' => forall y, nth i nums 0 = y -> nth_error m' y = nth_error sub_final y).
Proof.
  intros Li. set (t := nth i nums 0). assert (It : In t nums) by (apply nth_In; exact Li).
  apply qbx_tgt_numbers_In in It. destruct It as (Lt & Pt). rewrite HL in Lt. assert (Lc := HC Lt Pt).
  assert (LV : length (via_row t) = nknl) by (unfold via_row; rewrite map_length; apply seq_length).
  unfold subset_knl; cbn [k_body k_iname Block].
  apply wl with (v := VNum (cen t)); [drd; apply num_at_eq; rewrite nth_error_map, (@nth_error_nth' _ nums i 0 Li); reflexivity|].
  apply wl with (v := VNum t); [drd; apply num_at_eq; apply nth_error_nth'; exact Li|].
  apply wl with (v := VPots (repeat [] nknl)); [reflexivity|].
  apply wp_seq.
  eapply wp_for with (I := fun s p1 m1 => p1 "icenter" = VNum (cen t) /\ p1 "itgt" = VNum t /\ p1 "sum" = VPots (partial t s) /\ m1 = p2p_rows q nknl x).
  - lia.
  - drd. repeat split. f_equal. unfold partial. rewrite <- (map_const_repeat_ [] nknl). apply map_ext. reflexivity.
  - rewrite seq_length. intros s p1 m1 Hs (P1 & P2 & P3 & ->).
    apply wl with (v := VPlace (AtCenter (cen t))); [drd; rewrite P1; unfold flat_centers; rewrite map_seq_error by exact Lc; reflexivity|].
    apply wl with (v := VNum s); [drd; apply num_at_eq; rewrite (@nth_error_nth' _ (seq 0 nq) s 0) by (rewrite seq_length; lia); rewrite seq_nth by lia; reflexivity|].
    apply wl with (v := VNum t); [drd; rewrite P2; apply num_at_eq; rewrite (@nth_error_nth' _ (seq 0 (length x)) t 0) by (rewrite seq_length; lia); rewrite seq_nth by lia; reflexivity|].
    apply wl with (v := VScale (Radius (cen t))); [drd; rewrite P1; unfold flat_expansion_radii; rewrite map_seq_error by exact Lc; reflexivity|].
    apply wl with (v := VNum s); [drd; apply num_at_eq; rewrite (@nth_error_nth' _ (seq 0 nq) s 0) by (rewrite seq_length; lia); rewrite seq_nth by lia; reflexivity|].
    apply wl with (v := VPots (partial t (S s))).
    + drd. rewrite P3. f_equal. unfold partial at 2. apply map_ext_in. intros k Hk. apply in_seq in Hk.
      unfold partial. rewrite (@nth_map_d _ _ _ (seq 0 nknl) k 0 [None]) by (rewrite seq_length; lia). rewrite seq_nth by lia. cbn [plus pair_result]. rewrite Nat.eqb_refl.
      assert (F : firstn (S s) (all_sources nq) = firstn s (all_sources nq) ++ [(s, s)]).
      { assert (N : nth_error (all_sources nq) s = Some (s, s)) by (unfold all_sources; rewrite map_seq_error by lia; reflexivity).
        apply firstn_S_err. exact N. }
      rewrite F. unfold eval. rewrite map_app, map_app. reflexivity.
    + apply wp_skip. drd. auto.
  - rewrite seq_length. intros p1 m1 (P1 & P2 & P3 & ->).
    assert (PV : partial t nq = via_row t).
    { unfold partial, via_row. apply map_ext. intros k. rewrite firstn_all2; [reflexivity|]. unfold all_sources. rewrite map_length, seq_length. lia. }
    rewrite PV in P3.
    set (old := map (fun k => map Some (nth t (p2p nq x k) [])) (seq 0 nknl)).
    assert (LO : length old = length (via_row t)) by (unfold old; rewrite map_length, seq_length; auto).
    apply wp_seq.
    eapply wp_for with (I := fun k p1 m1 => p1 "itgt" = VNum t /\ p1 "sum" = VPots (via_row t) /\ nth_error m1 t = Some (firstn k (via_row t) ++ skipn k old)).
    + lia.
    + repeat split; try assumption. apply p2p_rows_nth. exact Lt.
    + intros k p2 m2 Hk (Q1 & Q2 & Q3). apply wp_store; [drd; rewrite Q1; reflexivity|]. drd. rewrite Q1, Q2. repeat split.
      rewrite write_cell_nth, Nat.eqb_refl, Q3. cbn [option_map]. f_equal. apply set_over; [rewrite LV; lia|exact LO].
    + intros p2 m2 (Q1 & Q2 & Q3). apply wp_skip. intros y <-. rewrite Q3, final_nth by exact Lt. f_equal. rewrite sub_row_via by assumption.
      rewrite <- LV at 1. rewrite firstn_all. rewrite skipn_all2 by lia. apply app_nil_r.
Qed.
Lemma subset_iff rows : dev_subset junk q nknl tt x nums rows <-> rows = sub_final.
Proof.
  unfold dev_subset. assert (LF : length sub_final = length (p2p_rows q nknl x)) by (unfold sub_final, p2p_rows; rewrite !map_length; reflexivity).
  assert (LP : length (p2p_rows q nknl x) = length x) by (unfold p2p_rows; rewrite map_length; apply seq_length).
  assert (Oth : forall t, ~ In t nums -> nth_error sub_final t = nth_error (p2p_rows q nknl x) t).
  { intros t N. destruct (Nat.ltb_spec t (length x)); [apply final_other; assumption|]. transitivity (@None (list (list (option contr)))); [|symmetry]; apply nth_error_None; lia. }
  destruct (length nums =? 0) eqn:E.
  - apply Nat.eqb_eq in E. replace sub_final with (p2p_rows q nknl x); [reflexivity|]. symmetry. apply nth_error_ext; [exact LF|].
    intros t _. apply Oth. destruct nums; [intros []|discriminate].
  - apply Nat.eqb_neq in E. destruct (Nat.eqb_spec nq 0) as [Z|_]; [lia|].
    apply launch_iff with (cells := fun i y => nth i nums 0 = y).
    + intros i j y Hi Hj <- B. apply (proj1 (NoDup_nth nums 0) (qbx_tgt_numbers_NoDup tt)); auto.
    + intros i y. apply Nat.eq_dec.
    + exact LF.
    + intros i p Hi. apply subset_item. exact Hi.
    + intros y N. apply Oth. intros I. destruct (In_nth _ _ 0 I) as (i & Hi & Ei). exact (N i Hi Ei).
    + left. lia.
Qed.
End Subset.
