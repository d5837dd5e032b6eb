From Coq Require Import QArith Permutation.
From Verif Require Import Base RefineModel RefineSpec RefineProofs AssocModel AssocSpec AssocProofs FmmModel FmmProofs KrnModel KrnProofs KrnProofs2 AkModel AkSpec AkProofs AkProofs2.
Set Implicit Arguments.
Open Scope string_scope. Open Scope list_scope. Open Scope nat_scope.

Definition best_center (b : best) : Z := match b with Some (_, _, c) => Z.of_nat c | None => (-1)%Z end.
Definition best_dist (b : best) : option Q := match b with Some (_, d, _) => Some d | None => None end.
Definition best_rel (b : best) : option Q := match b with Some (r, _, _) => Some r | None => None end.
Definition center_code (o : option nat) : Z := match o with Some c => Z.of_nat c | None => (-1)%Z end.
Definition cell_of (st : fstate) : fcell :=
  FCell (if found st then FOUND else PENDING) (center_code (f_center st)) (best_center (f_plus st)) (best_center (f_minus st))
    (best_dist (f_plus st)) (best_dist (f_minus st)) (best_rel (f_plus st)) (best_rel (f_minus st)).
Definition blank (s : Z) : fcell := FCell s (-1) (-1) (-1) None None None None.

Lemma xlt_improves r b : xlt (Some r) (best_rel b) = improves r b.
Proof. destruct b as [((r', d'), c')|]; reflexivity. Qed.
Lemma xlt_closer a b : xlt (best_dist a) (best_dist b) = closer a b.
Proof. destruct a as [((r, d), c)|], b as [((r', d'), c')|]; reflexivity. Qed.
Lemma winner_code b : center_code (winner b) = best_center b.
Proof. destruct b as [((r, d), c)|]; reflexivity. Qed.
Lemma fold_firstn_S A (f : A -> nat -> A) l a k : k < length l -> fold_left f (firstn (S k) l) a = f (fold_left f (firstn k l) a) (nth k l 0).
Proof.
  revert l a; induction k as [|k IH]; intros [|x l] a L; cbn [length] in L; try lia; [reflexivity|].
  change (firstn (S (S k)) (x :: l)) with (x :: firstn (S k) l). change (firstn (S k) (x :: l)) with (x :: firstn k l).
  cbn [fold_left nth]. apply IH. lia.
Qed.

Lemma load_cell x (a : env -> nat) (e : option fcell -> value) c2 p (m : list fcell) i cell (Post : env -> list fcell -> Prop) u :
  a p = i -> nth_error m i = Some cell -> e (Some cell) = u ->
  wp (eq i) c2 (assign_var p x u) m Post -> wp (eq i) (Seq (Load x a e) c2) p m Post.
Proof. intros <- E <- H. apply wp_seq. apply wp_load; [reflexivity|]. rewrite E. exact H. Qed.
Lemma store_cell (a : env -> nat) (f : env -> fcell -> fcell) c2 p (m : list fcell) i cell (Post : env -> list fcell -> Prop) :
  a p = i -> nth_error m i = Some cell ->
  (forall m', nth_error m' i = Some (f p cell) -> wp (eq i) c2 p m' Post) -> wp (eq i) (Seq (Store a f) c2) p m Post.
Proof.
  intros <- E H. apply wp_seq. apply wp_store; [reflexivity|]. apply H. rewrite write_cell_nth, Nat.eqb_refl, E. reflexivity.
Qed.

Section Find.
Variable junk : nat.
Variable D : device.
Variable nb : nat.
Variables S C : list pt.
Variable Ts : list (list pt).
Variable T : btree.
Hypothesis HT : tree_ok (particles S C Ts) T.
Hypothesis HB : boxes_ok D nb T.
Notation n := (list_sum (map (@length pt) Ts)).
Notation q := (QT T (length S) (length C) n).
Variable radius : nat -> Q.
Variable flags : list Z.
Hypothesis LF : length flags = n.
Variable marks : list bool.
Hypothesis LM : length marks = n.
Notation fsearch := (dv_invader D T (invader_centers q radius)).
Notation find := (find_knl junk (dv_dist D) (dv_visit D T) (bt_box_of T) (tree_box_centers nb q)
            (csr_starts (center_rows nb q)) (csr_lists (center_rows nb q)) (ctr_start q) (tgt_start q) (sorted_ids q)
            (map radius (seq 0 (length C))) (map fsearch (seq 0 nb)) flags (coords q)).
Notation flag i := (nth i flags 0%Z).
Notation at_tgt := (@at_target S C Ts T fsearch).
Notation step i := (leaf_step D q radius (flag i) i).

Definition find_final : list fcell :=
  map (fun i => if nth i marks false then cell_of (find_center D q radius (flag i) i) else blank UNMARKED) (seq 0 n).

Lemma consider_wp i c p m st : i < n -> c < length C -> at_tgt i p -> p "center" = VNum c -> nth_error m i = Some (cell_of st) ->
  forall rest : cmd fcell, forall Post : env -> list fcell -> Prop,
  (forall p' m', at_tgt i p' -> nth_error m' i = Some (cell_of (consider D q radius (flag i) i st c)) -> wp (eq i) rest p' m' Post) ->
  wp (eq i) (Seq (Let "center_side" (fun p => VInt (2 * (Z.of_nat (num junk p "center") mod 2) - 1)%Z))
    (Seq (Let "flag" (fun p => int_at flags (num junk p "i")))
    (Seq (If (fun p => negb (int junk p "center_side" * int junk p "flag" <? 0)%Z) (Block [
            Let "center_coords" (fun p => load_particle (sorted_ids q) (coords q) (ctr_start q) (num junk p "center"));
            Let "my_dist_to_center" (fun p => VRat (dv_dist D (ptv p "tgt_coords") (ptv p "center_coords")));
            Let "radius" (fun p => rat_at (map radius (seq 0 (length C))) (num junk p "center"));
            Let "my_rel_dist_to_center" (fun p => VRat (rat junk p "my_dist_to_center" / rat junk p "radius")%Q);
            If (fun p => Qle_bool (rat junk p "my_rel_dist_to_center") 1) (Block [
              If (fun p => (0 <? int junk p "center_side")%Z) (Block [
                Load "min" (fun p => num junk p "i") (cell_get (fun c => of_xrat (fc_rplus c)));
                If (fun p => xlt (Some (rat junk p "my_rel_dist_to_center")) (xrat junk p "min")) (Block [
                  Store (fun p => num junk p "i") (fun _ => with_status FOUND);
                  Store (fun p => num junk p "i") (fun p => with_rplus (rat junk p "my_rel_dist_to_center"));
                  Store (fun p => num junk p "i") (fun p => with_dplus (rat junk p "my_dist_to_center"));
                  Store (fun p => num junk p "i") (fun p => with_plus (Z.of_nat (num junk p "center")))])]);
              If (fun p => negb (0 <? int junk p "center_side")%Z) (Block [
                Load "min" (fun p => num junk p "i") (cell_get (fun c => of_xrat (fc_rminus c)));
                If (fun p => xlt (Some (rat junk p "my_rel_dist_to_center")) (xrat junk p "min")) (Block [
                  Store (fun p => num junk p "i") (fun _ => with_status FOUND);
                  Store (fun p => num junk p "i") (fun p => with_rminus (rat junk p "my_rel_dist_to_center"));
                  Store (fun p => num junk p "i") (fun p => with_dminus (rat junk p "my_dist_to_center"));
                  Store (fun p => num junk p "i") (fun p => with_minus (Z.of_nat (num junk p "center")))])])])])) rest))) p m Post.
Proof.
  intros Hi Hc (A1 & A2 & A3 & A4) Ec Em rest Post Po. unfold consider in Po.
  apply wl with (v := VInt (center_side c)). { ard. rewrite Ec. reflexivity. }
  apply wl with (v := VInt (flag i)). { ard. rewrite A1. unfold int_at. rewrite (@nth_error_nth' _ flags i 0%Z) by lia. reflexivity. }
  apply wp_seq. apply wp_if.
  2: { intros Q. ardin Q. apply negb_false_iff in Q. apply Po; [unfold at_target; ard; auto|]. rewrite Q. exact Em. }
  intros Q. ardin Q. apply negb_true_iff in Q. rewrite Q in Po. cbv zeta in Po. cbn [Block].
  apply wl with (v := VPt (center_pt q c)). { ard. rewrite Ec. apply (load_ctr S C Ts HT). exact Hc. }
  apply wl with (v := VRat (dv_dist D (target_pt q i) (center_pt q c))). { ard. rewrite A2. reflexivity. }
  apply wl with (v := VRat (radius c)). { ard. rewrite Ec. apply rat_at_map. exact Hc. }
  apply wl with (v := VRat (dv_dist D (target_pt q i) (center_pt q c) / radius c)%Q). { ard. reflexivity. }
  set (dd := dv_dist D (target_pt q i) (center_pt q c)) in *. set (rr := (dd / radius c)%Q) in *.
  apply wp_seq. apply wp_if.
  2: { intros Q1. ardin Q1. rewrite Q1 in Po. cbn [negb] in Po. apply wp_skip. apply Po; [unfold at_target; ard; auto|exact Em]. }
  intros Q1. ardin Q1. rewrite Q1 in Po. cbn [negb] in Po.
  apply wp_seq. apply wp_if.
  - intros Q2. ardin Q2. rewrite Q2 in Po.
    eapply load_cell; [ard; rewrite A1; reflexivity|exact Em|reflexivity|].
    apply wp_seq. apply wp_if.
    + intros Q3. assert (Q3' : improves rr (f_plus st) = true).
      { rewrite <- xlt_improves. rewrite <- Q3. ard. cbn [cell_get fc_rplus cell_of]; unfold of_xrat. destruct (best_rel (f_plus st)); reflexivity. }
      rewrite Q3' in Po.
      eapply store_cell; [ard; rewrite A1; reflexivity|exact Em|]. intros m1 E1.
      eapply store_cell; [ard; rewrite A1; reflexivity|exact E1|]. intros m2 E2.
      eapply store_cell; [ard; rewrite A1; reflexivity|exact E2|]. intros m3 E3.
      eapply store_cell; [ard; rewrite A1; reflexivity|exact E3|]. intros m4 E4.
      do 2 apply wp_skip. apply wp_seq. apply wp_if; [intros Q4; ardin Q4; rewrite Q2 in Q4; discriminate|]. intros _.
      do 2 apply wp_skip. apply Po; [unfold at_target; ard; auto|].
      rewrite E4. f_equal. ard. rewrite Ec. unfold with_plus, with_dplus, with_rplus, with_status, cell_of. cbn. reflexivity.
    + intros Q3. assert (Q3' : improves rr (f_plus st) = false).
      { rewrite <- xlt_improves. rewrite <- Q3. ard. cbn [cell_get fc_rplus cell_of]; unfold of_xrat. destruct (best_rel (f_plus st)); reflexivity. }
      rewrite Q3' in Po. apply wp_skip. apply wp_seq. apply wp_if; [intros Q4; ardin Q4; rewrite Q2 in Q4; discriminate|]. intros _.
      do 2 apply wp_skip. apply Po; [unfold at_target; ard; auto|exact Em].
  - intros Q2. ardin Q2. rewrite Q2 in Po.
    apply wp_seq. apply wp_if; [|intros Q4; ardin Q4; rewrite Q2 in Q4; discriminate]. intros _.
    eapply load_cell; [ard; rewrite A1; reflexivity|exact Em|reflexivity|].
    apply wp_seq. apply wp_if.
    + intros Q3. assert (Q3' : improves rr (f_minus st) = true).
      { rewrite <- xlt_improves. rewrite <- Q3. ard. cbn [cell_get fc_rminus cell_of]; unfold of_xrat. destruct (best_rel (f_minus st)); reflexivity. }
      rewrite Q3' in Po.
      eapply store_cell; [ard; rewrite A1; reflexivity|exact Em|]. intros m1 E1.
      eapply store_cell; [ard; rewrite A1; reflexivity|exact E1|]. intros m2 E2.
      eapply store_cell; [ard; rewrite A1; reflexivity|exact E2|]. intros m3 E3.
      eapply store_cell; [ard; rewrite A1; reflexivity|exact E3|]. intros m4 E4.
      do 4 apply wp_skip. apply Po; [unfold at_target; ard; auto|].
      rewrite E4. f_equal. ard. rewrite Ec. unfold with_minus, with_dminus, with_rminus, with_status, cell_of, found. cbn. destruct (f_plus st) as [((? & ?) & ?)|]; reflexivity.
    + intros Q3. assert (Q3' : improves rr (f_minus st) = false).
      { rewrite <- xlt_improves. rewrite <- Q3. ard. cbn [cell_get fc_rminus cell_of]; unfold of_xrat. destruct (best_rel (f_minus st)); reflexivity. }
      rewrite Q3' in Po. do 3 apply wp_skip. apply Po; [unfold at_target; ard; auto|exact Em].
Qed.
Lemma find_item i p : i < n -> wp (eq i) (k_body find) (assign_var p (k_iname find) (VNum i)) (map (fun s => FCell s (-1) (-1) (-1) None None None None) (map mark_status marks))
  (fun _ m' => nth_error m' i = nth_error find_final i).
Proof.
  intros Hi. unfold find_knl; cbn [k_body k_iname].
  assert (E0 : nth_error (map (fun s => FCell s (-1) (-1) (-1) None None None None) (map mark_status marks)) i = Some (blank (mark_status (nth i marks false)))).
  { rewrite !nth_error_map, (@nth_error_nth' _ marks i false) by lia. reflexivity. }
  assert (EF : nth_error find_final i = Some (if nth i marks false then cell_of (find_center D q radius (flag i) i) else blank UNMARKED)).
  { unfold find_final. apply map_seq_error. exact Hi. }
  set (vis := visited D q fsearch i).
  set (now := fun j => fold_left (step i) (firstn j vis) (FS None None None)).
  eapply area_wp with (Inv := at_tgt i) (I := fun j m1 => nth_error m1 i = Some (if nth i marks false then cell_of (now j) else blank UNMARKED)).
  - apply ball_wp with (D := D); assumption.
  - apply at_inv.
  - apply at_leaf.
  - rewrite E0. destruct (nth i marks false); reflexivity.
  - intros j p1 m1 (A1 & A2 & A3 & A4) Hj Em. cbn [Block].
    match type of Hj with j < length ?w => change w with vis in Hj |- * end.
    set (b := nth j vis 0). assert (Lb : b < nb) by (apply HB with (c := bt_center T (bt_box_of T (target_pt q i))) (r := fsearch (bt_box_of T (target_pt q i))); apply nth_In; exact Hj).
    destruct (@csr_box nb (AssocModel.box_centers q) b Lb) as (s0 & Es & Ee & El).
    eapply load_cell; [ard; rewrite A1; reflexivity|exact Em|reflexivity|].
    apply wp_seq. apply wp_if.
    2: { intros Q. ardin Q. apply wp_skip. destruct (nth i marks false); [|split; [exact Em|unfold at_target; ard; auto]].
         cbn [cell_get cell_of fc_status] in Q. destruct (found (now j)); cbn in Q; discriminate. }
    intros Q. ardin Q. destruct (nth i marks false); [clear Q|cbn in Q; discriminate].
    apply wl with (v := VNum s0). { ard. exact Es. }
    apply wl with (v := VNum (s0 + length (AssocModel.box_centers q b))). { ard. exact Ee. }
    apply wp_seq.
    apply wp_for with (I := fun k p2 m2 => at_tgt i p2 /\ nth_error m2 i = Some (cell_of (fold_left (consider D q radius (flag i) i) (firstn (k - s0) (AssocModel.box_centers q b)) (now j)))).
    + ard. lia.
    + ard. rewrite Nat.sub_diag. split; [unfold at_target; ard; auto|exact Em].
    + ard. intros k p2 m2 Hk (I2 & E2). assert (Hj2 : k - s0 < length (AssocModel.box_centers q b)) by lia.
      apply wl with (v := VNum (nth (k - s0) (AssocModel.box_centers q b) 0)). { ard. replace k with (s0 + (k - s0)) at 1 by lia. apply El. exact Hj2. }
      eapply consider_wp with (st := fold_left (consider D q radius (flag i) i) (firstn (k - s0) (AssocModel.box_centers q b)) (now j));
        [exact Hi|apply (ctr_in S C Ts HT) with (b := b); apply nth_In; exact Hj2|unfold at_target in *; ard; exact I2|ard; reflexivity|exact E2|].
      intros p3 m3 I3 E3. apply wp_skip. split; [exact I3|]. rewrite E3. replace (Datatypes.S k - s0) with (Datatypes.S (k - s0)) by lia.
      rewrite fold_firstn_S by exact Hj2. reflexivity.
    + ard. intros p2 m2 (I2 & E2). destruct I2 as (B1 & B2 & B3 & B4).
      replace (s0 + length (AssocModel.box_centers q b) - s0) with (length (AssocModel.box_centers q b)) in E2 by lia. rewrite firstn_all in E2.
      set (st := fold_left (consider D q radius (flag i) i) (AssocModel.box_centers q b) (now j)) in *.
      assert (EN : now (j + 1) = decide_center st).
      { unfold now. rewrite Nat.add_1_r, fold_firstn_S by exact Hj. reflexivity. }
      eapply load_cell; [ard; rewrite B1; reflexivity|exact E2|reflexivity|].
      eapply load_cell; [ard; rewrite B1; reflexivity|exact E2|reflexivity|].
      apply wl with (v := VNum (if closer (f_plus st) (f_minus st) then 1 else 0)).
      { rewrite <- xlt_closer. ard. cbn [cell_get cell_of fc_dplus fc_dminus]; unfold of_xrat. destruct (best_dist (f_plus st)), (best_dist (f_minus st)); reflexivity. }
      apply wp_seq. apply wp_if.
      * intros Q. ardin Q. destruct (closer (f_plus st) (f_minus st)) eqn:CL; [|discriminate].
        eapply load_cell; [ard; rewrite B1; reflexivity|exact E2|reflexivity|].
        eapply store_cell; [ard; rewrite B1; reflexivity|exact E2|]. intros m3 E3.
        apply wp_skip. apply wp_seq. apply wp_if; [intros Q4; ardin Q4; discriminate|]. intros _. do 2 apply wp_skip.
        split; [|unfold at_target; ard; auto]. rewrite E3, EN. f_equal. ard. unfold decide_center, with_center, cell_of, found. cbn. rewrite CL, winner_code. reflexivity.
      * intros Q. ardin Q. destruct (closer (f_plus st) (f_minus st)) eqn:CL; [discriminate|].
        apply wp_seq. apply wp_if; [|intros Q4; ardin Q4; discriminate]. intros _.
        eapply load_cell; [ard; rewrite B1; reflexivity|exact E2|reflexivity|].
        eapply store_cell; [ard; rewrite B1; reflexivity|exact E2|]. intros m3 E3. do 3 apply wp_skip.
        split; [|unfold at_target; ard; auto]. rewrite E3, EN. f_equal. ard. unfold decide_center, with_center, cell_of, found. cbn. rewrite CL, winner_code. reflexivity.
  - intros m1 E1. rewrite EF, E1. unfold now, find_center. fold vis.
    match goal with |- context [firstn (length ?w) vis] => change w with vis end. rewrite firstn_all. reflexivity.
Qed.
Lemma find_iff cs : dev_find junk D nb q radius flags (map mark_status marks) cs <-> cs = find_final.
Proof.
  unfold dev_find. cbn [qt q_ntgt q_nctr]. apply launch_iff with (cells := fun i x => i = x).
  - intros i j x _ _ -> ->. reflexivity.
  - intros i x. apply Nat.eq_dec.
  - unfold find_final. rewrite !map_length, seq_length. symmetry. exact LM.
  - intros i p Hi. destruct (find_item p Hi) as (p' & m' & E & Po). exists p', m'. split; [exact E|]. intros x <-. exact Po.
  - intros x N. destruct (Nat.ltb_spec x n) as [L|L]; [exfalso; exact (N x L eq_refl)|].
    rewrite !(proj2 (nth_error_None _ _)); [reflexivity|rewrite !map_length; lia|unfold find_final; rewrite map_length, seq_length; exact L].
  - right. reflexivity.
Qed.
End Find.
