From Coq Require Import QArith Permutation.
From Verif Require Import Base RefineModel RefineSpec RefineProofs AssocModel AssocSpec AssocProofs FmmModel FmmProofs KrnModel KrnProofs KrnProofs2 AkModel AkSpec AkProofs.
Set Implicit Arguments.
Open Scope string_scope. Open Scope list_scope. Open Scope nat_scope.

Section Assoc.
Variable junk : nat.
Variable D : device.
Variable nb : nat.
Variables S C : list pt.
Variable Ts : list (list pt).
Variable T : btree.
Hypothesis HT : tree_ok (particles S C Ts) T.
Hypothesis HB : boxes_ok D nb T.
Notation n := (list_sum (map (@length pt) Ts)).
Notation q := (QT T (length S) (length C) n).
Notation np := (length (particles S C Ts)).

Lemma np_eq : nparticles q = np.
Proof. rewrite particles_length. reflexivity. Qed.
Lemma load_ok o i : o + i < np -> load_particle (sorted_ids q) (coords q) o i = VPt (bt_coords T (bt_sorted T (o + i))).
Proof.
  intros L. unfold sorted_ids, coords. rewrite np_eq. apply load_eq; [exact L|]. apply (to_sorted HT). exact L.
Qed.
Lemma load_tgt i : i < n -> load_particle (sorted_ids q) (coords q) (tgt_start q) i = VPt (target_pt q i).
Proof. intros L. apply load_ok. rewrite particles_length. unfold tgt_start. cbn. lia. Qed.
Lemma load_src i : i < length S -> load_particle (sorted_ids q) (coords q) (src_start q) i = VPt (source_pt q i).
Proof. intros L. apply load_ok. rewrite particles_length. unfold src_start. lia. Qed.
Lemma load_ctr i : i < length C -> load_particle (sorted_ids q) (coords q) (ctr_start q) i = VPt (center_pt q i).
Proof. intros L. apply load_ok. rewrite particles_length. unfold ctr_start. cbn. lia. Qed.
Lemma src_in b s : In s (box_sources q b) -> s < length S.
Proof. intros I. apply (In_box_sources _ _ _ HT) in I. apply I. Qed.
Lemma ctr_in b c : In c (AssocModel.box_centers q b) -> c < length C.
Proof. intros I. apply (In_box_centers _ _ _ HT) in I. apply I. Qed.

Section Balls.
Variable R : Type.
Variable search : nat -> Q.
Notation ballc i := (bt_center T (bt_box_of T (target_pt q i))).
Notation ballr i := (search (bt_box_of T (target_pt q i))).
Notation ball := (guiding_ball junk R (bt_box_of T) (tree_box_centers nb q) (tgt_start q) (sorted_ids q) (map search (seq 0 nb)) (coords q)).
Definition at_target (i : nat) (p : env) : Prop :=
  p "i" = VNum i /\ p "tgt_coords" = VPt (target_pt q i) /\ p "ball_center" = VPt (ballc i) /\ p "ball_radius" = VRat (ballr i).
Lemma ball_ww (v : nat -> R) ok i p : i < n -> ww v ok ball (assign_var p "i" (VNum i)) (fun V p1 => V = [] /\ at_target i p1).
Proof.
  intros Hi. unfold guiding_ball; cbn [Block].
  apply ww_lets with (u := VPt (target_pt q i)). { ard. apply load_tgt. exact Hi. }
  apply ww_lets with (u := VNum (bt_box_of T (target_pt q i))). { ard. reflexivity. }
  apply ww_lets with (u := VPt (ballc i)). { ard. apply pt_at_map. apply HB. }
  apply ww_lets with (u := VRat (ballr i)). { ard. apply rat_at_map. apply HB. }
  apply ww_skip. split; [reflexivity|]. unfold at_target. ard. auto.
Qed.
Lemma ball_wp (Sc : nat -> Prop) (m : list R) i p : i < n -> wp Sc ball (assign_var p "i" (VNum i)) m (fun p1 m1 => m1 = m /\ at_target i p1).
Proof.
  intros Hi. unfold guiding_ball; cbn [Block].
  apply wl with (v := VPt (target_pt q i)). { ard. apply load_tgt. exact Hi. }
  apply wl with (v := VNum (bt_box_of T (target_pt q i))). { ard. reflexivity. }
  apply wl with (v := VPt (ballc i)). { ard. apply pt_at_map. apply HB. }
  apply wl with (v := VRat (ballr i)). { ard. apply rat_at_map. apply HB. }
  apply wp_skip. split; [reflexivity|]. unfold at_target. ard. auto.
Qed.
Lemma at_inv i p : at_target i p -> p "ball_center" = VPt (ballc i) /\ p "ball_radius" = VRat (ballr i).
Proof. intros (_ & _ & A & B). auto. Qed.
Lemma at_leaf i p k : at_target i p -> at_target i (assign_var p "ileaf" (VNum k)).
Proof. intros A. unfold at_target. ard. exact A. Qed.
End Balls.

(** *** mark_targets *)
Variable tunnel : nat -> Q.
Notation msearch := (dv_invader D T (invader_sources q tunnel)).
Notation mark := (mark_knl junk (dv_dist D) (dv_visit D T) (bt_box_of T) (tree_box_centers nb q)
            (csr_starts (source_rows nb q)) (csr_lists (source_rows nb q)) (src_start q) (tgt_start q) (sorted_ids q)
            (map tunnel (seq 0 (length S))) (map msearch (seq 0 nb)) (coords q)).
Definition close_src (i s : nat) : bool := Qle_bool (dv_dist D (source_pt q s) (target_pt q i)) (tunnel s).
Definition mark_writes (i : nat) : list nat :=
  flat_map (fun b => flat_map (fun s => if close_src i s then [1 + i; 0] else []) (box_sources q b)) (visited D q msearch i).
Definition mark_value (x : nat) : Z := match x with 0 => 1%Z | _ => PENDING end.
Definition mark_ok (x : nat) (z : Z) : Prop := z = 0%Z \/ z = 1%Z.
Lemma mark_item i p : i < n -> ww mark_value mark_ok (k_body mark) (assign_var p (k_iname mark) (VNum i)) (fun V _ => V = mark_writes i).
Proof.
  intros Hi. unfold mark_knl; cbn [k_body k_iname].
  eapply area_ww with (Inv := at_target msearch i); [apply ball_ww; exact Hi|apply at_inv|apply at_leaf|].
  intros p1 b (A1 & A2 & A3 & A4) Ib. cbn [Block].
  assert (Lb : b < nb) by (apply HB in Ib; exact Ib).
  destruct (@csr_box nb (box_sources q) b Lb) as (s0 & Es & Ee & El).
  apply ww_lets with (u := VNum s0). { ard. exact Es. }
  apply ww_lets with (u := VNum (s0 + length (box_sources q b))). { ard. exact Ee. }
  apply ww_seq. apply ww_list with (l := box_sources q b) (g := fun s => if close_src i s then [1 + i; 0] else []) (Inv := at_target msearch i).
  - ard. reflexivity.
  - unfold at_target. ard. auto.
  - intros j p2 Hj (B1 & B2 & B3 & B4).
    assert (Ls : nth j (box_sources q b) 0 < length S) by (apply src_in with (b := b); apply nth_In; exact Hj).
    apply ww_lets with (u := VNum (nth j (box_sources q b) 0)). { ard. apply El. exact Hj. }
    apply ww_lets with (u := VPt (source_pt q (nth j (box_sources q b) 0))). { ard. apply load_src. exact Ls. }
    apply ww_lets with (u := VRat (tunnel (nth j (box_sources q b) 0))). { ard. apply rat_at_map. exact Ls. }
    apply ww_seq. apply ww_if.
    + intros Q. ardin Q. rewrite B2 in Q. fold (close_src i (nth j (box_sources q b) 0)) in Q.
      apply ww_seq. apply ww_store; [ard; rewrite B1; reflexivity|]. apply ww_seq. apply ww_store; [intros r [->| ->]; reflexivity|].
      apply ww_skip. apply ww_skip. rewrite Q. split; [ard; rewrite B1; reflexivity|]. unfold at_target. ard. auto.
    + intros Q. ardin Q. rewrite B2 in Q. fold (close_src i (nth j (box_sources q b) 0)) in Q.
      apply ww_skip. rewrite Q. split; [reflexivity|]. unfold at_target. ard. auto.
  - intros p2 I2. apply ww_skip. rewrite app_nil_r. split; [reflexivity|exact I2].
Qed.


Lemma marked_iff i : marked D q tunnel i = true <-> exists b s, In b (visited D q msearch i) /\ In s (box_sources q b) /\ close_src i s = true.
Proof.
  unfold marked. rewrite existsb_exists. split.
  - intros (b & Ib & E). apply existsb_exists in E. destruct E as (s & Is & E). exists b, s. auto.
  - intros (b & s & Ib & Is & E). exists b. split; [exact Ib|]. apply existsb_exists. exists s. auto.
Qed.
Lemma mark_writes_in i x : In x (mark_writes i) <-> marked D q tunnel i = true /\ (x = 1 + i \/ x = 0).
Proof.
  rewrite marked_iff. unfold mark_writes. rewrite in_flat_map. split.
  - intros (b & Ib & I). apply in_flat_map in I. destruct I as (s & Is & I). destruct (close_src i s) eqn:E; [|contradiction].
    split; [exists b, s; auto|]. destruct I as [<-|[<-|[]]]; auto.
  - intros ((b & s & Ib & Is & E) & X). exists b. split; [exact Ib|]. apply in_flat_map. exists s. split; [exact Is|]. rewrite E.
    destruct X as [->| ->]; cbn; auto.
Qed.
Definition pending : list bool := map (marked D q tunnel) (seq 0 n).
Definition mark_status (b : bool) : Z := if b then PENDING else UNMARKED.
Definition mark_final : list Z := (if existsb (fun x => x) pending then 1%Z else 0%Z) :: map mark_status pending.
Lemma pending_length : length pending = n.
Proof. unfold pending. rewrite map_length. apply seq_length. Qed.
Lemma pending_error i : i < n -> nth_error pending i = Some (marked D q tunnel i).
Proof. apply map_seq_error. Qed.
Lemma pending_some : existsb (fun x => x) pending = true <-> exists i, i < n /\ marked D q tunnel i = true.
Proof.
  unfold pending. rewrite existsb_exists. split.
  - intros (x & I & ->). apply in_map_iff in I. destruct I as (i & E & I). apply in_seq in I. exists i. split; [lia|exact E].
  - intros (i & L & E). exists true. split; [|reflexivity]. apply in_map_iff. exists i. split; [exact E|apply in_seq; lia].
Qed.
Lemma repeat_error A (x : A) k i : i < k -> nth_error (repeat x k) i = Some x.
Proof. revert i; induction k as [|k IH]; intros [|i] L; cbn; try lia; [reflexivity|]. apply IH. lia. Qed.
Lemma mark_iff st : dev_mark junk D nb q tunnel st <-> st = mark_final.
Proof.
  unfold dev_mark. cbn [qt q_ntgt q_nsrc]. apply ww_launch_iff with (v := mark_value) (ok := mark_ok) (W := mark_writes).
  - exact mark_item.
  - intros i x _ _. unfold mark_ok, mark_value, PENDING. destruct x; auto.
  - intros [|x] r E; cbn in E; [injection E as <-; left; reflexivity|].
    assert (L : x < n) by (rewrite <- (repeat_length UNMARKED n); apply nth_error_Some; congruence).
    rewrite repeat_error in E by exact L. injection E as <-. left. reflexivity.
  - unfold mark_final. cbn [length]. rewrite map_length, pending_length, repeat_length. reflexivity.
  - intros i [|x] Hi I L; apply mark_writes_in in I; destruct I as (M & X); cbn [nth_error mark_final mark_value].
    + replace (existsb (fun x => x) pending) with true; [reflexivity|]. symmetry. apply pending_some. eauto.
    + destruct X as [[= ->]|X]; [|discriminate]. rewrite nth_error_map, pending_error by exact Hi. rewrite M. reflexivity.
  - intros [|x] N; cbn [nth_error mark_final].
    + destruct (existsb (fun x => x) pending) eqn:E; [|reflexivity]. apply pending_some in E. destruct E as (i & Hi & M).
      exfalso. apply (N i Hi). apply mark_writes_in. auto.
    + destruct (Nat.ltb_spec x n) as [L|L].
      * rewrite nth_error_map, pending_error, repeat_error by exact L. cbn [option_map].
        destruct (marked D q tunnel x) eqn:M; [|reflexivity]. exfalso. apply (N x L). apply mark_writes_in. auto.
      * rewrite !(proj2 (nth_error_None _ _)); [reflexivity|rewrite repeat_length; exact L|rewrite map_length, pending_length; exact L].
  - reflexivity.
Qed.

(** *** refine_elements *)
Variable d : discr.
Variable status : list Z.
Hypothesis LS : length status = n.
Notation rsearch := (dv_invader D T (invader_refine q tunnel)).
Notation refine := (refine_knl junk (dv_dist D) (dv_visit D T) (bt_box_of T) (tree_box_centers nb q)
            (csr_starts (source_rows nb q)) (csr_lists (source_rows nb q)) (element_to_source_starts d) (src_start q) (tgt_start q) (sorted_ids q)
            (map tunnel (seq 0 (length S))) status (map rsearch (seq 0 nb)) (coords q)).
Definition waiting (i : nat) : bool := (nth i status 0%Z =? PENDING)%Z.
Definition near_src (i s : nat) : bool := Qle_bool (dv_dist D (target_pt q i) (source_pt q s)) (tunnel s).
Definition hit_writes (i s : nat) : list nat := if near_src i s && waiting i then [1 + bsearch (element_to_source_starts d) s; 0] else [].
Definition refine_writes (i : nat) : list nat := flat_map (fun b => flat_map (hit_writes i) (box_sources q b)) (visited D q rsearch i).
Notation any := (fun (_ : nat) (_ : bool) => True).
Lemma refine_item i p : i < n -> ww (fun _ => true) any (k_body refine) (assign_var p (k_iname refine) (VNum i)) (fun V _ => V = refine_writes i).
Proof.
  intros Hi. unfold refine_knl; cbn [k_body k_iname].
  eapply area_ww with (Inv := at_target rsearch i); [apply ball_ww; exact Hi|apply at_inv|apply at_leaf|].
  intros p1 b (A1 & A2 & A3 & A4) Ib. cbn [Block].
  assert (Lb : b < nb) by (apply HB in Ib; exact Ib).
  destruct (@csr_box nb (box_sources q) b Lb) as (s0 & Es & Ee & El).
  apply ww_lets with (u := VNum s0). { ard. exact Es. }
  apply ww_lets with (u := VNum (s0 + length (box_sources q b))). { ard. exact Ee. }
  apply ww_seq. apply ww_list with (l := box_sources q b) (g := hit_writes i) (Inv := at_target rsearch i).
  - ard. reflexivity.
  - unfold at_target. ard. auto.
  - intros j p2 Hj (B1 & B2 & B3 & B4).
    assert (Ls : nth j (box_sources q b) 0 < length S) by (apply src_in with (b := b); apply nth_In; exact Hj).
    apply ww_lets with (u := VNum (nth j (box_sources q b) 0)). { ard. apply El. exact Hj. }
    apply ww_lets with (u := VPt (source_pt q (nth j (box_sources q b) 0))). { ard. apply load_src. exact Ls. }
    apply ww_lets with (u := VRat (tunnel (nth j (box_sources q b) 0))). { ard. apply rat_at_map. exact Ls. }
    apply ww_lets with (u := VInt (nth i status 0%Z)). { ard. rewrite B1. unfold int_at. rewrite (@nth_error_nth' _ status i 0%Z) by (rewrite LS; exact Hi). reflexivity. }
    apply ww_seq. unfold hit_writes, near_src, waiting. apply ww_if.
    + intros Q. ardin Q. rewrite B2 in Q. rewrite Q.
      apply ww_lets with (u := VNum (bsearch (element_to_source_starts d) (nth j (box_sources q b) 0))). { ard. reflexivity. }
      apply ww_seq. apply ww_store; [intros r _; apply orb_true_r|]. apply ww_seq. apply ww_store; [intros r _; apply orb_true_r|].
      apply ww_skip. apply ww_skip. split; [ard; reflexivity|]. unfold at_target. ard. auto.
    + intros Q. ardin Q. rewrite B2 in Q. rewrite Q.
      apply ww_skip. split; [reflexivity|]. unfold at_target. ard. auto.
  - intros p2 I2. apply ww_skip. rewrite app_nil_r. split; [reflexivity|exact I2].
Qed.
Definition hits (order : list nat) : list nat := flat_map (fun i => if waiting i then elements_near D q d tunnel i else []) order.
Lemma refine_writes_in i x : In x (refine_writes i) <-> waiting i = true /\ ((exists e, x = 1 + e /\ In e (elements_near D q d tunnel i)) \/ (x = 0 /\ elements_near D q d tunnel i <> [])).
Proof.
  assert (EN : forall e, In e (elements_near D q d tunnel i) <-> exists b s, In b (visited D q rsearch i) /\ In s (box_sources q b) /\ near_src i s = true /\ e = bsearch (element_to_source_starts d) s).
  { intros e. unfold elements_near. rewrite in_flat_map. split.
    - intros (b & Ib & I). apply in_flat_map in I. destruct I as (s & Is & I). exists b, s. fold (near_src i s) in I. destruct (near_src i s) eqn:E; [|contradiction].
      destruct I as [<-|[]]. auto.
    - intros (b & s & Ib & Is & E & ->). exists b. split; [exact Ib|]. apply in_flat_map. exists s. split; [exact Is|]. fold (near_src i s). rewrite E. left. reflexivity. }
  unfold refine_writes. rewrite in_flat_map. split.
  - intros (b & Ib & I). apply in_flat_map in I. destruct I as (s & Is & I). unfold hit_writes in I.
    destruct (near_src i s) eqn:E; [|contradiction]. destruct (waiting i) eqn:W; [|contradiction]. cbn [andb] in I. split; [reflexivity|].
    assert (Ie : In (bsearch (element_to_source_starts d) s) (elements_near D q d tunnel i)) by (apply EN; exists b, s; auto).
    destruct I as [<-|[<-|[]]]; [left; eauto|right]. split; [reflexivity|]. intros Z. rewrite Z in Ie. exact Ie.
  - intros (W & X).
    assert (Y : exists e, In e (elements_near D q d tunnel i) /\ (x = 1 + e \/ x = 0)).
    { destruct X as [(e & -> & I)|(-> & Ne)]; [eauto|]. destruct (elements_near D q d tunnel i) as [|e l]; [congruence|]. exists e. split; [left; reflexivity|auto]. }
    destruct Y as (e & I & X'). apply EN in I. destruct I as (b & s & Ib & Is & E & ->). exists b. split; [exact Ib|]. apply in_flat_map. exists s. split; [exact Is|].
    unfold hit_writes. rewrite E, W. destruct X' as [->| ->]; cbn; auto.
Qed.
Definition refine_final (order : list nat) : list bool :=
  match hits order with [] => false | _ => true end :: fold_left set_flag (hits order) (repeat false (nelements d)).
Lemma fold_flags_length l : forall fl, length (fold_left set_flag l fl) = length fl.
Proof. induction l as [|h l IH]; intros fl; cbn [fold_left]; [reflexivity|]. rewrite IH. apply set_flag_length. Qed.
Lemma nth_error_bool (l : list bool) x b : x < length l -> (nth x l false = true <-> b = true) -> nth_error l x = Some b.
Proof. intros L E. rewrite (@nth_error_nth' _ l x false L). f_equal. destruct (nth x l false), b; tauto || (symmetry; tauto) || (exfalso; destruct E; discriminate (H eq_refl) || discriminate (H0 eq_refl)). Qed.
Lemma refine_iff order fl : Permutation order (seq 0 n) -> (dev_refine junk D nb q d tunnel status fl <-> fl = refine_final order).
Proof.
  intros HO. assert (HIn : forall i, In i order <-> i < n).
  { intros i. split; intros I; [apply (Permutation_in _ HO) in I; apply in_seq in I; lia|]. apply (Permutation_in _ (Permutation_sym HO)). apply in_seq. lia. }
  assert (HH : forall e, In e (hits order) <-> exists i, i < n /\ waiting i = true /\ In e (elements_near D q d tunnel i)).
  { intros e. unfold hits. rewrite in_flat_map. split.
    - intros (i & Io & I). destruct (waiting i) eqn:W; [|contradiction]. exists i. rewrite <- HIn. auto.
    - intros (i & Hi & W & I). exists i. rewrite HIn. split; [exact Hi|]. rewrite W. exact I. }
  unfold dev_refine. cbn [qt q_ntgt q_nsrc]. apply ww_launch_iff with (v := fun _ => true) (ok := any) (W := refine_writes).
  - exact refine_item.
  - auto.
  - auto.
  - unfold refine_final. cbn [length]. rewrite fold_flags_length, repeat_length. reflexivity.
  - intros i [|x] Hi I L; apply refine_writes_in in I; destruct I as (W & X); unfold refine_final; cbn [nth_error].
    + destruct X as [(e & [=] & _)|(_ & Ne)]. destruct (elements_near D q d tunnel i) as [|e l] eqn:El; [congruence|].
      assert (Ie : In e (hits order)) by (apply HH; exists i; rewrite El; cbn; auto). destruct (hits order); [contradiction|reflexivity].
    + destruct X as [(e & [= <-] & Ie)|([=] & _)]. cbn [length] in L. rewrite repeat_length in L. apply nth_error_bool; [rewrite fold_flags_length, repeat_length; lia|].
      split; [auto|]. intros _. apply set_flags_spec; [rewrite repeat_length; lia|]. right. apply HH. eauto.
  - intros [|x] N; unfold refine_final; cbn [nth_error].
    + destruct (hits order) as [|e l] eqn:El; [reflexivity|]. assert (Ie : In e (e :: l)) by (left; reflexivity).
      apply HH in Ie. destruct Ie as (i & Hi & W & Ie). exfalso. apply (N i Hi). apply refine_writes_in. split; [exact W|]. right. split; [reflexivity|].
      intros Z. rewrite Z in Ie. exact Ie.
    + destruct (Nat.ltb_spec x (nelements d)) as [L|L].
      * rewrite repeat_error by exact L. apply nth_error_bool; [rewrite fold_flags_length, repeat_length; exact L|].
        split; [|discriminate]. intros X. apply set_flags_spec in X; [|rewrite repeat_length; exact L]. destruct X as [X|X].
        { rewrite (nth_error_nth (repeat false (nelements d)) x false (x := false)) in X; [discriminate|apply repeat_error; exact L]. }
        apply HH in X. destruct X as (i & Hi & W & Ie). exfalso. apply (N i Hi). apply refine_writes_in. split; [exact W|]. left. eauto.
      * rewrite !(proj2 (nth_error_None _ _)); [reflexivity|rewrite repeat_length; exact L|rewrite fold_flags_length, repeat_length; exact L].
  - reflexivity.
Qed.
End Assoc.
