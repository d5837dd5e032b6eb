From Coq Require Import QArith Permutation.
From Verif Require Import Base RefineModel AssocModel FmmModel FmmSpec FmmProofs FmmProofs2 FmlModel FmlSpec FmlProofs2 FmlProofs3 FmlProofs4 KrnModel KrnSpec KrnProofs KrnProofs2 KrnProofs3.
Set Implicit Arguments.
Open Scope string_scope. Open Scope list_scope. Open Scope nat_scope.

Lemma used_fold_length (l : list Z) : forall a : list bool, length (fold_left (fun a c => if (0 <=? c)%Z then set_nth a (Z.to_nat c) true else a) l a) = length a.
Proof. induction l as [|z l IH]; intros a; cbn [fold_left]; [reflexivity|]. rewrite IH. destruct (0 <=? z)%Z; [apply set_nth_length|reflexivity]. Qed.

Lemma map_repeat_nil (A B : Type) (f : list A -> list B) (k : nat) : f [] = [] -> map f (repeat [] k) = repeat [] k.
Proof. intros E. induction k as [|k IH]; cbn; [reflexivity|]. rewrite IH, E. reflexivity. Qed.

Section Index.
Variable junk : nat.
Variable T : ftree.
Variable V : ftrav.
Variable nc : nat.
Variable ttc : list Z.
Variable bs bt : boxes.
Hypothesis OK : fmm_ok T V.
Hypothesis HT : ttc_ok nc (ft_ntgt T) ttc.
Hypothesis AO : arrays_ok T V bs bt.
Notation gc := (global_centers nc ttc).
Notation ctb := (center_to_target_box T V nc).
Notation n := (ft_ntgt T).
Notation lk := (box_lookup junk nc bt (box_to_target_box T V) (user_target_from_tree_target T)).
Notation srt u := (nth u (ft_sorted T) 0).

Lemma center_lt u : u < nc -> u < n.
Proof. destruct HT as (_ & L & _). lia. Qed.
Lemma b2tb_len : length (box_to_target_box T V) = ft_nboxes T.
Proof. unfold box_to_target_box. rewrite scatter_length. apply repeat_length. Qed.
Lemma utt_len : length (user_target_from_tree_target T) = n.
Proof. unfold user_target_from_tree_target. rewrite scatter_length, repeat_length. apply (sorted_length OK). Qed.
Lemma in_its_box u b : u < nc -> b < ft_nboxes T -> In (srt u) (ft_box_tgt T b) -> nth_error (box_to_target_box T V) b = Some (nth u ctb 0).
Proof.
  intros Lu Lb I. destruct (ctb_spec OK HT Lu) as (k & Lk & Ek & Ik).
  assert (Lt : srt u < n) by (apply (sorted_lt OK); apply center_lt; exact Lu).
  destruct (fo_in_one_box OK Lt) as (b0 & _ & _ & _ & U).
  assert (Lbk : nth k (tr_target_boxes V) 0 < ft_nboxes T) by (apply (fo_target_boxes OK); apply nth_In; exact Lk).
  assert (b = nth k (tr_target_boxes V) 0) as -> by (rewrite (U b Lb I); symmetry; apply (U _ Lbk); exact Ik).
  rewrite (@nth_error_nth' _ (box_to_target_box T V) _ 0) by (rewrite b2tb_len; exact Lbk). rewrite (b2tb_nth OK Lk), Ek. reflexivity.
Qed.
Lemma lk_item b p m0 : length m0 = nc -> b < ft_nboxes T -> wp (fun u => u < nc /\ In (srt u) (ft_box_tgt T b)) (k_body lk) (assign_var p (k_iname lk) (VNum b)) m0
  (fun _ m' => forall u, u < nc /\ In (srt u) (ft_box_tgt T b) -> nth_error m' u = nth_error ctb u).
Proof.
  intros L0 Lb. destruct (ao_tgt AO Lb) as (a & m & Ea & Em & Eb). unfold box_lookup; cbn [k_body k_iname Block].
  apply wl with (v := VNum a); [rd; apply num_at_eq; exact Ea|].
  apply wl with (v := VNum m); [rd; apply num_at_eq; exact Em|].
  apply wp_seq.
  eapply wp_for with (I := fun t p1 m1 => p1 "ibox" = VNum b /\ length m1 = nc /\ forall u, u < nc -> a <= srt u < t -> nth_error m1 u = nth_error ctb u).
  - rd. lia.
  - rd. repeat split; [exact L0|]. intros u Lu Hu. lia.
  - rd. intros t p1 m1 Ht (P1 & P2 & P3).
    assert (It : In t (ft_box_tgt T b)) by (rewrite Eb; apply in_seq; lia).
    assert (Lt : t < n) by (apply (fo_box_tgt OK) with (b := b); [exact Lb|exact It]).
    destruct (tgt_pt_inv OK Lt) as (Lu & Eu).
    apply wl with (v := VNum (ft_tgt_pt T t)).
    { rd. apply num_at_eq. rewrite (@nth_error_nth' _ _ t 0) by (rewrite utt_len; exact Lt). rewrite (utt_nth OK Lt). reflexivity. }
    apply wp_seq. apply wp_if.
    + intros Q. rdin Q. apply Nat.ltb_lt in Q. apply wp_store; [rd; rewrite Eu; auto|]. apply wp_skip. rd. rewrite P1. repeat split; [rewrite write_cell_length; exact P2|].
      intros u Hu Hs. rewrite write_cell_nth. destruct (u =? ft_tgt_pt T t) eqn:Eq.
      * apply Nat.eqb_eq in Eq. subst u. rewrite (@nth_error_nth' _ m1 _ 0) by (rewrite P2; exact Q). cbn [option_map].
        rewrite (in_its_box Q Lb) by (rewrite Eu; exact It). symmetry. apply nth_error_nth'. rewrite ctb_length. exact Q.
      * apply P3; [exact Hu|]. apply Nat.eqb_neq in Eq. assert (srt u <> t); [|lia]. intros Es. apply Eq. rewrite <- Es. symmetry. apply (fo_tgt_pt OK). apply center_lt. exact Hu.
    + intros Q. rdin Q. apply Nat.ltb_ge in Q. apply wp_skip. rd. repeat split; [exact P1|exact P2|]. intros u Hu Hs. apply P3; [exact Hu|].
      assert (srt u <> t); [|lia]. intros Es. assert (ft_tgt_pt T t = u) by (rewrite <- Es; apply (fo_tgt_pt OK); apply center_lt; exact Hu). lia.
  - rd. intros p1 m1 (P1 & P2 & P3). apply wp_skip. intros u (Lu & I). apply P3; [exact Lu|]. rewrite Eb in I. apply in_seq in I. exact I.
Qed.
(** Whatever the array contained. *)
Lemma lookup_iff m0 r : length m0 = nc -> (launch lk (ft_nboxes T) m0 r <-> r = ctb).
Proof.
  intros L0. apply launch_iff with (cells := fun b u => u < nc /\ In (srt u) (ft_box_tgt T b)).
  - intros b b' u Lb Lb' (Lu & I) (_ & I'). assert (Lt : srt u < n) by (apply (sorted_lt OK); apply center_lt; exact Lu).
    destruct (fo_in_one_box OK Lt) as (b0 & _ & _ & _ & U). rewrite (U b Lb I), (U b' Lb' I'). reflexivity.
  - intros b u. destruct (lt_dec u nc) as [H|H]; [|right; tauto]. destruct (in_dec Nat.eq_dec (srt u) (ft_box_tgt T b)); [left|right]; tauto.
  - rewrite ctb_length. symmetry. exact L0.
  - intros b p Lb. exact (lk_item p m0 L0 Lb).
  - intros u N. destruct (Nat.ltb_spec u nc) as [Lu|Lu].
    + exfalso. assert (Lt : srt u < n) by (apply (sorted_lt OK); apply center_lt; exact Lu).
      destruct (fo_in_one_box OK Lt) as (b & Lb & _ & I & _). exact (N b Lb (conj Lu I)).
    + rewrite !(proj2 (nth_error_None _ _)); [reflexivity|lia|rewrite ctb_length; lia].
  - right. reflexivity.
Qed.

Definition used_by (i : nat) : list nat := let z := nth i (skipn nc ttc) (-1)%Z in if (0 <=? z)%Z then [Z.to_nat z] else [].
Lemma pick_iff r : launch (pick_used junk (skipn nc ttc)) (length (skipn nc ttc)) (repeat false nc) r <-> r = center_is_used nc ttc.
Proof.
  assert (LU : length (center_is_used nc ttc) = nc).
  { unfold center_is_used. rewrite used_fold_length. apply repeat_length. }
  destruct HT as (Ln & Hnc & Hc & Ht).
  assert (LS : length (skipn nc ttc) = n - nc) by (rewrite skipn_length, Ln; reflexivity).
  assert (Val : forall i, i < n - nc -> nth i (skipn nc ttc) (-1)%Z = nth (nc + i) ttc 0%Z).
  { intros i Hi. rewrite nth_skipn. apply nth_indep. lia. }
  assert (Iff : forall x, x < nc -> (nth x (center_is_used nc ttc) false = true <-> exists i, i < n - nc /\ In x (used_by i))).
  { intros x Hx. rewrite (center_is_used_spec T HT Hx). split.
    - intros (u & Hu & Lu & Eu). exists (u - nc). split; [lia|]. unfold used_by. rewrite Val by lia. replace (nc + (u - nc)) with u by lia. rewrite Eu.
      destruct (Z.leb_spec 0 (Z.of_nat x)); [|lia]. left. apply Nat2Z.id.
    - intros (i & Hi & Ix). unfold used_by in Ix. rewrite Val in Ix by exact Hi. destruct (Z.leb_spec 0 (nth (nc + i) ttc 0%Z)); [|contradiction].
      destruct Ix as [Ix|[]]. exists (nc + i). split; [lia|]. split; [lia|]. rewrite <- Ix. rewrite Z2Nat.id; [reflexivity|assumption]. }
  rewrite LS. apply const_launch_iff with (v := fun _ => true) (ok := fun _ _ => True) (W := used_by).
  - intros i p k W Hi HW. unfold pick_used; cbn [k_body k_iname Block].
    apply WSeq, WLet, WSeq, WIf. rd.
    assert (E : int_at (skipn nc ttc) i = VInt (nth i (skipn nc ttc) (-1)%Z)).
    { unfold int_at. rewrite (@nth_error_nth' _ (skipn nc ttc) i (-1)%Z) by (rewrite LS; exact Hi). reflexivity. }
    rewrite E. unfold used_by. cbv zeta. destruct (0 <=? nth i (skipn nc ttc) (-1))%Z eqn:B.
    + cbn [app]. apply WStore with (a := fun p0 => Z.to_nat (int junk p0 "center")); [reflexivity|]. apply WSkip. apply HW.
    + apply WSkip. apply HW.
  - auto.
  - auto.
  - rewrite LU, repeat_length. reflexivity.
  - intros i x Hi Ix Lx. rewrite repeat_length in Lx. rewrite (@nth_error_nth' _ (center_is_used nc ttc) x false) by (rewrite LU; exact Lx).
    f_equal. apply Iff; eauto.
  - intros x N. destruct (Nat.ltb_spec x nc) as [Lx|Lx].
    + rewrite (@nth_error_nth' _ (center_is_used nc ttc) x false) by (rewrite LU; exact Lx). rewrite (@nth_error_nth' _ (repeat false nc) x false) by (rewrite repeat_length; exact Lx).
      rewrite nth_rep. f_equal. destruct (nth x (center_is_used nc ttc) false) eqn:B; [|reflexivity]. apply (Iff x Lx) in B. destruct B as (i & Hi & Ix). destruct (N i Hi Ix).
    + rewrite !(proj2 (nth_error_None _ _)); [reflexivity|rewrite repeat_length; lia|lia].
  - reflexivity.
Qed.
Lemma global_iff r : dev_global_centers junk nc ttc r <-> r = gc.
Proof.
  unfold dev_global_centers. split.
  - intros (used & L & ->). apply pick_iff in L. subst. reflexivity.
  - intros ->. exists (center_is_used nc ttc). split; [apply pick_iff; reflexivity|reflexivity].
Qed.
End Index.

Section Whole.
Variable junk : nat.
Variable T : ftree.
Variable V : ftrav.
Variable nc : nat.
Variable ttc : list Z.
Variable bs bt : boxes.
Variable nknl : nat.
Hypothesis OK : fmm_ok T V.
Hypothesis LO : levels_ok T V.
Hypothesis HT : ttc_ok nc (ft_ntgt T) ttc.
Hypothesis AO : arrays_ok T V bs bt.
Notation n := (ft_ntgt T).

Lemma nth_vrow w k t : k < nknl -> nth k (vrow T V nc ttc w nknl t) [None] = map Some (nth t (eval_qbx_expansions T V nc ttc w k) []).
Proof.
  intros Lk. unfold vrow. rewrite (@nth_map_d _ _ _ (seq 0 nknl) k 0 [None]) by (rewrite seq_length; exact Lk). rewrite seq_nth by exact Lk. reflexivity.
Qed.
Lemma reorder_eq w k : k < nknl -> dev_reorder T V nc ttc w (eval_final T V nc ttc w nknl) k = map (map Some) (reorder_potentials T V nc ttc w k).
Proof.
  intros Lk. unfold dev_reorder, reorder_potentials. rewrite map_map. apply map_ext. intros i.
  replace (repeat [] n) with (map (map (@Some contr)) (repeat [] n)) at 1 by (apply map_repeat_nil; reflexivity).
  rewrite scatter_map.
  replace (map (fun row => nth k row [None]) (eval_final T V nc ttc w nknl)) with (map (map (@Some contr)) (eval_qbx_expansions T V nc ttc w k)).
  - unfold add_pots, add_arrays. set (x := scatter _ _ _). generalize (eval_qbx_expansions T V nc ttc w k) as y. revert i. generalize x. clear.
    induction x as [|a x IH]; intros [|i] [|b y]; cbn; try reflexivity; [rewrite map_app; reflexivity|apply IH].
  - unfold eval_final. rewrite map_map. apply nth_ext with (d := []) (d' := []); [rewrite !map_length, eval_qbx_length, seq_length; reflexivity|].
    intros t Ht. rewrite map_length, eval_qbx_length in Ht.
    rewrite (@nth_map_d _ _ _ (seq 0 n) t 0 []) by (rewrite seq_length; exact Ht). rewrite seq_nth by exact Ht. rewrite nth_vrow by exact Lk. cbn [plus].
    rewrite (@nth_map_d _ _ (map Some) _ t [] []) by (rewrite eval_qbx_length; exact Ht). reflexivity.
Qed.
Lemma potentials_iff w out : length w = ft_nsrc T ->
  (dev_potentials junk T V nc ttc w bs nknl (center_to_target_box T V nc) (global_centers nc ttc) out
   <-> out = map (map (map Some)) (map (reorder_potentials T V nc ttc w) (seq 0 nknl))).
Proof.
  intros LW. assert (E : map (dev_reorder T V nc ttc w (eval_final T V nc ttc w nknl)) (seq 0 nknl) = map (map (map Some)) (map (reorder_potentials T V nc ttc w) (seq 0 nknl))).
  { rewrite map_map. apply map_ext_in. intros k I. apply in_seq in I. apply reorder_eq. lia. }
  unfold dev_potentials. split.
  - intros (f & m & l & q & F & M & L & Q & ->).
    apply (form_iff junk w OK HT AO LW) in F. apply (m2q_iff junk w OK LO HT LW) in M. apply (l2q_iff junk w OK LO HT LW) in L. subst f m l.
    apply (eval_iff junk w nknl OK HT LW) in Q. subst q. exact E.
  - intros ->. eexists _, _, _, _. split; [apply (form_iff junk w OK HT AO LW); reflexivity|]. split; [apply (m2q_iff junk w OK LO HT LW); reflexivity|].
    split; [apply (l2q_iff junk w OK LO HT LW); reflexivity|]. split; [apply (eval_iff junk w nknl OK HT LW); reflexivity|]. symmetry. exact E.
Qed.
Lemma drive_iff sw out : drive_dev junk T V nc ttc bs bt sw nknl out <-> out = map (map (map Some)) (drive_fmm T V nc ttc sw nknl).
Proof.
  unfold drive_dev, drive_fmm.
  assert (LW : length (map (fun u => nth u sw 0) (ft_user_src T)) = ft_nsrc T).
  { rewrite map_length, (Permutation_length (fo_user_src OK)). apply seq_length. }
  split.
  - intros (ctb & gc & C & G & P). apply (lookup_iff junk OK HT AO) in C; [|apply repeat_length]. apply (global_iff junk T HT) in G. subst ctb gc.
    apply (@potentials_iff _ out LW). exact P.
  - intros E. exists (center_to_target_box T V nc), (global_centers nc ttc). split; [apply (lookup_iff junk OK HT AO); [apply repeat_length|reflexivity]|].
    split; [apply (global_iff junk T HT); reflexivity|]. apply (@potentials_iff _ out LW). exact E.
Qed.
End Whole.
