From Coq Require Import QArith Permutation.
From Verif Require Import Base SymProofs SymProofs2 RefineModel AssocModel FmmModel FmmSpec FmmProofs FmmProofs2 FmlModel FmlSpec FmlProofs FmlProofs2.
Set Implicit Arguments.
Open Scope nat_scope.

Section Stages.
Variable T : ftree.
Variable V : ftrav.
Variable nc : nat.
Variable ttc : list Z.
Variable w : list nat.
Variable ti : tid.
Variable wr : wrangler.
Hypothesis OK : fmm_ok T V.
Hypothesis LO : levels_ok T V.
Hypothesis HT : ttc_ok nc (ft_ntgt T) ttc.
Notation gc := (gcenters nc ttc).

Lemma gc_lt c : In c gc -> c < nc.
Proof. unfold gcenters, global_centers. intros I. apply filter_In in I. destruct I as (I & _). apply in_seq in I. lia. Qed.
Lemma gc_NoDup : NoDup gc.
Proof. exact (global_centers_NoDup nc ttc). Qed.
Lemma gc_nil : length gc =? 0 = true -> gc = [].
Proof. intros E. apply Nat.eqb_eq in E. destruct gc; [reflexivity|discriminate]. Qed.

(** ** p2qbxl *)
Lemma fml_form_nth c : In c gc -> nth c (fml_form_global_qbx_locals T V nc ttc w ti) []
  = if using_tsqbx ti then [] else tagged (qbx_frame c) (near_parts T V w (nth c (center_to_target_box T V nc) 0)).
Proof.
  intros I. unfold fml_form_global_qbx_locals. destruct (using_tsqbx ti); [apply nth_rep|].
  destruct (length gc =? 0) eqn:E; [rewrite (gc_nil E) in I; contradiction|]. unfold formta.
  pose proof (@writes_some nat (list term) (fun c => Some (c, tagged (qbx_frame c) (flat_map (box_parts T w) (tr_near V (nth c (center_to_target_box T V nc) 0))))) gc c []
      (tagged (qbx_frame c) (flat_map (box_parts T w) (tr_near V (nth c (center_to_target_box T V nc) 0)))) (repeat [] nc)) as W.
  unfold write_step in W. apply W.
  - rewrite repeat_length. apply gc_lt. exact I.
  - intros x v J E'. injection E' as -> <-. reflexivity.
  - right. exists c. auto.
Qed.
Lemma set_fold_length A (f : nat -> A) l : forall a, length (fold_left (fun a c => set_nth a c (f c)) l a) = length a.
Proof. induction l as [|x l IH]; intros a; cbn; [reflexivity|]. rewrite IH. apply set_nth_length. Qed.
Lemma fml_form_length : length (fml_form_global_qbx_locals T V nc ttc w ti) = nc.
Proof.
  unfold fml_form_global_qbx_locals. destruct (using_tsqbx ti); [apply repeat_length|]. destruct (length gc =? 0); [apply repeat_length|].
  unfold formta. rewrite set_fold_length. apply repeat_length.
Qed.

(** ** m2qbxl *)
Lemma list3_cases lev c k : In lev (tr_smaller V) -> c < nc -> nth c (center_to_target_box T V nc) 0 = k -> k < length (tr_target_boxes V) ->
  (exists m, nth c (center_to_list3 T V nc lev) None = Some m /\ m < length (fst lev) /\ nth m (fst lev) 0 = k)
  \/ (nth c (center_to_list3 T V nc lev) None = None /\ ~ In k (fst lev)).
Proof.
  intros IL Hc Ek K. destruct (fo_smaller OK lev IL) as (ND & R). unfold center_to_list3.
  rewrite (@nth_map_d nat (option nat) _ (center_to_target_box T V nc) c 0 None) by (rewrite ctb_length; exact Hc). rewrite Ek.
  destruct (in_dec Nat.eq_dec k (fst lev)) as [I|N].
  - left. destruct (In_nth _ _ 0 I) as (m & M & Em). exists m. split; [|auto].
    rewrite <- Em. rewrite scatter_nth; [|exact ND|rewrite map_length; apply seq_length|exact M|rewrite repeat_length, Em; exact K].
    rewrite (@nth_map_d nat (option nat) Some (seq 0 (length (fst lev))) m 0 None) by (rewrite seq_length; exact M). rewrite seq_nth by exact M. reflexivity.
  - right. split; [|exact N]. rewrite scatter_other by exact N. apply nth_rep.
Qed.
(** The list-3 boxes of the center's target box, for one source level. *)
Definition boxes3 (lev : list nat * (nat -> list nat)) (c : nat) : list nat :=
  match nth c (center_to_list3 T V nc lev) None with Some m => snd lev m | None => [] end.
Definition lens (lev : list nat * (nat -> list nat)) : list nat := map (fun m => length (snd lev m)) (seq 0 (length (fst lev))).
Lemma ssn_lists_concat lev : ssn_lists lev = concat (map (snd lev) (seq 0 (length (fst lev)))).
Proof. apply flat_map_concat_map. Qed.
Lemma lens_pieces (lev : list nat * (nat -> list nat)) : lens lev = map (@length nat) (map (snd lev) (seq 0 (length (fst lev)))).
Proof. unfold lens. rewrite map_map. reflexivity. Qed.
Lemma lens_length lev : length (lens lev) = length (fst lev).
Proof. unfold lens. rewrite map_length. apply seq_length. Qed.
Definition cbox (lev : list nat * (nat -> list nat)) : list Z := map z_or (center_to_list3 T V nc lev).
Lemma cbox_nth lev c : nth c (cbox lev) (-1)%Z = z_or (nth c (center_to_list3 T V nc lev) None).
Proof. unfold cbox. change (-1)%Z with (z_or None). apply map_nth. Qed.
Lemma piece_ok lev c : In lev (tr_smaller V) -> c < nc ->
  np_slice (ssn_lists lev) (np_get (ssn_starts lev) (nth c (cbox lev) (-1)%Z)) (np_get (ssn_starts lev) (nth c (cbox lev) (-1)%Z + 1)) = boxes3 lev c
  /\ (if (nth c (cbox lev) (-1)%Z =? -1)%Z then 0 else np_get (ssn_starts lev) (nth c (cbox lev) (-1)%Z + 1) - np_get (ssn_starts lev) (nth c (cbox lev) (-1)%Z)) = length (boxes3 lev c).
Proof.
  intros IL Hc. destruct (ctb_spec OK HT Hc) as (k & K & Ek & _). rewrite cbox_nth. unfold boxes3.
  destruct (list3_cases lev IL Hc Ek K) as [(m & E & M & _)|(E & _)]; rewrite E; cbn [z_or].
  - assert (Z1 : (Z.of_nat m =? -1)%Z = false) by (apply Z.eqb_neq; lia). rewrite Z1.
    assert (G : forall i, i <= length (fst lev) -> np_get (ssn_starts lev) (Z.of_nat i) = sum (firstn i (lens lev))).
    { intros i Hi. unfold np_get. assert (Z2 : (Z.of_nat i <? 0)%Z = false) by (apply Z.ltb_ge; lia). rewrite Z2, Nat2Z.id. unfold ssn_starts. fold (lens lev).
      rewrite cumsum_nth by (rewrite lens_length; exact Hi). reflexivity. }
    replace (Z.of_nat m + 1)%Z with (Z.of_nat (S m)) by lia. rewrite !G by lia. split.
    + rewrite ssn_lists_concat, lens_pieces. rewrite slice_piece by (rewrite map_length, seq_length; exact M).
      rewrite (@nth_map_d _ _ (snd lev) (seq 0 (length (fst lev))) m 0 []) by (rewrite seq_length; exact M). rewrite seq_nth by exact M. reflexivity.
    + rewrite sum_firstn_S by (rewrite lens_length; exact M). assert (EL : nth m (lens lev) 0 = length (snd lev m)) by (unfold lens; rewrite (@nth_map_d _ _ (fun m => length (snd lev m)) (seq 0 (length (fst lev))) m 0 0) by (rewrite seq_length; exact M); rewrite seq_nth by exact M; reflexivity). lia.
  - rewrite Z.eqb_refl. split; [|reflexivity]. change (-1 + 1)%Z with 0%Z. unfold np_slice.
    assert (E0 : np_get (ssn_starts lev) 0 = 0). { unfold np_get. cbn. unfold ssn_starts. rewrite cumsum_nth by lia. reflexivity. }
    rewrite E0. reflexivity.
Qed.
Lemma counts_eq lev : In lev (tr_smaller V) -> src_box_counts nc ttc lev (cbox lev) = map (fun c => length (boxes3 lev c)) gc.
Proof. intros IL. unfold src_box_counts. apply map_ext_in. intros c I. apply (piece_ok lev IL (gc_lt c I)). Qed.
Lemma fill_eq lev : In lev (tr_smaller V) ->
  fill_src_ibox nc ttc lev (cbox lev) (cumsum 0 (map (fun c => length (boxes3 lev c)) gc)) (repeat 0 (sum (map (fun c => length (boxes3 lev c)) gc))) = Ok (flat_map (boxes3 lev) gc).
Proof.
  intros IL. unfold fill_src_ibox.
  transitivity (foldM (fun a '(i, c) => assign_slice a (nth i (cumsum 0 (map (fun c => length (boxes3 lev c)) gc)) 0) (nth (i + 1) (cumsum 0 (map (fun c => length (boxes3 lev c)) gc)) 0) (boxes3 lev c))
     (repeat 0 (sum (map (fun c => length (boxes3 lev c)) gc))) (combine (seq 0 (length gc)) gc)).
  - assert (G : forall (l : list (nat * nat)) f g (a : list nat), (forall a i c, In (i, c) l -> f a (i, c) = g a (i, c)) -> foldM f a l = foldM g a l).
    { intros l f g. induction l as [|[i c] l IH]; intros a H; cbn; [reflexivity|]. rewrite H by (left; reflexivity). destruct (g a (i, c)); cbn; [|reflexivity]. apply IH. intros; apply H; right; assumption. }
    apply G. intros a i c I. apply in_combine_r in I. destruct (piece_ok lev IL (gc_lt c I)) as (E & _). cbn zeta. rewrite E. reflexivity.
  - pose proof (@fill_slices nat 0 gc (boxes3 lev) (cumsum 0 (map (fun c => length (boxes3 lev c)) gc)) 0 []) as F. cbn [app] in F. apply F.
    + rewrite cumsum_nth by lia. reflexivity.
    + intros j Hj. cbn [plus]. replace (j + 1) with (S j) by lia. rewrite !cumsum_nth by (rewrite map_length; lia). rewrite sum_firstn_S by (rewrite map_length; exact Hj).
      rewrite (@nth_map_d _ _ (fun c => length (boxes3 lev c)) gc j 0 0) by exact Hj. lia.
Qed.
Lemma nth_seq_lt n i : i < n -> nth i (seq 0 n) 0 = i.
Proof. intros H. rewrite seq_nth by exact H. reflexivity. Qed.
Lemma m2qbxl_level_ok a l lev : nth_error (tr_smaller V) l = Some lev -> length a = nc ->
  m2qbxl_level T V nc ttc w a l lev = Ok (fancy_add a gc (map (fun c => tagged (qbx_frame c) (flat_map (mpole T w) (boxes3 lev c))) gc)).
Proof.
  intros NE La. assert (IL := nth_error_In _ _ NE). unfold m2qbxl_level. cbv zeta. fold (cbox lev). rewrite (counts_eq lev IL), fold_plus. cbn [plus].
  rewrite (fill_eq lev IL). cbn [bind]. f_equal. f_equal.
  set (lns := map (fun c => length (boxes3 lev c)) gc). set (N := sum lns).
  unfold mploc_imany. rewrite repeat_length. rewrite <- (map_nth_seq (fun c => tagged (qbx_frame c) (flat_map (mpole T w) (boxes3 lev c))) gc 0).
  apply map_ext_in. intros i I. apply in_seq in I. destruct I as (_ & Hi). cbn [plus] in Hi. rewrite nth_rep. cbn [app].
  set (c := nth i gc 0). assert (Ic : In c gc) by (apply nth_In; exact Hi).
  assert (Li : length lns = length gc) by apply map_length.
  assert (Ni : nth i lns 0 = length (boxes3 lev c)) by (unfold lns; rewrite (@nth_map_d _ _ (fun c => length (boxes3 lev c)) gc i 0 0) by exact Hi; reflexivity).
  replace (i + 1) with (S i) by lia. rewrite !cumsum_nth by lia. cbn [plus].
  replace (sum (firstn (S i) lns) - sum (firstn i lns)) with (length (boxes3 lev c)) by (rewrite sum_firstn_S by lia; lia).
  rewrite (@nth_map_d _ _ AtCenter gc i 0 (AtBox 0)) by exact Hi. rewrite (@nth_map_d _ _ Radius gc i 0 (LevelScale 0)) by exact Hi. fold c. fold (qbx_frame c).
  rewrite <- tagged_flat, <- (flat_map_nth_seq (fun b => tagged (qbx_frame c) (mpole T w b)) (boxes3 lev c) 0).
  apply flat_map_ext'. intros q Q. apply in_seq in Q. destruct Q as (_ & Q). cbn [plus] in Q.
  assert (LT : sum (firstn i lns) + q < N).
  { assert (X : sum (firstn (S i) lns) <= N). { unfold N. rewrite <- (firstn_skipn (S i) lns) at 2. rewrite sum_app. lia. } rewrite sum_firstn_S in X by lia. lia. }
  assert (Nb : nth (sum (firstn i lns) + q) (flat_map (boxes3 lev) gc) 0 = nth q (boxes3 lev c) 0).
  { rewrite flat_map_concat_map.
    assert (E1 : lns = map (@length nat) (map (boxes3 lev) gc)) by (unfold lns; rewrite map_map; reflexivity). rewrite E1.
    assert (E2 : nth i (map (boxes3 lev) gc) [] = boxes3 lev c) by (rewrite (@nth_map_d _ _ (boxes3 lev) gc i 0 []) by exact Hi; reflexivity).
    rewrite nth_concat_piece by (rewrite ?map_length, ?E2; assumption). rewrite E2. reflexivity. }
  assert (Ln : length (flat_map (boxes3 lev) gc) = N).
  { rewrite flat_map_concat_map, concat_length, map_map. reflexivity. }
  rewrite (@nth_map_d _ _ (fun b => (Z.of_nat b - Z.of_nat (fst (level_range T l)))%Z) (flat_map (boxes3 lev) gc) _ 0 (-1)%Z) by (rewrite Ln; exact LT).
  rewrite Nb, nth_seq_lt by exact LT. rewrite nth_indep with (d' := LevelScale l) by (rewrite repeat_length; exact LT). rewrite nth_rep.
  set (b := nth q (boxes3 lev c) 0). assert (Ib : In b (boxes3 lev c)) by (apply nth_In; exact Q).
  assert (OL : on_level T l b).
  { unfold boxes3 in Ib. destruct (ctb_spec OK HT (gc_lt c Ic)) as (k & K & Ek & _).
    destruct (list3_cases lev IL (gc_lt c Ic) Ek K) as [(m & E & M & _)|(E & _)]; rewrite E in Ib; [|contradiction]. eapply (lo_smaller LO); [exact NE|exact M|exact Ib]. }
  rewrite (view_ok _ OL). unfold box_mpole.
  assert (EF : Frame (AtBox b) (LevelScale l) (LevelOrder l) = box_frame T b) by (unfold box_frame; rewrite (level_of_ok OK LO OL); reflexivity).
  rewrite EF. apply translate_tagged.
Qed.
Lemma foldM_levels levels : forall l0 a, length a = nc -> (forall j lev, nth_error levels j = Some lev -> nth_error (tr_smaller V) (l0 + j) = Some lev) ->
  exists r, foldM (fun a '(l, lev) => m2qbxl_level T V nc ttc w a l lev) a (combine (seq l0 (length levels)) levels) = Ok r /\ length r = nc
  /\ forall c, In c gc -> nth c r [] = nth c a [] ++ flat_map (fun lev => tagged (qbx_frame c) (flat_map (mpole T w) (boxes3 lev c))) levels.
Proof.
  induction levels as [|lev levels IH]; intros l0 a La H; cbn [length seq combine foldM].
  - exists a. repeat split; auto. intros c _. cbn. symmetry. apply app_nil_r.
  - assert (N0 := H 0 lev eq_refl). rewrite Nat.add_0_r in N0. rewrite (@m2qbxl_level_ok a l0 lev N0 La). cbn [bind].
    set (a1 := fancy_add a gc _).
    assert (L1 : length a1 = nc) by (unfold a1; rewrite fancy_add_length; exact La).
    destruct (IH (S l0) a1 L1) as (r & E & Lr & Nr).
    { intros j lev' NE. replace (S l0 + j) with (l0 + S j) by lia. apply H. exact NE. }
    exists r. split; [exact E|]. split; [exact Lr|]. intros c I. rewrite (Nr c I). cbn [flat_map]. rewrite app_assoc. f_equal.
    unfold a1. rewrite (@fancy_add_map term a gc (fun c => tagged (qbx_frame c) (flat_map (mpole T w) (boxes3 lev c))) c gc_NoDup) by (intros x J; rewrite La; apply gc_lt; exact J).
    assert (X : existsb (Nat.eqb c) gc = true) by (apply existsb_exists; exists c; split; [exact I|apply Nat.eqb_refl]). rewrite X. reflexivity.
Qed.
Lemma fml_m2qbxl_ok : exists r, fml_m2qbxl T V nc ttc w = Ok r /\ length r = nc
  /\ forall c, In c gc -> nth c r [] = tagged (qbx_frame c) (smaller_parts T V w (nth c (center_to_target_box T V nc) 0)).
Proof.
  unfold fml_m2qbxl. destruct (length gc =? 0) eqn:E.
  - exists (qbx_zeros nc). split; [reflexivity|]. split; [apply repeat_length|]. rewrite (gc_nil E). intros c [].
  - destruct (foldM_levels (tr_smaller V) 0 (repeat [] nc) (repeat_length _ _)) as (r & E' & L & N); [intros j lev H; exact H|].
    exists r. split; [exact E'|]. split; [exact L|]. intros c I. rewrite (N c I), nth_rep. cbn [app]. rewrite tagged_flat. f_equal. unfold smaller_parts.
    apply flat_map_ext'. intros lev IL. destruct (ctb_spec OK HT (gc_lt c I)) as (k & K & Ek & _). rewrite Ek.
    rewrite <- (list3_nth OK w lev IL (gc_lt c I) Ek K). unfold boxes3. destruct (nth c (center_to_list3 T V nc lev) None); reflexivity.
Qed.

(** ** l2qbxl *)
Lemma center_to_box_nth c : c < nc -> nth c (center_to_box T V nc) 0 = nth (nth c (center_to_target_box T V nc) 0) (tr_target_boxes V) 0.
Proof. intros H. unfold center_to_box. rewrite (@nth_map_d _ _ _ (center_to_target_box T V nc) c 0 0) by (rewrite ctb_length; exact H). reflexivity. Qed.
Lemma is_global_iff c : c < nc -> (is_global nc ttc c = true <-> In c gc).
Proof.
  intros Hc. unfold is_global. split.
  - intros H. destruct (in_dec Nat.eq_dec c gc) as [I|N]; [exact I|]. rewrite scatter_other in H by exact N. rewrite nth_rep in H. discriminate.
  - intros I. destruct (In_nth _ _ 0 I) as (k & K & Ek). rewrite <- Ek. rewrite scatter_nth; [|exact gc_NoDup|apply repeat_length|exact K|rewrite repeat_length, Ek; exact Hc].
    rewrite nth_indep with (d' := true) by (rewrite repeat_length; exact K). apply nth_rep.
Qed.
Lemma level_centers_iff l c : l < length (ft_levels T) -> (In c (level_centers T V nc ttc l) <-> In c gc /\ on_level T l (nth c (center_to_box T V nc) 0)).
Proof.
  intros L. unfold level_centers. rewrite filter_In, in_seq. rewrite <- andb_assoc, andb_true_iff, <- (on_level_iff T _ L). split.
  - intros (H & G & O). split; [|exact O]. apply is_global_iff; [lia|exact G].
  - intros (I & O). assert (c < nc) by (apply gc_lt; exact I). split; [lia|]. split; [apply is_global_iff; assumption|exact O].
Qed.
Lemma level_centers_NoDup l : NoDup (level_centers T V nc ttc l).
Proof. apply NoDup_filter. apply seq_NoDup. Qed.
Lemma target_box_lt c : c < nc -> nth c (center_to_box T V nc) 0 < ft_nboxes T.
Proof.
  intros Hc. destruct (ctb_spec OK HT Hc) as (k & K & Ek & _). rewrite (center_to_box_nth Hc), Ek. apply (proj2 (fo_target_boxes OK)). apply nth_In. exact K.
Qed.
Lemma l2qbxl_level_ok a l : l < length (ft_levels T) -> length a = nc ->
  l2qbxl_level T V nc ttc w a l = fancy_add a (level_centers T V nc ttc l)
    (map (fun c => tagged (qbx_frame c) (locals T V w (nth c (center_to_box T V nc) 0))) (level_centers T V nc ttc l)).
Proof.
  intros L La. unfold l2qbxl_level. cbv zeta. destruct (length (level_centers T V nc ttc l) =? 0) eqn:E.
  - apply Nat.eqb_eq in E. destruct (level_centers T V nc ttc l); [reflexivity|discriminate].
  - f_equal. apply map_ext_in. intros c I. apply (level_centers_iff c L) in I. destruct I as (I & O).
    rewrite (rscale_nth OK LO (target_box_lt (gc_lt c I))). rewrite (view_ok _ O). unfold box_local.
    assert (EF : Frame (AtBox (nth c (center_to_box T V nc) 0)) (LevelScale (level_of T (nth c (center_to_box T V nc) 0))) (LevelOrder l) = box_frame T (nth c (center_to_box T V nc) 0)).
    { unfold box_frame. rewrite (level_of_ok OK LO O). reflexivity. }
    rewrite EF. apply translate_tagged.
Qed.
Lemma fold_l2q ls : (forall l, In l ls -> l < length (ft_levels T)) -> forall a, length a = nc ->
  let r := fold_left (l2qbxl_level T V nc ttc w) ls a in
  length r = nc /\ forall c, nth c r [] = nth c a [] ++ flat_map (fun l => if existsb (Nat.eqb c) (level_centers T V nc ttc l)
      then tagged (qbx_frame c) (locals T V w (nth c (center_to_box T V nc) 0)) else []) ls.
Proof.
  induction ls as [|l ls IH]; intros HL a La; cbn zeta; cbn [fold_left flat_map].
  - split; [exact La|]. intros c. symmetry. apply app_nil_r.
  - assert (L : l < length (ft_levels T)) by (apply HL; left; reflexivity). rewrite (l2qbxl_level_ok a L La).
    destruct (IH ltac:(intros x I; apply HL; right; exact I) (fancy_add a (level_centers T V nc ttc l)
       (map (fun c => tagged (qbx_frame c) (locals T V w (nth c (center_to_box T V nc) 0))) (level_centers T V nc ttc l))) ltac:(rewrite fancy_add_length; exact La)) as (Lr & Nr).
    split; [exact Lr|]. intros c. rewrite Nr, app_assoc. f_equal.
    apply (@fancy_add_map term a (level_centers T V nc ttc l) (fun c => tagged (qbx_frame c) (locals T V w (nth c (center_to_box T V nc) 0))) c (level_centers_NoDup l)).
    intros x I. apply (level_centers_iff x L) in I. rewrite La. apply gc_lt. apply I.
Qed.
Lemma fml_l2qbxl_ok : length (fml_l2qbxl T V nc ttc w) = nc
  /\ forall c, In c gc -> nth c (fml_l2qbxl T V nc ttc w) [] = tagged (qbx_frame c) (locals T V w (nth (nth c (center_to_target_box T V nc) 0) (tr_target_boxes V) 0)).
Proof.
  unfold fml_l2qbxl. destruct (length gc =? 0) eqn:E.
  - split; [apply repeat_length|]. rewrite (gc_nil E). intros c [].
  - destruct (fold_l2q (seq 0 (length (ft_levels T))) ltac:(intros x I; apply in_seq in I; lia) (repeat [] nc) (repeat_length _ _)) as (L & N).
    split; [exact L|]. intros c I. unfold qbx_zeros. rewrite N, nth_rep. cbn [app]. assert (Hc := gc_lt c I). rewrite <- (center_to_box_nth Hc).
    destruct (some_level OK LO (target_box_lt Hc)) as (l & O & Ll & U). rewrite flat_map_single with (k := l).
    + assert (X : existsb (Nat.eqb c) (level_centers T V nc ttc l) = true).
      { apply existsb_exists. exists c. split; [apply (level_centers_iff c Ll); auto|apply Nat.eqb_refl]. }
      rewrite X. reflexivity.
    + exact Ll.
    + intros j J NJ. destruct (existsb (Nat.eqb c) (level_centers T V nc ttc j)) eqn:X; [|reflexivity]. exfalso. apply existsb_exists in X. destruct X as (x & Ix & Ex).
      apply Nat.eqb_eq in Ex. subst x. apply (level_centers_iff c J) in Ix. apply NJ. apply U. apply Ix.
Qed.
Lemma add_exps_nth a b c : length a = nc -> length b = nc -> c < nc -> nth c (add_exps a b) [] = nth c a [] ++ nth c b [].
Proof.
  intros A B H. unfold add_exps. rewrite (@nth_map_d _ _ _ (combine a b) c ([], []) []) by (rewrite combine_length; lia). rewrite combine_nth by lia. reflexivity.
Qed.
Lemma add_exps_length a b : length a = nc -> length b = nc -> length (add_exps a b) = nc.
Proof. intros A B. unfold add_exps. rewrite map_length, combine_length. lia. Qed.
End Stages.
