From Coq Require Import QArith Permutation.
From Verif Require Import Base RefineModel AssocModel FmmModel FmmSpec FmmProofs FmmProofs2 FmlModel FmlSpec FmlProofs2 FmlProofs3 FmlProofs4 KrnModel KrnSpec KrnProofs.
Set Implicit Arguments.
Open Scope string_scope. Open Scope list_scope. Open Scope nat_scope.

(** ** Weakest preconditions *)
Definition wp R (S : nat -> Prop) (c : cmd R) (p : env) (m : list R) (Post : env -> list R -> Prop) : Prop :=
  exists p' m', exs S [c] p m p' m' /\ Post p' m'.
Section Wp.
Variable R : Type.
Variable S : nat -> Prop.
Implicit Types (p : env) (m : list R) (Post : env -> list R -> Prop).
Lemma wp_skip p m Post : Post p m -> wp S Skip p m Post.
Proof. intros H. exists p, m. split; [do 2 constructor|exact H]. Qed.
Lemma wp_let x e p m Post : Post (assign_var p x (e p)) m -> wp S (Let x e) p m Post.
Proof. intros H. eexists. eexists. split; [do 2 constructor|exact H]. Qed.
Lemma wp_load x a e p m Post : S (a p) -> Post (assign_var p x (e (nth_error m (a p)))) m -> wp S (Load x a e) p m Post.
Proof. intros Sa H. eexists. eexists. split; [constructor; [exact Sa|constructor]|exact H]. Qed.
Lemma wp_store a f p m Post : S (a p) -> Post p (write_cell m (a p) (f p)) -> wp S (Store a f) p m Post.
Proof. intros Sa H. eexists. eexists. split; [constructor; [exact Sa|constructor]|exact H]. Qed.
Lemma wp_seq c1 c2 p m Post : wp S c1 p m (fun p1 m1 => wp S c2 p1 m1 Post) -> wp S (Seq c1 c2) p m Post.
Proof.
  intros (p1 & m1 & E1 & p2 & m2 & E2 & H). exists p2, m2. split; [|exact H]. constructor. eapply exs_cons; eassumption.
Qed.
Lemma wl x v (e : env -> value) c2 p m Post : e p = v -> wp S c2 (assign_var p x v) m Post -> wp S (Seq (Let x e) c2) p m Post.
Proof. intros <- H. apply wp_seq. apply wp_let. exact H. Qed.
Lemma wp_if (t : env -> bool) c p m Post : (t p = true -> wp S c p m Post) -> (t p = false -> Post p m) -> wp S (If t c) p m Post.
Proof.
  intros A B. destruct (t p) eqn:E.
  - destruct (A eq_refl) as (p' & m' & X & H). exists p', m'. split; [|exact H]. constructor. rewrite E. exact X.
  - exists p, m. split; [|apply B; reflexivity]. constructor. rewrite E. constructor.
Qed.
Lemma wp_for x (lo hi : env -> nat) c p m (I : nat -> env -> list R -> Prop) Post :
  lo p <= hi p -> I (lo p) p m ->
  (forall k p1 m1, lo p <= k < hi p -> I k p1 m1 -> wp S c (assign_var p1 x (VNum k)) m1 (I (Datatypes.S k))) ->
  (forall p1 m1, I (hi p) p1 m1 -> Post p1 m1) ->
  wp S (For x lo hi c) p m Post.
Proof.
  intros L I0 St H. destruct (@exs_for R S x lo hi c I p m L I0 St) as (p' & m' & E & X). exists p', m'. split; [exact E|apply H; exact X].
Qed.
End Wp.

(** ** CSR lists *)
Lemma csr_start rows k : k <= length rows -> nth_error (csr_starts rows) k = Some (sum (map (@length nat) (firstn k rows))).
Proof.
  intros L. unfold csr_starts. rewrite (@nth_error_nth' nat _ k 0) by (rewrite cumsum_length, map_length; lia).
  rewrite cumsum_nth by (rewrite map_length; lia). rewrite firstn_map. reflexivity.
Qed.
Lemma csr_row rows k : k < length rows -> exists s, nth_error (csr_starts rows) k = Some s
  /\ nth_error (csr_starts rows) (k + 1) = Some (s + length (nth k rows []))
  /\ forall j, j < length (nth k rows []) -> nth_error (csr_lists rows) (s + j) = Some (nth j (nth k rows []) 0).
Proof.
  intros L. exists (sum (map (@length nat) (firstn k rows))). split; [apply csr_start; lia|]. split.
  - rewrite csr_start by lia. f_equal. rewrite <- !firstn_map, Nat.add_1_r. rewrite sum_firstn_S by (rewrite map_length; lia).
    rewrite (@nth_map_d _ _ (@length nat) rows k [] 0) by exact L. reflexivity.
  - intros j Hj. pose proof (@nth_concat_piece nat rows k j 0 L Hj) as P. rewrite <- P. unfold csr_lists. 
    rewrite <- firstn_map.
    apply nth_error_nth'. rewrite concat_length.
    assert (H : sum (firstn (S k) (map (@length nat) rows)) = sum (firstn k (map (@length nat) rows)) + length (nth k rows [])).
    { rewrite sum_firstn_S by (rewrite map_length; lia). rewrite (@nth_map_d _ _ (@length nat) rows k [] 0) by exact L. reflexivity. }
    assert (Q : sum (map (@length nat) rows) = sum (firstn (S k) (map (@length nat) rows)) + sum (skipn (S k) (map (@length nat) rows))).
    { rewrite <- sum_app, firstn_skipn. reflexivity. }
    lia.
Qed.
Lemma flat_firstn_S A (f : nat -> list A) row j : j < length row -> flat_map f (firstn (S j) row) = flat_map f (firstn j row) ++ f (nth j row 0).
Proof.
  revert j; induction row as [|x row IH]; intros [|j] L; cbn in *; try lia.
  - rewrite app_nil_r. reflexivity.
  - change (match row with [] => [] | _ :: _ => _ end) with (firstn (S j) row) || idtac.
    rewrite <- app_assoc. f_equal. apply IH. lia.
Qed.

(** Reading private variables. *)
Ltac rd := cbv [num int pla sca exn_ pots assign_var]; cbn [String.eqb Ascii.eqb Bool.eqb andb].
Ltac rdin H := cbv [num int pla sca exn_ pots assign_var] in H; cbn [String.eqb Ascii.eqb Bool.eqb andb] in H.
Lemma map_seq_error A (f : nat -> A) n i : i < n -> nth_error (map f (seq 0 n)) i = Some (f i).
Proof. intros L. rewrite nth_error_map, (@nth_error_nth' nat _ i 0) by (rewrite seq_length; exact L). rewrite seq_nth by exact L. reflexivity. Qed.
Lemma num_at_eq l i n : nth_error l i = Some n -> num_at l i = VNum n.
Proof. intros E. unfold num_at. rewrite E. reflexivity. Qed.

Section Kernels.
Variable junk : nat.
Variable T : ftree.
Variable V : ftrav.
Variable nc : nat.
Variable ttc : list Z.
Variable w : list nat.
Variable bs bt : boxes.
Hypothesis OK : fmm_ok T V.
Hypothesis LO : levels_ok T V.
Hypothesis HT : ttc_ok nc (ft_ntgt T) ttc.
Hypothesis AO : arrays_ok T V bs bt.
Hypothesis LW : length w = ft_nsrc T.
Notation gc := (global_centers nc ttc).
Notation ctb := (center_to_target_box T V nc).
Notation "'Nn' x" := (num junk x) (at level 10, only parsing).

Definition is_gc (c : nat) : bool := existsb (Nat.eqb c) gc.
Lemma is_gc_iff c : is_gc c = true <-> In c gc.
Proof. unfold is_gc. rewrite existsb_exists. split; [intros (x & I & E); apply Nat.eqb_eq in E; subst; exact I|intros I; exists c; split; [exact I|apply Nat.eqb_refl]]. Qed.
Lemma kgc_lt c : In c gc -> c < nc.
Proof. apply gc_lt. Qed.
Lemma gc_item i : i < length gc -> nth_error gc i = Some (nth i gc 0) /\ In (nth i gc 0) gc /\ nth i gc 0 < nc.
Proof. intros L. split; [apply nth_error_nth'; exact L|]. pose proof (nth_In gc 0 L) as I. split; [exact I|apply kgc_lt; exact I]. Qed.
Lemma gc_inj i j : i < length gc -> j < length gc -> nth i gc 0 = nth j gc 0 -> i = j.
Proof. apply NoDup_nth_inj. apply global_centers_NoDup. Qed.

(** *** P2QBXL *)
Definition form_final : list (list term) := map (fun c => if is_gc c then tagged (qbx_frame c) (near_parts T V w (nth c ctb 0)) else []) (seq 0 nc).
Notation p2q := (p2qbxl junk QbxOrder (src_points T) w gc ctb (flat_centers nc) (flat_expansion_radii nc)
            (csr_starts (near_rows V)) (csr_lists (near_rows V)) bs).
Lemma near_row k : k < length (tr_target_boxes V) -> nth k (near_rows V) [] = tr_near V k.
Proof. intros L. unfold near_rows. rewrite (@nth_map_d nat _ (tr_near V) _ k 0 []) by (rewrite seq_length; exact L). rewrite seq_nth by exact L. reflexivity. Qed.
Lemma part_tag (f : frame) j : j < ft_nsrc T -> exists s u, nth_error (src_points T) j = Some u /\ nth_error w j = Some s /\ Some ((s, u), f) = Some (part T w j, f).
Proof.
  intros L. exists (nth j w 0), (ft_src_pt T j). split; [apply map_seq_error; exact L|]. split; [apply nth_error_nth'; lia|reflexivity].
Qed.
Lemma p2q_item i p : i < length gc -> wp (eq (nth i gc 0)) (k_body p2q) (assign_var p (k_iname p2q) (VNum i)) (expansion_zeros nc)
  (fun _ m' => forall x, nth i gc 0 = x -> nth_error m' x = nth_error form_final x).
Proof.
  intros L. destruct (gc_item L) as (Ei & I & Lc). set (c := nth i gc 0) in *.
  destruct (ctb_spec OK HT Lc) as (k & Lk & Ek & _).
  assert (Ek' : nth_error ctb c = Some k) by (rewrite <- Ek; apply nth_error_nth'; rewrite ctb_length; exact Lc).
  destruct (@csr_row (near_rows V) k) as (s & Es & Es1 & El); [unfold near_rows; rewrite map_length, seq_length; exact Lk|].
  rewrite (near_row Lk) in Es1, El.
  unfold p2qbxl; cbn [k_body k_iname Block].
  apply wl with (v := VNum c); [rd; apply num_at_eq; exact Ei|].
  apply wl with (v := VPlace (AtCenter c)); [rd; unfold flat_centers; rewrite map_seq_error by exact Lc; reflexivity|].
  apply wl with (v := VScale (Radius c)); [rd; unfold flat_expansion_radii; rewrite map_seq_error by exact Lc; reflexivity|].
  apply wl with (v := VNum k); [rd; apply num_at_eq; exact Ek'|].
  apply wl with (v := VNum s); [rd; apply num_at_eq; exact Es|].
  apply wl with (v := VNum (s + length (tr_near V k))); [rd; apply num_at_eq; exact Es1|].
  apply wl with (v := VExpn []); [reflexivity|].
  apply wp_seq.
  set (F := Frame (AtCenter c) (Radius c) QbxOrder).
  eapply wp_for with (I := fun q p1 m1 => m1 = expansion_zeros nc /\ p1 "tgt_icenter" = VNum c /\ p1 "center" = VPlace (AtCenter c) /\ p1 "rscale" = VScale (Radius c)
    /\ p1 "coeffs" = VExpn (tagged F (flat_map (box_parts T w) (firstn (q - s) (tr_near V k))))).
  - rd. lia.
  - rd. rewrite Nat.sub_diag. repeat split.
  - rd. intros q p1 m1 Hq (-> & P1 & P2 & P3 & P4).
    set (b := nth (q - s) (tr_near V k) 0).
    assert (Lb : b < ft_nboxes T) by (apply (ao_near AO) with (k := k); [exact Lk|apply nth_In; lia]).
    destruct (ao_src AO Lb) as (a & n & Ea & En & Eb).
    apply wl with (v := VNum b); [rd; apply num_at_eq; replace q with (s + (q - s)) by lia; apply El; lia|].
    apply wl with (v := VNum a); [rd; apply num_at_eq; exact Ea|].
    apply wl with (v := VNum n); [rd; apply num_at_eq; exact En|].
    apply wl with (v := VNum (a + n)); [reflexivity|].
    apply wp_seq. set (E0 := tagged F (flat_map (box_parts T w) (firstn (q - s) (tr_near V k)))).
    eapply wp_for with (I := fun j p1 m1 => m1 = expansion_zeros nc /\ p1 "tgt_icenter" = VNum c /\ p1 "center" = VPlace (AtCenter c) /\ p1 "rscale" = VScale (Radius c)
      /\ p1 "coeffs" = VExpn (E0 ++ tagged F (map (part T w) (seq a (j - a))))).
    + rd. lia.
    + rd. rewrite Nat.sub_diag. cbn [seq map tagged]. rewrite app_nil_r. repeat split; assumption.
    + rd. intros j p2 m2 Hj (-> & Q1 & Q2 & Q3 & Q4).
      assert (Lj : j < ft_nsrc T). { apply (ao_src_range AO) with (b := b); [exact Lb|]. rewrite Eb. apply in_seq. lia. }
      destruct (@part_tag F j Lj) as (str & src & E1 & E2 & E3).
      apply wl with (v := VNum src); [rd; apply num_at_eq; exact E1|].
      apply wl with (v := VNum str); [rd; apply num_at_eq; exact E2|].
      eapply wl; [reflexivity|]. apply wp_skip. rd. rewrite Q1, Q2, Q3, Q4. repeat split.
      f_equal. rewrite <- app_assoc. f_equal. replace (S j - a) with (S (j - a)) by lia. rewrite seq_S, map_app. unfold tagged. rewrite map_app. f_equal.
      cbn [map]. replace (a + (j - a)) with j by lia. rewrite <- E3. reflexivity.
    + rd. intros p2 m2 (-> & Q1 & Q2 & Q3 & Q4). apply wp_skip. repeat split; try assumption. rewrite Q4. f_equal. unfold E0.
      replace (S q - s) with (S (q - s)) by lia. rewrite flat_firstn_S by lia. unfold tagged. rewrite map_app. f_equal. fold b.
      unfold box_parts. rewrite Eb. replace (a + n - a) with n by lia. reflexivity.
  - rd. intros p1 m1 (-> & P1 & P2 & P3 & P4). apply wp_seq. apply wp_store.
    + unfold num. rewrite P1. reflexivity.
    + apply wp_skip. intros x <-. unfold num, exn_. rewrite P1, P4. rewrite write_cell_nth, Nat.eqb_refl. unfold expansion_zeros.
      rewrite (@nth_error_nth' _ (repeat [] nc) c []) by (rewrite repeat_length; exact Lc). cbn [option_map].
      unfold form_final. rewrite map_seq_error by exact Lc. rewrite (proj2 (is_gc_iff c) I). f_equal. unfold qbx_frame, F. f_equal.
      rewrite Ek. unfold near_parts. f_equal. replace (s + length (tr_near V k) - s) with (length (tr_near V k)) by lia. apply firstn_all.
Qed.
Lemma form_iff r : dev_form junk T V nc w bs ctb gc r <-> r = form_final.
Proof.
  unfold dev_form. destruct (length gc =? 0) eqn:E.
  - apply Nat.eqb_eq in E. assert (Z : form_final = expansion_zeros nc).
    { unfold form_final, expansion_zeros. apply nth_ext with (d := []) (d' := []); [rewrite map_length, seq_length, repeat_length; reflexivity|].
      intros c Hc. rewrite map_length, seq_length in Hc. rewrite (@nth_map_d _ _ _ (seq 0 nc) c 0 []) by (rewrite seq_length; exact Hc). rewrite nth_rep.
      unfold is_gc. destruct gc; [reflexivity|discriminate]. }
    rewrite Z. reflexivity.
  - apply Nat.eqb_neq in E. apply launch_iff with (cells := fun i x => nth i gc 0 = x).
    + intros i j x Hi Hj A B. apply gc_inj; congruence.
    + intros i x. apply Nat.eq_dec.
    + unfold form_final, expansion_zeros. rewrite map_length, seq_length, repeat_length. reflexivity.
    + intros i p Hi. exact (p2q_item p Hi).
    + intros x N. unfold form_final, expansion_zeros. destruct (Nat.ltb_spec x nc) as [Hx|Hx].
      * rewrite map_seq_error by exact Hx. rewrite (@nth_error_nth' _ (repeat [] nc) x []) by (rewrite repeat_length; exact Hx). rewrite nth_rep.
        destruct (is_gc x) eqn:G; [|reflexivity]. apply is_gc_iff in G. destruct (In_nth _ _ 0 G) as (i & Li & Ei). destruct (N i Li Ei).
      * rewrite !(proj2 (nth_error_None _ _)); [reflexivity|rewrite repeat_length; lia|rewrite map_length, seq_length; lia].
    + left. lia.
Qed.

(** *** M2QBXL *)
Definition boxes_of (lev : list nat * (nat -> list nat)) (c : nat) : list nat :=
  match nth c (center_to_list3 T V nc lev) None with Some m => snd lev m | None => [] end.
Lemma source_level_eq lev : center_to_source_level V ctb lev = map z_or (center_to_list3 T V nc lev).
Proof.
  unfold center_to_source_level, center_to_list3. rewrite map_map. apply map_ext. intros k.
  replace (repeat (-1)%Z (length (tr_target_boxes V))) with (map z_or (repeat None (length (tr_target_boxes V)))).
  - replace (map Z.of_nat (seq 0 (length (fst lev)))) with (map z_or (map Some (seq 0 (length (fst lev))))) by (rewrite map_map; reflexivity).
    rewrite scatter_map. exact (map_nth z_or _ None k).
  - induction (length (tr_target_boxes V)) as [|n IH]; [reflexivity|]. cbn. rewrite IH. reflexivity.
Qed.
Definition m2q_final (lev : list nat * (nat -> list nat)) (a : list (list term)) : list (list term) :=
  map (fun c => nth c a [] ++ tagged (qbx_frame c) (flat_map (mpole T w) (boxes_of lev c))) (seq 0 nc).
Lemma box_tag (f : nat -> list (nat * nat)) l b c : on_level T l b ->
  translate (Frame (AtBox b) (LevelScale l) (LevelOrder l)) (Frame (AtCenter c) (Radius c) QbxOrder) (tagged (box_frame T b) (f b)) = tagged (qbx_frame c) (f b).
Proof. intros OL. unfold box_frame. rewrite (level_of_ok OK LO OL). apply translate_tagged. Qed.

Section Level.
Variable l : nat.
Variable lev : list nat * (nat -> list nat).
Hypothesis El : nth_error (tr_smaller V) l = Some lev.
Variable a : list (list term).
Hypothesis La : length a = nc.
Notation knl := (m2qbxl_knl junk (LevelOrder l) QbxOrder (center_to_source_level V ctb lev) (box_centers T) (LevelScale l)
            (csr_starts (level_rows lev)) (csr_lists (level_rows lev)) (flat_centers nc) (flat_expansion_radii nc)
            (fst (level_range T l)) (view T (box_mpole T w) l)).
Lemma m2q_item c p : c < nc -> wp (eq c) (k_body knl) (assign_var p (k_iname knl) (VNum c)) a
  (fun _ m' => forall x, c = x -> nth_error m' x = nth_error (m2q_final lev a) x).
Proof.
  intros Lc. unfold m2qbxl_knl; cbn [k_body k_iname Block].
  assert (Fin : nth_error (m2q_final lev a) c = Some (nth c a [] ++ tagged (qbx_frame c) (flat_map (mpole T w) (boxes_of lev c)))).
  { unfold m2q_final. apply (map_seq_error (fun c => nth c a [] ++ tagged (qbx_frame c) (flat_map (mpole T w) (boxes_of lev c)))). exact Lc. }
  assert (Ic : nth_error (center_to_source_level V ctb lev) c = Some (z_or (nth c (center_to_list3 T V nc lev) None))).
  { rewrite source_level_eq, nth_error_map. rewrite (@nth_error_nth' _ (center_to_list3 T V nc lev) c None) by (rewrite list3_length; exact Lc). reflexivity. }
  apply wl with (v := VInt (z_or (nth c (center_to_list3 T V nc lev) None))); [rd; unfold int_at; rewrite Ic; reflexivity|].
  destruct (ctb_spec OK HT Lc) as (k & Lk & Ek & _).
  destruct (list3_cases OK lev (nth_error_In _ _ El) Lc Ek Lk) as [(m & Em & Lm & Enm)|(En & _)].
  - rewrite Em in *. apply wp_seq. apply wp_if; [|intros Q; exfalso; rdin Q; cbn [z_or] in Q; apply negb_false_iff in Q; apply Z.eqb_eq in Q; lia]. intros _.
    destruct (@csr_row (level_rows lev) m) as (s & Es & Es1 & Eli); [unfold level_rows; rewrite map_length, seq_length; exact Lm|].
    assert (Er : nth m (level_rows lev) [] = snd lev m).
    { unfold level_rows. rewrite (@nth_map_d nat _ (snd lev) _ m 0 []) by (rewrite seq_length; exact Lm). rewrite seq_nth by exact Lm. reflexivity. }
    rewrite Er in Es1, Eli.
    apply wl with (v := VPlace (AtCenter c)); [rd; unfold flat_centers; rewrite map_seq_error by exact Lc; reflexivity|].
    apply wl with (v := VScale (Radius c)); [rd; unfold flat_expansion_radii; rewrite map_seq_error by exact Lc; reflexivity|].
    apply wl with (v := VNum s); [rd; apply num_at_eq; cbn [z_or]; rewrite Nat2Z.id; exact Es|].
    apply wl with (v := VNum (s + length (snd lev m))); [rd; apply num_at_eq; cbn [z_or]; replace (Z.to_nat (Z.of_nat m + 1)) with (m + 1) by lia; exact Es1|].
    apply wl with (v := VExpn []); [reflexivity|].
    apply wp_seq.
    eapply wp_for with (I := fun q p1 m1 => m1 = a /\ p1 "icenter" = VNum c /\ p1 "tgt_center" = VPlace (AtCenter c) /\ p1 "tgt_rscale" = VScale (Radius c)
      /\ p1 "sum" = VExpn (tagged (qbx_frame c) (flat_map (mpole T w) (firstn (q - s) (snd lev m))))).
    + rd. lia.
    + rd. rewrite Nat.sub_diag. repeat split.
    + rd. intros q p1 m1 Hq (-> & P1 & P2 & P3 & P4).
      set (b := nth (q - s) (snd lev m) 0).
      assert (OL : on_level T l b) by (apply (lo_smaller LO) with (lev := lev) (m := m); [exact El|exact Lm|apply nth_In; lia]).
      assert (Lb : b < ft_nboxes T) by (apply (lo_range LO) with (l := l); exact OL).
      apply wl with (v := VNum b); [rd; apply num_at_eq; replace q with (s + (q - s)) by lia; apply Eli; lia|].
      apply wl with (v := VPlace (AtBox b)); [rd; unfold box_centers; rewrite map_seq_error by exact Lb; reflexivity|].
      apply wl with (v := VExpn (box_mpole T w b)); [rd; rewrite (view_ok _ OL); reflexivity|].
      apply wl with (v := VExpn (tagged (qbx_frame c) (mpole T w b))); [rd; rewrite P2, P3; unfold box_mpole; rewrite (box_tag (mpole T w) c OL); reflexivity|].
      eapply wl; [reflexivity|]. apply wp_skip. rd. rewrite P1, P2, P3, P4. repeat split. f_equal.
      replace (S q - s) with (S (q - s)) by lia. rewrite flat_firstn_S by lia. rewrite tagged_app. reflexivity.
    + rd. intros p1 m1 (-> & P1 & P2 & P3 & P4). apply wp_seq. apply wp_load; [unfold num; rewrite P1; reflexivity|].
      apply wp_seq. apply wp_store; [rd; rewrite P1; reflexivity|]. apply wp_skip. apply wp_skip. intros x <-. rewrite Fin. rd. rewrite P1, P4.
      rewrite write_cell_nth, Nat.eqb_refl. rewrite (@nth_error_nth' _ a c []) by (rewrite La; exact Lc). cbn [option_map]. f_equal. f_equal.
      replace (s + length (snd lev m) - s) with (length (snd lev m)) by lia. rewrite firstn_all. unfold boxes_of. rewrite Em. reflexivity.
  - rewrite En in *. apply wp_seq. apply wp_if; [intros Q; exfalso; rdin Q; discriminate|]. intros _. apply wp_skip.
    intros x <-. rewrite Fin. unfold boxes_of. rewrite En. cbn [flat_map tagged map]. rewrite app_nil_r. apply nth_error_nth'. rewrite La. exact Lc.
Qed.
Lemma m2q_level_iff r : 1 <= nc -> (m2q_level junk T V nc w ctb (l, lev) a r <-> r = m2q_final lev a).
Proof.
  intros N. unfold m2q_level. apply launch_iff with (cells := fun i x => i = x).
  - intros i j x _ _ -> ->. reflexivity.
  - intros i x. apply Nat.eq_dec.
  - unfold m2q_final. rewrite map_length, seq_length. symmetry. exact La.
  - intros i p Hi. exact (m2q_item p Hi).
  - intros x Nx. destruct (Nat.ltb_spec x nc) as [Hx|Hx]; [destruct (Nx x Hx eq_refl)|].
    rewrite !(proj2 (nth_error_None _ _)); [reflexivity|lia|unfold m2q_final; rewrite map_length, seq_length; lia].
  - left. exact N.
Qed.
End Level.

(** *** L2QBXL *)
Definition box_of (c : nat) : nat := nth (nth c ctb 0) (tr_target_boxes V) 0.
Definition l2q_final (l : nat) (a : list (list term)) : list (list term) :=
  map (fun c => nth c a [] ++ (if (fst (level_range T l) <=? box_of c) && (box_of c <? fst (level_range T l) + snd (level_range T l))
                               then tagged (qbx_frame c) (locals T V w (box_of c)) else [])) (seq 0 nc).
Section Level2.
Variable l : nat.
Hypothesis Ll : l < length (ft_levels T).
Variable a : list (list term).
Hypothesis La : length a = nc.
Notation knl := (l2qbxl_knl junk (LevelOrder l) QbxOrder ctb (tr_target_boxes V)
            (fst (level_range T l)) (snd (level_range T l)) (box_centers T) (LevelScale l)
            (flat_centers nc) (flat_expansion_radii nc) (view T (box_local T V w) l)).
Lemma l2q_item c p : c < nc -> wp (eq c) (k_body knl) (assign_var p (k_iname knl) (VNum c)) a
  (fun _ m' => forall x, c = x -> nth_error m' x = nth_error (l2q_final l a) x).
Proof.
  intros Lc. unfold l2qbxl_knl; cbn [k_body k_iname Block].
  assert (Fin : nth_error (l2q_final l a) c = Some (nth c a [] ++ (if (fst (level_range T l) <=? box_of c) && (box_of c <? fst (level_range T l) + snd (level_range T l))
                               then tagged (qbx_frame c) (locals T V w (box_of c)) else []))).
  { unfold l2q_final. rewrite map_seq_error by exact Lc. reflexivity. }
  destruct (ctb_spec OK HT Lc) as (k & Lk & Ek & _).
  assert (Eb : box_of c = nth k (tr_target_boxes V) 0) by (unfold box_of; rewrite Ek; reflexivity).
  apply wl with (v := VNum k); [rd; apply num_at_eq; rewrite <- Ek; apply nth_error_nth'; rewrite ctb_length; exact Lc|].
  apply wl with (v := VNum (box_of c)); [rd; apply num_at_eq; rewrite Eb; apply nth_error_nth'; exact Lk|].
  apply wp_seq. apply wp_if.
  - intros Q. rdin Q. rewrite Q in Fin.
    assert (OL : on_level T l (box_of c)) by (apply (on_level_iff T (box_of c) Ll); exact Q).
    assert (Lb : box_of c < ft_nboxes T) by (apply (lo_range LO) with (l := l); exact OL).
    apply wl with (v := VPlace (AtCenter c)); [rd; unfold flat_centers; rewrite map_seq_error by exact Lc; reflexivity|].
    apply wl with (v := VPlace (AtBox (box_of c))); [rd; unfold box_centers; rewrite map_seq_error by exact Lb; reflexivity|].
    apply wl with (v := VScale (Radius c)); [rd; unfold flat_expansion_radii; rewrite map_seq_error by exact Lc; reflexivity|].
    apply wl with (v := VExpn (box_local T V w (box_of c))); [rd; rewrite (view_ok _ OL); reflexivity|].
    apply wl with (v := VExpn (tagged (qbx_frame c) (locals T V w (box_of c)))); [rd; unfold box_local; rewrite (box_tag (locals T V w) c OL); reflexivity|].
    apply wp_seq. apply wp_load; [reflexivity|]. apply wp_seq. apply wp_store; [reflexivity|]. apply wp_skip. apply wp_skip.
    intros x <-. rewrite Fin. rd. rewrite write_cell_nth, Nat.eqb_refl. rewrite (@nth_error_nth' _ a c []) by (rewrite La; exact Lc). reflexivity.
  - intros Q. rdin Q. rewrite Q in Fin. apply wp_skip. intros x <-. rewrite Fin, app_nil_r. apply nth_error_nth'. rewrite La. exact Lc.
Qed.
Lemma l2q_level_iff r : 1 <= nc -> (l2q_level junk T V nc w ctb l a r <-> r = l2q_final l a).
Proof.
  intros N. unfold l2q_level. apply launch_iff with (cells := fun i x => i = x).
  - intros i j x _ _ -> ->. reflexivity.
  - intros i x. apply Nat.eq_dec.
  - unfold l2q_final. rewrite map_length, seq_length. symmetry. exact La.
  - intros i p Hi. exact (l2q_item p Hi).
  - intros x Nx. destruct (Nat.ltb_spec x nc) as [Hx|Hx]; [destruct (Nx x Hx eq_refl)|].
    rewrite !(proj2 (nth_error_None _ _)); [reflexivity|lia|unfold l2q_final; rewrite map_length, seq_length; lia].
  - left. exact N.
Qed.
End Level2.
End Kernels.
