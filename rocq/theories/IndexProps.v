(** Properties C13, C14, C15.  Vocabulary: IndexSpec.v. *)
From Verif Require Import Base IndexModel IndexSpec IndexProofs IndexProofs2 IndexProofs3.
Set Implicit Arguments.
Open Scope Z_scope.

(** C13: an index list made of given clusters has the prefix sums of the cluster sizes as
    starts, as many clusters as were given, cluster i is the i-th array, its size the length of
    that array, and together they are all indices; any other cluster number raises. *)
Theorem index_list_of_clusters : forall cs il, make_index_list cs = Ok il ->
  prefix_sums (map (@zlen Z) cs) (starts il) /\
  nclusters il = zlen cs /\ nindices il = zlen (concat cs) /\ indices il = concat cs /\
  (forall i c, nth_error cs i = Some c ->
     cluster_indices il (Z.of_nat i) = Ok c /\ cluster_size il (Z.of_nat i) = Ok (zlen c) /\
     forall (A : Type) (x : list A), cluster_take il x (Z.of_nat i) = mapM (pyget x) c) /\
  (forall z, ~ (0 <= z < zlen cs) ->
     cluster_indices il z = Err IndexError /\ cluster_size il z = Err IndexError /\
     forall (A : Type) (x : list A), cluster_take il x z = Err IndexError).
Proof.
  intros cs il H. destruct cs as [|c0 cs0]; [discriminate|]. unfold make_index_list in H.
  set (cs := c0 :: cs0) in *.
  assert (E : il = IL (concat cs) (cumsum0 (map (@zlen Z) cs))) by congruence. subst il. clear H.
  split; [apply cumsum_prefix|]. split; [apply il_n|]. split; [reflexivity|]. split; [reflexivity|].
  split.
  - intros i c Hc. assert (Hi : (i < length cs)%nat) by (apply nth_error_Some; congruence).
    apply nth_error_nth with (d := []) in Hc.
    assert (Hci : cluster_indices (IL (concat cs) (cumsum0 (map (@zlen Z) cs))) (Z.of_nat i) = Ok c)
      by (rewrite (il_cluster cs Hi), Hc; reflexivity).
    split; [exact Hci|]. split; [rewrite (il_size cs Hi), Hc; reflexivity|].
    intros A x. unfold cluster_take. rewrite (il_in_range cs Hi), Hci. reflexivity.
  - intros z Hz. unfold cluster_indices, cluster_size, cluster_take. rewrite (il_out_range cs Hz). auto.
Qed.
Print Assumptions index_list_of_clusters.

(** C13: with explicit starts, only the last one is checked ... *)
Theorem index_list_checks_last_start : forall ixs sts il,
  make_index_list_starts ixs sts = Ok il <->
  il = IL ixs sts /\ sts <> [] /\ last sts 0 = zlen ixs.
Proof.
  intros ixs sts il. unfold make_index_list_starts.
  destruct sts as [|s0 sts0]; [split; [discriminate|tauto]|].
  destruct (@exists_last _ (s0 :: sts0) ltac:(discriminate)) as (l & x & E). rewrite E, pyget_last.
  cbn [bind]. assert (L : last (l ++ [x]) 0 = x).
  { clear. induction l as [|y l IH]; [reflexivity|]. simpl. rewrite IH. destruct l; reflexivity. }
  rewrite L. destruct (Z.eqb_spec x (zlen ixs)) as [Hx|Hx].
  - split; [intros H; injection H; intros <-; repeat split; auto; destruct l; discriminate|].
    intros (-> & _ & _). reflexivity.
  - split; [discriminate|]. intros (_ & _ & H). contradiction.
Qed.
Print Assumptions index_list_checks_last_start.

(** ... and starts that are proper (start at 0, end at the number of indices, never decrease)
    are those of a list of clusters whose concatenation is the index array, and conversely. *)
Theorem index_list_proper_starts : forall ixs sts,
  proper_starts sts (zlen ixs) <->
  exists cs, concat cs = ixs /\ sts = cumsum0 (map (@zlen Z) cs).
Proof.
  intros ixs sts. split.
  - intros (H0 & Hl & Hm). destruct (@starts_clusters sts 0 ixs H0) as (cs & E1 & E2); auto.
    exists cs. split; [exact E1|]. symmetry. exact E2.
  - intros (cs & <- & ->). apply (mk_proper cs).
Qed.
Print Assumptions index_list_proper_starts.

(** But improper starts are accepted: indices before the first start belong to no cluster,
    and decreasing starts give empty clusters of negative size. *)
Theorem index_list_partition_refuted : exists il il',
  make_index_list_starts [7; 8; 9] [1; 3] = Ok il /\ nclusters il = 1 /\
  cluster_indices il 0 = Ok [8; 9] /\
  make_index_list_starts [7; 8; 9] [0; 3; 1; 3] = Ok il' /\ cluster_size il' 1 = Ok (-2) /\
  cluster_indices il' 1 = Ok [].
Proof. do 2 eexists. repeat split. Qed.
Print Assumptions index_list_partition_refuted.

(** C14.  [ps] are the (targets, sources) pairs of clusters. *)
Section C14.
Variable ps : list (list Z * list Z).
Variables t s : indexlist.
Hypothesis Ht : of_clusters (map fst ps) t.
Hypothesis Hs : of_clusters (map snd ps) s.
Local Lemma ts_is : t = mk (map fst ps) /\ s = mk (map snd ps).
Proof.
  unfold of_clusters, make_index_list in *. destruct ps as [|p l]; [discriminate|].
  cbn [map] in Ht, Hs. split; [injection Ht|injection Hs]; intros <-; reflexivity.
Qed.
End C14.

(** However the kernel's writes are scheduled (any permutation), the arrays of target and source
    indices are completely filled: block after block, each block row by row. *)
Theorem cartesian_product_layout : forall ps t s, of_clusters (map fst ps) t -> of_clusters (map snd ps) s ->
  exists m ws n, make_ts t s = Ok m /\ product_writes m = Ok ws /\ flat_total m = Ok n /\
  n = fold_right Z.add 0 (map (fun c => zlen (fst c) * zlen (snd c)) ps) /\
  forall ws', Permutation ws' ws -> perform ws' n = map Some (concat (map block_pairs ps)).
Proof.
  intros ps t s Ht Hs. destruct (@ts_is ps t s Ht Hs) as [-> ->].
  exists (TS (mk (map fst ps)) (mk (map snd ps))).
  exists (combine (zseq 0 (length (concat (map block_pairs ps)))) (concat (map block_pairs ps))).
  exists (sum (map bsize ps)). repeat split.
  - unfold make_ts, mk. rewrite !il_n. unfold zlen. rewrite !map_length, Z.eqb_refl. reflexivity.
  - apply all_writes.
  - apply ftotal.
  - intros ws' HP.
    replace (sum (map bsize ps)) with (zlen (concat (map block_pairs ps))).
    + apply perform_perm. exact HP.
    + clear. induction ps as [|c l IH]; [reflexivity|]. cbn [map concat]. unfold zlen in *.
      rewrite app_length. unfold sum in *. cbn [fold_right]. rewrite <- IH, <- pairs_len. unfold zlen. lia.
Qed.
Print Assumptions cartesian_product_layout.

(** Offsets are prefix sums of the block sizes; taking block i out of the flat array of entries
    x(t, s) gives the entries of block i row by row, and reshaping all of them gives exactly the
    diagonal blocks x[targets_i, sources_i]. *)
Theorem flat_blocks_consistent : forall ps t s m, of_clusters (map fst ps) t -> of_clusters (map snd ps) s ->
  make_ts t s = Ok m ->
  (exists st, flat_starts m = Ok st /\ prefix_sums (map (fun c => zlen (fst c) * zlen (snd c)) ps) st) /\
  forall (A : Type) (x : Z -> Z -> A),
    let flat := map (fun p => x (fst p) (snd p)) (concat (map block_pairs ps)) in
    make_flat_cluster_diag flat m = Ok (map (block x) ps) /\
    forall i c, nth_error ps i = Some c ->
      flat_cluster_take m flat (Z.of_nat i) = Ok (concat (block x c)) /\
      ts_cluster_take m x (Z.of_nat i) (Z.of_nat i) = Ok (block x c) /\
      cluster_shape m (Z.of_nat i) (Z.of_nat i) = Ok (zlen (fst c), zlen (snd c)).
Proof.
  intros ps t s m Ht Hs Hm. destruct (@ts_is ps t s Ht Hs) as [-> ->].
  assert (E : m = TS (mk (map fst ps)) (mk (map snd ps))).
  { unfold make_ts in Hm. destruct (_ =? _); [|discriminate]. congruence. }
  subst m. split; [exists (cumsum0 (map bsize ps)); split; [apply fstarts|apply cumsum_prefix]|].
  intros A x flat. split; [apply flat_diag|]. intros i c Hc.
  assert (Hi : (i < length ps)%nat) by (apply nth_error_Some; congruence).
  apply nth_error_nth with (d := ([], [])) in Hc. split; [|split].
  - unfold flat. rewrite (flat_take ps _ Hi), Hc. f_equal. unfold block_pairs, block. destruct c as [tc sc].
    cbn [fst snd]. clear. induction tc as [|a tc IH]; [reflexivity|]. rewrite list_prod_cons, map_app, map_map.
    cbn [map concat]. rewrite IH. reflexivity.
  - rewrite (block_take ps _ Hi), Hc. reflexivity.
  - unfold cluster_shape. destruct (tsize ps Hi) as (-> & -> & _ & _). cbn [bind]. rewrite Hc. reflexivity.
Qed.
Print Assumptions flat_blocks_consistent.

(** Target and source lists with different numbers of clusters are rejected. *)
Theorem cluster_counts_checked : forall t s m,
  make_ts t s = Ok m <-> nclusters t = nclusters s /\ m = TS t s.
Proof.
  intros t s m. unfold make_ts. destruct (Z.eqb_spec (nclusters t) (nclusters s)) as [E|E].
  - split; [intros H; injection H; intros <-; auto|intros [_ ->]; reflexivity].
  - split; [discriminate|tauto].
Qed.
Print Assumptions cluster_counts_checked.

(** flat_cluster_take does not check its cluster number: for i <= -3 it silently returns
    another cluster's data, unlike cluster_indices. *)
Theorem flat_cluster_take_bounds_refuted :
  let m := TS (mk [[0]; [1]]) (mk [[0]; [1]]) in
  flat_cluster_take m [10; 20] (-3) = Ok [10] /\ cluster_indices (targets m) (-3) = Err IndexError /\
  flat_cluster_take m [10; 20] 2 = Err ValueError.
Proof. repeat split. Qed.
Print Assumptions flat_cluster_take_bounds_refuted.

(** C15.  For a strict weak order on keys and at least one array and one row. *)
Theorem sort_arrays_together_correct : forall (T K : Type) (key : list T -> K) (klt : K -> K -> bool),
  (forall a b, klt a b = true -> klt b a = false) ->
  (forall a b c, klt a b = false -> klt b c = false -> klt a c = false) ->
  forall arys n, arys <> [] -> n <> O -> (forall a, In a arys -> length a = n) ->
  exists rows out rows', sort_arrays_together key klt arys = Ok out /\
    are_rows arys rows /\ are_rows out rows' /\ length out = length arys /\
    Permutation rows rows' /\
    StronglySorted (fun r r' => klt (key r') (key r) = false) rows' /\
    (forall z, filter (fun r => negb (klt (key z) (key r)) && negb (klt (key r) (key z))) rows'
             = filter (fun r => negb (klt (key z) (key r)) && negb (klt (key r) (key z))) rows).
Proof.
  intros T K key klt Ha Hn arys n Hne Hn0 Hl.
  destruct (proj1 (zip_rows_spec n arys) Hl) as (rows & Hz & Lr & Hr).
  assert (Hzs : zip_strict arys = Ok rows).
  { destruct arys as [|a arys]; [contradiction|]. unfold zip_strict. rewrite (Hl a) by (left; reflexivity). exact Hz. }
  set (rows' := sorted key klt rows).
  assert (HP : Permutation rows rows') by apply sorted_perm.
  assert (Lr' : length rows' = n) by (rewrite <- (Permutation_length HP); exact Lr).
  assert (Hw : forall r, In r rows' -> length r = length arys).
  { intros r Hin. apply (Permutation_in _ (Permutation_sym HP)) in Hin. apply In_nth_error in Hin.
    destruct Hin as [i Hi]. apply (proj2 Hr i r Hi). }
  destruct (proj1 (zip_rows_spec (length arys) rows') Hw) as (out & Hz' & Lo & Ho).
  exists rows, out, rows'. unfold sort_arrays_together. rewrite Hzs. cbn [bind]. fold rows'.
  split.
  - destruct rows' as [|r rows'']; [simpl in Lr'; lia|]. unfold zip_strict.
    rewrite (Hw r) by (left; reflexivity). exact Hz'.
  - split; [exact Hr|]. split; [apply are_rows_sym; exact Ho|]. split; [exact Lo|]. split; [exact HP|].
    split; [apply sorted_sorted; assumption|]. intros z. exact (@sorted_stable T K key klt Hn z rows).
Qed.
Print Assumptions sort_arrays_together_correct.

(** Arrays of different lengths are rejected. *)
Theorem sort_arrays_together_rejects : forall (T K : Type) (key : list T -> K) klt (arys : list (list T)) a b,
  In a arys -> In b arys -> length a <> length b -> sort_arrays_together key klt arys = Err ValueError.
Proof.
  intros T K key klt arys a b Ha Hb Hne. unfold sort_arrays_together, zip_strict.
  destruct arys as [|c arys]; [destruct Ha|].
  rewrite (proj2 (zip_rows_spec (length c) (c :: arys))); [reflexivity|].
  destruct (Nat.eq_dec (length a) (length c)) as [E|E]; [exists b; split; [exact Hb|lia]|exists a; auto].
Qed.
Print Assumptions sort_arrays_together_rejects.

(** With empty arrays the number of arrays is lost: nothing comes back (so unpacking the
    result into as many names raises). *)
Theorem sort_arrays_together_empty_refuted : forall (T K : Type) (key : list T -> K) klt,
  sort_arrays_together key klt [[]; []] = Ok [].
Proof. reflexivity. Qed.
Print Assumptions sort_arrays_together_empty_refuted.

(** Non-vacuity. *)
Example ex_clusters : exists t s m, of_clusters [[3; 4]; [5]] t /\ of_clusters [[1; 2; 0]; [7]] s /\
  make_ts t s = Ok m /\ starts t = [0; 2; 3] /\ starts s = [0; 3; 4] /\
  product_writes m = Ok [(0, (3, 1)); (1, (3, 2)); (2, (3, 0)); (3, (4, 1)); (4, (4, 2)); (5, (4, 0)); (6, (5, 7))].
Proof. do 3 eexists. repeat split. Qed.
Example ex_sort : sort_arrays_together (fun r => nth 0 r 0) Z.ltb [[3; 1; 2; 1]; [0; 1; 2; 3]]
  = Ok [[1; 1; 2; 3]; [1; 3; 2; 0]].
Proof. vm_compute. reflexivity. Qed.
Example ex_order : (forall a b, Z.ltb a b = true -> Z.ltb b a = false) /\
  (forall a b c, Z.ltb a b = false -> Z.ltb b c = false -> Z.ltb a c = false).
Proof. split; intros; rewrite ?Z.ltb_ge, ?Z.ltb_lt in *; lia. Qed.
Example ex_proper : proper_starts [0; 2; 2; 3] 3.
Proof.
  repeat split. intros [|[|[|[|i]]]] a b Ha Hb; simpl in *; try congruence;
    injection Ha; injection Hb; intros; subst; lia.
Qed.
