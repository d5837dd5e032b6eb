(** Blocks of flat arrays, weights, and success of the skeletonization. *)
From Verif Require Import Base IndexModel IndexSpec IndexProofs IndexProofs2 IndexProps MatModel SymProofs SymProofs2 SkModel SkSpec SkProofs SkProofs2 SkProofs4 SkProofs5.
Set Implicit Arguments.
Open Scope nat_scope.

Section Slices.
Variable T : Type.
Variable bs : list (list T).
Let sizes := map (@zlen T) bs.
Lemma gsum_firstn i : sum (firstn i sizes) = zlen (concat (firstn i bs)).
Proof.
  unfold sizes. rewrite firstn_map. generalize (firstn i bs). intros l. induction l as [|c l IH]; [reflexivity|].
  cbn [map concat]. unfold zlen in *. rewrite app_length. unfold sum in *. cbn [fold_right]. rewrite IH. lia.
Qed.
Lemma starts_pair i : i < length bs ->
  pyslice (IndexModel.cumsum0 sizes) (Z.of_nat i) (Z.of_nat i + 2)
  = [zlen (concat (firstn i bs)); zlen (concat (firstn (S i) bs))].
Proof.
  intros Hi.
  assert (L : zlen (IndexModel.cumsum0 sizes) = (zlen bs + 1)%Z).
  { unfold zlen, IndexModel.cumsum0. rewrite cumsum_len. unfold sizes. rewrite map_length. lia. }
  rewrite pyslice_mid; [|lia|lia|rewrite L; unfold zlen; lia].
  replace (Z.to_nat (Z.of_nat i + 2 - Z.of_nat i)) with 2%nat by lia. rewrite Nat2Z.id.
  assert (G : forall (l : list Z) j a b, nth_error l j = Some a -> nth_error l (S j) = Some b ->
     firstn 2 (skipn j l) = [a; b]).
  { clear. induction l as [|x l IH]; intros j a b H1 H2; [destruct j; discriminate|].
    destruct j as [|j].
    - simpl in *. destruct l as [|y l]; [discriminate|]. simpl in *. congruence.
    - simpl in H1, H2. simpl skipn. apply IH; assumption. }
  rewrite <- !gsum_firstn.
  apply G; unfold IndexModel.cumsum0; rewrite cumsum_nth by (unfold sizes; rewrite map_length; lia); reflexivity.
Qed.
Lemma slice_block i b : nth_error bs i = Some b ->
  pyslice (concat bs) (zlen (concat (firstn i bs))) (zlen (concat (firstn (S i) bs))) = b.
Proof.
  intros Hb. assert (Hi : i < length bs) by (apply nth_error_Some; congruence).
  assert (S1 : firstn (S i) bs = firstn i bs ++ [b]).
  { rewrite (@firstn_S_nth _ bs i [] Hi). rewrite (nth_error_nth _ _ _ Hb). reflexivity. }
  assert (E2 : concat bs = concat (firstn i bs) ++ b ++ concat (skipn (S i) bs)).
  { rewrite <- (firstn_skipn (S i) bs) at 1. rewrite S1, !concat_app. cbn [concat]. rewrite app_nil_r, <- app_assoc. reflexivity. }
  rewrite E2, S1, concat_app. cbn [concat]. rewrite app_nil_r. set (pre := concat (firstn i bs)).
  unfold zlen. rewrite pyslice_mid; [|lia|rewrite app_length; lia|unfold zlen; rewrite !app_length; lia].
  rewrite app_length. replace (Z.to_nat (Z.of_nat (length pre + length b) - Z.of_nat (length pre))) with (length b) by lia.
  rewrite Nat2Z.id, skipn_app, Nat.sub_diag, skipn_all. simpl.
  rewrite firstn_app, Nat.sub_diag. simpl. rewrite app_nil_r, firstn_all. reflexivity.
Qed.
End Slices.

Lemma chunks_nth (T : Type) (c : nat) : forall r (l : list T) i j d, i < r -> j < c ->
  nth j (nth i (chunks r c l) []) d = nth (i * c + j) l d.
Proof.
  induction r as [|r IH]; intros l i j d Hi Hj; [lia|]. destruct i as [|i]; cbn [chunks nth].
  - rewrite nth_firstn' by exact Hj. reflexivity.
  - rewrite IH by lia. revert l. clear - Hj. intros l.
    replace (S i * c + j) with (c + (i * c + j)) by lia. revert l. induction c as [|c' IH]; intros l; [reflexivity|].
    generalize (i * S c' + j). clear. intros q. revert l. assert (G : forall n (l : list T), nth q (skipn n l) d = nth (n + q) l d).
    { induction n as [|n IHn]; intros l; [reflexivity|]. destruct l as [|x l]; cbn; [destruct q; reflexivity|apply IHn]. }
    apply G.
Qed.

Section P6.
Variable R : rops.

Lemma block_of_ok ps bs i c b : flat_blocks ps bs -> nth_error ps i = Some c -> nth_error bs i = Some b ->
  block_of R (concat bs) (TS (mk (map fst ps)) (mk (map snd ps))) (Z.of_nat i)
  = Ok (Mt (length (fst c)) (length (snd c)) (fun p q => nth q (nth p (chunks (length (fst c)) (length (snd c)) b) []) None)).
Proof.
  intros Hb Hc Hbi. change (map zlen bs = map bsize ps) in Hb. assert (Hi : i < length ps) by (apply nth_error_Some; congruence).
  assert (Hib : i < length bs) by (apply nth_error_Some; congruence).
  assert (En : nth i ps ([], []) = c) by (apply (nth_error_nth _ _ _ Hc)).
  unfold block_of, cluster_shape. destruct (tsize ps Hi) as (-> & -> & _ & _). cbn [bind]. rewrite En.
  unfold flat_cluster_take. rewrite fstarts, <- Hb. cbn [bind]. rewrite starts_pair by exact Hib.
  rewrite (slice_block _ _ Hbi). cbn [bind]. unfold reshape. cbn [fst snd].
  assert (Hz : zlen b = bsize c).
  { apply (map_nth_error zlen) in Hbi. apply (map_nth_error bsize) in Hc. rewrite Hb in Hbi. congruence. }
  assert (Hc1 : ((zlen (fst c) * zlen (snd c) =? zlen b)%Z && (0 <=? zlen (fst c))%Z && (0 <=? zlen (snd c))%Z) = true).
  { rewrite !andb_true_iff. split; [split; [apply Z.eqb_eq; rewrite Hz; reflexivity|]|]; apply Z.leb_le; unfold zlen; lia. }
  rewrite Hc1. cbn [bind]. unfold of_rows, zlen. cbn [fst snd]. rewrite !Nat2Z.id. reflexivity.
Qed.

(** ** weights *)
Notation wblocks := (wblocks R).
Lemma wblocks_app bs1 ws1 bs2 ws2 : length bs1 = length ws1 -> wblocks (bs1 ++ bs2) (ws1 ++ ws2) = wblocks bs1 ws1 ++ wblocks bs2 ws2.
Proof.
  intros H. unfold wblocks. rewrite <- map_app. f_equal. revert ws1 H. induction bs1 as [|b bs1 IH]; intros [|w ws1] H; simpl in *; try lia; auto.
  f_equal. apply IH. lia.
Qed.
Lemma wblocks_len bs : forall ws, length bs = length ws -> length (concat (wblocks bs ws)) = length (concat bs).
Proof.
  induction bs as [|b bs IH]; intros [|w ws] H; try reflexivity; try discriminate H.
  cbn in H.
  unfold wblocks in *. cbn [combine map concat fst snd]. rewrite !app_length, map_length, IH by lia. reflexivity.
Qed.

Lemma weight_steps_ok bs ws (Hl : length bs = length ws) : forall n i, i + n = length bs ->
  weight_steps R (concat bs) (IndexModel.cumsum0 (map zlen bs)) ws
    (concat (wblocks (firstn i bs) (firstn i ws)) ++ repeat (Some (r0 R)) (length (concat (skipn i bs))))
    (map Z.of_nat (seq i n))
  = Ok (concat (wblocks bs ws)).
Proof.
  induction n as [|n IH]; intros i Hin.
  - cbn [seq map weight_steps]. assert (i = length bs) as -> by lia.
    rewrite skipn_all, firstn_all. rewrite Hl at 1. rewrite firstn_all. cbn. rewrite app_nil_r. reflexivity.
  - cbn [seq map weight_steps]. rewrite starts_pair by lia.
    destruct (@nth_error_lt _ bs i) as (b & Hb); [lia|]. destruct (@nth_error_lt _ ws i) as (w & Hw); [lia|].
    rewrite (slice_block _ _ Hb), (pyget_entry _ _ Hw). cbn [bind].
    rewrite <- (IH (S i)) by lia. f_equal. unfold set_slice, zlen. rewrite Nat2Z.id.
    assert (S1 : firstn (S i) bs = firstn i bs ++ [b]).
    { rewrite (@firstn_S_nth _ bs i []) by lia. rewrite (nth_error_nth _ _ _ Hb). reflexivity. }
    assert (S2 : firstn (S i) ws = firstn i ws ++ [w]).
    { rewrite (@firstn_S_nth _ ws i None) by lia. rewrite (nth_error_nth _ _ _ Hw). reflexivity. }
    assert (S3 : skipn i bs = b :: skipn (S i) bs).
    { clear - Hb. revert bs Hb. induction i as [|i IH]; intros [|x bs] H; try discriminate; cbn in *; [congruence|]. apply IH. exact H. }
    assert (Hlf : length (firstn i bs) = length (firstn i ws)) by (rewrite !firstn_length; lia).
    set (pre := concat (wblocks (firstn i bs) (firstn i ws))).
    assert (Hpre : length (concat (firstn i bs)) = length pre) by (unfold pre; rewrite wblocks_len; auto).
    rewrite Hpre. rewrite firstn_app, Nat.sub_diag, firstn_all, firstn_O, app_nil_r.
    rewrite S1, S2, wblocks_app, concat_app by exact Hlf. fold pre.
    unfold wblocks at 1. cbn [combine map concat fst snd]. rewrite app_nil_r, <- app_assoc. f_equal. f_equal.
    rewrite skipn_app, map_length. rewrite skipn_all2 by lia. cbn [app].
    replace (length pre + length b - length pre) with (length b) by lia.
    rewrite S3. cbn [concat]. rewrite app_length, repeat_app.
    rewrite skipn_app, repeat_length, Nat.sub_diag, skipn_all2 by (rewrite repeat_length; lia). reflexivity.
Qed.

Lemma fold_left_rsum (l : list R) d : fold_left (radd R) l (r0 R) = rsum R (length l) (fun i => nth i l d).
Proof.
  induction l as [|x l IH] using rev_ind; [reflexivity|].
  rewrite fold_left_app. cbn [fold_left]. rewrite IH, app_length. cbn [length].
  rewrite Nat.add_comm. cbn [Nat.add rsum]. f_equal.
  - apply MatProofs.rsum_ext. intros i Hi. rewrite app_nth1 by exact Hi. reflexivity.
  - rewrite app_nth2, Nat.sub_diag by lia. reflexivity.
Qed.

Notation mean_of := (mean_of R).
Lemma mean_ok waa ns : ns <> [] -> (forall cl z, In cl ns -> In z cl -> (0 <= z < zlen waa)%Z) ->
  mean_weights R waa (mk ns) = Ok (map (mean_of waa) ns).
Proof.
  intros Hne Hin. unfold mean_weights, mk. rewrite il_n. fold (mk ns).
  apply (@mapM_zrange _ _ _ (mean_of waa) ns []); [reflexivity|]. intros i Hi.
  unfold cluster_take. unfold mk at 1. rewrite il_in_range by exact Hi. fold (mk ns).
  unfold mk. rewrite il_cluster by exact Hi. cbn [bind].
  assert (Hcl : In (nth i ns []) ns) by (apply nth_In; exact Hi). set (cl := nth i ns []) in *.
  rewrite (@mapM_ok _ _ (pyget waa) (fun z => nth (Z.to_nat z) waa (r0 R)) cl).
  2: { intros z Hz. specialize (Hin _ _ Hcl Hz). replace z with (Z.of_nat (Z.to_nat z)) at 1 by lia.
       apply pyget_entry. apply nth_error_nth'. unfold zlen in Hin. lia. }
  cbn [bind]. unfold mean_of. destruct cl as [|z cl']; [reflexivity|]. set (l := z :: cl') in *.
  change (map (fun z => nth (Z.to_nat z) waa (r0 R)) l) with (nth (Z.to_nat z) waa (r0 R) :: map (fun z => nth (Z.to_nat z) waa (r0 R)) cl').
  cbv iota. change (nth (Z.to_nat z) waa (r0 R) :: map (fun z => nth (Z.to_nat z) waa (r0 R)) cl') with (map (fun z => nth (Z.to_nat z) waa (r0 R)) l).
  rewrite map_length. do 3 f_equal. rewrite (fold_left_rsum _ (nth (Z.to_nat 0) waa (r0 R))), map_length.
  apply MatProofs.rsum_ext. intros j Hj.
  exact (map_nth (fun z => nth (Z.to_nat z) waa (r0 R)) l 0%Z j).
Qed.

(** ** finiteness *)
Lemma all_finite_spec (m : mat (option R)) : all_finite R m = true <->
  forall i j, i < mr m -> j < mc m -> el m i j <> None.
Proof.
  unfold all_finite. rewrite forallb_forall. split.
  - intros H i j Hi Hj. specialize (H i). rewrite in_seq in H. specialize (H ltac:(lia)).
    rewrite forallb_forall in H. specialize (H j). rewrite in_seq in H. specialize (H ltac:(lia)).
    destruct (el m i j); [discriminate|discriminate].
  - intros H i Hi. apply in_seq in Hi. apply forallb_forall. intros j Hj. apply in_seq in Hj.
    specialize (H i j ltac:(lia) ltac:(lia)). destruct (el m i j); [reflexivity|congruence].
Qed.
End P6.
