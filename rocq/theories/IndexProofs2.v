From Verif Require Import Base IndexModel IndexSpec IndexProofs.
Set Implicit Arguments.
Open Scope Z_scope.

Definition mk (cs : list (list Z)) : indexlist := IL (concat cs) (cumsum0 (map (@zlen Z) cs)).

(** ** Performing writes *)
Lemma put_len (A : Type) (l : list (option A)) p v : length (put l p v) = length l.
Proof. revert p. induction l as [|x l IH]; intros [|p]; simpl; auto. Qed.
Lemma put_same (A : Type) (l : list (option A)) p v : (p < length l)%nat -> nth_error (put l p v) p = Some (Some v).
Proof. revert p. induction l as [|x l IH]; intros [|p]; simpl; intros; try lia; auto. apply IH. lia. Qed.
Lemma put_other (A : Type) (l : list (option A)) p q v : p <> q -> nth_error (put l p v) q = nth_error l q.
Proof. revert p q. induction l as [|x l IH]; intros [|p] [|q] H; simpl; auto; try lia. Qed.

Definition putw {A : Type} (arr : list (option A)) (w : Z * A) := put arr (Z.to_nat (fst w)) (snd w).
Lemma puts_len (A : Type) (ws : list (Z * A)) : forall l, length (fold_left putw ws l) = length l.
Proof. induction ws as [|w ws IH]; intros l; simpl; [reflexivity|]. rewrite IH. apply put_len. Qed.
Lemma puts_other (A : Type) (ws : list (Z * A)) q : forall l,
  (forall w, In w ws -> Z.to_nat (fst w) <> q) -> nth_error (fold_left putw ws l) q = nth_error l q.
Proof.
  induction ws as [|w ws IH]; intros l H; simpl; [reflexivity|].
  rewrite IH by (intros; apply H; right; assumption). apply put_other. apply H. left. reflexivity.
Qed.
Lemma puts_in (A : Type) (ws : list (Z * A)) : forall l z v,
  NoDup (map (fun w => Z.to_nat (fst w)) ws) -> In (z, v) ws -> (Z.to_nat z < length l)%nat ->
  nth_error (fold_left putw ws l) (Z.to_nat z) = Some (Some v).
Proof.
  induction ws as [|w ws IH]; intros l z v ND Hin Hl; [destruct Hin|].
  simpl in ND. inversion ND; subst. simpl. destruct Hin as [->|Hin].
  - rewrite puts_other.
    + apply put_same. exact Hl.
    + intros w Hw E. apply H1. simpl. rewrite <- E. apply (in_map (fun w => Z.to_nat (fst w))). exact Hw.
  - apply IH; auto. unfold putw. rewrite put_len. exact Hl.
Qed.

Definition zseq (o : Z) (n : nat) : list Z := map (fun k => o + Z.of_nat k) (seq 0 n).
Lemma zseq_len o n : length (zseq o n) = n.
Proof. unfold zseq. rewrite map_length, seq_length. reflexivity. Qed.
Lemma zseq_app o n m : zseq o (n + m) = zseq o n ++ zseq (o + Z.of_nat n) m.
Proof.
  unfold zseq. rewrite seq_app, map_app. f_equal. simpl. rewrite <- (Nat.add_0_r n) at 1.
  assert (H : forall s, map (fun k => o + Z.of_nat k) (seq (n + s) m) = map (fun k => o + Z.of_nat n + Z.of_nat k) (seq s m)).
  { induction m as [|m IH]; intros s; simpl; [reflexivity|]. f_equal; [lia|].
    replace (S (n + s)) with (n + S s)%nat by lia. apply IH. }
  apply H.
Qed.
Lemma combine_app_ (A B : Type) (l1 l2 : list A) (r1 r2 : list B) : length l1 = length r1 ->
  combine (l1 ++ l2) (r1 ++ r2) = combine l1 r1 ++ combine l2 r2.
Proof.
  revert r1. induction l1 as [|x l1 IH]; intros [|y r1] H; simpl in *; try discriminate; [reflexivity|].
  f_equal. apply IH. lia.
Qed.

Lemma perform_perm (A : Type) (vs : list A) ws :
  Permutation ws (combine (zseq 0 (length vs)) vs) -> perform ws (zlen vs) = map Some vs.
Proof.
  intros HP. unfold perform, zlen. rewrite Nat2Z.id. fold (@putw A).
  assert (ND : NoDup (map (fun w : Z * A => Z.to_nat (fst w)) ws)).
  { apply (@Permutation_NoDup _ (map (fun w : Z * A => Z.to_nat (fst w)) (combine (zseq 0 (length vs)) vs))).
    - apply Permutation_map. apply Permutation_sym. exact HP.
    - assert (E : forall l r, length l = length r ->
         map (fun w : Z * A => Z.to_nat (fst w)) (combine l r) = map Z.to_nat l).
      { clear. induction l as [|x l IH]; intros [|y r] H; simpl in *; try discriminate; [reflexivity|].
        f_equal. apply IH. lia. }
      rewrite E by apply zseq_len. unfold zseq. rewrite map_map.
      rewrite (map_ext _ (fun k => k)) by (intros; lia). rewrite map_id. apply seq_NoDup. }
  apply nth_ext with (d := None) (d' := None).
  { rewrite puts_len, repeat_length, map_length. reflexivity. }
  intros p Hp. rewrite puts_len, repeat_length in Hp.
  destruct (nth_error vs p) as [v|] eqn:Ev; [|apply nth_error_None in Ev; lia].
  assert (Hin : In (Z.of_nat p, v) ws).
  { apply (Permutation_in _ (Permutation_sym HP)). clear - Ev.
    apply nth_error_split in Ev. destruct Ev as (l1 & l2 & -> & <-).
    rewrite app_length.
    rewrite zseq_app, combine_app_ by apply zseq_len. apply in_or_app. right. simpl.
    left. f_equal. lia. }
  pose proof (@puts_in A ws (repeat None (length vs)) (Z.of_nat p) v ND Hin) as H.
  rewrite Nat2Z.id, repeat_length in H. specialize (H Hp).
  rewrite (nth_error_nth _ _ _ H). symmetry. apply nth_error_nth. rewrite nth_error_map, Ev. reflexivity.
Qed.

(** ** Target and source clusters *)
Section TSC.
Variable ps : list (list Z * list Z).
Let m := TS (mk (map fst ps)) (mk (map snd ps)).
Definition bsize (c : list Z * list Z) : Z := zlen (fst c) * zlen (snd c).

Lemma ts_nn : ts_n m = zlen ps.
Proof. unfold ts_n, m, mk. cbn [targets]. rewrite il_n. unfold zlen. rewrite map_length. reflexivity. Qed.

Lemma nthF i : nth i (map fst ps) [] = fst (nth i ps ([], [])).
Proof. exact (map_nth fst ps ([], []) i). Qed.
Lemma nthS i : nth i (map snd ps) [] = snd (nth i ps ([], [])).
Proof. exact (map_nth snd ps ([], []) i). Qed.

Lemma tsize i : (i < length ps)%nat ->
  cluster_size (targets m) (Z.of_nat i) = Ok (zlen (fst (nth i ps ([], [])))) /\
  cluster_size (sources m) (Z.of_nat i) = Ok (zlen (snd (nth i ps ([], [])))) /\
  cluster_indices (targets m) (Z.of_nat i) = Ok (fst (nth i ps ([], []))) /\
  cluster_indices (sources m) (Z.of_nat i) = Ok (snd (nth i ps ([], []))).
Proof.
  intros Hi. unfold m, mk. cbn [targets sources].
  rewrite !il_size, !il_cluster by (rewrite map_length; exact Hi).
  rewrite nthF, nthS. auto.
Qed.

Lemma fstarts : flat_starts m = Ok (cumsum0 (map bsize ps)).
Proof.
  unfold flat_starts. rewrite ts_nn.
  rewrite (@mapM_zrange _ _ _ bsize ps ([], [])); [reflexivity|reflexivity|].
  intros i Hi. destruct (tsize Hi) as (-> & -> & _ & _). reflexivity.
Qed.
Lemma ftotal : flat_total m = Ok (sum (map bsize ps)).
Proof. unfold flat_total. rewrite fstarts. cbn [bind]. apply cumsum_last. Qed.

Lemma pairs_len c : zlen (block_pairs c) = bsize c.
Proof. unfold block_pairs, bsize, zlen. rewrite prod_length. lia. Qed.

(** one row of writes *)
Lemma list_prod_cons (A B : Type) (x : A) (l : list A) (r : list B) :
  list_prod (x :: l) r = map (pair x) r ++ list_prod l r.
Proof. reflexivity. Qed.

Lemma row_writes o (t : Z) (sc : list Z) :
  map (fun j => (o + Z.of_nat j, (t, nth j sc 0))) (seq 0 (length sc))
  = combine (zseq o (length sc)) (map (pair t) sc).
Proof.
  unfold zseq.
  assert (H : forall s, map (fun j => (o + Z.of_nat (s + j), (t, nth j sc 0))) (seq 0 (length sc))
    = combine (map (fun k => o + Z.of_nat k) (seq s (length sc))) (map (pair t) sc)).
  { induction sc as [|x sc IH]; intros s; simpl; [reflexivity|]. f_equal; [rewrite Nat.add_0_r; reflexivity|].
    rewrite <- seq_shift, map_map. rewrite <- (IH (S s)). apply map_ext. intros j.
    replace (s + S j)%nat with (S s + j)%nat by lia. reflexivity. }
  apply (H 0%nat).
Qed.

Lemma block_writes sc : forall tc o,
  concat (map (fun i => map (fun j => (o + zlen sc * Z.of_nat i + Z.of_nat j, (nth i tc 0, nth j sc 0)))
                (seq 0 (length sc))) (seq 0 (length tc)))
  = combine (zseq o (length tc * length sc)) (list_prod tc sc).
Proof.
  induction tc as [|t tc IH]; intros o; [reflexivity|].
  cbn [length seq map concat]. rewrite list_prod_cons.
  change (S (length tc) * length sc)%nat with (length sc + length tc * length sc)%nat.
  rewrite zseq_app, combine_app_ by (rewrite zseq_len, map_length; reflexivity).
  f_equal.
  - rewrite <- row_writes. apply map_ext. intros j. cbn [nth]. do 2 f_equal. lia.
  - rewrite <- (IH (o + Z.of_nat (length sc))). rewrite <- seq_shift, map_map. f_equal.
    apply map_ext. intros i. apply map_ext. intros j. cbn [nth]. do 2 f_equal. unfold zlen. lia.
Qed.

Lemma map_zr (B : Type) (f : Z -> B) (l : list Z) :
  map f (zrange (zlen l)) = map (fun i => f (Z.of_nat i)) (seq 0 (length l)).
Proof. unfold zrange, zlen. rewrite Nat2Z.id, map_map. reflexivity. Qed.

Lemma cwrites i : (i < length ps)%nat ->
  let c := nth i ps ([], []) in
  let o := sum (firstn i (map bsize ps)) in
  cluster_writes m (cumsum0 (map bsize ps)) (Z.of_nat i)
  = Ok (combine (zseq o (length (block_pairs c))) (block_pairs c)).
Proof.
  intros Hi c o. unfold cluster_writes.
  assert (Ht : nth i (map fst ps) [] = fst c) by apply nthF.
  assert (Hs : nth i (map snd ps) [] = snd c) by apply nthS.
  assert (Lt : (i < length (map fst ps))%nat) by (rewrite map_length; exact Hi).
  assert (Ls : (i < length (map snd ps))%nat) by (rewrite map_length; exact Hi).
  rewrite pyget_nat. unfold cumsum0 at 1. rewrite cumsum_nth by (rewrite map_length; lia).
  cbn [bind]. replace (0 + sum (firstn i (map bsize ps))) with o by (unfold o; lia).
  unfold m, mk. cbn [targets sources].
  replace (Z.of_nat i + 1) with (Z.of_nat (S i)) by lia.
  rewrite (@starts_get (map fst ps) i), (@starts_get (map snd ps) i),
    (@starts_get (map fst ps) (S i)), (@starts_get (map snd ps) (S i)) by lia.
  cbn [bind indices]. rewrite (sizes_nth _ Lt), (sizes_nth _ Ls), Ht, Hs.
  set (t0 := sum (firstn i (map (@zlen Z) (map fst ps)))).
  set (s0 := sum (firstn i (map (@zlen Z) (map snd ps)))).
  replace (t0 + zlen (fst c) - t0) with (zlen (fst c)) by lia.
  replace (s0 + zlen (snd c) - s0) with (zlen (snd c)) by lia.
  rewrite (@mapM_ok _ _ _ (fun zi => map (fun zj =>
     (o + zlen (snd c) * zi + zj, (nth (Z.to_nat zi) (fst c) 0, nth (Z.to_nat zj) (snd c) 0))) (zrange (zlen (snd c))))).
  - cbn [bind]. f_equal. rewrite map_zr. unfold block_pairs. rewrite prod_length, <- block_writes. f_equal.
    apply map_ext. intros a. rewrite map_zr. apply map_ext. intros b. rewrite !Nat2Z.id. reflexivity.
  - intros zi Hzi. apply mapM_ok. intros zj Hzj.
    apply in_map_iff in Hzi. destruct Hzi as (a & <- & Ha). apply in_seq in Ha.
    apply in_map_iff in Hzj. destruct Hzj as (b & <- & Hb). apply in_seq in Hb.
    unfold zlen in Ha, Hb. rewrite Nat2Z.id in Ha, Hb.
    unfold t0. rewrite (@il_read (map fst ps) i a Lt) by (rewrite Ht; lia). cbn [bind].
    unfold s0. rewrite (@il_read (map snd ps) i b Ls) by (rewrite Hs; lia). cbn [bind].
    rewrite Ht, Hs, !Nat2Z.id. reflexivity.
Qed.

Lemma firstn_sum_len i :
  sum (firstn i (map bsize ps)) = zlen (concat (map block_pairs (firstn i ps))).
Proof.
  rewrite firstn_map. generalize (firstn i ps). intros l. induction l as [|c l IH]; [reflexivity|].
  cbn [map concat]. unfold zlen in *. rewrite app_length. unfold sum in *. cbn [fold_right].
  rewrite IH. rewrite <- pairs_len. unfold zlen. lia.
Qed.

Lemma all_writes : product_writes m = Ok (combine (zseq 0 (length (concat (map block_pairs ps)))) (concat (map block_pairs ps))).
Proof.
  unfold product_writes. rewrite fstarts. cbn [bind]. rewrite ts_nn.
  set (ip := combine (seq 0 (length ps)) ps).
  assert (Lip : length ip = length ps) by (unfold ip; rewrite combine_length, seq_length; lia).
  rewrite (@mapM_zrange _ _ _ (fun c : nat * (list Z * list Z) =>
     combine (zseq (sum (firstn (fst c) (map bsize ps))) (length (block_pairs (snd c)))) (block_pairs (snd c)))
     ip (0%nat, ([], []))).
  - cbn [bind]. f_equal. unfold ip.
    assert (H : forall l pre, firstn (length pre) ps = pre -> skipn (length pre) ps = l ->
      concat (map (fun c : nat * (list Z * list Z) =>
       combine (zseq (sum (firstn (fst c) (map bsize ps))) (length (block_pairs (snd c)))) (block_pairs (snd c)))
       (combine (seq (length pre) (length l)) l))
      = combine (zseq (zlen (concat (map block_pairs pre))) (length (concat (map block_pairs l)))) (concat (map block_pairs l))).
    { induction l as [|c l IH]; intros pre H1 H2; [reflexivity|].
      cbn [length seq combine map concat fst snd]. rewrite app_length, zseq_app, combine_app_ by apply zseq_len.
      f_equal.
      - do 2 f_equal. rewrite firstn_sum_len, H1. reflexivity.
      - specialize (IH (pre ++ [c])). rewrite app_length in IH. simpl length in IH.
        replace (length pre + 1)%nat with (S (length pre)) in IH by lia.
        assert (E : ps = pre ++ c :: l) by (rewrite <- (firstn_skipn (length pre) ps), H1, H2; reflexivity).
        rewrite IH.
        + f_equal. rewrite map_app, concat_app. cbn [map concat]. rewrite app_nil_r. unfold zlen. f_equal.
          rewrite app_length. lia.
        + rewrite E. rewrite firstn_app. replace (S (length pre) - length pre)%nat with 1%nat by lia.
          rewrite firstn_all2 by lia. reflexivity.
        + rewrite E. rewrite skipn_app. replace (S (length pre) - length pre)%nat with 1%nat by lia.
          rewrite skipn_all2 by lia. reflexivity. }
    apply (H ps []); reflexivity.
  - unfold zlen. rewrite Lip. reflexivity.
  - intros i Hi. rewrite Lip in Hi.
    assert (E : nth i ip (0%nat, ([], [])) = (i, nth i ps ([], []))).
    { unfold ip. rewrite combine_nth by apply seq_length. rewrite seq_nth by exact Hi. reflexivity. }
    rewrite E. apply (cwrites Hi).
Qed.

(** taking a block out of a flat array *)
Lemma flat_take (A : Type) (f : Z * Z -> A) i : (i < length ps)%nat ->
  flat_cluster_take m (map f (concat (map block_pairs ps))) (Z.of_nat i)
  = Ok (map f (block_pairs (nth i ps ([], [])))).
Proof.
  intros Hi. unfold flat_cluster_take. rewrite fstarts. cbn [bind].
  set (c := nth i ps ([], [])).
  assert (L : zlen (cumsum0 (map bsize ps)) = zlen ps + 1).
  { unfold zlen, cumsum0. rewrite cumsum_len, map_length. lia. }
  assert (E : pyslice (cumsum0 (map bsize ps)) (Z.of_nat i) (Z.of_nat i + 2)
     = [sum (firstn i (map bsize ps)); sum (firstn (S i) (map bsize ps))]).
  { rewrite pyslice_mid; [|lia|lia|rewrite L; unfold zlen; lia].
    replace (Z.to_nat (Z.of_nat i + 2 - Z.of_nat i)) with 2%nat by lia. rewrite Nat2Z.id.
    assert (G : forall (l : list Z) j a b, nth_error l j = Some a -> nth_error l (S j) = Some b ->
       firstn 2 (skipn j l) = [a; b]).
    { clear. induction l as [|x l IH]; intros j a b H1 H2; [destruct j; discriminate|].
      destruct j as [|j].
      - simpl in *. destruct l as [|y l]; [discriminate|]. simpl in *. congruence.
      - simpl in H1, H2. simpl skipn. apply IH; assumption. }
    apply G; unfold cumsum0; rewrite cumsum_nth by (rewrite map_length; lia); reflexivity. }
  rewrite E. f_equal.
  pose proof (@concat_slice (map (fun c => map fst (block_pairs c)) ps)) as _.
  rewrite (firstn_sum_len i), (firstn_sum_len (S i)).
  assert (S1 : firstn (S i) ps = firstn i ps ++ [c]) by (apply firstn_S_nth; exact Hi).
  rewrite S1, map_app, concat_app. cbn [map concat]. rewrite app_nil_r.
  set (pre := concat (map block_pairs (firstn i ps))).
  assert (E2 : concat (map block_pairs ps) = pre ++ block_pairs c ++ concat (map block_pairs (skipn (S i) ps))).
  { unfold pre. rewrite <- (firstn_skipn (S i) ps) at 1. rewrite S1, !map_app, !concat_app. cbn [map concat].
    rewrite app_nil_r, <- app_assoc. reflexivity. }
  rewrite E2. unfold zlen. rewrite !map_app.
  rewrite pyslice_mid; [|lia|rewrite app_length; lia|unfold zlen; rewrite !app_length, !map_length; lia].
  rewrite app_length. replace (Z.to_nat (Z.of_nat (length pre + length (block_pairs c)) - Z.of_nat (length pre)))
    with (length (block_pairs c)) by lia. rewrite Nat2Z.id.
  rewrite skipn_app, map_length, Nat.sub_diag, skipn_all2 by (rewrite map_length; lia). simpl.
  rewrite firstn_app, map_length, Nat.sub_diag. simpl. rewrite app_nil_r, firstn_all2 by (rewrite map_length; lia).
  reflexivity.
Qed.

Lemma chunks_prod (A : Type) (f : Z * Z -> A) sc : forall tc,
  chunks (length tc) (length sc) (map f (list_prod tc sc)) = map (fun t => map (fun s => f (t, s)) sc) tc.
Proof.
  induction tc as [|t tc IH]; [reflexivity|]. cbn [length chunks map]. rewrite list_prod_cons, map_app.
  rewrite firstn_app, !map_length, Nat.sub_diag. simpl firstn. rewrite app_nil_r.
  rewrite firstn_all2 by (rewrite !map_length; lia).
  rewrite skipn_app, !map_length, Nat.sub_diag, skipn_all2 by (rewrite !map_length; lia). simpl app.
  rewrite map_map. f_equal. exact IH.
Qed.

Lemma flat_diag (A : Type) (x : Z -> Z -> A) :
  make_flat_cluster_diag (map (fun p => x (fst p) (snd p)) (concat (map block_pairs ps))) m
  = Ok (map (block x) ps).
Proof.
  unfold make_flat_cluster_diag. rewrite ts_nn. apply (@mapM_zrange _ _ _ (block x) ps ([], [])); [reflexivity|].
  intros i Hi. unfold cluster_shape. destruct (tsize Hi) as (-> & -> & _ & _). cbn [bind].
  rewrite (flat_take _ Hi). cbn [bind]. unfold reshape. cbn [fst snd].
  set (c := nth i ps ([], [])).
  assert (E : (zlen (fst c) * zlen (snd c) =? zlen (map (fun p => x (fst p) (snd p)) (block_pairs c)))
      && (0 <=? zlen (fst c)) && (0 <=? zlen (snd c)) = true).
  { rewrite !andb_true_iff. repeat split; [apply Z.eqb_eq|apply Z.leb_le|apply Z.leb_le]; unfold zlen; try lia.
    rewrite map_length. unfold block_pairs. rewrite prod_length. lia. }
  rewrite E. unfold zlen. rewrite !Nat2Z.id. unfold block_pairs. rewrite chunks_prod. reflexivity.
Qed.
Lemma block_take (A : Type) (x : Z -> Z -> A) i : (i < length ps)%nat ->
  ts_cluster_take m x (Z.of_nat i) (Z.of_nat i) = Ok (block x (nth i ps ([], []))).
Proof.
  intros Hi. unfold ts_cluster_take. destruct (tsize Hi) as (_ & _ & -> & ->). reflexivity.
Qed.
End TSC.
