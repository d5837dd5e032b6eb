From Verif Require Import Base IndexModel IndexSpec.
Set Implicit Arguments.
Open Scope Z_scope.

(** ** Lists and Python indexing *)
Lemma pyget_nat (A : Type) (l : list A) (i : nat) :
  pyget l (Z.of_nat i) = match nth_error l i with Some v => Ok v | None => Err IndexError end.
Proof.
  unfold pyget. destruct (Z.ltb_spec (Z.of_nat i) 0); [lia|].
  destruct (Z.ltb_spec (Z.of_nat i) 0); [lia|]. rewrite Nat2Z.id. reflexivity.
Qed.
Lemma pyget_nat' (A : Type) (l : list A) z (i : nat) : z = Z.of_nat i ->
  pyget l z = match nth_error l i with Some v => Ok v | None => Err IndexError end.
Proof. intros ->. apply pyget_nat. Qed.
Lemma pyget_last (A : Type) (l : list A) x : pyget (l ++ [x]) (-1) = Ok x.
Proof.
  unfold pyget, zlen. change (-1 <? 0) with true. cbv iota. rewrite app_length. cbn [length].
  replace (-1 + Z.of_nat (length l + 1)) with (Z.of_nat (length l)) by lia.
  cbv zeta. destruct (Z.ltb_spec (Z.of_nat (length l)) 0); [lia|]. rewrite Nat2Z.id.
  rewrite nth_error_app2 by lia. rewrite Nat.sub_diag. reflexivity.
Qed.

Lemma pyslice_mid (A : Type) (l : list A) a b : 0 <= a -> a <= b -> b <= zlen l ->
  pyslice l a b = firstn (Z.to_nat (b - a)) (skipn (Z.to_nat a) l).
Proof.
  intros Ha Hab Hb. unfold pyslice, clip.
  destruct (Z.ltb_spec a 0); [lia|]. destruct (Z.ltb_spec b 0); [lia|].
  rewrite !Z.min_l by lia. reflexivity.
Qed.

Definition sum (l : list Z) : Z := fold_right Z.add 0 l.
Lemma sum_app l1 l2 : sum (l1 ++ l2) = sum l1 + sum l2.
Proof. unfold sum. induction l1 as [|x l1 IH]; simpl; [lia|]. rewrite IH. lia. Qed.

Lemma cumsum_len l : forall s, length (cumsum_from s l) = S (length l).
Proof. induction l as [|x l IH]; intros s; simpl; [reflexivity|]. rewrite IH. reflexivity. Qed.
Lemma cumsum_nth l : forall s i, (i <= length l)%nat ->
  nth_error (cumsum_from s l) i = Some (s + sum (firstn i l)).
Proof.
  induction l as [|x l IH]; intros s i Hi; simpl in Hi.
  - destruct i; [|lia]. simpl. f_equal. lia.
  - destruct i as [|i]; simpl; [f_equal; lia|]. rewrite IH by lia. f_equal. unfold sum. simpl. lia.
Qed.
Lemma cumsum_prefix l : prefix_sums l (cumsum0 l).
Proof.
  split; [apply cumsum_len|]. intros i Hi. unfold cumsum0. rewrite cumsum_nth by exact Hi.
  reflexivity.
Qed.
Lemma cumsum_last l : pyget (cumsum0 l) (-1) = Ok (sum l).
Proof.
  unfold cumsum0. assert (forall s, exists p, cumsum_from s l = p ++ [s + sum l]) as H.
  { induction l as [|x l IH]; intros s; simpl.
    - exists []. unfold sum. simpl. f_equal. lia.
    - destruct (IH (s + x)) as [p ->]. exists (s :: p). simpl. do 3 f_equal. unfold sum. simpl. lia. }
  destruct (H 0) as [p ->]. apply pyget_last.
Qed.

Lemma mapM_ok (A B : Type) (f : A -> result B) (g : A -> B) l :
  (forall x, In x l -> f x = Ok (g x)) -> mapM f l = Ok (map g l).
Proof.
  induction l as [|x l IH]; intros H; simpl; [reflexivity|].
  rewrite (H x) by (left; reflexivity). simpl. rewrite IH by (intros; apply H; right; assumption).
  reflexivity.
Qed.
Lemma map_seq_nth (A B : Type) (h : A -> B) (l : list A) (d : A) (g : nat -> B) :
  (forall i, (i < length l)%nat -> g i = h (nth i l d)) ->
  map g (seq 0 (length l)) = map h l.
Proof.
  revert g. induction l as [|x l IH]; intros g H; simpl; [reflexivity|].
  f_equal; [apply (H 0%nat); simpl; lia|]. rewrite <- seq_shift, map_map. apply IH.
  intros i Hi. apply (H (S i)). simpl. lia.
Qed.
Lemma mapM_zrange (A B : Type) (f : Z -> result B) (h : A -> B) (l : list A) (d : A) n :
  n = zlen l ->
  (forall i, (i < length l)%nat -> f (Z.of_nat i) = Ok (h (nth i l d))) ->
  mapM f (zrange n) = Ok (map h l).
Proof.
  intros -> H. unfold zrange, zlen. rewrite Nat2Z.id.
  rewrite (@mapM_ok _ _ f (fun z => h (nth (Z.to_nat z) l d))).
  - f_equal. rewrite map_map. apply (map_seq_nth h l d). intros i Hi. rewrite Nat2Z.id. reflexivity.
  - intros z Hz. apply in_map_iff in Hz. destruct Hz as (i & <- & Hi). apply in_seq in Hi.
    rewrite Nat2Z.id. apply H. lia.
Qed.

(** ** Index lists made of clusters *)
Section Clusters.
Variable cs : list (list Z).
Let sizes := map (@zlen Z) cs.
Let il := IL (concat cs) (cumsum0 sizes).

Lemma il_n : nclusters il = zlen cs.
Proof. unfold nclusters, zlen, il, cumsum0. simpl. rewrite cumsum_len. unfold sizes. rewrite map_length. lia. Qed.
Lemma il_total : zlen (concat cs) = sum sizes.
Proof.
  unfold sizes, zlen. clear. induction cs as [|c l IH]; [reflexivity|].
  simpl. rewrite app_length. unfold sum in *. simpl. rewrite <- IH. unfold zlen. lia.
Qed.
Lemma firstn_S_nth (A : Type) (l : list A) i d : (i < length l)%nat ->
  firstn (S i) l = firstn i l ++ [nth i l d].
Proof.
  revert i. induction l as [|x l IH]; intros i Hi; simpl in Hi; [lia|].
  destruct i as [|i]; [reflexivity|]. change (firstn (S (S i)) (x :: l)) with (x :: firstn (S i) l).
  rewrite IH by lia. reflexivity.
Qed.
Lemma sizes_nth i : (i < length cs)%nat ->
  sum (firstn (S i) sizes) = sum (firstn i sizes) + zlen (nth i cs []).
Proof.
  intros Hi. unfold sizes. rewrite (@firstn_S_nth _ _ i (@zlen Z [])) by (rewrite map_length; exact Hi).
  rewrite sum_app, map_nth. unfold sum at 2. simpl. lia.
Qed.
Lemma sizes_pre_nonneg i : 0 <= sum (firstn i sizes).
Proof.
  unfold sizes. rewrite firstn_map. generalize (firstn i cs). intros l.
  induction l as [|c l IH]; unfold sum in *; simpl; [lia|]. unfold zlen at 1. lia.
Qed.
Lemma sizes_pre_le i : sum (firstn i sizes) <= sum sizes.
Proof.
  rewrite <- (firstn_skipn i sizes) at 2. rewrite sum_app.
  enough (0 <= sum (skipn i sizes)) by lia. unfold sizes. rewrite skipn_map. generalize (skipn i cs).
  intros l. induction l as [|c l IH]; unfold sum in *; simpl; [lia|]. unfold zlen at 1. lia.
Qed.

Lemma starts_get i : (i <= length cs)%nat ->
  pyget (starts il) (Z.of_nat i) = Ok (sum (firstn i sizes)).
Proof.
  intros Hi. unfold il. simpl. rewrite pyget_nat. unfold cumsum0. rewrite cumsum_nth.
  - reflexivity.
  - unfold sizes. rewrite map_length. exact Hi.
Qed.

Lemma il_in_range i : (i < length cs)%nat -> in_range (Z.of_nat i) (nclusters il) = true.
Proof.
  intros Hi. unfold in_range. rewrite il_n. unfold zlen. apply andb_true_iff.
  split; [apply Z.leb_le|apply Z.ltb_lt]; lia.
Qed.
Lemma il_out_range z : ~ (0 <= z < zlen cs) -> in_range z (nclusters il) = false.
Proof.
  intros H. unfold in_range. rewrite il_n. apply andb_false_iff.
  destruct (Z.leb_spec 0 z); [right; apply Z.ltb_ge; lia|left; reflexivity].
Qed.

Lemma il_size i : (i < length cs)%nat -> cluster_size il (Z.of_nat i) = Ok (zlen (nth i cs [])).
Proof.
  intros Hi. unfold cluster_size. rewrite il_in_range by exact Hi.
  replace (Z.of_nat i + 1) with (Z.of_nat (S i)) by lia. rewrite !starts_get by lia.
  cbn [bind]. rewrite sizes_nth by exact Hi. f_equal. lia.
Qed.

Lemma concat_slice i : (i < length cs)%nat ->
  firstn (length (nth i cs [])) (skipn (Z.to_nat (sum (firstn i sizes))) (concat cs)) = nth i cs [].
Proof.
  subst sizes il. revert i. induction cs as [|c l IH]; intros i Hi; simpl in Hi; [lia|].
  destruct i as [|i].
  - simpl. rewrite firstn_app, Nat.sub_diag. simpl. rewrite app_nil_r. apply firstn_all.
  - cbn [nth concat map firstn].
    replace (sum (zlen c :: firstn i (map (@zlen Z) l))) with (sum (firstn i (map (@zlen Z) l)) + zlen c)
      by (unfold sum; simpl; lia).
    assert (0 <= sum (firstn i (map (@zlen Z) l))).
    { rewrite firstn_map. generalize (firstn i l). intros q.
      induction q as [|c' q IHq]; unfold sum in *; simpl; [lia|]. unfold zlen at 1. lia. }
    change (zlen c) with (Z.of_nat (length c)). rewrite Z2Nat.inj_add, Nat2Z.id by lia.
    rewrite skipn_app. rewrite (skipn_all2 c) by lia. simpl.
    replace (Z.to_nat (sum (firstn i (map (@zlen Z) l))) + length c - length c)%nat
      with (Z.to_nat (sum (firstn i (map (@zlen Z) l)))) by lia.
    apply IH. lia.
Qed.

Lemma il_cluster i : (i < length cs)%nat -> cluster_indices il (Z.of_nat i) = Ok (nth i cs []).
Proof.
  intros Hi. unfold cluster_indices. rewrite il_in_range by exact Hi.
  replace (Z.of_nat i + 1) with (Z.of_nat (S i)) by lia. rewrite !starts_get by lia.
  cbn [bind]. f_equal. change (indices il) with (concat cs).
  pose proof (sizes_pre_nonneg i). pose proof (sizes_pre_le (S i)). rewrite sizes_nth in * by exact Hi.
  rewrite pyslice_mid; [|lia|unfold zlen; lia|rewrite il_total; lia].
  replace (sum (firstn i sizes) + zlen (nth i cs []) - sum (firstn i sizes)) with (zlen (nth i cs [])) by lia.
  unfold zlen. rewrite Nat2Z.id. apply concat_slice. exact Hi.
Qed.

(** reading entry j of cluster i of the flat index array *)
Lemma il_read i j : (i < length cs)%nat -> (j < length (nth i cs []))%nat ->
  pyget (concat cs) (sum (firstn i sizes) + Z.of_nat j) = Ok (nth j (nth i cs []) 0).
Proof.
  intros Hi Hj. pose proof (sizes_pre_nonneg i).
  rewrite (@pyget_nat' _ _ _ (Z.to_nat (sum (firstn i sizes)) + j)%nat) by lia.
  set (p := Z.to_nat (sum (firstn i sizes))).
  assert (E : nth_error (concat cs) (p + j) = nth_error (nth i cs []) j).
  { rewrite <- (concat_slice Hi). fold p.
    rewrite <- (firstn_skipn p (concat cs)) at 1.
    assert (Hp : (p <= length (concat cs))%nat).
    { pose proof (sizes_pre_le i). unfold p. rewrite <- il_total in H0. unfold zlen in H0. lia. }
    rewrite nth_error_app2 by (rewrite firstn_length; lia).
    rewrite firstn_length, Nat.min_l by lia. replace (p + j - p)%nat with j by lia.
    revert Hj. generalize (length (nth i cs [])). clear. intros n.
    revert j. generalize (skipn p (concat cs)). intros l. revert n.
    induction l as [|x l IH]; intros n j Hj; [destruct n; destruct j; reflexivity|].
    destruct n; [lia|]. destruct j; [reflexivity|]. simpl. apply IH. lia. }
  rewrite E. rewrite (nth_error_nth' _ 0) by exact Hj. reflexivity.
Qed.
End Clusters.
