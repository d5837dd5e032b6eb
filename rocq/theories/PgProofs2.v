From Verif Require Import Base IndexModel IndexSpec IndexProofs IndexProofs3 PgModel PgSpec PgProofs.
Set Implicit Arguments.
Open Scope Z_scope.

Lemma zlen_app (A : Type) (l1 l2 : list A) : zlen (l1 ++ l2) = zlen l1 + zlen l2.
Proof. unfold zlen. rewrite app_length. lia. Qed.
Lemma zlen_map (A B : Type) (f : A -> B) l : zlen (map f l) = zlen l.
Proof. unfold zlen. rewrite map_length. reflexivity. Qed.
Lemma zlen_nonneg (A : Type) (l : list A) : 0 <= zlen l.
Proof. unfold zlen. lia. Qed.

Lemma set_slice_mid (T : Type) (d old r v : list T) lo hi : length old = length v ->
  lo = zlen d -> hi = lo + zlen v -> set_slice (d ++ old ++ r) lo hi v = Ok (d ++ v ++ r).
Proof.
  intros Hl -> ->. unfold set_slice. rewrite pyslice_mid; [|apply zlen_nonneg|pose proof (zlen_nonneg v); lia|].
  2:{ rewrite !zlen_app. pose proof (zlen_nonneg r). unfold zlen in *. lia. }
  replace (zlen d + zlen v - zlen d) with (zlen v) by lia.
  unfold zlen at 2 3. rewrite !Nat2Z.id. rewrite skipn_app, skipn_all, Nat.sub_diag. cbn [skipn app].
  rewrite firstn_app, <- Hl, firstn_all, Nat.sub_diag, firstn_O, app_nil_r.
  replace (zlen old =? zlen v) with true by (symmetry; apply Z.eqb_eq; unfold zlen; lia).
  f_equal. unfold clip. rewrite !zlen_app.
  destruct (Z.ltb_spec (zlen d) 0); [pose proof (zlen_nonneg d); lia|].
  rewrite Z.min_l by (pose proof (zlen_nonneg old); pose proof (zlen_nonneg r); lia).
  unfold zlen. rewrite Nat2Z.id. rewrite firstn_app, firstn_all, Nat.sub_diag, firstn_O, app_nil_r.
  do 2 f_equal. rewrite app_assoc, skipn_app, skipn_all2 by (rewrite app_length; lia).
  replace (length d + length old - length (d ++ old))%nat with 0%nat by (rewrite app_length; lia). reflexivity.
Qed.

Section Loop.
Variables (P Q : Type) (place : Z -> P -> Q) (ref : list P).
Let blk i := map (fun p => Some (place i p)) ref.
Lemma proxy_loop_ok : forall is done base, base = zlen done ->
  proxy_loop place ref is base (done ++ repeat None (length ref * length is)) = Ok (done ++ concat (map blk is)).
Proof.
  induction is as [|i is IH]; intros done base ->; cbn [proxy_loop map concat length].
  - rewrite Nat.mul_0_r. reflexivity.
  - replace (length ref * S (length is))%nat with (length ref + length ref * length is)%nat by lia.
    rewrite repeat_app. rewrite set_slice_mid.
    + cbn [bind]. rewrite app_assoc. rewrite IH; [rewrite <- app_assoc; reflexivity|].
      unfold nproxy. rewrite zlen_app, zlen_map. reflexivity.
    + rewrite repeat_length, map_length. reflexivity.
    + reflexivity.
    + unfold nproxy. rewrite zlen_map. reflexivity.
Qed.
End Loop.

Lemma entry_concat_blocks (A B : Type) (f : A -> list B) (m : Z) : forall l i j a v,
  (forall x, zlen (f x) = m) -> entry l i a -> entry (f a) j v ->
  entry (concat (map f l)) (i * m + j) v.
Proof.
  intros l. induction l as [|x l IH]; intros i j a v Hm Hi Hj.
  - destruct Hi as [_ H]. rewrite nth_error_nil in H || destruct (Z.to_nat i); discriminate.
  - pose proof (entry_lt Hj) as Lj. rewrite Hm in Lj. destruct Hi as [H0 H]. destruct Hj as [J0 Hj].
    cbn [map concat]. destruct (Z.eq_dec i 0) as [->|Hne].
    + simpl in H. injection H as ->. split; [lia|]. rewrite Z.mul_0_l, Z.add_0_l.
      rewrite nth_error_app1; [exact Hj|]. apply nth_error_Some. congruence.
    + assert (Ha : entry l (i - 1) a).
      { split; [lia|]. replace (Z.to_nat i) with (S (Z.to_nat (i - 1))) in H by lia. exact H. }
      destruct (IH (i - 1) j a v Hm Ha (conj J0 Hj)) as [K0 K]. split; [lia|].
      specialize (Hm x). unfold zlen in Hm.
      rewrite nth_error_app2 by nia.
      replace (Z.to_nat (i * m + j) - length (f x))%nat with (Z.to_nat ((i - 1) * m + j)) by nia. exact K.
Qed.

Lemma entry_map (A B : Type) (f : A -> B) l i v : entry l i v -> entry (map f l) i (f v).
Proof. intros [H0 H]. split; [exact H0|]. apply map_nth_error. exact H. Qed.
Lemma entry_map_inv (A B : Type) (f : A -> B) l i w : entry (map f l) i w -> exists v, entry l i v /\ w = f v.
Proof.
  intros H. assert (L : 0 <= i < zlen l) by (rewrite <- (zlen_map f); apply (entry_lt H)).
  destruct (entry_ex l L) as (v & Hv). exists v. split; [exact Hv|].
  eapply entry_inj; [exact H|]. apply entry_map. exact Hv.
Qed.

(** starts 0, k, 2k, ..., n k *)
Lemma arange_starts k n : 0 < k -> 0 <= n ->
  arange 0 (k * n + 1) k = Ok (map (fun j => j * k) (zrange (n + 1))).
Proof.
  intros Hk Hn. unfold arange. destruct (Z.eqb_spec k 0); [lia|]. do 2 f_equal.
  replace (k * n + 1 - 0 + k - Z.sgn k) with ((n + 1) * k) by (rewrite Z.sgn_pos by lia; lia).
  rewrite Z.div_mul by lia. reflexivity.
Qed.
Lemma zrange_last n : 0 <= n -> zrange (n + 1) = zrange n ++ [n].
Proof.
  intros H. unfold zrange. rewrite Z2Nat.inj_add by lia. change (Z.to_nat 1) with 1%nat.
  rewrite seq_app, map_app. simpl. do 2 f_equal. lia.
Qed.
Lemma firstn_rng (s n : Z) : 0 <= s -> 0 <= n -> forall t, s + n <= t ->
  firstn (Z.to_nat n) (skipn (Z.to_nat s) (zrange t)) = rng s n.
Proof.
  intros Hs Hn t Ht. pose proof (slice_rng (zrange t) Hs Hn) as E. rewrite zrange_len in E by lia.
  assert (E' := E ltac:(lia)). rewrite pyslice_mid in E' by (rewrite ?zrange_len by lia; lia).
  replace (s + n - s) with n in E' by lia. rewrite E'. rewrite <- (map_id (rng s n)) at 2.
  apply map_ext_in. intros k Hk. apply rng_In in Hk. apply entry_nth. apply zrange_entry. lia.
Qed.

(** *** Without a tree *)
Lemma linspace_proper point n k : 1 <= k -> good_points point n k ->
  proper_starts (linspace point n (k + 1)) n.
Proof.
  intros Hk [Hz Hm Hs]. unfold linspace. replace (k + 1 - 1) with k by lia.
  assert (L : length (map point (zrange k)) = Z.to_nat k).
  { rewrite map_length. unfold zrange. rewrite map_length, seq_length. reflexivity. }
  assert (N : forall i, (i < Z.to_nat k)%nat -> nth_error (map point (zrange k) ++ [n]) i = Some (point (Z.of_nat i))).
  { intros i Hi. rewrite nth_error_app1 by lia. apply map_nth_error.
    pose proof (@zrange_entry k (Z.of_nat i) ltac:(lia)) as [_ E]. rewrite Nat2Z.id in E. exact E. }
  assert (Nl : nth_error (map point (zrange k) ++ [n]) (Z.to_nat k) = Some n).
  { rewrite nth_error_app2 by lia. rewrite L, Nat.sub_diag. reflexivity. }
  split; [|split].
  - rewrite N by lia. simpl. congruence.
  - rewrite app_length, L. simpl. replace (Z.to_nat k + 1 - 1)%nat with (Z.to_nat k) by lia. exact Nl.
  - intros i a b Ha Hb. assert (Hi : (S i < Z.to_nat k + 1)%nat).
    { replace (Z.to_nat k + 1)%nat with (length (map point (zrange k) ++ [n])) by (rewrite app_length; simpl; lia).
      apply nth_error_Some. congruence. }
    rewrite N in Ha by lia. injection Ha as <-. destruct (Nat.eq_dec (S i) (Z.to_nat k)) as [E|E].
    + rewrite E, Nl in Hb. injection Hb as <-. replace (Z.of_nat i) with (k - 1) by lia. exact Hs.
    + rewrite N in Hb by lia. replace (Z.of_nat (S i)) with (Z.of_nat i + 1) in Hb by lia.
      injection Hb as <-. apply Hm; lia.
Qed.
Lemma exact_good n k : 0 <= n -> 1 <= k -> good_points (exact_point n (k + 1)) n k.
Proof.
  intros Hn Hk. unfold exact_point. replace (k + 1 - 1) with k by lia. constructor.
  - reflexivity.
  - intros i Hi _. apply Z.div_le_mono; nia.
  - apply Z.div_le_upper_bound; nia.
Qed.
