(** Proofs for C41 and C74. *)
From Coq Require Import Permutation Ring.
From Verif Require Import Base DofModel MatModel SymProofs SymProofs2 IntlModel IntlSpec.
Set Implicit Arguments.
Open Scope list_scope. Open Scope nat_scope.

(** ** The kernel: what an entry of the result is after all statements, in any order *)
Section Kernel.
Variable T : Type.
Variables a b : sub T.

Lemma exec_other m s i j :
  (forall iel idof, s = (false, iel, idof) -> ~ (i = iel /\ j = 2 * idof)) ->
  (forall iel idof, s = (true, iel, idof) -> ~ (i = iel /\ j = 2 * idof + 1)) ->
  exec a b m s i j = m i j.
Proof.
  intros H1 H2. destruct s as [[[|] iel] idof]; cbn [exec]; unfold store.
  - specialize (H2 _ _ eq_refl). destruct (Nat.eqb_spec i iel); destruct (Nat.eqb_spec j (2 * idof + 1)); cbn; tauto.
  - specialize (H1 _ _ eq_refl). destruct (Nat.eqb_spec i iel); destruct (Nat.eqb_spec j (2 * idof)); cbn; tauto.
Qed.

Lemma run_even order : forall m i j, In (false, i, j) order ->
  fold_left (exec a b) order m i (2 * j) = val a i j.
Proof.
  induction order as [|s order IH] using rev_ind; intros m i j H; [destruct H|].
  rewrite fold_left_app. cbn [fold_left]. apply in_app_or in H.
  destruct s as [[sec iel] idof].
  destruct (bool_dec sec false) as [->|Hs].
  - destruct (Nat.eq_dec i iel) as [<-|Hi]; [destruct (Nat.eq_dec j idof) as [<-|Hj]|].
    + cbn [exec]. unfold store. rewrite !Nat.eqb_refl. reflexivity.
    + rewrite exec_other.
      * apply IH. destruct H as [H|[H|[]]]; [exact H|congruence].
      * intros ? ? E. injection E; intros; subst. lia.
      * discriminate.
    + rewrite exec_other.
      * apply IH. destruct H as [H|[H|[]]]; [exact H|congruence].
      * intros ? ? E. injection E; intros; subst. lia.
      * discriminate.
  - destruct sec; [|congruence]. rewrite exec_other.
    + apply IH. destruct H as [H|[H|[]]]; [exact H|congruence].
    + discriminate.
    + intros ? ? E. lia.
Qed.

Lemma run_odd order : forall m i j, In (true, i, j) order ->
  fold_left (exec a b) order m i (2 * j + 1) = val b i j.
Proof.
  induction order as [|s order IH] using rev_ind; intros m i j H; [destruct H|].
  rewrite fold_left_app. cbn [fold_left]. apply in_app_or in H.
  destruct s as [[sec iel] idof].
  destruct (bool_dec sec true) as [->|Hs].
  - destruct (Nat.eq_dec i iel) as [<-|Hi]; [destruct (Nat.eq_dec j idof) as [<-|Hj]|].
    + cbn [exec]. unfold store. rewrite !Nat.eqb_refl. reflexivity.
    + rewrite exec_other.
      * apply IH. destruct H as [H|[H|[]]]; [exact H|congruence].
      * discriminate.
      * intros ? ? E. injection E; intros; subst. lia.
    + rewrite exec_other.
      * apply IH. destruct H as [H|[H|[]]]; [exact H|congruence].
      * discriminate.
      * intros ? ? E. injection E; intros; subst. lia.
  - destruct sec; [congruence|]. rewrite exec_other.
    + apply IH. destruct H as [H|[H|[]]]; [exact H|congruence].
    + intros ? ? E. lia.
    + discriminate.
Qed.

Lemma in_domain n u sec i j : In (sec, i, j) (domain n u) <-> i < n /\ j < u.
Proof.
  unfold domain. rewrite !in_prod_iff, !in_seq. destruct sec; cbn; intuition lia.
Qed.
End Kernel.

(** ** Flat arrays *)
Section Flat.
Variable T : Type.
Definition row (s : sub T) (i : nat) : list T := map (val s i) (seq 0 (nunit s)).
Definition flat1 (s : sub T) : list T := concat (map (row s) (seq 0 (nel s))).

Lemma row_length s i : length (row s i) = nunit s.
Proof. unfold row. rewrite map_length, seq_length. reflexivity. Qed.
Lemma alternates_app (x y z x' y' z' : list T) : alternates x y z -> alternates x' y' z' ->
  alternates (x ++ x') (y ++ y') (z ++ z').
Proof.
  intros (L1 & L2 & H) (L1' & L2' & H'). split; [|split]; rewrite ?app_length; try lia.
  intros i Hi. destruct (Nat.ltb_spec i (length x)) as [Hlt|Hge].
  - destruct (H i Hlt) as [E1 E2]. rewrite !nth_error_app1 by lia. auto.
  - destruct (H' (i - length x)) as [E1 E2]; [lia|].
    rewrite !nth_error_app2 by lia. rewrite L1, L2, <- E1, <- E2. split; f_equal; lia.
Qed.
Lemma alternates_nil : alternates (@nil T) [] [].
Proof. split; [reflexivity|]. split; [reflexivity|]. intros i Hi. cbn in Hi. lia. Qed.
Lemma alternates_concat (A : Type) (f g h : A -> list T) l :
  (forall x, In x l -> alternates (f x) (g x) (h x)) ->
  alternates (concat (map f l)) (concat (map g l)) (concat (map h l)).
Proof.
  induction l as [|x l IH]; intros H; [apply alternates_nil|]. cbn [map concat].
  apply alternates_app; [apply H; left; reflexivity|apply IH; intros y Hy; apply H; right; exact Hy].
Qed.

Lemma nth_map_seq (f : nat -> T) n i : nth_error (map f (seq 0 n)) i = if i <? n then Some (f i) else None.
Proof.
  destruct (Nat.ltb_spec i n) as [Hlt|Hge].
  - erewrite map_nth_error; [reflexivity|]. rewrite (nth_error_nth' _ 0) by (rewrite seq_length; exact Hlt).
    rewrite seq_nth by exact Hlt. reflexivity.
  - apply nth_error_None. rewrite map_length, seq_length. exact Hge.
Qed.

Lemma kernel_alternates order m (a b : sub T) : Permutation order (domain (nel a) (nunit a)) ->
  nel b = nel a -> nunit b = nunit a ->
  alternates (flat1 a) (flat1 b) (flat1 (call_kernel order m a b)).
Proof.
  intros HP Hn Hu. unfold flat1. rewrite Hn. cbn [call_kernel nel].
  apply alternates_concat. intros i Hi. apply in_seq in Hi.
  split; [|split]; rewrite ?row_length; [reflexivity|exact Hu|].
  intros j Hj. unfold row. rewrite !nth_map_seq. cbn [call_kernel nunit val].
  rewrite Hu.
  assert (Hin : forall sec, In (sec, i, j) order).
  { intros sec. eapply Permutation_in; [apply Permutation_sym; exact HP|]. apply in_domain. lia. }
  replace (2 * j <? 2 * nunit a) with true by (symmetry; apply Nat.ltb_lt; lia).
  replace (2 * j + 1 <? 2 * nunit a) with true by (symmetry; apply Nat.ltb_lt; lia).
  replace (j <? nunit a) with true by (symmetry; apply Nat.ltb_lt; lia).
  split; f_equal; [apply run_even|apply run_odd]; apply Hin.
Qed.

(** ** The loop over the groups *)
Variable sched : nat -> sub T -> list stmt * memory T.
Hypothesis Hsched : any_order sched.

Lemma groups_ok : forall gs g xs ys, on gs xs -> on gs ys ->
  exists zs, interleave_groups sched g (elements gs) xs ys = Ok zs /\
    map shape_of zs = map (fun s => (fst s, 2 * snd s)) gs /\
    alternates (concat (map flat1 xs)) (concat (map flat1 ys)) (concat (map flat1 zs)).
Proof.
  induction gs as [|gr gs IH]; intros g xs ys Hx Hy.
  - destruct xs; [|discriminate]. destruct ys; [|discriminate]. exists [].
    split; [reflexivity|]. split; [reflexivity|apply alternates_nil].
  - destruct xs as [|x xs]; [discriminate|]. destruct ys as [|y ys]; [discriminate|].
    injection Hx; intros Hx' E1. injection Hy; intros Hy' E2.
    destruct (IH (S g) xs ys Hx' Hy') as (zs & Hz & Sz & Az).
    rewrite <- E1 in E2. unfold shape_of in E2. injection E2; intros U N D.
    subst gr. cbn [elements map interleave_groups shape_of fst snd].
    rewrite <- D, N, U, !Nat.eqb_refl. cbn [negb andb].
    rewrite <- ?N. fold (elements gs). rewrite Hz. cbn [bind].
    eexists. split; [reflexivity|]. split.
    + cbn [map]. apply (f_equal2 cons); [|exact Sz]. unfold shape_of, call_kernel. cbn [dtype nel nunit fst snd]. rewrite ?N, ?D. reflexivity.
    + cbn [map concat]. apply alternates_app; [|exact Az].
      apply kernel_alternates; auto.
Qed.

Lemma groups_inv : forall groups g xs ys zs, interleave_groups sched g groups xs ys = Ok zs ->
  exists gs, groups = elements gs /\ on gs xs /\ on gs ys.
Proof.
  induction groups as [|n groups IH]; intros g xs ys zs H.
  - destruct xs; [|discriminate]. destruct ys; [|discriminate]. exists []. repeat split.
  - destruct xs as [|x xs]; [discriminate|]. destruct ys as [|y ys]; [discriminate|].
    cbn [interleave_groups] in H.
    destruct (Nat.eqb_spec (dtype x) (dtype y)) as [D|]; [|discriminate]. cbn [negb] in H.
    destruct (Nat.eqb_spec (nel x) n) as [N|]; [|discriminate]. cbn [negb] in H.
    destruct (Nat.eqb_spec (nel x) (nel y)) as [N'|]; [|discriminate].
    destruct (Nat.eqb_spec (nunit x) (nunit y)) as [U|]; [|discriminate]. cbn [andb negb] in H.
    apply bind_Ok in H. destruct H as (r & Hr & _).
    destruct (IH _ _ _ _ Hr) as (gs & -> & H1 & H2).
    exists (shape_of x :: gs). split; [cbn; f_equal; auto|].
    split; unfold on; cbn [map]; [rewrite H1; reflexivity|].
    rewrite H2. f_equal. unfold shape_of. congruence.
Qed.
End Flat.

(** ** Arithmetic *)
Section Arith.
Variable R : rops.
Lemma on_scale gs (c : R) (a : darr R) : on gs a -> on gs (dscale c a).
Proof. unfold on, dscale. intros <-. rewrite map_map. apply map_ext. reflexivity. Qed.
Lemma on_map2 gs (f : R -> R -> R) : forall a b : darr R, on gs a -> on gs b -> on gs (dmap2 f a b).
Proof.
  unfold on, dmap2. intros a b <-. revert b. induction a as [|x a IH]; intros [|y b] H; try discriminate; [reflexivity|].
  cbn [combine map]. injection H; intros H1 _ _ _. f_equal. apply IH. exact H1.
Qed.
Lemma flatten_flat1 (a : darr R) : flatten a = concat (map (@flat1 R) a).
Proof. reflexivity. Qed.
Lemma flatten_scale c (a : darr R) : flatten (dscale c a) = map (rmul R c) (flatten a).
Proof.
  unfold flatten, dscale. rewrite concat_map, !map_map. f_equal. apply map_ext. intros s. cbn [smap nel nunit val].
  rewrite concat_map, map_map. f_equal. apply map_ext. intros i. rewrite map_map. reflexivity.
Qed.
Definition zipw (f : R -> R -> R) (l l' : list R) : list R := map (fun p => f (fst p) (snd p)) (combine l l').
Lemma zipw_app f l1 : forall l2 l1' l2', length l1 = length l1' -> zipw f (l1 ++ l2) (l1' ++ l2') = zipw f l1 l1' ++ zipw f l2 l2'.
Proof.
  induction l1 as [|x l1 IH]; intros l2 [|y l1'] l2' H; try discriminate; [reflexivity|].
  injection H; intros H'. unfold zipw in *. cbn. f_equal. apply IH. exact H'.
Qed.
Lemma zipw_concat f (A : Type) (g g' : A -> list R) l : (forall x, In x l -> length (g x) = length (g' x)) ->
  zipw f (concat (map g l)) (concat (map g' l)) = concat (map (fun x => zipw f (g x) (g' x)) l).
Proof.
  induction l as [|x l IH]; intros H; [reflexivity|]. cbn [map concat].
  rewrite zipw_app by (apply H; left; reflexivity). f_equal. apply IH. intros y Hy. apply H. right. exact Hy.
Qed.
Lemma zipw_map f (g g' : nat -> R) l : zipw f (map g l) (map g' l) = map (fun x => f (g x) (g' x)) l.
Proof. unfold zipw. induction l as [|x l IH]; [reflexivity|]. cbn. f_equal. exact IH. Qed.
Lemma flat1_length (s : sub R) : length (flat1 s) = nel s * nunit s.
Proof.
  unfold flat1. generalize (nel s). intros n.
  assert (H : forall l, length (concat (map (row s) l)) = length l * nunit s).
  { induction l as [|i l IH]; [reflexivity|]. cbn [map concat length]. rewrite app_length, row_length, IH. lia. }
  rewrite H, seq_length. reflexivity.
Qed.
Lemma flat1_map2 f (a b : sub R) : nel b = nel a -> nunit b = nunit a ->
  flat1 (smap2 R f a b) = zipw f (flat1 a) (flat1 b).
Proof.
  intros Hn Hu. unfold flat1. rewrite Hn, zipw_concat.
  - cbn [smap2 nel]. f_equal. apply map_ext. intros i. unfold row. rewrite Hu, zipw_map. reflexivity.
  - intros i _. rewrite !row_length. auto.
Qed.
Lemma flatten_map2 gs (f : R -> R -> R) : forall a b : darr R, on gs a -> on gs b -> flatten (dmap2 f a b) = zipw f (flatten a) (flatten b).
Proof.
  unfold on. intros a b <-. revert b. induction a as [|x a IH]; intros [|y b] H; try discriminate; [reflexivity|].
  injection H; intros H1 H2 H3 H4. rewrite !flatten_flat1. unfold dmap2. cbn [combine map concat fst snd].
  rewrite zipw_app by (rewrite !flat1_length; congruence).
  f_equal; [apply flat1_map2; congruence|]. specialize (IH b H1). rewrite !flatten_flat1 in IH. exact IH.
Qed.
Lemma zipw_nth f l l' i x y : nth_error l i = Some x -> nth_error l' i = Some y -> nth_error (zipw f l l') i = Some (f x y).
Proof.
  revert l l'. induction i as [|i IH]; intros [|a l] [|b l'] H1 H2; try discriminate; cbn in *; [congruence|].
  apply IH; assumption.
Qed.
Lemma on_length gs : forall (a b : darr R), on gs a -> on gs b -> length (flatten a) = length (flatten b).
Proof.
  unfold on. intros a b <-. revert b. induction a as [|x a IH]; intros [|y b] H; try discriminate; [reflexivity|].
  injection H; intros H1 H2 H3 H4. rewrite !flatten_flat1. cbn [map concat]. rewrite !app_length, !flat1_length.
  specialize (IH b H1). rewrite !flatten_flat1 in IH. rewrite IH, H2, H3. reflexivity.
Qed.
End Arith.
