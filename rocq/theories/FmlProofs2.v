From Coq Require Import QArith Permutation.
From Verif Require Import Base SymProofs SymProofs2 RefineModel AssocModel FmmModel FmmSpec FmmProofs FmmProofs2 FmlModel FmlSpec FmlProofs.
Set Implicit Arguments.
Open Scope nat_scope.

(** * Arrays *)
Fixpoint sum (l : list nat) : nat := match l with [] => 0 | x :: l => x + sum l end.
Lemma fold_plus l : forall a, fold_left plus l a = a + sum l.
Proof. induction l as [|x l IH]; intros a; cbn; [lia|]. rewrite IH. lia. Qed.
Lemma sum_app a b : sum (a ++ b) = sum a + sum b.
Proof. induction a as [|x a IH]; cbn; lia. Qed.
Lemma cumsum_nth l : forall a i, i <= length l -> nth i (cumsum a l) 0 = a + sum (firstn i l).
Proof.
  induction l as [|x l IH]; intros a i Hi; cbn in Hi.
  - replace i with 0 by lia. cbn. lia.
  - destruct i as [|i]; cbn; [lia|]. rewrite IH by lia. lia.
Qed.
Lemma cumsum_length l : forall a, length (cumsum a l) = S (length l).
Proof. induction l as [|x l IH]; intros a; cbn; [reflexivity|]. rewrite IH. reflexivity. Qed.
Lemma sum_firstn_S (l : list nat) i : i < length l -> sum (firstn (S i) l) = sum (firstn i l) + nth i l 0.
Proof. revert i. induction l as [|x l IH]; intros [|i] H; cbn in *; try lia. rewrite IH by lia. lia. Qed.
Lemma concat_length A (l : list (list A)) : length (concat l) = sum (map (@length A) l).
Proof. induction l as [|x l IH]; cbn; [reflexivity|]. rewrite app_length, IH. reflexivity. Qed.
(** Piece [i] of a concatenation. *)
Lemma nth_concat_piece A (ls : list (list A)) : forall i q d, i < length ls -> q < length (nth i ls []) ->
  nth (sum (firstn i (map (@length A) ls)) + q) (concat ls) d = nth q (nth i ls []) d.
Proof.
  induction ls as [|x ls IH]; intros [|i] q d Hi Hq; cbn in Hi; try lia.
  - cbn in *. apply app_nth1. exact Hq.
  - cbn [map firstn sum concat nth] in *. rewrite app_nth2 by lia. replace (length x + _ + q - length x) with (sum (firstn i (map (@length A) ls)) + q) by lia. apply IH; [lia|exact Hq].
Qed.
Lemma slice_piece A (ls : list (list A)) i : i < length ls ->
  np_slice (concat ls) (sum (firstn i (map (@length A) ls))) (sum (firstn (S i) (map (@length A) ls))) = nth i ls [].
Proof.
  intros Hi. unfold np_slice. rewrite sum_firstn_S by (rewrite map_length; exact Hi). rewrite (@nth_map_d _ _ (@length A) ls i [] 0) by exact Hi.
  replace (sum (firstn i (map (@length A) ls)) + length (nth i ls []) - sum (firstn i (map (@length A) ls))) with (length (nth i ls [])) by lia.
  revert i Hi. induction ls as [|x ls IH]; intros [|i] Hi; cbn in Hi; try lia.
  - cbn. rewrite firstn_app, Nat.sub_diag, firstn_all. cbn. apply app_nil_r.
  - cbn [map firstn sum concat nth]. rewrite skipn_app, skipn_all2 by lia. cbn [app].
    replace (length x + sum (firstn i (map (@length A) ls)) - length x) with (sum (firstn i (map (@length A) ls))) by lia. apply IH. lia.
Qed.
Lemma map_nth_seq A B (f : A -> B) (l : list A) d : map (fun i => f (nth i l d)) (seq 0 (length l)) = map f l.
Proof.
  apply nth_ext with (d := f d) (d' := f d); [rewrite !map_length; apply seq_length|]. intros i H. rewrite map_length, seq_length in H.
  rewrite (@nth_map_d _ _ _ (seq 0 (length l)) i 0 (f d)) by (rewrite seq_length; exact H). rewrite seq_nth by exact H. cbn [plus]. rewrite (@nth_map_d _ _ f l i d (f d)) by exact H. reflexivity.
Qed.
Lemma flat_map_nth_seq A B (f : A -> list B) (l : list A) d : flat_map (fun i => f (nth i l d)) (seq 0 (length l)) = flat_map f l.
Proof. rewrite !flat_map_concat_map. f_equal. apply map_nth_seq. Qed.

(** Filling consecutive slices. *)
Lemma fill_slices A (z : A) (cs : list nat) (piece : nat -> list A) (starts : list nat) : forall i pre,
  length pre = nth i starts 0 ->
  (forall j, j < length cs -> nth (i + j + 1) starts 0 = nth (i + j) starts 0 + length (piece (nth j cs 0))) ->
  foldM (fun a '(i, c) => assign_slice a (nth i starts 0) (nth (i + 1) starts 0) (piece c))
    (pre ++ repeat z (sum (map (fun c => length (piece c)) cs))) (combine (seq i (length cs)) cs)
  = Ok (pre ++ flat_map piece cs).
Proof.
  induction cs as [|c cs IH]; intros i pre Hp Hs.
  - cbn. reflexivity.
  - cbn [length seq combine foldM map sum flat_map]. assert (E := Hs 0 ltac:(cbn; lia)). rewrite Nat.add_0_r in E. cbn [nth] in E.
    unfold assign_slice. rewrite E. replace (nth i starts 0 + length (piece c) - nth i starts 0) with (length (piece c)) by lia. rewrite Nat.eqb_refl. cbn [bind].
    rewrite repeat_app', <- Hp, write_slice_app by (rewrite repeat_length; reflexivity).
    specialize (IH (S i) (pre ++ piece c)). rewrite <- !app_assoc in IH. apply IH.
    + rewrite app_length, Hp. replace (S i) with (i + 1) by lia. lia.
    + intros j Hj. specialize (Hs (S j) ltac:(cbn; lia)). cbn [nth] in Hs. replace (S i + j) with (i + S j) by lia. exact Hs.
Qed.

(** [a[ixs] += vs]. *)
Lemma fancy_add_length A (a : list (list A)) ixs vs : length (fancy_add a ixs vs) = length a.
Proof. apply scatter_length. Qed.
Lemma fancy_add_in A (a : list (list A)) ixs vs k : NoDup ixs -> length vs = length ixs -> k < length ixs -> nth k ixs 0 < length a ->
  nth (nth k ixs 0) (fancy_add a ixs vs) [] = nth (nth k ixs 0) a [] ++ nth k vs [].
Proof.
  intros N L K R. unfold fancy_add. rewrite scatter_nth; [|exact N|rewrite map_length, combine_length; lia|exact K|exact R].
  rewrite (@nth_map_d _ _ _ (combine ixs vs) k (0, []) []) by (rewrite combine_length; lia). rewrite combine_nth by (symmetry; exact L). reflexivity.
Qed.
Lemma fancy_add_map A (a : list (list A)) ixs (f : nat -> list A) i : NoDup ixs -> (forall i, In i ixs -> i < length a) ->
  nth i (fancy_add a ixs (map f ixs)) [] = nth i a [] ++ (if existsb (Nat.eqb i) ixs then f i else []).
Proof.
  intros N R. destruct (existsb (Nat.eqb i) ixs) eqn:E.
  - apply existsb_exists in E. destruct E as (j & I & Ej). apply Nat.eqb_eq in Ej. subst j. destruct (In_nth _ _ 0 I) as (k & K & Ek). rewrite <- Ek.
    rewrite fancy_add_in; [|exact N|apply map_length|exact K|apply R; rewrite Ek; exact I]. f_equal. rewrite (@nth_map_d _ _ f ixs k 0 []) by exact K. reflexivity.
  - unfold fancy_add. rewrite scatter_other; [symmetry; apply app_nil_r|]. intros I.
    assert (X : existsb (Nat.eqb i) ixs = true) by (apply existsb_exists; exists i; split; [exact I|apply Nat.eqb_refl]). congruence.
Qed.
Lemma fancy_add_one A (a : list (list A)) t v : t < length a -> fancy_add a [t] [v] = set_nth a t (nth t a [] ++ v).
Proof. reflexivity. Qed.
Lemma fancy_add_all A (vs : list (list A)) n : length vs = n -> fancy_add (repeat [] n) (seq 0 n) vs = vs.
Proof.
  intros L. apply nth_ext with (d := []) (d' := []); [rewrite fancy_add_length, repeat_length; auto|]. intros i Hi. rewrite fancy_add_length, repeat_length in Hi.
  pose proof (@fancy_add_in A (repeat [] n) (seq 0 n) vs i (seq_NoDup n 0)) as F. rewrite seq_length, repeat_length, seq_nth in F by exact Hi. cbn [plus] in F.
  rewrite F by auto. rewrite nth_rep. reflexivity.
Qed.
Lemma write_slice_length A (a : list A) s vs : s + length vs <= length a -> length (write_slice a s vs) = length a.
Proof. intros H. unfold write_slice. rewrite !app_length, firstn_length, skipn_length. lia. Qed.
Lemma write_slice_nth A (a : list A) s vs i d : s + length vs <= length a ->
  nth i (write_slice a s vs) d = if (s <=? i) && (i <? s + length vs) then nth (i - s) vs d else nth i a d.
Proof.
  intros H. unfold write_slice. destruct (s <=? i) eqn:E1; [apply Nat.leb_le in E1|apply Nat.leb_gt in E1]; cbn [andb].
  - rewrite app_nth2 by (rewrite firstn_length; lia). rewrite firstn_length, Nat.min_l by lia. destruct (i <? s + length vs) eqn:E2; [apply Nat.ltb_lt in E2|apply Nat.ltb_ge in E2].
    + apply app_nth1. lia.
    + rewrite app_nth2 by lia. rewrite nth_skipn. f_equal. lia.
  - rewrite app_nth1 by (rewrite firstn_length; lia). rewrite <- (firstn_skipn s a) at 2. rewrite app_nth1 by (rewrite firstn_length; lia). reflexivity.
Qed.

(** * Frames *)
Lemma place_eqb_refl a : place_eqb a a = true. Proof. destruct a; apply Nat.eqb_refl. Qed.
Lemma scale_eqb_refl a : scale_eqb a a = true. Proof. destruct a; apply Nat.eqb_refl. Qed.
Lemma order_eqb_refl a : order_eqb a a = true. Proof. destruct a; [apply Nat.eqb_refl|reflexivity]. Qed.
Lemma frame_eqb_refl f : frame_eqb f f = true.
Proof. unfold frame_eqb. rewrite place_eqb_refl, scale_eqb_refl, order_eqb_refl. reflexivity. Qed.
Lemma translate_tagged f g e : translate f g (tagged f e) = tagged g e.
Proof. unfold translate, tagged. rewrite map_map. apply map_ext. intros p. rewrite frame_eqb_refl. reflexivity. Qed.
Lemma tagged_app f a b : tagged f (a ++ b) = tagged f a ++ tagged f b.
Proof. apply map_app. Qed.
Lemma tagged_flat f A (g : A -> list (nat * nat)) l : flat_map (fun x => tagged f (g x)) l = tagged f (flat_map g l).
Proof. apply flat_map_map. Qed.
Lemma taeval_tagged lab c e r t : taeval lab (AtCenter c) (Radius c) (tagged (qbx_frame c) e) r t = map Some (eval lab e r t).
Proof. unfold taeval, tagged, eval. rewrite !map_map. apply map_ext. intros [x s]. cbn. rewrite !Nat.eqb_refl. reflexivity. Qed.

Section Levels.
Variable T : ftree.
Variable V : ftrav.
Hypothesis OK : fmm_ok T V.
Hypothesis LO : levels_ok T V.

Lemma find_level_ok b : forall ls k l s n,
  length (filter (fun l => (fst l <=? b) && (b <? fst l + snd l)) ls) = 1 ->
  nth_error ls l = Some (s, n) -> s <= b -> b < s + n -> find_level k ls b = k + l.
Proof.
  induction ls as [|[s' n'] ls IH]; intros k l s n F N S1 S2; [destruct l; discriminate|]. cbn [filter fst snd] in F. cbn [find_level].
  destruct ((s' <=? b) && (b <? s' + n')) eqn:E.
  - destruct l as [|l]; [lia|]. cbn in N. exfalso. cbn [length] in F.
    assert (I : In (s, n) (filter (fun l => (fst l <=? b) && (b <? fst l + snd l)) ls)).
    { apply filter_In. split; [eapply nth_error_In; exact N|]. cbn. apply andb_true_intro. split; [apply Nat.leb_le; exact S1|apply Nat.ltb_lt; exact S2]. }
    destruct (filter _ ls); [contradiction|discriminate].
  - destruct l as [|l].
    + cbn in N. injection N as -> ->. exfalso. apply andb_false_iff in E. destruct E as [E|E]; [apply Nat.leb_gt in E|apply Nat.ltb_ge in E]; lia.
    + cbn in N. rewrite (IH (S k) l s n F N S1 S2). lia.
Qed.
Lemma level_of_ok l b : on_level T l b -> level_of T b = l.
Proof.
  intros H. assert (B := lo_range LO H). destruct H as (s & n & N & S1 & S2). unfold level_of. rewrite (@find_level_ok b (ft_levels T) 0 l s n (fo_levels OK B) N S1 S2). reflexivity.
Qed.
Lemma on_level_range l b : on_level T l b -> fst (level_range T l) <= b /\ b < fst (level_range T l) + snd (level_range T l).
Proof. intros (s & n & N & S). unfold level_range. rewrite (nth_error_nth _ _ _ N). exact S. Qed.
Lemma on_level_iff l b : l < length (ft_levels T) -> (on_level T l b <-> (fst (level_range T l) <=? b) && (b <? fst (level_range T l) + snd (level_range T l)) = true).
Proof.
  intros L. split.
  - intros H. apply on_level_range in H. apply andb_true_intro. split; [apply Nat.leb_le|apply Nat.ltb_lt]; lia.
  - intros H. apply andb_prop in H. destruct H as (A & B). apply Nat.leb_le in A. apply Nat.ltb_lt in B. exists (fst (level_range T l)), (snd (level_range T l)).
    split; [|split; assumption]. rewrite <- surjective_pairing. apply nth_error_nth'. exact L.
Qed.
Lemma view_ok exps l b : on_level T l b -> view T exps l (Z.of_nat b - Z.of_nat (fst (level_range T l))) = exps b.
Proof.
  intros H. apply on_level_range in H. unfold view.
  assert (A : (0 <=? Z.of_nat b - Z.of_nat (fst (level_range T l)))%Z = true) by (apply Z.leb_le; lia).
  assert (B : (Z.of_nat b - Z.of_nat (fst (level_range T l)) <? Z.of_nat (snd (level_range T l)))%Z = true) by (apply Z.ltb_lt; lia).
  rewrite A, B. cbn [andb]. f_equal. lia.
Qed.
Lemma some_level b : b < ft_nboxes T -> exists l, on_level T l b /\ l < length (ft_levels T) /\ forall l', on_level T l' b -> l' = l.
Proof.
  intros B. pose proof (fo_levels OK B) as F.
  destruct (filter (fun l => (fst l <=? b) && (b <? fst l + snd l)) (ft_levels T)) as [|[s n] r] eqn:E; [discriminate|].
  assert (I : In (s, n) (filter (fun l => (fst l <=? b) && (b <? fst l + snd l)) (ft_levels T))) by (rewrite E; left; reflexivity).
  apply filter_In in I. destruct I as (I & C). cbn in C. apply andb_prop in C. destruct C as (C1 & C2). apply Nat.leb_le in C1. apply Nat.ltb_lt in C2.
  destruct (In_nth_error _ _ I) as (l & N). exists l. assert (H : on_level T l b) by (exists s, n; auto). split; [exact H|]. split; [apply nth_error_Some; congruence|].
  intros l' H'. rewrite <- (level_of_ok H'), <- (level_of_ok H). reflexivity.
Qed.
Lemma level_fits l : l < length (ft_levels T) -> fst (level_range T l) + snd (level_range T l) <= ft_nboxes T \/ snd (level_range T l) = 0.
Proof.
  intros L. destruct (snd (level_range T l)) as [|n] eqn:E; [right; reflexivity|left].
  assert (H : on_level T l (fst (level_range T l) + n)) by (apply on_level_iff; [exact L|]; rewrite E; apply andb_true_intro; split; [apply Nat.leb_le|apply Nat.ltb_lt]; lia).
  apply (lo_range LO) in H. lia.
Qed.
Lemma write_slice_nil A (a : list A) s : write_slice a s [] = a.
Proof. unfold write_slice. cbn [app length]. rewrite Nat.add_0_r. apply firstn_skipn. Qed.
Lemma rscale_nth b : b < ft_nboxes T -> nth b (box_to_rscale T) None = Some (LevelScale (level_of T b)).
Proof.
  intros B. destruct (some_level B) as (l & H & L & U). rewrite (level_of_ok H). unfold box_to_rscale.
  assert (G : forall ls a, (forall x, In x ls -> x < length (ft_levels T)) -> length a = ft_nboxes T ->
     let r := fold_left (fun a l => write_slice a (fst (level_range T l)) (repeat (Some (LevelScale l)) (snd (level_range T l)))) ls a in
     length r = ft_nboxes T /\ (In l ls -> nth b r None = Some (LevelScale l)) /\ (~ In l ls -> nth b r None = nth b a None)).
  { intros ls. induction ls as [|x ls IH] using rev_ind; intros a HL La; cbn zeta.
    - cbn. repeat split; auto. contradiction.
    - rewrite fold_left_app. cbn [fold_left]. destruct (IH a ltac:(intros y I; apply HL; apply in_or_app; auto) La) as (A1 & A2 & A3).
      set (r := fold_left _ ls a) in *. assert (X : x < length (ft_levels T)) by (apply HL; apply in_or_app; right; left; reflexivity).
      destruct (level_fits X) as [Fit|Z0].
      + assert (LR : fst (level_range T x) + length (repeat (Some (LevelScale x)) (snd (level_range T x))) <= length r) by (rewrite repeat_length, A1; exact Fit).
        split; [rewrite write_slice_length by exact LR; exact A1|]. rewrite write_slice_nth by exact LR; rewrite repeat_length.
        destruct ((fst (level_range T x) <=? b) && (b <? fst (level_range T x) + snd (level_range T x))) eqn:C.
        * apply (on_level_iff b X) in C. assert (x = l) by (apply U; exact C). subst x. split.
          { intros _. apply (on_level_range) in C. rewrite nth_indep with (d' := Some (LevelScale l)) by (rewrite repeat_length; lia). apply nth_rep. }
          { intros N. exfalso. apply N. apply in_or_app. right. left. reflexivity. }
        * split.
          { intros I. apply in_app_or in I. destruct I as [I|[E|[]]]; [apply A2; exact I|]. subst x. apply (on_level_iff b X) in H. congruence. }
          { intros N. apply A3. intros I. apply N. apply in_or_app. left. exact I. }
      + rewrite Z0. cbn [repeat]. rewrite write_slice_nil. split; [exact A1|]. split.
        * intros I. apply in_app_or in I. destruct I as [I|[E|[]]]; [apply A2; exact I|]. subst x. apply on_level_range in H. lia.
        * intros N. apply A3. intros I. apply N. apply in_or_app. left. exact I. }
  destruct (G (seq 0 (length (ft_levels T))) (repeat None (ft_nboxes T)) ltac:(intros x I; apply in_seq in I; lia) (repeat_length _ _)) as (_ & G2 & _).
  apply G2. apply in_seq. lia.
Qed.
End Levels.
