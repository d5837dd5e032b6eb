(** Basic facts about expressions, Python equality, name generation and sorting. *)
From Verif Require Import Base SchedModel CompModel CompSpec.
From Coq Require Import Permutation DecimalString Decimal DecimalNat.
Set Implicit Arguments.

(** ** Induction principle *)
Section Ind.
Variable P : expr -> Prop.
Hypothesis HVar : forall n, P (Var n).
Hypothesis HNIR : forall n, P (NIR n).
Hypothesis HSub : forall n k, P (SubV n k).
Hypothesis HLit : forall k, P (Lit k).
Hypothesis HSum : forall cs, Forall P cs -> P (Sum cs).
Hypothesis HOp : forall k cs, Forall P cs -> P (Op k cs).
Hypothesis HArr : forall cs, Forall P cs -> P (Arr cs).
Hypothesis HCSE : forall c p s, P c -> P (CSE c p s).
Hypothesis HIntG : forall tk ps l s t ks,
  Forall (fun p => P (snd p)) ps -> Forall (fun p => P (snd p)) ks -> P (IntG tk ps l s t ks).
Fixpoint expr_ind' (e : expr) : P e :=
  match e with
  | Var n => HVar n
  | NIR n => HNIR n
  | SubV n k => HSub n k
  | Lit k => HLit k
  | Sum cs => HSum ((fix go l : Forall P l := match l with
      | [] => Forall_nil _ | x :: l' => Forall_cons _ (expr_ind' x) (go l') end) cs)
  | Op k cs => HOp k ((fix go l : Forall P l := match l with
      | [] => Forall_nil _ | x :: l' => Forall_cons _ (expr_ind' x) (go l') end) cs)
  | Arr cs => HArr ((fix go l : Forall P l := match l with
      | [] => Forall_nil _ | x :: l' => Forall_cons _ (expr_ind' x) (go l') end) cs)
  | CSE c p s => HCSE p s (expr_ind' c)
  | IntG tk ps l s t ks => HIntG tk l s t
      ((fix go l : Forall (fun p => P (snd p)) l := match l with
      | [] => Forall_nil _ | x :: l' => Forall_cons _ (expr_ind' (snd x)) (go l') end) ps)
      ((fix go l : Forall (fun p => P (snd p)) l := match l with
      | [] => Forall_nil _ | x :: l' => Forall_cons _ (expr_ind' (snd x)) (go l') end) ks)
  end.
End Ind.

(** ** Subexpressions *)
Lemma sub_child root e : sub root e -> forall c, In c (children e) -> sub root c.
Proof. intros H c Hc. eapply sub_step; eauto. Qed.

Lemma sub_trans a b c : sub a b -> sub b c -> sub a c.
Proof. intros Hab Hbc. induction Hbc; [exact Hab|]. eapply sub_step; eauto. Qed.

Lemma sub_inv_child a x : sub a x -> x = a \/ exists c, In c (children a) /\ sub c x.
Proof.
  intros H. induction H as [|e c He IH Hc]; [left; reflexivity|right].
  destruct IH as [->|(d & Hd & Hde)].
  - exists c. split; [exact Hc|apply sub_refl].
  - exists d. split; [exact Hd|]. eapply sub_step; eauto.
Qed.

(** ** Python equality *)
Lemma forall2b_refl A (f : A -> A -> bool) l : (forall x, In x l -> f x x = true) -> forall2b f l l = true.
Proof.
  induction l as [|x l IH]; intros H; simpl; [reflexivity|].
  rewrite (H x (or_introl eq_refl)). simpl. apply IH. intros y Hy. apply H. right. exact Hy.
Qed.

Lemma forall2b_eq A (f : A -> A -> bool) l : forall l',
  (forall x y, In x l -> In y l' -> f x y = true -> x = y) -> forall2b f l l' = true -> l = l'.
Proof.
  induction l as [|x l IH]; intros [|y l'] H Hb; simpl in Hb; try discriminate Hb; [reflexivity|].
  apply andb_true_iff in Hb. destruct Hb as [H1 H2].
  f_equal.
  - apply H; [left; reflexivity|left; reflexivity|exact H1].
  - apply IH; [|exact H2]. intros a b Ha Hb'. apply H; right; assumption.
Qed.

Lemma lim_pyeq_refl l : lim_pyeq l l = true.
Proof. destruct l; simpl; auto. rewrite Z.eqb_refl. reflexivity. Qed.

Lemma opt_eqb_eq a b : opt_eqb a b = true <-> a = b.
Proof.
  destruct a, b; simpl; split; intros H; try discriminate H; auto.
  - apply String.eqb_eq in H. subst. reflexivity.
  - injection H as H. subst. apply String.eqb_refl.
Qed.

Lemma pyeq_refl e : pyeq e e = true.
Proof.
  induction e as [n|n|n k|k|cs IH|k cs IH|cs IH|c p s IH|tk ps l s t ks IH1 IH2] using expr_ind'; simpl.
  - apply String.eqb_refl.
  - apply String.eqb_refl.
  - rewrite String.eqb_refl, Nat.eqb_refl. reflexivity.
  - apply Nat.eqb_refl.
  - apply forall2b_refl. rewrite Forall_forall in IH. exact IH.
  - rewrite Nat.eqb_refl. apply forall2b_refl. rewrite Forall_forall in IH. exact IH.
  - apply forall2b_refl. rewrite Forall_forall in IH. exact IH.
  - rewrite IH. rewrite (proj2 (opt_eqb_eq p p) eq_refl). destruct s; reflexivity.
  - rewrite !Nat.eqb_refl, lim_pyeq_refl. simpl.
    rewrite !forall2b_refl; [reflexivity| |].
    + intros [k d] Hd. rewrite Forall_forall in IH2. rewrite String.eqb_refl.
      exact (IH2 (k, d) Hd).
    + intros [k d] Hd. rewrite Forall_forall in IH1. rewrite Nat.eqb_refl.
      exact (IH1 (k, d) Hd).
Qed.

(** Below a root in which -1 and -2 do not both occur, Python equality is
    equality. *)
Lemma pyeq_eq root : limits_distinct root ->
  forall a b, sub root a -> sub root b -> pyeq a b = true -> a = b.
Proof.
  intros Hlim a.
  assert (Hlist : forall cs, Forall (fun a => forall b, sub root a -> sub root b -> pyeq a b = true -> a = b) cs ->
     (forall x, In x cs -> sub root x) -> forall cs', (forall x, In x cs' -> sub root x) ->
     forall2b pyeq cs cs' = true -> cs = cs').
  { intros cs IH Hs cs' Hs' Hb. apply (@forall2b_eq _ pyeq); [|exact Hb].
    intros x y Hx Hy. rewrite Forall_forall in IH. apply IH; auto. }
  induction a as [n|n|n k|k|cs IH|k cs IH|cs IH|c p s IH|tk ps l s t ks IH1 IH2] using expr_ind';
    intros b Ha Hb He; destruct b as [n'|n'|n' k'|k'|cs'|k' cs'|cs'|c' p' s'|tk' ps' l' s' t' ks'];
    simpl in He; try discriminate He.
  - apply String.eqb_eq in He. subst. reflexivity.
  - apply String.eqb_eq in He. subst. reflexivity.
  - apply andb_true_iff in He. destruct He as [H1 H2].
    apply String.eqb_eq in H1. apply Nat.eqb_eq in H2. subst. reflexivity.
  - apply Nat.eqb_eq in He. subst. reflexivity.
  - f_equal. apply Hlist; auto; intros x Hx; [apply (sub_child Ha)|apply (sub_child Hb)]; exact Hx.
  - apply andb_true_iff in He. destruct He as [H1 H2]. apply Nat.eqb_eq in H1. subst k'. f_equal.
    apply Hlist; auto; intros x Hx; [apply (sub_child Ha)|apply (sub_child Hb)]; exact Hx.
  - f_equal. apply Hlist; auto; intros x Hx; [apply (sub_child Ha)|apply (sub_child Hb)]; exact Hx.
  - apply andb_true_iff in He. destruct He as [He H3]. apply andb_true_iff in He. destruct He as [H1 H2].
    apply opt_eqb_eq in H2. apply Bool.eqb_prop in H3. subst. f_equal. apply IH; auto.
    + apply (sub_child Ha). left. reflexivity.
    + apply (sub_child Hb). left. reflexivity.
  - repeat (apply andb_true_iff in He; let H := fresh "E" in destruct He as [He H]).
    rename E into Ek, E0 into Ep, E1 into Et, E2 into Es, E3 into El.
    apply Nat.eqb_eq in He, Et, Es. subst tk' s' t'.
    assert (l = l').
    { destruct l as [| |x], l' as [| |y]; simpl in El; try discriminate El; auto.
      apply orb_true_iff in El. destruct El as [El|El].
      - apply orb_true_iff in El. destruct El as [El|El].
        + apply Z.eqb_eq in El. subst. reflexivity.
        + apply andb_true_iff in El. destruct El as [E1 E2]. apply Z.eqb_eq in E1, E2. subst.
          exfalso. exact (@Hlim _ _ _ _ _ _ _ _ _ _ Ha Hb).
      - apply andb_true_iff in El. destruct El as [E1 E2]. apply Z.eqb_eq in E1, E2. subst.
        exfalso. exact (@Hlim _ _ _ _ _ _ _ _ _ _ Hb Ha). }
    subst l'. f_equal.
    + eapply forall2b_eq; [|exact Ep]. intros [k d] [k' d'] Hx Hy Hkd.
      apply andb_true_iff in Hkd. destruct Hkd as [H1 H2]. apply Nat.eqb_eq in H1. subst k'. f_equal.
      rewrite Forall_forall in IH1. apply (IH1 (k, d) Hx); [| |exact H2].
      * apply (sub_child Ha). simpl. apply in_app_iff. left. apply (in_map snd) in Hx. exact Hx.
      * apply (sub_child Hb). simpl. apply in_app_iff. left. apply (in_map snd) in Hy. exact Hy.
    + eapply forall2b_eq; [|exact Ek]. intros [k d] [k' d'] Hx Hy Hkd.
      apply andb_true_iff in Hkd. destruct Hkd as [H1 H2]. apply String.eqb_eq in H1. subst k'. f_equal.
      rewrite Forall_forall in IH2. apply (IH2 (k, d) Hx); [| |exact H2].
      * apply (sub_child Ha). simpl. apply in_app_iff. right. apply (in_map snd) in Hx. exact Hx.
      * apply (sub_child Hb). simpl. apply in_app_iff. right. apply (in_map snd) in Hy. exact Hy.
Qed.

Lemma lookup_some A e (d : list (expr * A)) v :
  lookup e d = Some v -> exists k, In (k, v) d /\ pyeq k e = true.
Proof.
  induction d as [|[k w] d IH]; simpl; [discriminate|].
  destruct (pyeq k e) eqn:E.
  - intros H. injection H as H. subst. exists k. auto.
  - intros H. destruct (IH H) as (k' & Hk & He). exists k'. auto.
Qed.

Lemma lookup_In A e (d : list (expr * A)) k v :
  In (k, v) d -> pyeq k e = true -> exists w, lookup e d = Some w.
Proof.
  induction d as [|[k' w] d IH]; simpl; [tauto|].
  intros [H|H] He.
  - injection H as H1 H2. subst. rewrite He. eauto.
  - destruct (pyeq k' e); eauto.
Qed.

(** ** Collecting operators *)
Lemma collect_sub e : forall g, In g (collect e) -> sub e g /\ is_intg g = true.
Proof.
  induction e as [n|n|n k|k|cs IH|k cs IH|cs IH|c p s IH|tk ps l s t ks IH1 IH2] using expr_ind';
    simpl; intros g Hg; try tauto.
  - apply in_flat_map in Hg. destruct Hg as (c & Hc & Hg). rewrite Forall_forall in IH.
    destruct (IH c Hc g Hg) as [Hs Hi]. split; [|exact Hi].
    eapply sub_trans; [|exact Hs]. eapply sub_step; [apply sub_refl|exact Hc].
  - apply in_flat_map in Hg. destruct Hg as (c & Hc & Hg). rewrite Forall_forall in IH.
    destruct (IH c Hc g Hg) as [Hs Hi]. split; [|exact Hi].
    eapply sub_trans; [|exact Hs]. eapply sub_step; [apply sub_refl|exact Hc].
  - apply in_flat_map in Hg. destruct Hg as (c & Hc & Hg). rewrite Forall_forall in IH.
    destruct (IH c Hc g Hg) as [Hs Hi]. split; [|exact Hi].
    eapply sub_trans; [|exact Hs]. eapply sub_step; [apply sub_refl|exact Hc].
  - destruct (IH g Hg) as [Hs Hi]. split; [|exact Hi].
    eapply sub_trans; [|exact Hs]. eapply sub_step; [apply sub_refl|left; reflexivity].
  - destruct Hg as [<-|Hg]; [split; [apply sub_refl|reflexivity]|].
    apply in_app_iff in Hg. destruct Hg as [Hg|Hg]; apply in_flat_map in Hg;
      destruct Hg as ([k d] & Hd & Hg).
    + rewrite Forall_forall in IH1. destruct (IH1 (k, d) Hd g Hg) as [Hs Hi].
      split; [|exact Hi]. eapply sub_trans; [|exact Hs]. eapply sub_step; [apply sub_refl|].
      simpl. apply in_app_iff. left. apply (in_map snd) in Hd. exact Hd.
    + rewrite Forall_forall in IH2. destruct (IH2 (k, d) Hd g Hg) as [Hs Hi].
      split; [|exact Hi]. eapply sub_trans; [|exact Hs]. eapply sub_step; [apply sub_refl|].
      simpl. apply in_app_iff. right. apply (in_map snd) in Hd. exact Hd.
Qed.

Lemma collect_child e c : In c (children e) -> incl (collect c) (collect e).
Proof.
  destruct e as [n|n|n k|k|cs|k cs|cs|c' p s|tk ps l s t ks]; simpl; intros Hc g Hg; try tauto.
  - apply in_flat_map. eauto.
  - apply in_flat_map. eauto.
  - apply in_flat_map. eauto.
  - destruct Hc as [<-|[]]. exact Hg.
  - right. apply in_app_iff in Hc. apply in_app_iff.
    destruct Hc as [Hc|Hc]; apply in_map_iff in Hc; destruct Hc as ([k d] & Hd & Hin); simpl in Hd; subst d.
    + left. apply in_flat_map. exists (k, c). auto.
    + right. apply in_flat_map. exists (k, c). auto.
Qed.

Lemma collect_complete root e : sub root e -> is_intg e = true -> In e (collect root).
Proof.
  intros Hs Hi.
  assert (Hincl : incl (collect e) (collect root)).
  { clear Hi. induction Hs as [|e c He IH Hc]; [apply incl_refl|].
    eapply incl_tran; [apply (collect_child _ _ Hc)|exact IH]. }
  apply Hincl. destruct e; try discriminate Hi. simpl. left. reflexivity.
Qed.

Lemma dedup_sub l x : In x (dedup l) -> In x l.
Proof.
  revert x. induction l as [|y l IH]; simpl; intros x H; [exact H|].
  destruct H as [H|H]; [auto|]. apply filter_In in H. destruct H as [H _]. right. apply IH. exact H.
Qed.

Lemma dedup_covers l : (forall a b, In a l -> In b l -> pyeq a b = true -> a = b) ->
  forall x, In x l -> In x (dedup l).
Proof.
  induction l as [|y l IH]; simpl; intros Hf x H; [exact H|].
  destruct H as [H|H]; [left; exact H|].
  destruct (pyeq y x) eqn:E.
  - left. apply Hf; auto.
  - right. apply filter_In. split; [|rewrite E; reflexivity].
    apply IH; [|exact H]. intros a b Ha Hb. apply Hf; right; assumption.
Qed.

(** ** Sorting *)
Section SortFacts.
Variable A : Type.
Variable le : A -> A -> bool.
Lemma insert_perm x l : Permutation (insert le x l) (x :: l).
Proof.
  induction l as [|y l IH]; simpl; [apply Permutation_refl|].
  destruct (le x y); [apply Permutation_refl|].
  transitivity (y :: x :: l); [constructor; exact IH|constructor].
Qed.
Lemma isort_perm l : Permutation (isort le l) l.
Proof.
  induction l as [|x l IH]; simpl; [constructor|].
  transitivity (x :: isort le l); [apply insert_perm|constructor; exact IH].
Qed.
End SortFacts.

Lemma isort_map A B (f : A -> B) (leA : A -> A -> bool) (leB : B -> B -> bool) l :
  (forall x y, leA x y = leB (f x) (f y)) ->
  map f (isort leA l) = isort leB (map f l).
Proof.
  intros H.
  assert (Hi : forall x l, map f (insert leA x l) = insert leB (f x) (map f l)).
  { intros x l'. induction l' as [|y l' IH]; simpl; [reflexivity|].
    rewrite <- H. destruct (leA x y); simpl; [reflexivity|]. rewrite IH. reflexivity. }
  induction l as [|x l IH]; simpl; [reflexivity|]. rewrite Hi, IH. reflexivity.
Qed.

(** ** Name generation *)
Lemma str_of_nat_inj i j : str_of_nat i = str_of_nat j -> i = j.
Proof.
  unfold str_of_nat. intros H.
  apply (f_equal NilEmpty.uint_of_string) in H. rewrite !NilEmpty.usu in H.
  injection H as H. apply DecimalNat.Unsigned.to_uint_inj. exact H.
Qed.

Lemma append_inj s a b : String.append s a = String.append s b -> a = b.
Proof. induction s as [|c s IH]; simpl; intros H; [exact H|]. injection H as H. auto. Qed.

Lemma append_length s t : String.length (String.append s t) = String.length s + String.length t.
Proof. induction s as [|c s IH]; simpl; [reflexivity|]. rewrite IH. reflexivity. Qed.

Lemma cand_inj p i j : cand p i = cand p j -> i = j.
Proof.
  destruct p as [p|]; simpl.
  - destruct i as [|i], j as [|j]; intros H; auto.
    + apply (f_equal String.length) in H. rewrite !append_length in H. simpl in H. lia.
    + apply (f_equal String.length) in H. rewrite !append_length in H. simpl in H. lia.
    + apply append_inj in H. injection H as H. apply str_of_nat_inj in H. lia.
  - intros H. injection H as H. apply str_of_nat_inj in H. exact H.
Qed.

Lemma find_name_spec fuel : forall i p used n, find_name fuel i p used = Ok n ->
  ~ In n used /\ exists j, n = cand p j.
Proof.
  induction fuel as [|f IH]; intros i p used n H; simpl in H; [discriminate H|].
  destruct (inb (cand p i) used) eqn:E.
  - apply (IH _ _ _ _ H).
  - injection H as H. subst. split; [apply inb_false; exact E|eauto].
Qed.

Lemma find_name_total used p : exists n, find_name (S (length used)) 0 p used = Ok n.
Proof.
  assert (Hgen : forall fuel i,
    (exists n, find_name fuel i p used = Ok n) \/
    (forall j, i <= j < i + fuel -> In (cand p j) used)).
  { induction fuel as [|f IH]; intros i; simpl; [right; intros j Hj; lia|].
    destruct (inb (cand p i) used) eqn:E.
    - destruct (IH (S i)) as [H|H]; [left; exact H|right].
      intros j Hj. destruct (Nat.eq_dec j i) as [->|Hn]; [apply inb_In; exact E|].
      apply H. lia.
    - left. eauto. }
  destruct (Hgen (S (length used)) 0) as [H|H]; [exact H|exfalso].
  assert (Hnd : NoDup (map (cand p) (seq 0 (S (length used))))).
  { apply FinFun.Injective_map_NoDup; [|apply seq_NoDup].
    intros a b Hab. apply cand_inj in Hab. exact Hab. }
  assert (Hincl : incl (map (cand p) (seq 0 (S (length used)))) used).
  { intros n Hn. apply in_map_iff in Hn. destruct Hn as (j & <- & Hj). apply in_seq in Hj.
    apply H. lia. }
  pose proof (NoDup_incl_length Hnd Hincl) as Hl. rewrite map_length, seq_length in Hl. lia.
Qed.

(** ** mapM *)
Lemma mapM_ok_iff A B (f : A -> result B) l ys :
  mapM f l = Ok ys <-> Forall2 (fun x y => f x = Ok y) l ys.
Proof.
  revert ys. induction l as [|x l IH]; intros ys; simpl.
  - split; intros H; [injection H as <-; constructor|inversion H; reflexivity].
  - split.
    + intros H. destruct (f x) as [y|e] eqn:E; simpl in H; [|discriminate H].
      destruct (mapM f l) as [ys'|e] eqn:E2; simpl in H; [|discriminate H].
      injection H as <-. constructor; [exact E|]. apply IH. reflexivity.
    + intros H. inversion H as [|a y b ys' Hy Hl]; subst. rewrite Hy. simpl.
      rewrite (proj2 (IH ys') Hl). reflexivity.
Qed.

Lemma mapM_all_ok A B (f : A -> result B) l :
  (forall x, In x l -> exists y, f x = Ok y) -> exists ys, mapM f l = Ok ys.
Proof.
  induction l as [|x l IH]; intros H; simpl; [eauto|].
  destruct (H x (or_introl eq_refl)) as [y Hy]. rewrite Hy. simpl.
  destruct IH as [ys Hys]; [intros z Hz; apply H; right; exact Hz|]. rewrite Hys. simpl. eauto.
Qed.

Lemma mapM_ok_In A B (f : A -> result B) l ys :
  mapM f l = Ok ys -> forall x, In x l -> exists y, f x = Ok y.
Proof.
  intros H. apply mapM_ok_iff in H. induction H as [|a b l l' Hab H IH]; intros x [].
  - subst. eauto.
  - apply IH; assumption.
Qed.

Lemma mapM_perm A B (f : A -> result B) l l' : Permutation l l' ->
  forall ys, mapM f l = Ok ys -> exists ys', mapM f l' = Ok ys' /\ Permutation ys ys'.
Proof.
  intros Hp. induction Hp as [|x l l' Hp IH|x y l|l1 l2 l3 H1 IH1 H2 IH2]; intros ys H; simpl in *.
  - eauto.
  - destruct (f x) as [v|e]; simpl in *; [|discriminate H].
    destruct (mapM f l) as [vs|e]; simpl in *; [|discriminate H].
    injection H as <-. destruct (IH _ eq_refl) as (vs' & -> & Hvs). simpl. eauto.
  - destruct (f y) as [v|e]; simpl in *; [|discriminate H].
    destruct (f x) as [w|e]; simpl in *; [|discriminate H].
    destruct (mapM f l) as [vs|e]; simpl in *; [|discriminate H].
    injection H as <-. eexists. split; [reflexivity|constructor].
  - destruct (IH1 _ H) as (ys1 & H3 & H4). destruct (IH2 _ H3) as (ys2 & H5 & H6).
    exists ys2. split; [exact H5|]. transitivity ys1; assumption.
Qed.

Lemma mapM_ext A B (f g : A -> result B) l :
  (forall x, In x l -> f x = g x) -> mapM f l = mapM g l.
Proof.
  induction l as [|x l IH]; intros H; simpl; [reflexivity|].
  rewrite (H x (or_introl eq_refl)). rewrite IH; [reflexivity|].
  intros y Hy. apply H. right. exact Hy.
Qed.
