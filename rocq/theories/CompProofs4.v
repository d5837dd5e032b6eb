(** Renaming of user variables; equality of layer-potential nodes. *)
From Verif Require Import Base SchedModel CompModel CompSpec CompProofs CompProofs2 CompProofs3.
From Coq Require Import Permutation.
Set Implicit Arguments.

Lemma rename_children f e : children (rename f e) = map (rename f) (children e).
Proof.
  destruct e; simpl; try reflexivity.
  rewrite map_app, !map_map. f_equal; apply map_ext; intros [a b]; reflexivity.
Qed.

Lemma sub_rename f root y : sub (rename f root) y -> exists x, sub root x /\ y = rename f x.
Proof.
  intros H. induction H as [|e c He (x & Hx & ->) Hc].
  - exists root. split; [apply sub_refl|reflexivity].
  - rewrite rename_children in Hc. apply in_map_iff in Hc. destruct Hc as (z & <- & Hz).
    exists z. split; [eapply sub_step; eauto|reflexivity].
Qed.

Lemma rename_intg f e : is_intg (rename f e) = is_intg e.
Proof. destruct e; reflexivity. Qed.

Lemma accepted_rename f root : accepted root -> accepted (rename f root).
Proof.
  intros H y Hy. destruct (sub_rename _ _ Hy) as (x & Hx & ->). specialize (H x Hx).
  destruct x as [n|n|n k|k|cs|k cs|cs|c p sc|tk ps l s t ks]; simpl; auto.
  - intros E. apply H. destruct cs; [reflexivity|discriminate E].
  - destruct sc; auto. intros z Hz. destruct (sub_rename _ _ Hz) as (w & Hw & ->).
    rewrite rename_intg. exact (H w Hw).
  - destruct H as [H1 H2]. split; [|exact H2]. intros E. apply H1. destruct ps; [reflexivity|discriminate E].
Qed.

Lemma limits_rename f root : limits_distinct root -> limits_distinct (rename f root).
Proof.
  intros H tk ps s t ks tk' ps' s' t' ks' H1 H2.
  destruct (sub_rename _ _ H1) as (x & Hx & E1). destruct (sub_rename _ _ H2) as (y & Hy & E2).
  destruct x; simpl in E1; try discriminate E1. destruct y; simpl in E2; try discriminate E2.
  injection E1 as -> _ <- -> -> _. injection E2 as -> _ <- -> -> _. eapply H; eauto.
Qed.

Section Den.
Variable V : Type.
Variable vzero : V.
Variable vlit : nat -> result V.
Variable vadd : V -> V -> result V.
Variable vop : nat -> list V -> result V.
Variable vsub : nat -> V -> result V.
Variable varr : list V -> V.
Variable vpot : nat -> list (nat * V) -> list (string * V) -> limit -> nat -> nat -> result V.
Notation evx := (evalx vzero vlit vadd vop vsub varr vpot).

Lemma mapM_map A B C (f : B -> result C) (g : A -> B) l :
  mapM f (map g l) = mapM (fun x => f (g x)) l.
Proof. induction l as [|x l IH]; simpl; [reflexivity|]. rewrite IH. reflexivity. Qed.

Lemma den_rename f (c : ctx V) e : (forall x, sub e x -> match x with NIR _ => False | _ => True end) ->
  evx true c (rename f e) = evx true (fun n => c (f n)) e.
Proof.
  induction e as [n|n|n k|k|cs IH|k cs IH|cs IH|ch p s IH|tk ps l s t ks IH1 IH2] using expr_ind';
    intros Hn; cbn [rename evalx]; try reflexivity.
  - destruct (Hn (NIR n) (sub_refl _)).
  - rewrite mapM_map. rewrite (mapM_ext _ (evx true (fun n => c (f n))) cs); [reflexivity|].
    rewrite Forall_forall in IH. intros x Hx. apply IH; [exact Hx|]. intros y Hy. apply Hn.
    eapply sub_trans; [|exact Hy]. eapply sub_step; [apply sub_refl|exact Hx].
  - rewrite mapM_map. rewrite (mapM_ext _ (evx true (fun n => c (f n))) cs); [reflexivity|].
    rewrite Forall_forall in IH. intros x Hx. apply IH; [exact Hx|]. intros y Hy. apply Hn.
    eapply sub_trans; [|exact Hy]. eapply sub_step; [apply sub_refl|exact Hx].
  - rewrite mapM_map. rewrite (mapM_ext _ (evx true (fun n => c (f n))) cs); [reflexivity|].
    rewrite Forall_forall in IH. intros x Hx. apply IH; [exact Hx|]. intros y Hy. apply Hn.
    eapply sub_trans; [|exact Hy]. eapply sub_step; [apply sub_refl|exact Hx].
  - apply IH. intros y Hy. apply Hn. eapply sub_trans; [|exact Hy].
    eapply sub_step; [apply sub_refl|left; reflexivity].
  - rewrite !mapM_pairs, !map_map.
    rewrite Forall_forall in IH1, IH2.
    assert (H1 : mapM (evx true c) (map (fun x : nat * expr => snd (let (k, d) := x in (k, rename f d))) ps)
               = mapM (evx true (fun n => c (f n))) (map snd ps)).
    { rewrite !mapM_map. apply mapM_ext. intros [k d] Hx. simpl. apply (IH1 (k, d) Hx).
      intros y Hy. apply Hn. eapply sub_trans; [|exact Hy]. eapply sub_step; [apply sub_refl|].
      simpl. apply in_app_iff. left. apply (in_map snd) in Hx. exact Hx. }
    assert (H2 : mapM (evx true c) (map (fun x : string * expr => snd (let (k, d) := x in (k, rename f d))) ks)
               = mapM (evx true (fun n => c (f n))) (map snd ks)).
    { rewrite !mapM_map. apply mapM_ext. intros [k d] Hx. simpl. apply (IH2 (k, d) Hx).
      intros y Hy. apply Hn. eapply sub_trans; [|exact Hy]. eapply sub_step; [apply sub_refl|].
      simpl. apply in_app_iff. right. apply (in_map snd) in Hx. exact Hx. }
    rewrite H1, H2.
    rewrite (map_ext (fun x : nat * expr => fst (let (k, d) := x in (k, rename f d))) fst)
      by (intros [a b]; reflexivity).
    rewrite (map_ext (fun x : string * expr => fst (let (k, d) := x in (k, rename f d))) fst)
      by (intros [a b]; reflexivity).
    reflexivity.
Qed.
End Den.

Section Rename.
Variable ple : nat * expr -> nat * expr -> bool.
Variable kfeat : nat -> nat -> nat.
Variable gorder : list expr -> list expr.
Hypothesis gorder_perm : forall l, Permutation (gorder l) l.
Variable V : Type.
Variable vzero : V.
Variable vlit : nat -> result V.
Variable vadd : V -> V -> result V.
Variable vop : nat -> list V -> result V.
Variable vsub : nat -> V -> result V.
Variable varr : list V -> V.
Variable vpot : nat -> list (nat * V) -> list (string * V) -> limit -> nat -> nat -> result V.
Hypothesis vadd_zero : forall x, vadd vzero x = Ok x.
Hypothesis vpot_perm : forall tk ps ps' ks l s t, Permutation ps ps' ->
  vpot tk ps ks l s t = vpot tk ps' ks l s t.
Notation car := (compile_and_run vzero vlit vadd vop vsub varr vpot ple kfeat gorder).

Lemma rename_ok f e (c : ctx V) : accepted e -> limits_distinct e -> no_capture e ->
  no_capture (rename f e) -> forall r,
  (exists c', car (rename f e) c = Ok (r, c')) <-> (exists c', car e (fun n => c (f n)) = Ok (r, c')).
Proof.
  intros Ha Hl Hc Hc' r.
  rewrite (@compile_and_run_l ple kfeat gorder gorder_perm (rename f e) (accepted_rename f Ha) Hc'
    (@limits_rename f e Hl) V vzero vlit vadd vop vsub varr vpot vadd_zero vpot_perm c r).
  rewrite (@compile_and_run_l ple kfeat gorder gorder_perm e Ha Hc Hl V vzero vlit vadd vop vsub varr
    vpot vadd_zero vpot_perm _ r).
  rewrite den_rename; [tauto|]. intros x Hx. specialize (Ha x Hx). destruct x; auto.
Qed.
End Rename.

(** ** Equality of layer potentials *)
Section IntGEq.
Variable H : list Z -> Z.
Variables hk hd : nat -> Z.
Variables hnone havg : Z.
Notation intg_hash := (intg_hash H hk hd hnone havg).
Notation intg_eq := (intg_eq H hk hd hnone havg).

Lemma list_nat_eqb_eq (a b : list nat) : forall2b Nat.eqb a b = true <-> a = b.
Proof.
  split.
  - apply forall2b_eq. intros x y _ _ Hxy. apply Nat.eqb_eq. exact Hxy.
  - intros ->. apply forall2b_refl. intros x _. apply Nat.eqb_refl.
Qed.
Lemma kargs_eqb_eq (a b : list (string * nat)) :
  forall2b (fun p q => String.eqb (fst p) (fst q) && Nat.eqb (snd p) (snd q)) a b = true <-> a = b.
Proof.
  split.
  - apply forall2b_eq. intros [x u] [y v] _ _ Hxy. simpl in Hxy. apply andb_true_iff in Hxy.
    destruct Hxy as [H1 H2]. apply String.eqb_eq in H1. apply Nat.eqb_eq in H2. congruence.
  - intros ->. apply forall2b_refl. intros [x u] _. simpl. rewrite String.eqb_refl, Nat.eqb_refl. reflexivity.
Qed.

Lemma intg_eq_spec a b : intg_eq a b = true <->
  intg_hash a = intg_hash b /\ same_but_limit a b.
Proof.
  unfold CompModel.intg_eq, same_but_limit. rewrite !andb_true_iff, Z.eqb_eq, !Nat.eqb_eq, !list_nat_eqb_eq, kargs_eqb_eq.
  tauto.
Qed.

Lemma intg_eq_refl a : intg_eq a a = true.
Proof. apply intg_eq_spec. unfold same_but_limit. tauto. Qed.
Lemma intg_eq_sym a b : intg_eq a b = true -> intg_eq b a = true.
Proof. rewrite !intg_eq_spec. unfold same_but_limit. intuition congruence. Qed.
Lemma intg_eq_trans a b c : intg_eq a b = true -> intg_eq b c = true -> intg_eq a c = true.
Proof. rewrite !intg_eq_spec. unfold same_but_limit. intuition congruence. Qed.

Lemma lim_hash_12 : lim_hash hnone havg (LInt (-1)) = lim_hash hnone havg (LInt (-2)).
Proof. reflexivity. Qed.

Lemma intg_conflated a : g_lim a = LInt (-1) ->
  intg_eq a (set_lim a (LInt (-2))) = true.
Proof.
  intros E. apply intg_eq_spec. split; [|unfold same_but_limit; simpl; tauto].
  unfold CompModel.intg_hash. simpl. rewrite E. reflexivity.
Qed.

Lemma intg_eq_exact : (forall l l', H l = H l' -> l = l') ->
  hnone <> havg -> (forall z, In z [-2; -1; 1; 2]%Z -> hnone <> z /\ havg <> z) ->
  forall a b,
  In (g_lim a) [LNone; LAvg; LInt (-2); LInt 1; LInt 2] ->
  In (g_lim b) [LNone; LAvg; LInt (-2); LInt 1; LInt 2] ->
  (intg_eq a b = true <-> a = b).
Proof.
  intros Hinj Hna Hz a b Ha Hb. rewrite intg_eq_spec. split; [|intros ->; unfold same_but_limit; tauto].
  intros [Hh (H1 & H2 & H3 & H4 & H5 & H6)].
  destruct a as [a1 a2 a3 a4 a5 a6 a7], b as [b1 b2 b3 b4 b5 b6 b7]; simpl in *; subst.
  f_equal. unfold CompModel.intg_hash in Hh. simpl in Hh. apply Hinj in Hh.
  assert (E : lim_hash hnone havg a4 = lim_hash hnone havg b4) by congruence.
  destruct (Hz (-2)%Z) as [Za Zb]; [simpl; tauto|]. destruct (Hz 1%Z) as [Zc Zd]; [simpl; tauto|].
  destruct (Hz 2%Z) as [Ze Zf]; [simpl; tauto|].
  destruct Ha as [<-|[<-|[<-|[<-|[<-|[]]]]]]; destruct Hb as [<-|[<-|[<-|[<-|[<-|[]]]]]];
    cbv [lim_hash int_hash Z.eqb Pos.eqb] in E; try reflexivity; exfalso; congruence.
Qed.
End IntGEq.
