(** Lemmas for LpProps.v, part 2: the derivative binder. *)
From Coq Require Import Setoid Ring InitialRing.
From Verif Require Import Base DofModel GeoModel CtorModel SymSpec LpModel LpSpec LpProofs.
Set Implicit Arguments.

Lemma flat_map_nil (A B : Type) (f : A -> list B) l : Forall (fun a => f a = []) l -> flat_map f l = [].
Proof. induction 1 as [|a l Ha H IH]; cbn [flat_map]; [reflexivity|]. rewrite Ha, IH. reflexivity. Qed.

Lemma pure_nabs e : pure e -> nabs e = [].
Proof.
  induction e using ex_ind'; intros Hp; try reflexivity; try contradiction.
  - apply IHe. exact Hp.
  - destruct Hp. cbn [nabs]. rewrite IHe1, IHe2 by assumption. reflexivity.
  - apply pure_sum in Hp. cbn [nabs]. apply flat_map_nil. rewrite Forall_forall in *. auto.
  - apply pure_prod in Hp. cbn [nabs]. apply flat_map_nil. rewrite Forall_forall in *. auto.
  - apply pure_pot in Hp. destruct Hp as [H1 H2]. cbn [nabs]. rewrite !flat_map_nil; [reflexivity| |].
    + rewrite Forall_forall in *. intros p Hp. apply flat_map_nil.
      specialize (H0 p Hp). specialize (H2 p Hp). rewrite Forall_forall in *. auto.
    + rewrite Forall_forall in *. auto.
Qed.
Lemma pure_dsrcs e : pure e -> dsrcs e = [].
Proof.
  induction e using ex_ind'; intros Hp; try reflexivity; try contradiction.
  - apply IHe. exact Hp.
  - destruct Hp. cbn [dsrcs]. rewrite IHe1, IHe2 by assumption. reflexivity.
  - apply pure_sum in Hp. cbn [dsrcs]. apply flat_map_nil. rewrite Forall_forall in *. auto.
  - apply pure_prod in Hp. cbn [dsrcs]. apply flat_map_nil. rewrite Forall_forall in *. auto.
  - apply pure_pot in Hp. destruct Hp as [H1 H2]. cbn [dsrcs]. rewrite !flat_map_nil; [reflexivity| |].
    + rewrite Forall_forall in *. intros p Hp. apply flat_map_nil.
      specialize (H0 p Hp). specialize (H2 p Hp). rewrite Forall_forall in *. auto.
    + rewrite Forall_forall in *. auto.
Qed.

Lemma bind_child_none cs i ts : dsrcs (nth i cs (EQ 0)) = [] -> bind_child cs i ts = Ok ts.
Proof. unfold bind_child. intros ->. reflexivity. Qed.
Lemma bind_children_none cs is_ ts :
  (forall i, In i is_ -> dsrcs (nth i cs (EQ 0)) = []) -> bind_children cs is_ ts = Ok ts.
Proof.
  induction is_ as [|i r IH]; intros H; cbn [bind_children]; [reflexivity|].
  rewrite bind_child_none by (apply H; left; reflexivity). cbn [bind].
  apply IH. intros j Hj. apply H. right. exact Hj.
Qed.
Lemma bind_children_app cs a b ts :
  bind_children cs (a ++ b) ts = (do t <- bind_children cs a ts; bind_children cs b t).
Proof.
  revert ts. induction a as [|i a IH]; intros ts; cbn [app bind_children bind]; [reflexivity|].
  destruct (bind_child cs i ts); cbn [bind]; [apply IH|reflexivity].
Qed.
Lemma nth_dsrcs_none cs i : Forall (fun c => dsrcs c = []) cs -> dsrcs (nth i cs (EQ 0)) = [].
Proof.
  intros H. rewrite Forall_forall in H. destruct (nth_in_or_default i cs (EQ 0)) as [G| ->]; [auto|reflexivity].
Qed.
Lemma clash_none c : dsrcs c = [] -> clash c = false.
Proof. unfold clash. intros ->. induction (nabs c); [reflexivity|exact IHl]. Qed.

Lemma bind_prod_none cs : Forall (fun c => dsrcs c = []) cs -> bind_prod cs = Ok (fsum [fprod cs]).
Proof.
  intros H. unfold bind_prod.
  replace (existsb clash cs) with false.
  2:{ symmetry. apply not_true_is_false. intros E. apply existsb_exists in E. destruct E as (c & Hc & E).
      rewrite Forall_forall in H. rewrite clash_none in E by auto. discriminate. }
  rewrite bind_children_none by (intros; apply nth_dsrcs_none; exact H). reflexivity.
Qed.

Lemma mapM_res (A B : Type) (f : A -> result B) l l' :
  Forall2 (fun a b => f a = Ok b) l l' -> mapM f l = Ok l'.
Proof. induction 1 as [|a b l l' Hab H IH]; cbn [mapM]; [reflexivity|]. rewrite Hab, IH. reflexivity. Qed.

Section V.
Variable C : calculus.
Notation R := (dr_car (cr C)).
Notation r0 := (dr_0 (cr C)).
Notation r1 := (dr_1 (cr C)).
Notation "x +! y" := (dr_add (cr C) x y) (at level 50, left associativity).
Notation "x *! y" := (dr_mul (cr C) x y) (at level 40, left associativity).
Notation "-! x" := (dr_opp (cr C) x) (at level 35, right associativity).
Notation d := (dr_d (cr C)).
Add Ring Rr2 : (dr_ring (cr C)).

Definition res_ok (a a' : ex) := resolve a = Ok a' /\ pure a' /\ (forall nu, val C nu a' = val C nu a).
Lemma res_list l : Forall (fun a => pure a -> exists a', res_ok a a') l -> Forall pure l ->
  exists l', mapM resolve l = Ok l' /\ Forall pure l' /\ (forall nu, map (val C nu) l' = map (val C nu) l).
Proof.
  induction 1 as [|a l Ha H IH]; intros Hp; cbn [mapM].
  - exists []. repeat split. constructor.
  - destruct (Ha (Forall_inv Hp)) as (a' & E & Pa & Va).
    destruct (IH (Forall_inv_tail Hp)) as (l' & El & Pl & Vl).
    rewrite E, El. cbn [bind]. exists (a' :: l'). split; [reflexivity|]. split; [constructor; assumption|].
    intros nu. cbn [map]. rewrite Va, Vl. reflexivity.
Qed.
Lemma resolve_pure : forall a, pure a -> exists a', res_ok a a'.
Proof.
  induction a using ex_ind'; intros Hp; try contradiction;
    try (eexists; split; [reflexivity|]; split; [exact I|reflexivity]).
  - destruct (IHa Hp) as (a' & E & Pa & Va). exists (ECse a'). split; [cbn [resolve]; rewrite E; reflexivity|].
    split; [exact Pa|]. intros nu. apply Va.
  - destruct Hp as [P1 P2]. destruct (IHa1 P1) as (a' & E & Pa & Va). destruct (IHa2 P2) as (b' & E' & Pb & Vb).
    exists (EQuot a' b'). split; [cbn [resolve]; rewrite E, E'; reflexivity|]. split; [split; assumption|].
    intros nu. cbn [val]. rewrite Va, Vb. reflexivity.
  - apply pure_sum in Hp. destruct (res_list H Hp) as (l' & E & Pl & Vl).
    exists (fsum l'). split; [cbn [resolve]; rewrite E; reflexivity|]. split; [apply pure_fsum; exact Pl|].
    intros nu. rewrite val_fsum, Vl. reflexivity.
  - apply pure_prod in Hp. destruct (res_list H Hp) as (l' & E & Pl & Vl).
    exists (fsum [fprod l']). split.
    { cbn [resolve]. rewrite E. cbn [bind]. apply bind_prod_none.
      eapply Forall_impl; [|exact Pl]. intros c. apply pure_dsrcs. }
    split; [apply pure_fsum; constructor; [apply pure_fprod; exact Pl|constructor]|].
    intros nu. rewrite val_fsum. cbn [map]. rewrite rsum_cons, rsum_nil, val_fprod, Vl. cbn [val]. ring.
  - apply pure_pot in Hp. destruct Hp as [H1 H2]. destruct (res_list H H1) as (l' & E & Pl & Vl).
    assert (G : exists args', mapM (fun p => do v <- mapM resolve (snd p); Ok (fst p, v)) args = Ok args'
      /\ Forall (fun p => Forall pure (snd p)) args'
      /\ (forall nu, map (fun p => (fst p, map (val C nu) (snd p))) args'
                   = map (fun p => (fst p, map (val C nu) (snd p))) args)).
    { clear H H1 E Pl Vl. induction H0 as [|p r Hp H0 IH]; cbn [mapM].
      - exists []. repeat split. constructor.
      - destruct (res_list Hp (Forall_inv H2)) as (v' & Ev & Pv & Vv).
        destruct (IH (Forall_inv_tail H2)) as (r' & Er & Pr & Vr).
        rewrite Ev, Er. cbn [bind]. exists ((fst p, v') :: r'). split; [reflexivity|].
        split; [constructor; assumption|]. intros nu. cbn [map fst snd]. rewrite Vv, Vr. reflexivity. }
    destruct G as (args' & Ea & Pa & Va).
    exists (EPot tk sks l' lim src tgt args'). split; [cbn [resolve]; rewrite E, Ea; reflexivity|].
    split; [apply pure_pot; split; assumption|].
    intros nu. cbn [val]. rewrite Vl, Va. reflexivity.
Qed.
Lemma resolve_pot tk sks dens lim src tgt args : pure (EPot tk sks dens lim src tgt args) ->
  exists dens' args', resolve (EPot tk sks dens lim src tgt args) = Ok (EPot tk sks dens' lim src tgt args').
Proof.
  intros Hp. destruct (resolve_pure _ Hp) as (a' & E & _). rewrite E.
  cbn [resolve] in E. destruct (mapM resolve dens) as [dens'|]; cbn [bind] in E; [|discriminate].
  destruct (mapM (fun p => do v <- mapM resolve (snd p); Ok (fst p, v)) args) as [args'|]; cbn [bind] in E; [|discriminate].
  injection E as <-. eexists. eexists. reflexivity.
Qed.

(** Expressions whose only derivative operators are components of the nabla [id]. *)
Fixpoint nf (id : nat) (e : ex) : Prop :=
  match e with
  | ENab i _ => i = Some id
  | EDsrc _ _ => False
  | ECse a => nf id a
  | EQuot a b => nf id a /\ nf id b
  | ESum l | EProd l => fold_right (fun a P => nf id a /\ P) True l
  | EPot _ _ _ _ _ _ _ => pure e
  | _ => True
  end.
Definition nu_at (id ax : nat) (nu : option nat -> nat -> R) : option nat -> nat -> R :=
  fun i j => if onat_eqb i (Some id) then (if Nat.eqb j ax then r1 else r0) else nu i j.

Lemma nf_sum id l : nf id (ESum l) <-> Forall (nf id) l. Proof. apply fold_and. Qed.
Lemma nf_prod id l : nf id (EProd l) <-> Forall (nf id) l. Proof. apply fold_and. Qed.
Lemma pure_nab_unit id ax : forall e, pure e -> pure (nab_unit id ax e) /\ forall nu, val C nu (nab_unit id ax e) = val C nu e.
Proof.
  induction e using ex_ind'; intros Hp; try contradiction; try (split; [exact I|reflexivity]).
  - destruct (IHe Hp). split; auto.
  - destruct Hp as [P1 P2]. destruct (IHe1 P1) as [Q1 V1]. destruct (IHe2 P2) as [Q2 V2].
    split; [split; assumption|]. intros nu. cbn [val nab_unit]. rewrite V1, V2. reflexivity.
  - apply pure_sum in Hp. cbn [nab_unit]. rewrite Forall_forall in *. split.
    + apply pure_fsum. rewrite Forall_map, Forall_forall. intros a Ha. apply H; auto.
    + intros nu. rewrite val_fsum, map_map. cbn [val]. f_equal. apply map_ext_in. intros a Ha. apply H; auto.
  - apply pure_prod in Hp. cbn [nab_unit]. rewrite Forall_forall in *. split.
    + apply pure_fprod. rewrite Forall_map, Forall_forall. intros a Ha. apply H; auto.
    + intros nu. rewrite val_fprod, map_map. cbn [val]. f_equal. apply map_ext_in. intros a Ha. apply H; auto.
  - apply pure_pot in Hp. destruct Hp as [H1 H2]. cbn [nab_unit]. rewrite Forall_forall in *. split.
    + apply pure_pot. split; rewrite Forall_map, Forall_forall.
      * intros a Ha. apply H; auto.
      * intros p Hp. cbn [snd]. rewrite Forall_map. specialize (H0 p Hp). specialize (H2 p Hp).
        rewrite Forall_forall in *. intros a Ha. apply H0; auto.
    + intros nu. cbn [val]. rewrite !map_map. cbn [fst snd].
      rewrite (map_ext_in (fun x => val C nu (nab_unit id ax x)) (val C nu) dens) by (intros a Ha; apply H; auto).
      rewrite (map_ext_in (fun x : string * list ex => (fst x, map (val C nu) (map (nab_unit id ax) (snd x))))
                 (fun p => (fst p, map (val C nu) (snd p))) args); [reflexivity|].
      intros p Hp. f_equal. rewrite map_map. apply map_ext_in. intros a Ha.
      specialize (H0 p Hp). specialize (H2 p Hp). rewrite Forall_forall in *. apply H0; auto.
Qed.
Lemma nf_nab_unit id ax : forall e, nf id e ->
  pure (nab_unit id ax e) /\ forall nu, val C nu (nab_unit id ax e) = val C (nu_at id ax nu) e.
Proof.
  induction e using ex_ind'; intros Hp; try contradiction; try (split; [exact I|reflexivity]).
  - destruct (IHe Hp). split; auto.
  - destruct Hp as [P1 P2]. destruct (IHe1 P1) as [Q1 V1]. destruct (IHe2 P2) as [Q2 V2].
    split; [split; assumption|]. intros nu. cbn [val nab_unit]. rewrite V1, V2. reflexivity.
  - apply nf_sum in Hp. cbn [nab_unit]. rewrite Forall_forall in *. split.
    + apply pure_fsum. rewrite Forall_map, Forall_forall. intros a Ha. apply H; auto.
    + intros nu. rewrite val_fsum, map_map. cbn [val]. f_equal. apply map_ext_in. intros a Ha. apply H; auto.
  - apply nf_prod in Hp. cbn [nab_unit]. rewrite Forall_forall in *. split.
    + apply pure_fprod. rewrite Forall_map, Forall_forall. intros a Ha. apply H; auto.
    + intros nu. rewrite val_fprod, map_map. cbn [val]. f_equal. apply map_ext_in. intros a Ha. apply H; auto.
  - cbn [nf] in Hp. subst id0. cbn [nab_unit onat_eqb]. rewrite Nat.eqb_refl.
    split; [exact I|]. intros nu. cbn [val]. unfold nu_at. cbn [onat_eqb]. rewrite Nat.eqb_refl.
    destruct (Nat.eqb ax0 ax); reflexivity.
  - cbn [nf] in Hp. destruct (pure_nab_unit id ax _ Hp) as [Q V]. split; [exact Q|].
    intros nu. rewrite V. apply val_pure. exact Hp.
Qed.
Lemma nf_dsrcs id e : nf id e -> dsrcs e = [].
Proof.
  induction e using ex_ind'; intros Hp; try reflexivity; try contradiction.
  - apply IHe. exact Hp.
  - destruct Hp. cbn [dsrcs]. rewrite IHe1, IHe2 by assumption. reflexivity.
  - apply nf_sum in Hp. cbn [dsrcs]. apply flat_map_nil. rewrite Forall_forall in *. auto.
  - apply nf_prod in Hp. cbn [dsrcs]. apply flat_map_nil. rewrite Forall_forall in *. auto.
  - cbn [nf] in Hp. apply pure_dsrcs. exact Hp.
Qed.

Lemma set_nth_app (A : Type) (l : list A) x y r : set_nth (length l) y (l ++ x :: r) = l ++ y :: r.
Proof. induction l as [|a l IH]; cbn [length app set_nth]; [reflexivity|]. rewrite IH. reflexivity. Qed.
Lemma nth_mid (l : list ex) x r : nth (length l) (l ++ x :: r) (EQ 0) = x.
Proof. rewrite app_nth2 by lia. rewrite Nat.sub_diag. reflexivity. Qed.

(** The axes of the nabla [id] in an expression. *)
Definition axes_of (id : nat) (l : list ex) : list nat :=
  map snd (filter (fun n => onat_eqb (fst n) (Some id)) (flat_map nabs l)).

Lemma bind_prod_one id fs a gs : Forall (nf id) fs -> Forall (nf id) gs -> axes_of id (fs ++ gs) <> [] ->
  bind_prod (fs ++ EDsrc id a :: gs) =
  (do ts <- mapM (fun ax => do c <- take ax a; Ok (map (nab_unit id ax) (fs ++ c :: gs)))
             (seq 0 (Datatypes.S (fold_left Nat.max (axes_of id (fs ++ gs)) 0)));
   Ok (fsum (map fprod ts))).
Proof.
  intros Hf Hg Hax. unfold bind_prod. set (cs := fs ++ EDsrc id a :: gs).
  assert (Hn : forall i, i <> length fs -> dsrcs (nth i cs (EQ 0)) = []).
  { intros i Hi. unfold cs. destruct (lt_dec i (length fs)).
    - rewrite app_nth1 by assumption. apply nth_dsrcs_none. eapply Forall_impl; [|exact Hf]. apply nf_dsrcs.
    - rewrite app_nth2 by lia. destruct (i - length fs) as [|k] eqn:E; [lia|]. cbn [nth].
      apply nth_dsrcs_none. eapply Forall_impl; [|exact Hg]. apply nf_dsrcs. }
  replace (existsb clash cs) with false.
  2:{ symmetry. apply not_true_is_false. intros E. apply existsb_exists in E. destruct E as (c & Hc & E).
      unfold cs in Hc. apply in_app_iff in Hc. rewrite Forall_forall in Hf, Hg.
      destruct Hc as [Hc|[<-|Hc]]; [|discriminate|];
        rewrite clash_none in E by (eapply nf_dsrcs; eauto); discriminate. }
  assert (El : seq 0 (length cs) = seq 0 (length fs) ++ [length fs] ++ seq (Datatypes.S (length fs)) (length gs)).
  { unfold cs. rewrite app_length. cbn [length]. rewrite seq_app. reflexivity. }
  rewrite El, bind_children_app, bind_children_none; cbn [bind].
  2:{ intros i Hi. apply Hn. apply in_seq in Hi. lia. }
  rewrite bind_children_app. cbn [bind_children].
  unfold bind_child at 1. unfold cs at 1. rewrite nth_mid. cbn [dsrcs same_all forallb negb].
  assert (Ea : map snd (filter (fun n => onat_eqb (fst n) (Some id)) (flat_map nabs cs)) = axes_of id (fs ++ gs)).
  { unfold cs, axes_of. rewrite !flat_map_app. cbn [flat_map nabs app]. reflexivity. }
  rewrite Ea.
  assert (Em : mapM (fun t => mapM (fun ax =>
                       do c <- ds_find id ax (nth (length fs) t (EQ 0));
                       Ok (map (nab_unit id ax) (set_nth (length fs) c t)))
                     (seq 0 (Datatypes.S (fold_left Nat.max (axes_of id (fs ++ gs)) 0)))) [cs]
     = (do ts <- mapM (fun ax => do c <- take ax a; Ok (map (nab_unit id ax) (fs ++ c :: gs)))
             (seq 0 (Datatypes.S (fold_left Nat.max (axes_of id (fs ++ gs)) 0)));
        Ok [ts])).
  { cbn [mapM]. unfold cs. rewrite nth_mid. cbn [ds_find]. rewrite Nat.eqb_refl.
    assert (X : forall n, mapM (fun ax => do c <- take ax a;
                       Ok (map (nab_unit id ax) (set_nth (length fs) c (fs ++ EDsrc id a :: gs)))) n
               = mapM (fun ax => do c <- take ax a; Ok (map (nab_unit id ax) (fs ++ c :: gs))) n).
    { induction n as [|ax n IH]; cbn [mapM]; [reflexivity|]. rewrite IH.
      destruct (take ax a); cbn [bind]; [rewrite set_nth_app|]; reflexivity. }
    rewrite X. reflexivity. }
  destruct (axes_of id (fs ++ gs)) as [|x0 xs] eqn:Ex; [contradiction|]. rewrite Em.
  destruct (mapM (fun ax => do c <- take ax a; Ok (map (nab_unit id ax) (fs ++ c :: gs)))
             (seq 0 (Datatypes.S (fold_left Nat.max (x0 :: xs) 0)))) as [ts|e] eqn:Et; cbn [bind]; [|reflexivity].
  cbn [concat]. rewrite app_nil_r.
  rewrite bind_children_none; cbn [bind].
  - reflexivity.
  - intros i Hi. apply Hn. apply in_seq in Hi. lia.
Qed.

(** The value of a product with one derivative source. *)
Lemma rsum_ext (A : Type) (f g : A -> R) l : (forall a, In a l -> f a = g a) -> rsum C (map f l) = rsum C (map g l).
Proof. intros H. f_equal. apply map_ext_in. exact H. Qed.

Lemma resolve_product id fs a gs r nu : Forall (nf id) fs -> Forall (nf id) gs -> axes_of id (fs ++ gs) <> [] ->
  mapM resolve fs = Ok fs -> mapM resolve gs = Ok gs -> pure a ->
  resolve (EProd (fs ++ EDsrc id a :: gs)) = Ok r ->
  pure r /\
  val C nu r = sum_axes C (Datatypes.S (fold_left Nat.max (axes_of id (fs ++ gs)) 0)) (fun ax =>
     rprod C (map (val C (nu_at id ax nu)) fs) *! rprod C (map (val C (nu_at id ax nu)) gs) *! d ax (val C nu a)).
Proof.
  intros Hf Hg Hax Rf Rg Pa. cbn [resolve].
  destruct (resolve_pure a Pa) as (a' & Ea & Pa' & Va).
  assert (E : mapM resolve (fs ++ EDsrc id a :: gs) = Ok (fs ++ EDsrc id a' :: gs)).
  { apply mapM_Ok in Rf. apply mapM_Ok in Rg. apply mapM_res. apply Forall2_app; [exact Rf|].
    constructor; [|exact Rg]. cbn [resolve]. rewrite Ea. reflexivity. }
  rewrite E. cbn [bind]. rewrite bind_prod_one by assumption.
  set (n := Datatypes.S (fold_left Nat.max (axes_of id (fs ++ gs)) 0)).
  destruct (mapM (fun ax => do c <- take ax a'; Ok (map (nab_unit id ax) (fs ++ c :: gs))) (seq 0 n))
    as [ts|] eqn:Et; cbn [bind]; [|discriminate].
  intros H. injection H as <-. apply mapM_Ok in Et.
  assert (G : Forall (Forall pure) ts /\ map (fun t => rprod C (map (val C nu) t)) ts
              = map (fun ax => rprod C (map (val C (nu_at id ax nu)) fs) *! rprod C (map (val C (nu_at id ax nu)) gs)
                               *! d ax (val C nu a)) (seq 0 n)).
  { induction Et as [|ax t l ts Ht Et IH]; [split; [constructor|reflexivity]|].
    destruct (take ax a') as [c|] eqn:Ec; cbn [bind] in Ht; [|discriminate]. injection Ht as <-.
    destruct (take_sound C nu ax a' Pa' Ec) as [Pc Vc].
    destruct IH as [I1 I2]. split.
    - constructor; [|exact I1]. rewrite Forall_map. rewrite Forall_forall in Hf, Hg. rewrite Forall_forall.
      intros x Hx. apply in_app_iff in Hx. destruct Hx as [Hx|[<-|Hx]].
      + apply nf_nab_unit. auto.
      + apply pure_nab_unit. exact Pc.
      + apply nf_nab_unit. auto.
    - cbn [map]. rewrite I2. f_equal. rewrite map_map, map_app, rprod_app. cbn [map]. rewrite rprod_cons.
      rewrite (proj2 (pure_nab_unit id ax c Pc)), Vc, Va.
      rewrite (map_ext_in (fun x => val C nu (nab_unit id ax x)) (val C (nu_at id ax nu)) fs).
      2:{ intros x Hx. rewrite Forall_forall in Hf. apply nf_nab_unit. auto. }
      rewrite (map_ext_in (fun x => val C nu (nab_unit id ax x)) (val C (nu_at id ax nu)) gs).
      2:{ intros x Hx. rewrite Forall_forall in Hg. apply nf_nab_unit. auto. }
      ring. }
  destruct G as [G1 G2]. split.
  - apply pure_fsum. rewrite Forall_map. eapply Forall_impl; [|exact G1]. intros t. apply pure_fprod.
  - rewrite val_fsum, map_map. unfold sum_axes. rewrite <- G2. f_equal. apply map_ext. intros t. apply val_fprod.
Qed.
Lemma resolve_product_ok id fs a gs : Forall (nf id) fs -> Forall (nf id) gs -> axes_of id (fs ++ gs) <> [] ->
  mapM resolve fs = Ok fs -> mapM resolve gs = Ok gs -> pure a ->
  (forall a' ax, resolve a = Ok a' -> exists c, take ax a' = Ok c) ->
  exists r, resolve (EProd (fs ++ EDsrc id a :: gs)) = Ok r.
Proof.
  intros Hf Hg Hax Rf Rg Pa Ht. cbn [resolve].
  destruct (resolve_pure a Pa) as (a' & Ea & Pa' & Va).
  assert (E : mapM resolve (fs ++ EDsrc id a :: gs) = Ok (fs ++ EDsrc id a' :: gs)).
  { apply mapM_Ok in Rf. apply mapM_Ok in Rg. apply mapM_res. apply Forall2_app; [exact Rf|].
    constructor; [|exact Rg]. cbn [resolve]. rewrite Ea. reflexivity. }
  rewrite E. cbn [bind]. rewrite bind_prod_one by assumption.
  set (n := Datatypes.S (fold_left Nat.max (axes_of id (fs ++ gs)) 0)).
  destruct (@mapM_total nat (list ex) (fun ax => do c <- take ax a'; Ok (map (nab_unit id ax) (fs ++ c :: gs))) (seq 0 n))
    as [ts ->].
  - intros ax _. destruct (Ht a' ax Ea) as [c ->]. eexists. reflexivity.
  - eexists. reflexivity.
Qed.
End V.
