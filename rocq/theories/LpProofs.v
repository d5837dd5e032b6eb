(** Lemmas for LpProps.v, part 1: values of the constructors and multivectors. *)
From Coq Require Import Setoid Ring InitialRing.
From Verif Require Import Base DofModel GeoModel CtorModel SymSpec LpModel LpSpec.
Set Implicit Arguments.

Section ExInd.
Variable P : ex -> Prop.
Hypothesis Hq : forall z, P (EQ z).
Hypothesis Hg : forall g, P (EGeo g).
Hypothesis Hv : forall s, P (EVar s).
Hypothesis Hs : forall s, P (ESpat s).
Hypothesis Hc : forall a, P a -> P (ECse a).
Hypothesis Hd : forall a b, P a -> P b -> P (EQuot a b).
Hypothesis Hsum : forall l, Forall P l -> P (ESum l).
Hypothesis Hprod : forall l, Forall P l -> P (EProd l).
Hypothesis Hn : forall id ax, P (ENab id ax).
Hypothesis Hds : forall id a, P a -> P (EDsrc id a).
Hypothesis Hp : forall tk sks dens lim src tgt args,
  Forall P dens -> Forall (fun p => Forall P (snd p)) args -> P (EPot tk sks dens lim src tgt args).
Fixpoint ex_ind' (e : ex) : P e :=
  let fl := fix fl (l : list ex) : Forall P l :=
    match l with [] => Forall_nil _ | a :: r => Forall_cons a (ex_ind' a) (fl r) end in
  match e with
  | EQ z => Hq z | EGeo g => Hg g | EVar s => Hv s | ESpat s => Hs s
  | ECse a => Hc (ex_ind' a)
  | EQuot a b => Hd (ex_ind' a) (ex_ind' b)
  | ESum l => Hsum (fl l) | EProd l => Hprod (fl l)
  | ENab i a => Hn i a | EDsrc i a => Hds i (ex_ind' a)
  | EPot tk sks dens lim src tgt args =>
      Hp tk sks lim src tgt (fl dens)
        ((fix fa (l : list (string * list ex)) : Forall (fun p => Forall P (snd p)) l :=
            match l with [] => Forall_nil _ | a :: r => Forall_cons a (fl (snd a)) (fa r) end) args)
  end.
End ExInd.

Lemma fold_and (A : Type) (Q : A -> Prop) l : fold_right (fun a P => Q a /\ P) True l <-> Forall Q l.
Proof.
  induction l as [|a l IH]; cbn [fold_right].
  - split; [constructor|exact (fun _ => I)].
  - rewrite IH. split; [intros [H1 H2]; constructor; assumption|intros H; inversion H; auto].
Qed.
Lemma pure_sum l : pure (ESum l) <-> Forall pure l.
Proof. apply fold_and. Qed.
Lemma pure_prod l : pure (EProd l) <-> Forall pure l.
Proof. apply fold_and. Qed.
Lemma pure_pot tk sks dens lim src tgt args :
  pure (EPot tk sks dens lim src tgt args) <->
  Forall pure dens /\ Forall (fun p => Forall pure (snd p)) args.
Proof.
  cbn [pure]. rewrite fold_and.
  rewrite (@fold_and (string * list ex) (fun p => fold_right (fun a P => pure a /\ P) True (snd p))).
  assert (E : Forall (fun p : string * list ex => fold_right (fun a P => pure a /\ P) True (snd p)) args
              <-> Forall (fun p => Forall pure (snd p)) args).
  { induction args as [|a l IH]; [split; constructor|].
    split; intros H; inversion H; subst; constructor; try (apply IH; assumption); apply fold_and; assumption. }
  tauto.
Qed.

Section V.
Variable C : calculus.
Notation R := (dr_car (cr C)).
Notation r0 := (dr_0 (cr C)).
Notation r1 := (dr_1 (cr C)).
Notation "x +! y" := (dr_add (cr C) x y) (at level 50, left associativity).
Notation "x *! y" := (dr_mul (cr C) x y) (at level 40, left associativity).
Notation "-! x" := (dr_opp (cr C) x) (at level 35, right associativity).
Notation d := (dr_d (cr C)).
Add Ring Rr : (dr_ring (cr C)).

Lemma morph : ring_morph r0 r1 (dr_add (cr C)) (dr_mul (cr C)) (dr_sub (cr C)) (dr_opp (cr C)) eq
   0%Z 1%Z Z.add Z.mul Z.sub Z.opp Zeq_bool (c_int C).
Proof.
  apply (@gen_phiZ_morph R r0 r1 (dr_add (cr C)) (dr_mul (cr C)) (dr_sub (cr C)) (dr_opp (cr C)) eq).
  - constructor; [exact (@eq_refl R)|exact (@eq_sym R)|exact (@eq_trans R)].
  - constructor; repeat intro; subst; reflexivity.
  - apply (dr_ring (cr C)).
Qed.
Lemma int_add x y : c_int C (x + y) = c_int C x +! c_int C y. Proof. apply (morph_add morph). Qed.
Lemma int_mul x y : c_int C (x * y) = c_int C x *! c_int C y. Proof. apply (morph_mul morph). Qed.
Lemma int_0 : c_int C 0 = r0. Proof. reflexivity. Qed.
Lemma int_1 : c_int C 1 = r1. Proof. reflexivity. Qed.
Lemma int_m1 : c_int C (-1) = -! r1. Proof. reflexivity. Qed.

Lemma add_cancel x y : x = x +! y -> y = r0.
Proof. intros E. transitivity (x +! y +! -! x); [ring|]. rewrite <- E. ring. Qed.
Lemma d_0 i : d i r0 = r0.
Proof.
  apply (add_cancel (x := d i r0)). rewrite <- dr_d_add. f_equal. ring.
Qed.
Lemma d_1 i : d i r1 = r0.
Proof.
  apply (add_cancel (x := d i r1)).
  transitivity (d i (r1 *! r1)); [f_equal; ring|]. rewrite dr_d_mul. ring.
Qed.
Lemma d_opp i x : d i (-! x) = -! d i x.
Proof.
  assert (E : d i x +! d i (-! x) = r0) by (rewrite <- dr_d_add, <- (d_0 i); f_equal; ring).
  transitivity (d i x +! d i (-! x) +! -! d i x); [ring|]. rewrite E. ring.
Qed.
Lemma d_int i z : d i (c_int C z) = r0.
Proof.
  induction z using Z.peano_ind.
  - apply d_0.
  - rewrite <- Z.add_1_r, int_add, dr_d_add, IHz, int_1, d_1. ring.
  - rewrite <- Z.sub_1_r, <- Z.add_opp_r, int_add, dr_d_add, IHz.
    change (c_int C (- (1))) with (-! r1). rewrite d_opp, d_1. ring.
Qed.

Lemma rsum_cons x l : rsum C (x :: l) = x +! rsum C l. Proof. reflexivity. Qed.
Lemma rprod_cons x l : rprod C (x :: l) = x *! rprod C l. Proof. reflexivity. Qed.
Lemma rsum_nil : rsum C [] = r0. Proof. reflexivity. Qed.
Lemma rprod_nil : rprod C [] = r1. Proof. reflexivity. Qed.
Lemma rsum_app l m : rsum C (l ++ m) = rsum C l +! rsum C m.
Proof.
  induction l as [|x l IH]; cbn [app]; [rewrite rsum_nil; ring|]. rewrite !rsum_cons, IH. ring.
Qed.
Lemma rprod_app l m : rprod C (l ++ m) = rprod C l *! rprod C m.
Proof.
  induction l as [|x l IH]; cbn [app]; [rewrite rprod_nil; ring|]. rewrite !rprod_cons, IH. ring.
Qed.

Section Nu.
Variable nu : option nat -> nat -> R.
Notation v := (val C nu).

Lemma val_terms e : rsum C (map v (terms e)) = v e.
Proof. destruct e; cbn [terms factors map]; rewrite ?rsum_cons, ?rprod_cons, ?rsum_nil, ?rprod_nil; try ring; reflexivity. Qed.
Lemma val_factors e : rprod C (map v (factors e)) = v e.
Proof. destruct e; cbn [terms factors map]; rewrite ?rsum_cons, ?rprod_cons, ?rsum_nil, ?rprod_nil; try ring; reflexivity. Qed.
Lemma is_num_val z e : is_num z e = true -> v e = c_int C z.
Proof. destruct e; cbn; try discriminate. intros H. apply Z.eqb_eq in H. subst. reflexivity. Qed.
Lemma is_num_eq z e : is_num z e = true -> e = EQ z.
Proof. destruct e; cbn; try discriminate. intros H. apply Z.eqb_eq in H. subst. reflexivity. Qed.

Lemma val_eadd a b : v (eadd a b) = v a +! v b.
Proof.
  assert (G : v (if is_num 0 a then b else if is_num 0 b then a else ESum (terms a ++ terms b)) = v a +! v b).
  { destruct (is_num 0 a) eqn:Ea; [rewrite (is_num_val _ _ Ea), int_0; ring|].
    destruct (is_num 0 b) eqn:Eb; [rewrite (is_num_val _ _ Eb), int_0; ring|].
    cbn [val]. rewrite map_app, rsum_app, !val_terms. reflexivity. }
  unfold eadd. destruct a; try exact G. destruct b; try exact G. cbn [val]. apply int_add.
Qed.
Lemma val_emul a b : v (emul a b) = v a *! v b.
Proof.
  assert (G : v (if is_num 0 a || is_num 0 b then EQ 0 else if is_num 1 a then b else
                 if is_num 1 b then a else EProd (factors a ++ factors b)) = v a *! v b).
  { destruct (is_num 0 a) eqn:Ea; [rewrite (is_num_val _ _ Ea); cbn [orb val]; rewrite int_0; ring|].
    destruct (is_num 0 b) eqn:Eb; [rewrite (is_num_val _ _ Eb); cbn [orb val]; rewrite int_0; ring|].
    cbn [orb].
    destruct (is_num 1 a) eqn:Fa; [rewrite (is_num_val _ _ Fa), int_1; ring|].
    destruct (is_num 1 b) eqn:Fb; [rewrite (is_num_val _ _ Fb), int_1; ring|].
    cbn [val]. rewrite map_app, rprod_app, !val_factors. reflexivity. }
  unfold emul. destruct a; try exact G. destruct b; try exact G. cbn [val]. apply int_mul.
Qed.
Lemma val_fold_eadd l a : v (fold_left eadd l a) = v a +! rsum C (map v l).
Proof.
  revert a. induction l as [|x l IH]; intros a; cbn [fold_left map]; [rewrite ?rsum_nil, ?rprod_nil; ring|].
  rewrite IH, val_eadd, rsum_cons. ring.
Qed.
Lemma val_fold_emul l a : v (fold_left emul l a) = v a *! rprod C (map v l).
Proof.
  revert a. induction l as [|x l IH]; intros a; cbn [fold_left map]; [rewrite ?rsum_nil, ?rprod_nil; ring|].
  rewrite IH, val_emul, rprod_cons. ring.
Qed.
Lemma val_fsum l : v (fsum l) = rsum C (map v l).
Proof. unfold fsum. rewrite val_fold_eadd. cbn [val]. rewrite int_0. ring. Qed.
Lemma val_fprod l : v (fprod l) = rprod C (map v l).
Proof. unfold fprod. rewrite val_fold_emul. cbn [val]. rewrite int_1. ring. Qed.
Lemma val_lift g : v (lift g) = c_geo C g.
Proof.
  destruct g as [n q| | | | | | | | | | | | | | | | | | | | | | |]; try reflexivity. destruct q; try reflexivity. cbn. symmetry. apply c_geo_num.
Qed.
Lemma val_cse e : v (make_cse e) = v e.
Proof. destruct e; reflexivity. Qed.
End Nu.

(** Pure expressions. *)
Lemma val_pure nu nu' e : pure e -> val C nu e = val C nu' e.
Proof.
  induction e using ex_ind'; cbn [pure]; intros Hp; try reflexivity; try contradiction.
  - apply IHe. exact Hp.
  - destruct Hp as [H1 H2]. cbn [val]. rewrite IHe1, IHe2 by assumption. reflexivity.
  - apply pure_sum in Hp. cbn [val]. f_equal. apply map_ext_in. intros a Ha.
    rewrite Forall_forall in H, Hp. apply H; auto.
  - apply pure_prod in Hp. cbn [val]. f_equal. apply map_ext_in. intros a Ha.
    rewrite Forall_forall in H, Hp. apply H; auto.
  - destruct (proj1 (pure_pot tk sks dens lim src tgt args) Hp) as [H1 H2]. cbn [val].
    assert (E1 : map (val C nu) dens = map (val C nu') dens).
    { apply map_ext_in. intros a Ha. rewrite Forall_forall in H, H1. apply H; auto. }
    assert (E2 : map (fun p => (fst p, map (val C nu) (snd p))) args
                 = map (fun p => (fst p, map (val C nu') (snd p))) args).
    { apply map_ext_in. intros p Hp'. f_equal. apply map_ext_in. intros a Ha.
      rewrite Forall_forall in H0, H2. specialize (H0 p Hp'). specialize (H2 p Hp').
      rewrite Forall_forall in H0, H2. apply H0; auto. }
    rewrite E1, E2. reflexivity.
Qed.

Lemma pure_terms e : pure e -> Forall pure (terms e).
Proof. destruct e; cbn [terms]; intros H; try (constructor; [exact H|constructor]). apply pure_sum. exact H. Qed.
Lemma pure_factors e : pure e -> Forall pure (factors e).
Proof. destruct e; cbn [factors]; intros H; try (constructor; [exact H|constructor]). apply pure_prod. exact H. Qed.
Lemma pure_eadd a b : pure a -> pure b -> pure (eadd a b).
Proof.
  intros Ha Hb.
  assert (G : pure (if is_num 0 a then b else if is_num 0 b then a else ESum (terms a ++ terms b))).
  { destruct (is_num 0 a); [exact Hb|]. destruct (is_num 0 b); [exact Ha|].
    apply pure_sum. apply Forall_app. split; apply pure_terms; assumption. }
  unfold eadd. destruct a; try exact G. destruct b; try exact G. exact I.
Qed.
Lemma pure_emul a b : pure a -> pure b -> pure (emul a b).
Proof.
  intros Ha Hb.
  assert (G : pure (if is_num 0 a || is_num 0 b then EQ 0 else if is_num 1 a then b else
                 if is_num 1 b then a else EProd (factors a ++ factors b))).
  { destruct (is_num 0 a || is_num 0 b); [exact I|]. destruct (is_num 1 a); [exact Hb|].
    destruct (is_num 1 b); [exact Ha|].
    apply pure_prod. apply Forall_app. split; apply pure_factors; assumption. }
  unfold emul. destruct a; try exact G. destruct b; try exact G. exact I.
Qed.
Lemma pure_fsum l : Forall pure l -> pure (fsum l).
Proof.
  unfold fsum. intros H. assert (G : forall a, pure a -> pure (fold_left eadd l a)).
  { induction l as [|x l IH]; intros a Ha; cbn [fold_left]; [exact Ha|].
    apply IH; [exact (Forall_inv_tail H)|]. apply pure_eadd; [exact Ha|exact (Forall_inv H)]. }
  apply G. exact I.
Qed.
Lemma pure_fprod l : Forall pure l -> pure (fprod l).
Proof.
  unfold fprod. intros H. assert (G : forall a, pure a -> pure (fold_left emul l a)).
  { induction l as [|x l IH]; intros a Ha; cbn [fold_left]; [exact Ha|].
    apply IH; [exact (Forall_inv_tail H)|]. apply pure_emul; [exact Ha|exact (Forall_inv H)]. }
  apply G. exact I.
Qed.
Lemma pure_lift g : pure (lift g).
Proof. destruct g as [n q| | | | | | | | | | | | | | | | | | | | | | |]; try exact I. destruct q; exact I. Qed.
Lemma pure_cse e : pure e -> pure (make_cse e).
Proof. destruct e; cbn; auto. Qed.

(** Taking derivatives. *)
Lemma mapM_Ok (A B : Type) (f : A -> result B) l l' :
  mapM f l = Ok l' -> Forall2 (fun a b => f a = Ok b) l l'.
Proof.
  revert l'. induction l as [|a l IH]; intros l'; cbn [mapM].
  - intros H. inversion H. constructor.
  - destruct (f a) as [b|] eqn:E; cbn [bind]; [|discriminate].
    destruct (mapM f l) as [bs|]; cbn [bind]; [|discriminate].
    intros H. inversion H. constructor; [exact E|]. apply IH. reflexivity.
Qed.
Lemma mapM_total (A B : Type) (f : A -> result B) l :
  (forall a, In a l -> exists b, f a = Ok b) -> exists l', mapM f l = Ok l'.
Proof.
  induction l as [|a l IH]; intros H; cbn [mapM]; [eexists; reflexivity|].
  destruct (H a (or_introl eq_refl)) as [b ->]. cbn [bind].
  destruct IH as [l' ->]; [intros x Hx; apply H; right; exact Hx|]. cbn [bind]. eexists. reflexivity.
Qed.

Lemma existsb_false (l : list bool) : existsb (fun b => b) l = false -> Forall (fun b => b = false) l.
Proof.
  induction l as [|b l IH]; cbn; intros H; [constructor|].
  apply orb_false_iff in H. destruct H. constructor; [assumption|auto].
Qed.
Lemma d_rprod_const i l : Forall (fun x => d i x = r0) l -> d i (rprod C l) = r0.
Proof.
  induction 1 as [|x l Hx Hl IH]; [apply d_1|]. rewrite rprod_cons, dr_d_mul, Hx, IH. ring.
Qed.
Lemma d_rsum i l : d i (rsum C l) = rsum C (map (d i) l).
Proof. induction l as [|x l IH]; [apply d_0|]. cbn [map]. rewrite !rsum_cons, dr_d_add, IH. reflexivity. Qed.

Lemma const_d nu i e : pure e -> varying e = Ok false -> d i (val C nu e) = r0.
Proof.
  induction e using ex_ind'; cbn [pure varying]; intros Hp Hv; try discriminate; try contradiction.
  - apply d_int.
  - cbn [val]. destruct g; try discriminate. apply c_geo_const.
  - apply c_spat_const.
  - cbn [val]. apply IHe; assumption.
  - destruct (varying e1) as [x|] eqn:E1; cbn [bind] in Hv; [|discriminate].
    destruct (varying e2) as [y|] eqn:E2; cbn [bind] in Hv; [|discriminate].
    injection Hv as Hv. apply orb_false_iff in Hv. destruct Hv; subst. destruct Hp.
    cbn [val]. apply c_div_const; [apply IHe1|apply IHe2]; auto.
  - destruct (mapM varying l) as [bs|] eqn:E; cbn [bind] in Hv; [|discriminate].
    injection Hv as Hv. apply existsb_false in Hv. apply mapM_Ok in E. apply pure_sum in Hp.
    cbn [val]. rewrite d_rsum.
    assert (G : Forall (fun x => x = r0) (map (d i) (map (val C nu) l))).
    { induction E as [|a b l bs Hab E IH]; [constructor|]. cbn [map].
      pose proof (Forall_inv Hv) as Hb. cbn beta in Hb. rewrite Hb in Hab. constructor.
      - exact (Forall_inv H (Forall_inv Hp) Hab).
      - exact (IH (Forall_inv_tail H) (Forall_inv_tail Hp) (Forall_inv_tail Hv)). }
    revert G. generalize (map (d i) (map (val C nu) l)). intros m G.
    induction G as [|x m Hx G IH]; [reflexivity|]. rewrite rsum_cons, Hx, IH. ring.
  - destruct (mapM varying l) as [bs|] eqn:E; cbn [bind] in Hv; [|discriminate].
    injection Hv as Hv. apply existsb_false in Hv. apply mapM_Ok in E. apply pure_prod in Hp.
    cbn [val]. apply d_rprod_const.
    induction E as [|a b l bs Hab E IH]; [constructor|]. cbn [map].
    pose proof (Forall_inv Hv) as Hb. cbn beta in Hb. rewrite Hb in Hab. constructor.
    + exact (Forall_inv H (Forall_inv Hp) Hab).
    + exact (IH (Forall_inv_tail H) (Forall_inv_tail Hp) (Forall_inv_tail Hv)).
Qed.

Lemma split_spec nu i cs const nonconst :
  split_factors cs = Ok (const, nonconst) -> Forall pure cs ->
  rprod C (map (val C nu) cs) = rprod C (map (val C nu) const) *! rprod C (map (val C nu) nonconst)
  /\ d i (rprod C (map (val C nu) const)) = r0 /\ Forall pure const
  /\ Forall (fun c => varying c = Ok true /\ In c cs) nonconst
  /\ (forall c, In c cs -> varying c = Ok true -> In c nonconst).
Proof.
  revert const nonconst. induction cs as [|c cs IH]; intros const nonconst; cbn [split_factors].
  - intros H _. inversion H; subst. cbn. repeat split; [ring|apply d_1|constructor|constructor|contradiction].
  - destruct (varying c) as [b|] eqn:Eb; cbn [bind]; [|discriminate].
    destruct (split_factors cs) as [[const' nonconst']|] eqn:Es; cbn [bind]; [|discriminate].
    intros H Hp. destruct (IH _ _ eq_refl (Forall_inv_tail Hp)) as (E1 & E2 & E3 & E4 & E5).
    assert (E4' : Forall (fun x => varying x = Ok true /\ In x (c :: cs)) nonconst').
    { eapply Forall_impl; [|exact E4]. intros x [A B]. split; [exact A|right; exact B]. }
    destruct b; injection H as <- <-; cbn [map]; rewrite ?rprod_cons.
    + split; [rewrite E1; ring|]. split; [exact E2|]. split; [exact E3|]. split.
      * constructor; [split; [exact Eb|left; reflexivity]|exact E4'].
      * intros x [->|Hx] Hv; [left; reflexivity|right; auto].
    + split; [rewrite E1; ring|]. split.
      * rewrite dr_d_mul, E2, (const_d nu i c (Forall_inv Hp) Eb). ring.
      * split; [constructor; [exact (Forall_inv Hp)|exact E3]|]. split; [exact E4'|].
        intros x [->|Hx] Hv; [congruence|auto].
Qed.

Theorem take_sound nu i : forall e e', pure e -> take i e = Ok e' ->
  pure e' /\ val C nu e' = d i (val C nu e).
Proof.
  intros e. induction e using ex_ind'; cbn [pure take]; intros e' Hp Ht; try discriminate; try contradiction.
  - injection Ht as <-. split; [exact I|]. cbn [val]. rewrite d_int. reflexivity.
  - destruct g; try discriminate. injection Ht as <-. split; [exact I|]. cbn [val].
    rewrite c_geo_const. reflexivity.
  - destruct (mapM (take i) l) as [l'|] eqn:E; cbn [bind] in Ht; [|discriminate].
    injection Ht as <-. apply mapM_Ok in E. apply pure_sum in Hp.
    assert (G : Forall pure l' /\ map (val C nu) l' = map (d i) (map (val C nu) l)).
    { induction E as [|a b l l' Hab E IH]; [split; [constructor|reflexivity]|].
      destruct (Forall_inv H b (Forall_inv Hp) Hab) as [P1 P2].
      destruct (IH (Forall_inv_tail H) (Forall_inv_tail Hp)) as [P3 P4].
      split; [constructor; assumption|]. cbn [map]. rewrite P2, P4. reflexivity. }
    destruct G as [G1 G2]. split; [apply pure_fsum; exact G1|].
    rewrite val_fsum, G2. cbn [val]. rewrite d_rsum. reflexivity.
  - apply pure_prod in Hp.
    destruct (split_factors l) as [[const nonconst]|] eqn:Es; cbn [bind] in Ht; [|discriminate].
    destruct (@split_spec nu i l const nonconst Es Hp) as (E1 & E2 & E3 & E4 & E5).
    destruct nonconst as [|nc [|? ?]]; [| |discriminate].
    + injection Ht as <-. split; [apply pure_emul; [apply pure_fprod; exact E3|exact I]|].
      rewrite val_emul, val_fprod. cbn [val map] in *. rewrite E1.
      replace (rprod C [] : R) with r1 by reflexivity.
      rewrite int_0, dr_d_mul, E2, d_1. ring.
    + assert (G : forall l0, incl l0 l ->
        (fix go (l : list ex) : result ex :=
             match l with
             | [] => Err AssertionError
             | c :: l' => match varying c with
                          | Ok true => do d <- take i c; Ok (emul (fprod const) d)
                          | _ => go l'
                          end
             end) l0 = Ok e' -> exists dd, take i nc = Ok dd /\ e' = emul (fprod const) dd).
      { induction l0 as [|c l0 IH]; intros Hin Hg; [discriminate|].
        destruct (varying c) as [[|]|] eqn:Ec.
        - destruct (E5 c (Hin c (or_introl eq_refl)) Ec) as [<-|[]].
          destruct (take i nc) as [dd|] eqn:Ed; cbn [bind] in Hg; [|discriminate].
          injection Hg as <-. exists dd. auto.
        - apply IH; [intros x Hx; apply Hin; right; exact Hx|exact Hg].
        - apply IH; [intros x Hx; apply Hin; right; exact Hx|exact Hg]. }
      destruct (G l (incl_refl l) Ht) as (dd & Hd & ->).
      pose proof (Forall_inv E4) as [_ Hin].
      rewrite Forall_forall in H, Hp.
      destruct (H nc Hin dd (Hp nc Hin) Hd) as [P1 P2].
      split; [apply pure_emul; [apply pure_fprod; exact E3|exact P1]|].
      rewrite val_emul, val_fprod, P2. cbn [val]. rewrite E1. cbn [map].
      rewrite rprod_cons. replace (rprod C [] : R) with r1 by reflexivity.
      rewrite dr_d_mul, E2, dr_d_mul, d_1. ring.
  - injection Ht as <-. split; [exact Hp|]. reflexivity.
Qed.

(** Multivectors. *)
Lemma mget_mset m b c b' : mget (mset m b c) b' = if Nat.eqb b b' then c else mget m b'.
Proof.
  induction m as [|[x y] m IH]; cbn [mset mget].
  - reflexivity.
  - destruct (Nat.eqb_spec x b); cbn [mget].
    + subst. destruct (Nat.eqb_spec b b'); reflexivity.
    + rewrite IH. destruct (Nat.eqb_spec x b'), (Nat.eqb_spec b b'); subst; try reflexivity. contradiction.
Qed.
Lemma mget_mdel m b b' : mget (mdel m b) b' = if Nat.eqb b b' then EQ 0 else mget m b'.
Proof.
  induction m as [|[x y] m IH]; cbn [mdel filter mget fst].
  - destruct (Nat.eqb b b'); reflexivity.
  - fold (mdel m b). destruct (Nat.eqb_spec x b); cbn [negb].
    + subst. rewrite IH. destruct (Nat.eqb_spec b b'); reflexivity.
    + cbn [mget]. rewrite IH. destruct (Nat.eqb_spec x b'), (Nat.eqb_spec b b'); subst; try reflexivity. contradiction.
Qed.
Lemma mget_madd1 m b c b' :
  mget (madd1 m b c) b' = if Nat.eqb b b' then eadd (mget m b) c else mget m b'.
Proof.
  unfold madd1. destruct (is_num 0 (eadd (mget m b) c)) eqn:E.
  - rewrite mget_mdel. apply is_num_eq in E. rewrite E. reflexivity.
  - apply mget_mset.
Qed.

Definition contrib (keep : nat -> nat -> bool) (dims B : nat) (xb : nat * ex) (y : emv) : list ex :=
  map (fun yb => emul (emul (EQ (rsign dims (fst xb) (fst yb))) (snd xb)) (snd yb))
      (filter (fun yb => keep (fst xb) (fst yb) && Nat.eqb (Nat.lxor (fst xb) (fst yb)) B) y).

Lemma fsum_app_fold l m : fold_left eadd m (fsum l) = fsum (l ++ m).
Proof. unfold fsum. rewrite fold_left_app. reflexivity. Qed.

Lemma mprod_inner (keep : nat -> nat -> bool) dims (xb : nat * ex) (y acc : emv) B :
  mget (fold_left (fun (acc : emv) (yb : nat * ex) =>
     if keep (fst xb) (fst yb)
     then madd1 acc (Nat.lxor (fst xb) (fst yb))
            (emul (emul (EQ (rsign dims (fst xb) (fst yb))) (snd xb)) (snd yb))
     else acc) y acc) B = fold_left eadd (contrib keep dims B xb y) (mget acc B).
Proof.
  revert acc. induction y as [|yb y IH]; intros acc; unfold contrib in *; cbn [fold_left filter]; [reflexivity|].
  destruct (keep (fst xb) (fst yb)) eqn:E; cbn [andb].
  - rewrite IH, mget_madd1. destruct (Nat.eqb_spec (Nat.lxor (fst xb) (fst yb)) B).
    + subst. cbn [map fold_left]. reflexivity.
    + reflexivity.
  - apply IH.
Qed.
Lemma mprod_get keep dims x y B :
  mget (mprod keep dims x y) B = fsum (flat_map (fun xb => contrib keep dims B xb y) x).
Proof.
  unfold mprod.
  assert (G : forall acc : emv, mget (fold_left (fun (acc : emv) (xb : nat * ex) => fold_left (fun (acc : emv) (yb : nat * ex) =>
     if keep (fst xb) (fst yb)
     then madd1 acc (Nat.lxor (fst xb) (fst yb))
            (emul (emul (EQ (rsign dims (fst xb) (fst yb))) (snd xb)) (snd yb))
     else acc) y acc) x acc) B
    = fold_left eadd (flat_map (fun xb => contrib keep dims B xb y) x) (mget acc B)).
  { induction x as [|xb x IH]; intros acc; cbn [fold_left flat_map]; [reflexivity|].
    rewrite IH, mprod_inner, fold_left_app. reflexivity. }
  apply (G []).
Qed.
End V.
