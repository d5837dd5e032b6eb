(** Lemmas for LpProps.v, part 10: success of derivatives of layer potentials. *)
From Coq Require Import Reals Setoid Ring InitialRing Permutation.
From Verif Require Import Base DofModel GeoModel GeoSpec GeoProofs CtorModel CtorSpec CtorProofs SymSpec
  LpModel LpSpec LpProofs LpProofs2 LpProofs3 LpProofs4 LpProofs5 LpProofs6 LpProofs7 LpProofs8 LpProofs9.
Set Implicit Arguments.
Open Scope nat_scope.

Section V.
Variable C : calculus.

Definition is_pot (e : ex) : Prop := match e with EPot _ _ _ _ _ _ _ => True | _ => False end.
Definition term_shape (e : ex) : Prop :=
  is_pot e \/ exists c p, e = EProd [c; p] /\ is_pot p /\ (match c with EQ z => z <> 0%Z /\ z <> 1%Z | ESpat _ => True | _ => False end).
Lemma is_pot_good e : is_pot e -> good e. Proof. destruct e; cbn; auto. Qed.
Lemma term_good e : term_shape e -> good e.
Proof. intros [H|(c & p & -> & _)]; [apply is_pot_good; exact H|exact I]. Qed.
Lemma term_pure e : combination_term e -> pure e.
Proof.
  intros [H|(c & p & -> & Hp & Hc)]; [destruct e; try contradiction; exact H|]. apply pure_prod.
  constructor; [destruct c; try contradiction; exact I|]. constructor; [|constructor]. destruct p; try contradiction; exact Hp.
Qed.
Lemma combination_pure e : combination e -> pure e.
Proof.
  intros [H|(l & -> & _ & H)]; [apply term_pure; exact H|]. apply pure_sum. eapply Forall_impl; [|exact H]. apply term_pure.
Qed.
Lemma term_resolve e e' : combination_term e -> resolve e = Ok e' -> term_shape e'.
Proof.
  intros [H|(c & p & -> & Hp & Hc)] E.
  - left. destruct e as [| | | | | | | | | |tk sks dens lim src tgt args]; try contradiction.
    destruct (@resolve_pot C tk sks dens lim src tgt args H) as (d' & a' & E'). rewrite E' in E. injection E as <-. exact I.
  - destruct p as [| | | | | | | | | |tk sks dens lim src tgt args]; try contradiction.
    cbn [is_potential] in Hp. destruct (@resolve_pot C tk sks dens lim src tgt args Hp) as (d' & a' & E').
    assert (Er : resolve c = Ok c) by (destruct c; try contradiction; reflexivity).
    set (p := EPot tk sks dens lim src tgt args) in *. set (p' := EPot tk sks d' lim src tgt a') in *.
    destruct (resolve_pure C p Hp) as (p'' & E2 & P2 & _). rewrite E' in E2. injection E2 as <-.
    assert (Hpd : dsrcs p' = []) by (apply pure_dsrcs; exact P2).
    change (resolve (EProd [c; p])) with (do l' <- mapM resolve [c; p]; bind_prod l') in E.
    cbn [mapM] in E. rewrite Er, E' in E. cbn [bind] in E.
    rewrite bind_prod_none in E.
    2:{ constructor; [destruct c; try contradiction; reflexivity|]. constructor; [exact Hpd|constructor]. }
    assert (Ep : emul c p' = EProd [c; p']).
    { destruct c; try contradiction; unfold emul; cbn [is_num]; [|reflexivity]. destruct Hc as [H0 H1].
      apply Z.eqb_neq in H0, H1. unfold p' at 1. cbn [orb is_num]. rewrite H0, H1. reflexivity. }
    assert (Ex : fprod [c; p'] = EProd [c; p']) by (unfold fprod; cbn [fold_left]; rewrite emul_1l; exact Ep).
    rewrite Ex, good_fsum1 in E by exact I. injection E as <-. right. exists c, p'. split; [reflexivity|]. split; [exact I|exact Hc].
Qed.
Lemma take_term e ax : term_shape e -> exists c, take ax e = Ok c.
Proof.
  intros [H|(c & p & -> & Hp & Hc)].
  - destruct e; try contradiction. eexists. reflexivity.
  - destruct p; try contradiction. destruct c; try contradiction; eexists; reflexivity.
Qed.
Lemma combination_takable e : combination e -> takable e.
Proof.
  intros [H|(l & -> & Hlen & H)] a' ax E.
  - apply take_term. exact (term_resolve H E).
  - cbn [resolve] in E. destruct (mapM resolve l) as [l'|] eqn:El; cbn [bind] in E; [|discriminate].
    assert (Ea : a' = fsum l') by congruence. subst a'. clear E.
    assert (Hl' : Forall term_shape l' /\ length l' = length l).
    { apply mapM_Ok in El. clear Hlen. induction El as [|x y l l' Hx El IH]; [split; [constructor|reflexivity]|].
      destruct (IH (Forall_inv_tail H)) as [A B]. split; [constructor; [exact (term_resolve (Forall_inv H) Hx)|exact A]|cbn; congruence]. }
    destruct Hl' as [Hs Hle]. rewrite fsum_good by (eapply Forall_impl; [|exact Hs]; apply term_good).
    destruct l' as [|x [|y l']]; [cbn in Hle; lia|cbn in Hle; lia|]. cbn [shape_of take].
    destruct (mapM_total (take ax) (x :: y :: l')) as [cs ->]; [|eexists; reflexivity].
    intros t Ht. rewrite Forall_forall in Hs. apply take_term. apply Hs. exact Ht.
Qed.

(** The result of [D] on a scalar density. *)
Lemma dsource_nodes adim ds k e lim src tgt ka kwargs m :
  int_g_dsource adim ds k (OS e) lim src tgt ka kwargs = Ok m -> Forall (fun p => exists u, snd p = OS u /\ is_pot u) m.
Proof.
  unfold int_g_dsource. cbn [componentwise bind]. intros H. apply mapM_Ok in H.
  induction H as [|[B c] [B' o] l m H _ IH]; constructor; [|exact IH]. cbn [fst snd] in *.
  destruct (get_dir_vec c adim) as [v|]; cbn [bind] in H; [|discriminate].
  unfold int_g_vec in H. cbn [componentwise] in H.
  destruct (as_dofdesc src) as [s|]; cbn [bind] in H; [|discriminate].
  destruct (as_dofdesc tgt) as [t|]; cbn [bind] in H; [|discriminate].
  match type of H with context [mk_intg ?a ?b ?c ?d ?e ?f ?g] => destruct (mk_intg a b c d e f g) as [u|] eqn:E end; cbn [bind] in H; [|discriminate].
  injection H as <- <-. apply mk_intg_iff in E. destruct E as (_ & _ & ->). eexists. split; [reflexivity|exact I].
Qed.
Lemma D_takable k e lim src tgt ka adim o kwargs u : D k (OS e) lim src tgt ka adim o kwargs = Ok (OS u) -> pure u -> takable u.
Proof.
  unfold D. intros H Pu. destruct (normal_mv (ambient adim k) o src) as [n|]; cbn [bind] in H; [|discriminate].
  destruct (int_g_dsource _ n k (OS e) _ src tgt ka kwargs) as [m|] eqn:E; cbn [bind] in H; [|discriminate].
  apply dsource_nodes in E. destruct (find (fun t => fst t =? 0) m) as [p|] eqn:Ef.
  - injection H as H. apply find_some in Ef. rewrite Forall_forall in E. destruct (E p (proj1 Ef)) as (u' & E1 & E2).
    rewrite H in E1. injection E1 as <-. destruct u; try contradiction. apply (@pot_takable C). exact Pu.
  - injection H as <-. intros a' ax X. cbn in X. injection X as <-. eexists. reflexivity.
Qed.
(** What [D] requires. *)
Lemma D_inv k e lim src tgt ka adim dim o kwargs u :
  valid_kargs ka -> ~ In dir_vec_name (given_names ka kwargs) -> ~ In dir_vec_name (arg_names k) ->
  hypersurface (ambient adim k) dim -> dim_is (ambient adim k) o dim ->
  D k (OS e) lim src tgt ka adim o kwargs = Ok u ->
  limit_allowed (default_limit lim (LimStr "avg")) = true /\ (exists s, as_dofdesc src = Ok s) /\ (exists t, as_dofdesc tgt = Ok t)
  /\ matching_arguments k ka kwargs.
Proof.
  intros Hv Hg Hk Hh Ho H. unfold D in H. set (ad := ambient adim k) in *.
  assert (Hs : exists s, as_dofdesc src = Ok s).
  { unfold normal_mv in H. destruct (as_dofdesc src) as [s|]; [exists s; reflexivity|discriminate]. }
  destruct Hs as [s Hs]. destruct (@normal_explicit ad dim o src s Hh Ho Hs) as (n & _ & Ln & Em & Gn). rewrite Em in H. cbn [bind] in H.
  destruct (int_g_dsource ad (blades (ncs ad n)) k (OS e) (default_limit lim (LimStr "avg")) src tgt ka kwargs) as [m|] eqn:E; cbn [bind] in H; [|discriminate].
  assert (Had : 0 < ad) by (destruct Hh as [[-> _]|[-> _]]; lia).
  pose proof (@ncs_present ad n Had Gn Ln) as H0.
  unfold int_g_dsource in E. cbn [componentwise bind] in E.
  destruct (mgeo ad (blades (ncs ad n)) (dnabla None ad)) as [|[B c] G]; [contradiction|]. cbn [mapM fst snd] in E.
  destruct (get_dir_vec c ad) as [v|]; cbn [bind] in E; [|discriminate].
  destruct (int_g_vec (insert_source_derivative k) (OS (make_cse e)) (default_limit lim (LimStr "avg")) src tgt
              (KMap (dset (kdict ka) dir_vec_name v)) kwargs) as [u'|] eqn:Ei; cbn [bind] in E; [|discriminate].
  destruct (kdict_spec ka Hv) as [K1' K2].
  assert (Hv' : valid_kargs (KMap (dset (kdict ka) dir_vec_name v))) by (cbn [valid_kargs]; apply dset_nodup; exact K1').
  destruct (@int_g_vec_inv _ _ _ _ _ _ _ _ Hv' Ei) as (A & M & s' & t' & Hs' & Ht' & _).
  split; [exact A|]. split; [exists s; exact Hs|]. split; [exists t'; exact Ht'|].
  intros x. specialize (M x). rewrite insert_args, in_app_iff in M. unfold given_names in *. cbn [arg_items] in M. rewrite map_app, in_app_iff in M.
  assert (X : In x (map fst (kdict ka)) <-> In x (map fst (arg_items ka))).
  { change (map fst (kdict ka)) with (dkeys (kdict ka)). rewrite dget_keys, K2, last_value_keys. reflexivity. }
  change (map fst (dset (kdict ka) dir_vec_name v)) with (dkeys (dset (kdict ka) dir_vec_name v)) in M. rewrite dkeys_dset in M.
  change (dkeys (kdict ka)) with (map fst (kdict ka)) in M. rewrite X in M. rewrite map_app, in_app_iff. cbn [In] in M.
  destruct (string_dec x dir_vec_name) as [->|Hne].
  - rewrite map_app, in_app_iff in Hg. split; intros Y; exfalso; [exact (Hg Y)|exact (Hk Y)].
  - split.
    + intros Y. destruct (proj1 M) as [Z|[Z|[]]]; [destruct Y; [left; right; assumption|right; assumption]|exact Z|congruence].
    + intros Y. destruct (proj2 M (or_introl Y)) as [[Z|Z]|Z]; [contradiction|left; exact Z|right; exact Z].
Qed.
End V.
