(** Lemmas for LpProps.v, part 9: [int_g_dsource], [D] and the derivatives of layer
    potentials. *)
From Coq Require Import Reals Setoid Ring InitialRing Permutation.
From Verif Require Import Base DofModel GeoModel GeoSpec GeoProofs CtorModel CtorSpec CtorProofs SymSpec
  LpModel LpSpec LpProofs LpProofs2 LpProofs3 LpProofs4 LpProofs5 LpProofs6 LpProofs7 LpProofs8.
Set Implicit Arguments.
Open Scope nat_scope.

Lemma coef_lin : forall c, coefficient c -> lin c /\ pure c.
Proof.
  apply (@ex_ind' (fun c => coefficient c -> lin c /\ pure c)).
  all: try (intros; cbn [coefficient lin pure] in *; tauto).
  - intros l Hl Hc. apply coef_sum in Hc. destruct Hc as [Hne Hc].
    assert (X : Forall lin l /\ Forall pure l).
    { clear Hne. induction Hl as [|c l H Hl IH]; [split; constructor|]. destruct (H (Forall_inv Hc)). destruct (IH (Forall_inv_tail Hc)).
      split; constructor; assumption. }
    split; [apply lin_sum; split; [exact Hne|tauto]|apply pure_sum; tauto].
  - intros l Hl Hc. apply coef_prod in Hc.
    assert (X : Forall lin l /\ Forall pure l).
    { induction Hl as [|c l H Hl IH]; [split; constructor|]. destruct (H (Forall_inv Hc)). destruct (IH (Forall_inv_tail Hc)).
      split; constructor; assumption. }
    split; [apply lin_prod; tauto|apply pure_prod; tauto].
Qed.
Lemma coef_factors c : coefficient c -> Forall coefficient (factors c).
Proof. destruct c; cbn [factors]; intros H; try (constructor; [exact H|constructor]). apply coef_prod. exact H. Qed.
Lemma coef_sign s c : coefficient c -> coefficient (emul (EQ s) c).
Proof.
  intros H. unfold emul. destruct c; try exact I; cbn [is_num orb].
  all: destruct (s =? 0)%Z; cbn [orb]; [exact I|]; destruct (s =? 1)%Z; [exact H|].
  all: apply coef_prod; cbn [factors app]; constructor; [exact I|]; try (constructor; [exact H|constructor]).
  apply coef_prod. exact H.
Qed.
Definition dterm (s : Z) (a : ex) (i : nat) : ex := emul (emul (EQ s) a) (ENab None i).
Lemma dterm_cases adim s a i : coefficient a -> i < adim ->
  dterm s a i = EQ 0 \/ (good (dterm s a i) /\ axis_term adim (dterm s a i) /\ lin (dterm s a i)).
Proof.
  intros Ha Hi. unfold dterm. pose proof (coef_sign s a Ha) as Hc. set (c := emul (EQ s) a) in *. clearbody c. clear Ha a s.
  assert (G : is_num 0 c = true \/ is_num 1 c = true \/ emul c (ENab None i) = EProd (factors c ++ [ENab None i])).
  { destruct (is_num 0 c) eqn:E0; [left; reflexivity|]. destruct (is_num 1 c) eqn:E1; [right; left; reflexivity|].
    right. right. destruct c; try reflexivity. unfold emul. rewrite E0, E1. reflexivity. }
  destruct G as [G|[G|G]].
  - apply is_num_eq in G. subst c. left. reflexivity.
  - apply is_num_eq in G. subst c. right. split; [exact I|]. split; [|exact I]. exists i, (EQ 1). split; [exact Hi|reflexivity].
  - rewrite G. right. split; [exact I|]. split.
    + destruct (collect_term i (coef_factors c Hc)) as [x E]. exists i, x. split; [exact Hi|exact E].
    + apply lin_prod. apply Forall_app. split; [|constructor; [exact I|constructor]].
      eapply Forall_impl; [|apply coef_factors; exact Hc]. intros x Hx. apply coef_lin. exact Hx.
Qed.

(** Keys of products are distinct. *)
Lemma mset_keys m b c x : In x (map fst (mset m b c)) <-> x = b \/ In x (map fst m).
Proof.
  induction m as [|[b' c'] m IH]; cbn [mset map fst]; [cbn; intuition|].
  destruct (Nat.eqb_spec b' b); cbn [map fst In]; [subst; intuition|]. rewrite IH. intuition.
Qed.
Lemma mset_nodup m b c : NoDup (map fst m) -> NoDup (map fst (mset m b c)).
Proof.
  induction m as [|[b' c'] m IH]; cbn [mset map fst]; intros H; [repeat constructor; tauto|]. inversion H; subst.
  destruct (Nat.eqb_spec b' b); cbn [map fst]; constructor; try assumption; [|apply IH; assumption].
  intros X. apply mset_keys in X. destruct X; [contradiction|contradiction].
Qed.
Lemma mdel_nodup m b : NoDup (map fst m) -> NoDup (map fst (mdel m b)).
Proof.
  unfold mdel. induction m as [|[b' c'] m IH]; cbn [filter map fst]; intros H; [constructor|]. inversion H; subst.
  destruct (negb (b' =? b)); cbn [map fst]; [constructor; [|apply IH; assumption]|apply IH; assumption].
  intros X. apply H2. apply in_map_iff in X. destruct X as (t & E & Ht). apply filter_In in Ht. apply in_map_iff. exists t. tauto.
Qed.
Lemma fold_madd_nodup its : forall m, NoDup (map fst m) -> NoDup (map fst (fold_left (fun acc t => madd1 acc (fst t) (snd t)) its m)).
Proof.
  induction its as [|t its IH]; intros m H; cbn [fold_left]; [exact H|]. apply IH. unfold madd1.
  destruct (is_num 0 (eadd (mget m (fst t)) (snd t))); [apply mdel_nodup|apply mset_nodup]; exact H.
Qed.
Lemma mprod_nodup keep dims x y : NoDup (map fst (mprod keep dims x y)).
Proof. rewrite mprod_items. apply fold_madd_nodup. constructor. Qed.
Lemma mget_in (m : emv) b e : NoDup (map fst m) -> In (b, e) m -> mget m b = e.
Proof.
  induction m as [|[b' c'] m IH]; intros Hn Hin; [contradiction|]. cbn [mget]. inversion Hn; subst.
  destruct Hin as [E|Hin].
  - injection E as -> ->. rewrite Nat.eqb_refl. reflexivity.
  - destruct (Nat.eqb_spec b' b); [|apply IH; assumption]. subst. exfalso. apply H1. apply in_map_iff. exists (b, e). split; [reflexivity|exact Hin].
Qed.
(** No entry is zero. *)
Lemma fold_madd_nonzero its : forall m : emv, (forall t, In t m -> is_num 0 (snd t) = false) ->
  forall t, In t (fold_left (fun acc t => madd1 acc (fst t) (snd t)) its m) -> is_num 0 (snd t) = false.
Proof.
  induction its as [|t0 its IH]; intros m H t; cbn [fold_left]; [apply H|]. apply IH. clear t. intros t. unfold madd1.
  destruct (is_num 0 (eadd (mget m (fst t0)) (snd t0))) eqn:E.
  - unfold mdel. intros Ht. apply filter_In in Ht. apply H. tauto.
  - intros Ht. clear IH. revert E Ht. generalize (eadd (mget m (fst t0)) (snd t0)) as c. intros c Ec Ht.
    induction m as [|[b' c'] m IH]; cbn [mset] in Ht.
    + destruct Ht as [<-|[]]. exact Ec.
    + destruct (Nat.eqb b' (fst t0)); destruct Ht as [<-|Ht].
      * exact Ec.
      * apply H. right. exact Ht.
      * apply (H (b', c')). left. reflexivity.
      * apply IH; [|exact Ht]. intros t' Ht'. apply H. right. exact Ht'.
Qed.
Lemma mprod_nonzero keep dims x y t : In t (mprod keep dims x y) -> is_num 0 (snd t) = false.
Proof. rewrite mprod_items. apply fold_madd_nonzero. intros t' []. Qed.

(** Signs. *)
Lemma filter_filter (A : Type) (p q : A -> bool) l : filter p (filter q l) = filter (fun a => q a && p a) l.
Proof. induction l as [|a l IH]; [reflexivity|]. cbn [filter]. destruct (q a); cbn [filter andb]; [destruct (p a)|]; rewrite IH; reflexivity. Qed.
Lemma rsign_blade adim A i : i < adim -> rsign adim A (2 ^ i) = blade_sign adim A i.
Proof.
  intros Hi. unfold rsign, blade_sign, swaps. rewrite bitlist_pow by exact Hi.
  assert (G : forall l acc, fold_left Nat.add (map (fun a => length (filter (fun j => j <? a) [i])) l) acc = acc + length (filter (fun a => i <? a) l)).
  { induction l as [|a l IH]; intros acc; cbn [map fold_left filter]; [cbn; lia|]. rewrite IH. cbn [filter].
    destruct (i <? a); cbn [length]; lia. }
  rewrite G. cbn [Nat.add]. unfold bitlist. rewrite filter_filter. reflexivity.
Qed.

Section V.
Variable C : calculus.
Notation R := (dr_car (cr C)).
Notation r0 := (dr_0 (cr C)).
Notation r1 := (dr_1 (cr C)).
Notation "x +! y" := (dr_add (cr C) x y) (at level 50, left associativity).
Notation "x *! y" := (dr_mul (cr C) x y) (at level 40, left associativity).
Notation d := (dr_d (cr C)).
Add Ring Rr9 : (dr_ring (cr C)).

Lemma contrib_dir adim A a B :
  contrib (fun _ _ => true) adim B (A, a) (dnabla None adim)
  = map (fun j => dterm (rsign adim A (2 ^ j)) a j) (filter (fun j => Nat.eqb (Nat.lxor A (2 ^ j)) B) (seq 0 adim)).
Proof.
  unfold contrib. rewrite dnabla_map. cbn [fst snd andb]. generalize (seq 0 adim).
  induction l as [|j l IH]; [reflexivity|]. cbn [map filter fst]. destruct (Nat.lxor A (2 ^ j) =? B); cbn [map]; [|exact IH].
  f_equal. exact IH.
Qed.
Lemma rsum_filter (A : Type) (p : A -> bool) (f : A -> R) l :
  rsum C (map f (filter p l)) = rsum C (map (fun a => if p a then f a else r0) l).
Proof.
  induction l as [|a l IH]; [reflexivity|]. cbn [map filter]. rewrite rsum_cons. destruct (p a); cbn [map]; rewrite ?rsum_cons, IH; ring.
Qed.
Lemma blade_value adim dsource B i : Forall (fun t => coefficient (snd t)) dsource -> i < adim ->
  val C (unit_nu C i) (mget (mgeo adim dsource (dnabla None adim)) B) = direction C adim dsource B i.
Proof.
  intros Hc Hi. unfold mgeo. rewrite mprod_get, val_fsum. unfold direction. rewrite rsum_filter.
  induction Hc as [|[A a] ds Ha Hc IH]; [reflexivity|]. cbn [flat_map map fst snd]. rewrite map_app, rsum_app, rsum_cons, IH. f_equal.
  rewrite contrib_dir, map_map.
  rewrite (@rsum_filter nat (fun j => Nat.lxor A (2 ^ j) =? B) (fun j => val C (unit_nu C i) (dterm (rsign adim A (2 ^ j)) a j))).
  rewrite (rsum_ext C _ (fun j => (if Nat.eqb i j then r1 else r0) *! (if Nat.lxor A (2 ^ j) =? B then c_int C (rsign adim A (2 ^ j)) *! value C a else r0)) (seq 0 adim)).
  - pose proof (@sum_delta C i (fun j => if Nat.lxor A (2 ^ j) =? B then c_int C (rsign adim A (2 ^ j)) *! value C a else r0) adim Hi) as X.
    unfold sum_axes in X. rewrite X. rewrite rsign_blade by exact Hi. reflexivity.
  - intros j _. unfold dterm. rewrite !val_emul. cbn [val]. unfold unit_nu at 2.
    rewrite (val_pure C (unit_nu C i) (fun _ _ => r0) a (proj2 (coef_lin a Ha))). fold (value C a).
    destruct (Nat.lxor A (2 ^ j) =? B); destruct (i =? j); ring.
Qed.
Lemma blade_shape adim dsource B : Forall (fun t => coefficient (snd t)) dsource ->
  exists L, mget (mgeo adim dsource (dnabla None adim)) B = shape_of L /\ Forall (axis_term adim) L /\ Forall lin L.
Proof.
  intros Hc. unfold mgeo. rewrite mprod_get.
  set (l := flat_map (fun xb => contrib (fun _ _ => true) adim B xb (dnabla None adim)) dsource).
  assert (Hl : Forall (fun t => t = EQ 0 \/ (good t /\ axis_term adim t /\ lin t)) l).
  { unfold l. apply Forall_flat_map. eapply Forall_impl; [|exact Hc]. intros [A a] Ha. rewrite contrib_dir, Forall_map.
    apply Forall_forall. intros j Hj. apply filter_In in Hj. destruct Hj as [Hj _]. apply in_seq in Hj. apply dterm_cases; [exact Ha|lia]. }
  exists (filter nonzero l). split; [|split].
  - apply fsum_shape. eapply Forall_impl; [|exact Hl]. intros t [->|(G & _)]; [left; reflexivity|right; exact G].
  - apply Forall_forall. intros t Ht. apply filter_In in Ht. destruct Ht as [Ht Hz]. rewrite Forall_forall in Hl.
    destruct (Hl t Ht) as [->|(_ & G & _)]; [discriminate|exact G].
  - apply Forall_forall. intros t Ht. apply filter_In in Ht. destruct Ht as [Ht Hz]. rewrite Forall_forall in Hl.
    destruct (Hl t Ht) as [->|(_ & _ & G)]; [discriminate|exact G].
Qed.
Lemma shape_lin L : Forall lin L -> lin (shape_of L).
Proof.
  intros H. destruct L as [|t [|t2 L]]; [exact I|exact (Forall_inv H)|]. cbn [shape_of]. apply lin_sum. split; [discriminate|exact H].
Qed.
Lemma cv_compose (f : R -> R) o1 o2 o3 : componentwise_value C (fun x => x) o1 o2 -> componentwise_value C f o2 o3 -> componentwise_value C f o1 o3.
Proof.
  destruct o1 as [e1|l1|m1], o2 as [e2|l2|m2], o3 as [e3|l3|m3]; cbn [componentwise_value]; try contradiction.
  - intros H1 H2. rewrite H2, H1. reflexivity.
  - intros H1. revert l3. induction H1 as [|x y l l' H H1 IH]; intros l3 H2; inversion H2; subst; constructor; [|apply IH; assumption].
    rewrite <- H. assumption.
  - intros H1. revert m3. induction H1 as [|x y l l' [Ha Hb] H1 IH]; intros l3 H2; inversion H2 as [|? z ? l3' [Hc Hd] H3]; subst; constructor; [|apply IH; assumption].
    split; [rewrite Hc; exact Ha|]. rewrite Hd, Hb. reflexivity.
Qed.
Definition dsource_spec (adim : nat) (dsource : emv) (k : kern) (lim : limarg) (s t : dofdesc) (ka : kargs)
    (kwargs : list (string * list ex)) (B : nat) (x : R) : R :=
  sum_axes C adim (fun i => layer C (d_source i k) lim s t (arg_values C ka kwargs k) (direction C adim dsource B i *! x)).
Lemma dsource_ok adim dsource k dens lim src tgt ka kwargs s t :
  valid_kargs ka -> pure_arguments ka kwargs -> pure_operand dens -> as_dofdesc src = Ok s -> as_dofdesc tgt = Ok t ->
  limit_allowed lim = true -> matching_arguments k ka kwargs -> ~ In dir_vec_name (arg_names k) ->
  adim = b_dim (kb k) -> Forall (fun t => coefficient (snd t)) dsource ->
  exists m, int_g_dsource adim dsource k dens lim src tgt ka kwargs = Ok m
    /\ map fst m = map fst (mgeo adim dsource (dnabla None adim))
    /\ Forall (fun p => pure_operand (snd p) /\ componentwise_value C (dsource_spec adim dsource k lim s t ka kwargs (fst p)) dens (snd p)) m.
Proof.
  intros Hv Ha Hd Hs Ht Hl Hm Hn Hdim Hc. unfold int_g_dsource.
  destruct (@componentwise_ok C (fun e => Ok (make_cse e)) (fun x => x) dens) as (dens' & Ed & Pd & Vd); [|exact Hd|].
  { intros e Pe. exists (make_cse e). split; [reflexivity|]. split; [apply pure_cse; exact Pe|]. apply val_cse. }
  rewrite Ed. cbn [bind].
  set (G := mgeo adim dsource (dnabla None adim)).
  assert (St : forall B e, In (B, e) G -> exists o,
     (do v <- get_dir_vec e adim;
      do o <- int_g_vec (insert_source_derivative k) dens' lim src tgt (KMap (dset (kdict ka) dir_vec_name v)) kwargs; Ok (B, o)) = Ok (B, o)
     /\ pure_operand o /\ componentwise_value C (dsource_spec adim dsource k lim s t ka kwargs B) dens o).
  { intros B e He. assert (Eg : mget G B = e) by (apply mget_in; [apply mprod_nodup|exact He]).
    assert (Enz : is_num 0 e = false) by exact (@mprod_nonzero (fun _ _ => true) adim dsource (dnabla None adim) (B, e) He).
    destruct (@blade_shape adim dsource B Hc) as (L & EL & HL & HlL). fold G in EL. rewrite Eg in EL.
    assert (HLn : L <> []) by (intros X; rewrite X in EL; rewrite EL in Enz; discriminate).
    destruct (dir_vec_ok HL HLn) as [v Ev]. rewrite <- EL in Ev. rewrite Ev. cbn [bind].
    assert (Hle : lin e) by (rewrite EL; apply shape_lin; exact HlL).
    destruct (@get_dir_vec_sound C e adim v Hle Ev) as (Lv & Pv & Vv).
    destruct (@blade_ok C adim k dens' lim src tgt ka kwargs s t v (direction C adim dsource B)) as (o & Eo & Po & Vo); try assumption.
    - intros i Hi. unfold value. rewrite Vv by exact Hi. rewrite <- Eg. unfold G. apply blade_value; [exact Hc|exact Hi].
    - rewrite Eo. cbn [bind]. exists o. split; [reflexivity|]. split; [exact Po|]. exact (@cv_compose _ dens dens' o Vd Vo). }
  clearbody G. clear Hc.
  induction G as [|[B e] G IH]; [exists []; repeat split; constructor|].
  destruct (St B e (or_introl eq_refl)) as (o & Eo & Po & Vo).
  destruct IH as (m & Em & Km & Vm); [intros; apply St; right; assumption|].
  exists ((B, o) :: m). cbn [mapM fst snd]. rewrite Eo. cbn [bind]. rewrite Em. cbn [bind map fst]. rewrite Km.
  split; [reflexivity|]. split; [reflexivity|]. constructor; [split; assumption|exact Vm].
Qed.
Lemma dsource_absent adim dsource B i : Forall (fun t => coefficient (snd t)) dsource -> i < adim ->
  ~ In B (map fst (mgeo adim dsource (dnabla None adim))) -> direction C adim dsource B i = r0.
Proof.
  intros Hc Hi H. rewrite <- (@blade_value adim dsource B i Hc Hi). rewrite mget_absent by exact H. cbn [val]. apply int_0.
Qed.

(** ** [D] *)
Lemma ncs_coef adim n : Forall is_gcse n -> length n = adim -> Forall (fun t => coefficient (snd t)) (blades (ncs adim n)).
Proof.
  intros Hg Hl. unfold blades, ncs. rewrite !Forall_map. apply Forall_forall. intros j Hj. apply in_rev, in_seq in Hj. cbn [fst snd].
  rewrite Forall_forall in Hg. assert (X : is_gcse (nth j n (gz 0))) by (apply Hg; apply nth_In; lia).
  destruct (nth j n (gz 0)); try contradiction. exact I.
Qed.
Lemma ncs_direction adim n i : i < adim -> direction C adim (blades (ncs adim n)) 0 i = c_geo C (nth i n (gz 0)).
Proof.
  intros Hi. unfold direction. rewrite rsum_filter. unfold blades. rewrite map_map. cbn [fst snd].
  unfold ncs. rewrite map_map. cbn [fst snd]. rewrite rsum_rev.
  rewrite (rsum_ext C _ (fun j => (if Nat.eqb i j then r1 else r0) *! c_geo C (nth j n (gz 0))) (seq 0 adim)).
  - exact (@sum_delta C i (fun j => c_geo C (nth j n (gz 0))) adim Hi).
  - intros j Hj. apply in_seq in Hj. rewrite lxor_eqb, pow_eqb, (Nat.eqb_sym j i). destruct (Nat.eqb_spec i j); [|ring].
    subst. rewrite <- rsign_blade, rsign_same, int_1 by lia. unfold value. cbn [val]. ring.
Qed.
Lemma ncs_present adim n : 0 < adim -> Forall is_gcse n -> length n = adim ->
  In 0 (map fst (mgeo adim (blades (ncs adim n)) (dnabla None adim))).
Proof.
  intros Ha Hg Hl. destruct (in_dec Nat.eq_dec 0 (map fst (mgeo adim (blades (ncs adim n)) (dnabla None adim)))) as [H|H]; [exact H|].
  exfalso. pose proof (mget_absent _ _ H) as E. unfold mgeo in E. rewrite mprod_get in E.
  assert (F : flat_map (fun xb => contrib (fun _ _ => true) adim 0 xb (dnabla None adim)) (blades (ncs adim n))
     = map (fun j => EProd [EGeo (nth j n (gz 0)); ENab None j]) (rev (seq 0 adim))).
  { unfold blades, ncs. rewrite map_map. cbn [fst snd].
    assert (X : forall l, (forall j, In j l -> j < adim) -> flat_map (fun xb => contrib (fun _ _ => true) adim 0 xb (dnabla None adim))
        (map (fun j => (2 ^ j, EGeo (nth j n (gz 0)))) l) = map (fun j => EProd [EGeo (nth j n (gz 0)); ENab None j]) l).
    { induction l as [|j l IH]; intros Hj; [reflexivity|]. cbn [map flat_map]. rewrite IH by (intros; apply Hj; right; assumption).
      assert (Hj' : j < adim) by (apply Hj; left; reflexivity). rewrite contrib_dir.
      rewrite (filter_ext_in' _ (Nat.eqb j)) by (intros a _; rewrite lxor_eqb; apply pow_eqb).
      rewrite filter_seq_one by lia. cbn [map app]. unfold dterm. rewrite rsign_same, emul_1l by exact Hj'. reflexivity. }
    apply X. intros j Hj. apply in_rev, in_seq in Hj. lia. }
  rewrite F, fsum_good in E by (rewrite Forall_map; apply Forall_forall; intros; exact I).
  destruct adim as [|a]; [lia|]. rewrite seq_S, rev_app_distr in E. cbn [rev app map] in E.
  destruct (rev (seq 0 a)); discriminate.
Qed.
Lemma D_ok k dens lim src tgt ka adim dim o kwargs s t n :
  valid_kargs ka -> pure_arguments ka kwargs -> pure_operand dens -> as_dofdesc src = Ok s -> as_dofdesc tgt = Ok t ->
  limit_allowed (default_limit lim (LimStr "avg")) = true -> matching_arguments k ka kwargs -> ~ In dir_vec_name (arg_names k) ->
  ambient adim k = b_dim (kb k) -> hypersurface (b_dim (kb k)) dim -> dim_is (b_dim (kb k)) o dim ->
  normal (b_dim (kb k)) o src = Ok n ->
  exists u, D k dens lim src tgt ka adim o kwargs = Ok u /\ pure_operand u
   /\ componentwise_value C (fun x => sum_axes C (b_dim (kb k)) (fun i =>
        layer C (d_source i k) (default_limit lim (LimStr "avg")) s t (arg_values C ka kwargs k) (c_geo C (nth i n (gz 0)) *! x))) dens u.
Proof.
  intros Hv Ha Hd Hs Ht Hl Hm Hn Hamb Hhyp Ho Hnorm. unfold D. rewrite Hamb. set (ad := b_dim (kb k)) in *.
  destruct (@normal_explicit ad dim o src s Hhyp Ho Hs) as (n' & En & Ln & Em & Gn). rewrite Hnorm in En. injection En as <-.
  rewrite Em. cbn [bind].
  assert (Had : 0 < ad) by (destruct Hhyp as [[-> _]|[-> _]]; lia).
  destruct (@dsource_ok ad (blades (ncs ad n)) k dens (default_limit lim (LimStr "avg")) src tgt ka kwargs s t) as (m & E & K & V); try assumption; try reflexivity.
  - apply ncs_coef; assumption.
  - rewrite E. cbn [bind].
    pose proof (@ncs_present ad n Had Gn Ln) as H0. rewrite <- K in H0.
    destruct (find (fun t : nat * operand => Nat.eqb (fst t) 0) m) as [[B u]|] eqn:Ef.
    + apply find_some in Ef. destruct Ef as [Hin HB]. apply Nat.eqb_eq in HB. cbn [fst] in HB. subst B.
      rewrite Forall_forall in V. destruct (V _ Hin) as [P Vu]. cbn [fst snd] in P, Vu. exists u. split; [reflexivity|]. split; [exact P|].
      assert (Fe : forall x, dsource_spec ad (blades (ncs ad n)) k (default_limit lim (LimStr "avg")) s t ka kwargs 0 x
         = sum_axes C ad (fun i => layer C (d_source i k) (default_limit lim (LimStr "avg")) s t (arg_values C ka kwargs k) (c_geo C (nth i n (gz 0)) *! x))).
      { intros x. unfold dsource_spec, sum_axes. apply rsum_ext. intros i Hi. apply in_seq in Hi. rewrite ncs_direction by lia. reflexivity. }
      destruct dens as [e|l|mm], u as [e'|l'|mm']; cbn [componentwise_value] in *; try contradiction.
      * rewrite Vu. apply Fe.
      * clear - Vu Fe. induction Vu as [|x y l l' H Vo IH]; constructor; [|exact IH]. rewrite H. apply Fe.
      * clear - Vu Fe. induction Vu as [|x y l l' [H1 H2] Vo IH]; constructor; [|exact IH]. split; [exact H1|]. rewrite H2. apply Fe.
    + exfalso. apply in_map_iff in H0. destruct H0 as (p & Hp & Hin). pose proof (find_none _ _ Ef p Hin) as X. cbn beta in X.
      rewrite Hp in X. discriminate.
Qed.
End V.
