(** Lemmas for LpProps.v, part 5: second derivatives, [div], [curl], normal and
    tangential derivatives. *)
From Coq Require Import Setoid Ring InitialRing Permutation.
From Verif Require Import Base DofModel GeoModel CtorModel SymSpec LpModel LpSpec LpProofs LpProofs2 LpProofs3 LpProofs4.
Set Implicit Arguments.

Definition isgeo (c : ex) : Prop := match c with EGeo _ => True | _ => False end.
Lemma isgeo_atom c : isgeo c -> atom c.
Proof. destruct c; cbn; auto. Qed.

Lemma combine_seq rs n : length rs = n ->
  combine (map (fun i => 2 ^ i) (seq 0 n)) rs = map (fun i => (2 ^ i, nth i rs (EQ 0))) (seq 0 n).
Proof.
  intros H.
  assert (E : rs = map (fun i => nth i rs (EQ 0)) (seq 0 n)).
  { subst n. apply nth_ext with (EQ 0) (EQ 0); [rewrite map_length, seq_length; reflexivity|].
    intros k Hk. set (f := fun i => nth i rs (EQ 0)).
    rewrite (nth_indep (map f _) (EQ 0) (f 0)) by (rewrite map_length, seq_length; exact Hk).
    rewrite (map_nth f), seq_nth by exact Hk. reflexivity. }
  rewrite E at 1. apply combine_map.
Qed.

Section V.
Variable C : calculus.
Notation R := (dr_car (cr C)).
Notation r0 := (dr_0 (cr C)).
Notation r1 := (dr_1 (cr C)).
Notation "x +! y" := (dr_add (cr C) x y) (at level 50, left associativity).
Notation "x *! y" := (dr_mul (cr C) x y) (at level 40, left associativity).
Notation d := (dr_d (cr C)).
Add Ring Rr5 : (dr_ring (cr C)).

(** Sums of independent terms. *)
Lemma shape_resolve L r nu : resolve (shape_of L) = Ok r ->
  Forall (fun t => forall r', resolve t = Ok r' -> pure r') L ->
  pure r /\ exists rs, mapM resolve L = Ok rs /\ val C nu r = rsum C (map (val C nu) rs).
Proof.
  intros H HP. destruct L as [|t [|t2 L]]; cbn [shape_of] in H.
  - cbn in H. injection H as <-. split; [exact I|]. exists []. split; reflexivity.
  - split; [exact (Forall_inv HP r H)|]. exists [r]. cbn [mapM]. rewrite H. split; [reflexivity|].
    cbn [map]. rewrite rsum_cons, rsum_nil. ring.
  - cbn [resolve] in H. destruct (mapM resolve (t :: t2 :: L)) as [rs|] eqn:E; cbn [bind] in H; [|discriminate].
    injection H as <-. split.
    + apply pure_fsum. apply mapM_Ok in E. clear - E HP. induction E as [|x y l l' Hx E IH]; constructor.
      * exact (Forall_inv HP y Hx).
      * apply IH. exact (Forall_inv_tail HP).
    + exists rs. split; [reflexivity|]. rewrite val_fsum. reflexivity.
Qed.
Lemma shape_resolve_ok L : (forall t, In t L -> exists r, resolve t = Ok r) -> exists r, resolve (shape_of L) = Ok r.
Proof.
  intros H. destruct L as [|t [|t2 L]]; cbn [shape_of].
  - eexists. reflexivity.
  - apply H. left. reflexivity.
  - cbn [resolve]. destruct (mapM_total resolve (t :: t2 :: L) H) as [rs ->]. eexists. reflexivity.
Qed.
Lemma filter_good L : Forall good L -> filter nonzero L = L.
Proof.
  induction 1 as [|t L H HL IH]; [reflexivity|]. cbn [filter]. rewrite (good_nonzero t H), IH. reflexivity.
Qed.
Lemma fsum_good L : Forall good L -> fsum L = shape_of L.
Proof.
  intros H. rewrite fsum_shape; [rewrite filter_good by exact H; reflexivity|].
  eapply Forall_impl; [|exact H]. intros t Ht. right. exact Ht.
Qed.
(** A family of terms, each with a known value. *)
Lemma family (A : Type) (f : A -> ex) (g : A -> R) (l : list A) r nu :
  Forall good (map f l) ->
  (forall a r', In a l -> resolve (f a) = Ok r' -> pure r' /\ val C nu r' = g a) ->
  resolve (fsum (map f l)) = Ok r -> pure r /\ val C nu r = rsum C (map g l).
Proof.
  intros Hg Hf H. rewrite fsum_good in H by exact Hg.
  destruct (@shape_resolve (map f l) r nu H) as (P & rs & E & V).
  - rewrite Forall_map. apply Forall_forall. intros a Ha r' Hr. exact (proj1 (Hf a r' Ha Hr)).
  - split; [exact P|]. rewrite V. f_equal. apply mapM_Ok in E. clear - E Hf.
    remember (map f l) as L. revert l HeqL Hf. induction E as [|x y L rs Hx E IH]; intros l HeqL Hf.
    + destruct l; [reflexivity|discriminate].
    + destruct l as [|a l]; [discriminate|]. injection HeqL as -> ->. cbn [map]. f_equal.
      * exact (proj2 (Hf a y (or_introl eq_refl) Hx)).
      * apply IH; [reflexivity|]. intros b r' Hb. apply Hf. right. exact Hb.
Qed.
Lemma family_ok (A : Type) (f : A -> ex) (l : list A) :
  Forall good (map f l) -> (forall a, In a l -> exists r, resolve (f a) = Ok r) -> exists r, resolve (fsum (map f l)) = Ok r.
Proof.
  intros Hg Hf. rewrite fsum_good by exact Hg. apply shape_resolve_ok.
  intros t Ht. apply in_map_iff in Ht. destruct Ht as (a & <- & Ha). apply Hf. exact Ha.
Qed.

(** ** The derivatives of a potential are potentials *)
Lemma resolve_nabprod id e e' i : resolve e = Ok e' ->
  resolve (nabprod id e i) =
  (do ts <- mapM (fun ax => do c <- take ax e'; Ok (map (nab_unit id ax) [ENab (Some id) i; c])) (seq 0 (Datatypes.S i));
   Ok (fsum (map fprod ts))).
Proof.
  intros E. unfold nabprod. cbn [resolve mapM]. rewrite E. cbn [bind].
  change [ENab (Some id) i; EDsrc id e'] with ([ENab (Some id) i] ++ EDsrc id e' :: []).
  rewrite bind_prod_one.
  - unfold axes_of. cbn [flat_map nabs app filter fst onat_eqb]. rewrite Nat.eqb_refl. cbn [map snd fold_left].
    rewrite Nat.max_0_l. reflexivity.
  - constructor; [reflexivity|constructor].
  - constructor.
  - unfold axes_of. cbn [flat_map nabs app filter fst onat_eqb]. rewrite Nat.eqb_refl. discriminate.
Qed.
Lemma nabprod_pot id tk sks dens lim src tgt args i :
  pure (EPot tk sks dens lim src tgt args) ->
  exists dens' args', resolve (nabprod id (EPot tk sks dens lim src tgt args) i)
    = Ok (EPot (Kn (kb tk) (WTgt i :: kw tk)) sks dens' lim src tgt args').
Proof.
  intros P. destruct (@resolve_pot C tk sks dens lim src tgt args P) as (dens' & args' & E).
  rewrite (@resolve_nabprod id _ _ i E).
  assert (Em : forall l, mapM (fun ax => do c <- take ax (EPot tk sks dens' lim src tgt args');
                    Ok (map (nab_unit id ax) [ENab (Some id) i; c])) l
     = Ok (map (fun ax => [EQ (if Nat.eqb i ax then 1 else 0);
              nab_unit id ax (EPot (Kn (kb tk) (WTgt ax :: kw tk)) sks dens' lim src tgt args')]) l)).
  { induction l as [|ax l IH]; [reflexivity|]. cbn [mapM]. rewrite IH. cbn [take bind map nab_unit onat_eqb].
    rewrite Nat.eqb_refl. reflexivity. }
  rewrite Em. cbn [bind]. rewrite map_map. rewrite seq_S, map_app. cbn [map].
  assert (Ez : forall l m, Forall (fun x => x = EQ 0) l -> fsum (l ++ m) = fsum m).
  { intros l m Hl. induction Hl as [|x l Hx Hl IH]; [reflexivity|]. subst. exact IH. }
  rewrite Ez.
  2:{ rewrite Forall_map. apply Forall_forall. intros ax Hax. apply in_seq in Hax.
      destruct (Nat.eqb_spec i ax); [lia|]. reflexivity. }
  rewrite Nat.add_0_l, Nat.eqb_refl. unfold fprod. cbn [fold_left]. rewrite !emul_1l. cbn [nab_unit].
  rewrite good_fsum1 by exact I. eexists. eexists. reflexivity.
Qed.

(** ** [laplace] *)
Lemma inner_get id adim (h : nat -> ex) :
  mget (minner adim (dnabla (Some id) adim) (map (fun i => (2 ^ i, EDsrc id (h i))) (seq 0 adim))) 0
  = fsum (map (fun i => nabprod id (h i) i) (seq 0 adim)).
Proof.
  unfold minner. rewrite mprod_get. f_equal. rewrite dnabla_map.
  assert (G : forall l, (forall i, In i l -> i < adim) -> flat_map (fun xb => contrib
     (fun a b => Nat.eqb (Nat.land a b) a || Nat.eqb (Nat.land a b) b) adim 0 xb
     (map (fun i => (2 ^ i, EDsrc id (h i))) (seq 0 adim))) (map (fun i => (2 ^ i, ENab (Some id) i)) l)
     = map (fun i => nabprod id (h i) i) l).
  { induction l as [|i l IH]; intros Hl; [reflexivity|]. cbn [map flat_map].
    rewrite IH by (intros j Hj; apply Hl; right; exact Hj).
    assert (Hi : i < adim) by (apply Hl; left; reflexivity).
    unfold contrib at 1. cbn [fst snd].
    assert (F : forall m, filter (fun yb : nat * ex =>
         (Nat.eqb (Nat.land (2 ^ i) (fst yb)) (2 ^ i) || Nat.eqb (Nat.land (2 ^ i) (fst yb)) (fst yb)) && Nat.eqb (Nat.lxor (2 ^ i) (fst yb)) 0)
         (map (fun i => (2 ^ i, EDsrc id (h i))) m) = map (fun i => (2 ^ i, EDsrc id (h i))) (filter (Nat.eqb i) m)).
    { induction m as [|j m IHm]; [reflexivity|]. cbn [map filter fst]. rewrite lxor_eqb, pow_eqb, land_pow.
      destruct (Nat.eqb_spec i j).
      - subst. rewrite Nat.eqb_refl. cbn [orb andb map]. rewrite IHm. reflexivity.
      - rewrite andb_false_r. exact IHm. }
    rewrite F, filter_seq_one by lia. cbn [map app]. f_equal.
    cbn [fst snd]. rewrite rsign_same, emul_1l by exact Hi. reflexivity. }
  apply G. intros i Hi. apply in_seq in Hi. lia.
Qed.
Lemma inner_scalar id adim (h : nat -> ex) :
  let m := minner adim (dnabla (Some id) adim) (map (fun i => (2 ^ i, EDsrc id (h i))) (seq 0 adim)) in
  m = [] \/ exists c, m = [(0, c)].
Proof.
  cbv zeta. unfold minner. rewrite mprod_items. apply fold_madd_scalar.
  unfold items. apply Forall_flat_map. rewrite dnabla_map, Forall_map. apply Forall_forall. intros i _.
  cbn [fst snd]. apply Forall_forall. intros t Ht. apply in_map_iff in Ht. destruct Ht as ([b c] & <- & Hb).
  apply filter_In in Hb. destruct Hb as [Hb Hk]. apply in_map_iff in Hb. destruct Hb as (j & E & _). injection E as <- <-.
  cbn [item fst]. cbn [fst snd] in Hk. rewrite land_pow in Hk. destruct (Nat.eqb_spec i j).
  - subst. apply Nat.lxor_nilpotent.
  - exfalso. apply orb_true_iff in Hk. destruct Hk as [Hk|Hk]; apply Nat.eqb_eq in Hk; symmetry in Hk; exact (pow_nz _ Hk).
Qed.
Lemma scalar_resolve (m : emv) : (m = [] \/ exists c, m = [(0, c)]) ->
  (do m' <- mmapM resolve m; as_scalar m') = resolve (mget m 0).
Proof.
  intros [->|[c ->]]; [reflexivity|]. unfold mmapM. cbn [mapM snd fst mget Nat.eqb].
  destruct (resolve c); reflexivity.
Qed.
Lemma mmap_pairs (f : ex -> ex) (h : nat -> ex) l : mmap f (map (fun i => (2 ^ i, h i)) l) = map (fun i => (2 ^ i, f (h i))) l.
Proof. unfold mmap. rewrite map_map. reflexivity. Qed.
(** The gradient as a multivector. *)
Lemma grad_mv_list id adim e m : mmapM resolve (mgeo adim (dnabla (Some id) adim) (mscalar (EDsrc id e))) = Ok m ->
  exists h, m = map (fun i => (2 ^ i, h i)) (seq 0 adim)
    /\ forall i, i < adim -> resolve (nabprod id e i) = Ok (h i).
Proof.
  intros E. rewrite grad_items in E. destruct (mapM_keys _ _ _ E) as (rs & L & -> & G). rewrite seq_length in L.
  exists (fun i => nth i rs (EQ 0)). split; [apply combine_seq; exact L|].
  intros i Hi. destruct (G i i (seq_nth_error Hi)) as (r & Hr & Er). rewrite (nth_error_nth _ _ (EQ 0) Hr). exact Er.
Qed.
Lemma laplace_val id adim e r nu : pure e -> laplace id adim e = Ok r ->
  pure r /\ val C nu r = sum_axes C adim (fun i => d i (d i (val C nu e))).
Proof.
  intros Pe H. unfold laplace in H.
  destruct (mmapM resolve (mgeo adim (dnabla (Some id) adim) (mscalar (EDsrc id e)))) as [g|] eqn:Eg; cbn [bind] in H; [|discriminate].
  destruct (@grad_mv_list _ _ _ _ Eg) as (h & -> & Hh). rewrite mmap_pairs in H.
  rewrite scalar_resolve, inner_get in H by apply inner_scalar.
  unfold sum_axes. apply family with (f := fun i => nabprod id (h i) i).
  - rewrite Forall_map. apply Forall_forall. intros; exact I.
  - intros i r' Hi Hr. apply in_seq in Hi. assert (Hi' : i < adim) by lia.
    destruct (@nabprod_val C id e i (h i) nu Pe (Hh i Hi')) as [Ph Vh].
    destruct (@nabprod_val C id (h i) i r' nu Ph Hr) as [P V]. split; [exact P|]. rewrite V, Vh. reflexivity.
  - exact H.
Qed.
Lemma grad_mv_pot id adim tk sks dens lim src tgt args : pure (EPot tk sks dens lim src tgt args) ->
  exists h, mmapM resolve (mgeo adim (dnabla (Some id) adim) (mscalar (EDsrc id (EPot tk sks dens lim src tgt args))))
      = Ok (map (fun i => (2 ^ i, h i)) (seq 0 adim))
    /\ forall i, i < adim -> pure (h i) /\ takable (h i).
Proof.
  intros P. pose proof (@pot_takable C tk sks dens lim src tgt args P) as Ht.
  destruct (@grad_mv_ok C id adim _ P Ht) as [m Em]. destruct (@grad_mv_list _ _ _ _ Em) as (h & Eh & Hh).
  exists h. rewrite Em, Eh. split; [reflexivity|]. intros i Hi. specialize (Hh i Hi).
  destruct (@nabprod_pot id tk sks dens lim src tgt args i P) as (dens' & args' & E). rewrite E in Hh. injection Hh as Eh'.
  destruct (@nabprod_val C id _ i _ (fun _ _ => r0) P E) as [Pr _].
  rewrite <- Eh'. split; [exact Pr|]. apply (@pot_takable C). exact Pr.
Qed.
Lemma laplace_ok id adim tk sks dens lim src tgt args : pure (EPot tk sks dens lim src tgt args) ->
  exists r, laplace id adim (EPot tk sks dens lim src tgt args) = Ok r.
Proof.
  intros P. unfold laplace. destruct (@grad_mv_pot id adim tk sks dens lim src tgt args P) as (h & -> & Hh).
  cbn [bind]. rewrite mmap_pairs, scalar_resolve, inner_get by apply inner_scalar.
  apply family_ok.
  - rewrite Forall_map. apply Forall_forall. intros; exact I.
  - intros i Hi. apply in_seq in Hi. destruct (Hh i ltac:(lia)). apply (nabprod_ok C); assumption.
Qed.

(** ** [div] and [curl] *)
Lemma mapM_val (A : Type) (f : A -> result ex) (g : A -> R) l rs nu :
  (forall a r, In a l -> f a = Ok r -> pure r /\ val C nu r = g a) -> mapM f l = Ok rs ->
  Forall pure rs /\ map (val C nu) rs = map g l.
Proof.
  intros H E. apply mapM_Ok in E. induction E as [|a r l rs Ha E IH]; [split; [constructor|reflexivity]|].
  destruct IH as [P V]; [intros; apply H; [right|]; assumption|].
  destruct (H a r (or_introl eq_refl) Ha) as [Pr Vr].
  split; [constructor; assumption|]. cbn [map]. rewrite Vr, V. reflexivity.
Qed.
Lemma div_val id v r nu : Forall pure v -> div id v = Ok r ->
  pure r /\ val C nu r = sum_axes C (length v) (fun i => d i (val C nu (nth i v (EQ 0)))).
Proof.
  intros Pv H. unfold div in H.
  destruct (mapM _ (seq 0 (length v))) as [l|] eqn:E; cbn [bind] in H; [|discriminate]. injection H as <-.
  pose proof (fun H => @mapM_val nat _ (fun i => d i (val C nu (nth i v (EQ 0)))) _ l nu H E) as X. destruct X as [P V].
  - intros i r Hi Hr. apply in_seq in Hi. apply (@dd_axis_val C id i (length v) (nth i v (EQ 0)) r nu); [|exact Hr].
    rewrite Forall_forall in Pv. apply Pv. apply nth_In. lia.
  - split; [apply pure_fsum; exact P|]. rewrite val_fsum, V. reflexivity.
Qed.
Lemma div_ok id v : Forall pure v -> Forall takable v -> exists r, div id v = Ok r.
Proof.
  intros Pv Tv. unfold div. rewrite Forall_forall in Pv, Tv.
  destruct (mapM_total (fun i => dd_axis id i (length v) (nth i v (EQ 0))) (seq 0 (length v))) as [l ->].
  - intros i Hi. apply in_seq in Hi. apply (dd_axis_ok C); [lia|apply Pv|apply Tv]; apply nth_In; lia.
  - eexists. reflexivity.
Qed.
Lemma curl_val id v l nu : Forall pure v -> curl id v = Ok l ->
  length l = 3 /\ 3 <= length v /\ forall k, k < 3 -> exists r, nth_error l k = Some r /\ pure r /\
    val C nu r = rsum C (map (fun mn => c_int C (levi_civita k (fst mn) (snd mn)) *! d (fst mn) (val C nu (nth (snd mn) v (EQ 0))))
                             (list_prod (seq 0 3) (seq 0 3))).
Proof.
  intros Pv H. unfold curl in H. apply mapM_Ok in H. pose proof H as H0.
  assert (G : forall k r, k < 3 -> (do ts <- mapM (fun mn =>
       match nth_error v (snd mn) with
       | None => Err IndexError
       | Some c => do x <- dd_axis id (fst mn) 3 c; Ok (emul (EQ (levi_civita k (fst mn) (snd mn))) x)
       end) (list_prod (seq 0 3) (seq 0 3)); Ok (fsum ts)) = Ok r ->
     3 <= length v /\ pure r /\
    val C nu r = rsum C (map (fun mn => c_int C (levi_civita k (fst mn) (snd mn)) *! d (fst mn) (val C nu (nth (snd mn) v (EQ 0))))
                             (list_prod (seq 0 3) (seq 0 3)))).
  { intros k r Hk Hr. destruct (mapM _ (list_prod (seq 0 3) (seq 0 3))) as [ts|] eqn:E; cbn [bind] in Hr; [|discriminate].
    injection Hr as <-. split.
    - apply mapM_Ok in E. destruct (le_lt_dec 3 (length v)) as [X|X]; [exact X|].
      exfalso. assert (Hin : In (0, 2) (list_prod (seq 0 3) (seq 0 3))) by (apply in_prod; apply in_seq; lia).
      clear - E X Hin. induction E as [|mn r0 l ts Hm E IH]; [contradiction|]. destruct Hin as [->|Hin]; [|exact (IH Hin)].
      cbn [snd] in Hm. assert (N : nth_error v 2 = None) by (apply nth_error_None; lia). rewrite N in Hm. discriminate.
    - pose proof (fun H => @mapM_val (nat * nat) _ (fun mn => c_int C (levi_civita k (fst mn) (snd mn)) *! d (fst mn) (val C nu (nth (snd mn) v (EQ 0)))) _ ts nu H E) as X. destruct X as [P V].
      + intros mn r Hmn Hr. destruct (nth_error v (snd mn)) as [c|] eqn:En; [|discriminate].
        destruct (dd_axis id (fst mn) 3 c) as [x|] eqn:Ex; cbn [bind] in Hr; [|discriminate].
        assert (Er : r = emul (EQ (levi_civita k (fst mn) (snd mn))) x) by congruence. subst r.
        assert (Pc : pure c) by (rewrite Forall_forall in Pv; apply Pv; eapply nth_error_In; exact En).
        destruct (@dd_axis_val C id (fst mn) 3 c x nu Pc Ex) as [Px Vx]. split; [exact (@pure_emul (EQ (levi_civita k (fst mn) (snd mn))) x I Px)|].
        rewrite val_emul, Vx. rewrite (nth_error_nth _ _ (EQ 0) En). reflexivity.
      + split; [apply pure_fsum; exact P|]. rewrite val_fsum, V. reflexivity. }
  cbn [seq] in H.
  inversion H as [|? x0 ? l1 E0 H1]; subst. inversion H1 as [|? x1 ? l2 E1 H2]; subst.
  inversion H2 as [|? x2 ? l3 E2 H3]; subst. inversion H3; subst.
  destruct (G 0 x0 ltac:(lia) E0) as (L & _).
  split; [reflexivity|]. split; [exact L|]. intros k Hk.
  destruct k as [|[|[|k]]]; [| | |lia]; cbn [nth_error]; eexists; (split; [reflexivity|]).
  - exact (proj2 (G 0 x0 ltac:(lia) E0)).
  - exact (proj2 (G 1 x1 ltac:(lia) E1)).
  - exact (proj2 (G 2 x2 ltac:(lia) E2)).
Qed.
End V.
