(** Lemmas for LpProps.v, part 6: normal and tangential derivatives. *)
From Coq Require Import Reals Setoid Ring InitialRing Permutation.
From Verif Require Import Base DofModel GeoModel GeoSpec GeoProofs CtorModel SymSpec LpModel LpSpec LpProofs LpProofs2 LpProofs3 LpProofs4 LpProofs5.
Set Implicit Arguments.
Open Scope nat_scope.

Definition is_gcse (g : ge) : Prop := match g with GCse _ _ _ => True | _ => False end.
Definition ncs (adim : nat) (n : list ge) : list (ex * nat) :=
  map (fun j => (EGeo (nth j n (gz 0)), j)) (rev (seq 0 adim)).
Lemma normal_explicit adim dim o dd dsc : hypersurface adim dim -> dim_is adim o dim -> as_dofdesc dd = Ok dsc ->
  exists n, normal adim o dd = Ok n /\ length n = adim /\ normal_mv adim o dd = Ok (blades (ncs adim n))
    /\ Forall is_gcse n.
Proof.
  intros H Ho Hd. unfold normal, normal_mv. rewrite Hd. cbn [bind]. destruct H as [[-> ->]|[-> ->]].
  - rewrite (@pse2_ok o (LDesc dsc) dsc Ho eq_refl), (@area2_ok o (LDesc dsc) dsc Ho eq_refl). cbn [bind].
    set (A := cse "area_element" _). clearbody A. rewrite pse2_val, nvec2.
    eexists; split; [reflexivity|]. split; [reflexivity|]. split; [reflexivity|]. repeat constructor.
  - rewrite (@pse3_ok o (LDesc dsc) dsc Ho eq_refl), (@area3_ok o (LDesc dsc) dsc Ho eq_refl). cbn [bind].
    set (A := cse "area_element" _). clearbody A. rewrite pse3_val. cbv zeta. rewrite nvec3.
    eexists; split; [reflexivity|]. split; [reflexivity|]. split; [reflexivity|]. repeat constructor.
Qed.
Lemma ncs_geo adim n : Forall (fun t => isgeo (fst t)) (ncs adim n).
Proof. unfold ncs. rewrite Forall_map. apply Forall_forall. intros; exact I. Qed.
Lemma ncs_atom adim n : Forall (fun t => atom (fst t)) (ncs adim n).
Proof. eapply Forall_impl; [|apply ncs_geo]. intros t. apply isgeo_atom. Qed.
Lemma ncs_lt adim n : Forall (fun t => snd t < adim) (ncs adim n).
Proof. unfold ncs. rewrite Forall_map. apply Forall_forall. intros j H. apply in_rev, in_seq in H. cbn. lia. Qed.
Lemma nzc_geo cs : Forall (fun t => isgeo (fst t)) cs -> nzc cs = cs.
Proof.
  intros H. unfold nzc. induction H as [|[c j] cs Hc H IH]; [reflexivity|]. cbn [filter fst] in *.
  destruct c; try contradiction. cbn [nonzero is_num negb]. f_equal. exact IH.
Qed.
Lemma ncs_nonempty adim n : 0 < adim -> nzc (ncs adim n) <> [].
Proof.
  intros H. rewrite nzc_geo by apply ncs_geo. unfold ncs. destruct adim as [|a]; [lia|]. rewrite seq_S, rev_app_distr. discriminate.
Qed.

Section V.
Variable C : calculus.
Notation R := (dr_car (cr C)).
Notation r0 := (dr_0 (cr C)).
Notation r1 := (dr_1 (cr C)).
Notation "x +! y" := (dr_add (cr C) x y) (at level 50, left associativity).
Notation "x *! y" := (dr_mul (cr C) x y) (at level 40, left associativity).
Notation d := (dr_d (cr C)).
Add Ring Rr6 : (dr_ring (cr C)).

Lemma rsum_perm l l' : Permutation l l' -> rsum C l = rsum C l'.
Proof.
  induction 1; [reflexivity| | |congruence].
  - rewrite !rsum_cons, IHPermutation. reflexivity.
  - rewrite !rsum_cons. ring.
Qed.
Lemma rsum_rev (A : Type) (f : A -> R) l : rsum C (map f (rev l)) = rsum C (map f l).
Proof. apply rsum_perm. apply Permutation_map. apply Permutation_sym, Permutation_rev. Qed.
Lemma ncs_sum adim n (f : nat -> R) nu :
  rsum C (map (fun t => val C nu (fst t) *! f (snd t)) (ncs adim n))
  = sum_axes C adim (fun i => c_geo C (nth i n (gz 0)) *! f i).
Proof. unfold ncs. rewrite map_map. cbn [fst snd val]. rewrite rsum_rev. reflexivity. Qed.

Lemma normal_derivative_val id adim dim o dd dsc n e r nu :
  hypersurface adim dim -> dim_is adim o dim -> as_dofdesc dd = Ok dsc -> normal adim o dd = Ok n -> pure e ->
  normal_derivative id adim e o dd = Ok r ->
  pure r /\ val C nu r = sum_axes C adim (fun i => c_geo C (nth i n (gz 0)) *! d i (val C nu e)).
Proof.
  intros H Ho Hd Hn Pe Hr. destruct (@normal_explicit adim dim o dd dsc H Ho Hd) as (n' & En & _ & Em & _).
  rewrite Hn in En. injection En as <-. unfold normal_derivative in Hr. rewrite Em in Hr. cbn [bind] in Hr.
  rewrite mscal_dirn in Hr by apply ncs_lt.
  destruct (@deriv_val C id _ e r nu (ncs_atom adim n) Pe Hr) as [P V]. split; [exact P|].
  rewrite V. apply (@ncs_sum adim n (fun i => d i (val C nu e)) nu).
Qed.
Lemma normal_derivative_ok id adim dim o dd dsc e :
  hypersurface adim dim -> dim_is adim o dim -> as_dofdesc dd = Ok dsc -> pure e -> takable e ->
  exists r, normal_derivative id adim e o dd = Ok r.
Proof.
  intros H Ho Hd Pe Ht. destruct (@normal_explicit adim dim o dd dsc H Ho Hd) as (n' & En & _ & Em & _).
  unfold normal_derivative. rewrite Em. cbn [bind]. rewrite mscal_dirn by apply ncs_lt.
  apply (@deriv_ok C); [apply ncs_atom|exact Pe|exact Ht].
Qed.

(** Second normal derivatives: [n . (nn (x) g)]. *)
Lemma second_items id adim nn (h : nat -> ex) : (forall z, nn <> EQ z) -> is_num 0 nn = false -> is_num 1 nn = false ->
  mgeo adim (mscalar nn) (map (fun i => (2 ^ i, EDsrc id (h i))) (seq 0 adim))
  = map (fun i => (2 ^ i, EProd (factors nn ++ [EDsrc id (h i)]))) (seq 0 adim).
Proof.
  intros H1 H2 H3. unfold mgeo. rewrite mprod_items.
  assert (E : items (fun _ _ => true) adim (mscalar nn) (map (fun i => (2 ^ i, EDsrc id (h i))) (seq 0 adim))
              = map (fun i => (2 ^ i, EProd (factors nn ++ [EDsrc id (h i)]))) (seq 0 adim)).
  { unfold items, mscalar. cbn [flat_map fst snd]. rewrite app_nil_r.
    generalize (seq 0 adim). induction l as [|a l IH]; [reflexivity|].
    cbn [map filter]. f_equal; [|exact IH].
    unfold item. cbn [fst snd]. rewrite Nat.lxor_0_l, rsign_0l, emul_1l.
    rewrite emul_split by (try assumption; discriminate). reflexivity. }
  rewrite E. apply fold_madd_distinct.
  - rewrite map_map. apply FinFun.Injective_map_NoDup; [|apply seq_NoDup]. intros a b H. apply pow_inj. exact H.
  - rewrite Forall_map. apply Forall_forall. intros i _. reflexivity.
Qed.
Lemma second_get adim cs (p : nat -> list ex) :
  Forall (fun t => snd t < adim) cs -> Forall (fun t => isgeo (fst t)) cs ->
  mget (mscal adim (blades cs) (map (fun i => (2 ^ i, EProd (p i))) (seq 0 adim))) 0
  = fsum (map (fun t => EProd (fst t :: p (snd t))) cs).
Proof.
  intros H Hg. unfold mscal. rewrite mprod_get. f_equal.
  induction H as [|[c j] cs Hj H IH]; [reflexivity|]. cbn [blades map flat_map fst snd].
  pose proof (Forall_inv Hg) as Hc. cbn [fst] in Hc. cbn [snd] in Hj.
  unfold contrib at 1. cbn [fst snd].
  assert (F : forall m, filter (fun yb : nat * ex => Nat.eqb (2 ^ j) (fst yb) && Nat.eqb (Nat.lxor (2 ^ j) (fst yb)) 0)
     (map (fun i => (2 ^ i, EProd (p i))) m) = map (fun i => (2 ^ i, EProd (p i))) (filter (Nat.eqb j) m)).
  { induction m as [|k m IHm]; [reflexivity|]. cbn [map filter fst]. rewrite lxor_eqb, pow_eqb, andb_diag.
    destruct (j =? k); cbn [map]; rewrite IHm; reflexivity. }
  rewrite F, filter_seq_one by lia. cbn [map app fst snd]. rewrite rsign_same, emul_1l by exact Hj. f_equal.
  - destruct c; try contradiction. reflexivity.
  - apply IH. exact (Forall_inv_tail Hg).
Qed.
Lemma second_unfold id adim dim o dd dsc n e h :
  hypersurface adim dim -> dim_is adim o dim -> as_dofdesc dd = Ok dsc -> normal adim o dd = Ok n ->
  mmapM resolve (mgeo adim (dnabla (Some id) adim) (mscalar (EDsrc id e))) = Ok (map (fun i => (2 ^ i, h i)) (seq 0 adim)) ->
  normal_second_derivative id adim e o dd
  = resolve (fsum (map (fun t => EProd (fst t :: factors (dirn id (ncs adim n)) ++ [EDsrc id (h (snd t))])) (ncs adim n))).
Proof.
  intros H Ho Hd Hn Eg. destruct (@normal_explicit adim dim o dd dsc H Ho Hd) as (n' & En & _ & Em & _).
  rewrite Hn in En. injection En as <-. unfold normal_second_derivative. rewrite Em. cbn [bind]. rewrite Eg. cbn [bind].
  rewrite mscal_dirn by apply ncs_lt. rewrite mmap_pairs.
  assert (Ha : 0 < adim) by (destruct H as [[-> _]|[-> _]]; lia).
  destruct (factors_dirn id (ncs_atom adim n) (ncs_nonempty n Ha)) as (F1 & F2 & F3 & _).
  rewrite second_items by assumption.
  rewrite (@second_get adim _ (fun i => factors (dirn id (ncs adim n)) ++ [EDsrc id (h i)])); [reflexivity|apply ncs_lt|apply ncs_geo].
Qed.
Lemma normal_second_val id adim dim o dd dsc n e r nu :
  hypersurface adim dim -> dim_is adim o dim -> as_dofdesc dd = Ok dsc -> normal adim o dd = Ok n -> pure e ->
  normal_second_derivative id adim e o dd = Ok r ->
  pure r /\ val C nu r = sum_axes C adim (fun i => c_geo C (nth i n (gz 0)) *!
              sum_axes C adim (fun j => c_geo C (nth j n (gz 0)) *! d j (d i (val C nu e)))).
Proof.
  intros H Ho Hd Hn Pe Hr.
  assert (Hg : exists g, mmapM resolve (mgeo adim (dnabla (Some id) adim) (mscalar (EDsrc id e))) = Ok g).
  { unfold normal_second_derivative in Hr. destruct (normal_mv adim o dd); cbn [bind] in Hr; [|discriminate].
    destruct (mmapM resolve (mgeo adim (dnabla (Some id) adim) (mscalar (EDsrc id e)))) as [g|]; [|discriminate].
    exists g. reflexivity. }
  destruct Hg as [g Eg]. destruct (@grad_mv_list _ _ _ _ Eg) as (h & -> & Hh).
  rewrite (@second_unfold id adim dim o dd dsc n e h H Ho Hd Hn Eg) in Hr.
  assert (Ha : 0 < adim) by (destruct H as [[-> _]|[-> _]]; lia).
  destruct (@family C (ex * nat) (fun t => EProd (fst t :: factors (dirn id (ncs adim n)) ++ [EDsrc id (h (snd t))]))
    (fun t => val C nu (fst t) *! sum_axes C adim (fun j => c_geo C (nth j n (gz 0)) *! d j (d (snd t) (val C nu e))))
    (ncs adim n) r nu) as [P V].
  - rewrite Forall_map. apply Forall_forall. intros; exact I.
  - intros t r' Ht Hr'.
    assert (Hj : snd t < adim) by (pose proof (ncs_lt adim n) as X; rewrite Forall_forall in X; apply X; exact Ht).
    assert (Hat : atom (fst t)) by (pose proof (ncs_atom adim n) as X; rewrite Forall_forall in X; apply (X t Ht)).
    destruct (@nabprod_val C id e (snd t) (h (snd t)) nu Pe (Hh _ Hj)) as [Ph Vh].
    destruct (@dirder C id [fst t] [] (ncs adim n) (h (snd t)) r' nu) as [P V].
    + constructor; [exact Hat|constructor].
    + constructor.
    + apply ncs_atom.
    + apply ncs_nonempty. exact Ha.
    + exact Ph.
    + cbn [app]. exact Hr'.
    + split; [exact P|]. rewrite V, Vh. cbn [map]. rewrite rprod_cons, !rprod_nil.
      rewrite (@ncs_sum adim n (fun j => d j (d (snd t) (val C nu e))) nu). ring.
  - exact Hr.
  - split; [exact P|]. rewrite V.
    apply (@ncs_sum adim n (fun i => sum_axes C adim (fun j => c_geo C (nth j n (gz 0)) *! d j (d i (val C nu e)))) nu).
Qed.
Lemma normal_second_ok id adim dim o dd dsc tk sks dens lim src tgt args :
  hypersurface adim dim -> dim_is adim o dim -> as_dofdesc dd = Ok dsc -> pure (EPot tk sks dens lim src tgt args) ->
  exists r, normal_second_derivative id adim (EPot tk sks dens lim src tgt args) o dd = Ok r.
Proof.
  intros H Ho Hd P. destruct (@normal_explicit adim dim o dd dsc H Ho Hd) as (n & En & _ & Em & _).
  destruct (@grad_mv_pot C id adim tk sks dens lim src tgt args P) as (h & Eg & Hh).
  rewrite (@second_unfold id adim dim o dd dsc n _ h H Ho Hd En Eg).
  assert (Ha : 0 < adim) by (destruct H as [[-> _]|[-> _]]; lia).
  apply family_ok.
  - rewrite Forall_map. apply Forall_forall. intros; exact I.
  - intros t Ht.
    assert (Hj : snd t < adim) by (pose proof (ncs_lt adim n) as X; rewrite Forall_forall in X; apply X; exact Ht).
    assert (Hat : atom (fst t)) by (pose proof (ncs_atom adim n) as X; rewrite Forall_forall in X; apply (X t Ht)).
    destruct (Hh _ Hj) as [Ph Th].
    apply (@dirder_ok C id [fst t] [] (ncs adim n) (h (snd t))).
    + constructor; [exact Hat|constructor].
    + constructor.
    + apply ncs_atom.
    + apply ncs_nonempty. exact Ha.
    + exact Ph.
    + exact Th.
Qed.

(** ** Tangential derivatives on curves *)
Lemma fold_max_1 l : Forall (fun x => x = 1) l -> l <> [] -> fold_left Nat.max l 0 = 1.
Proof.
  intros H Hn. destruct l as [|x l]; [contradiction|]. pose proof (Forall_inv H) as Hx. cbn beta in Hx. subst x.
  cbn [fold_left Nat.max]. apply Forall_inv_tail in H. clear Hn. induction H as [|y l Hy H IH]; [reflexivity|]. subst.
  cbn [fold_left Nat.max]. exact IH.
Qed.
Lemma maxgrade_vec adim v : length v = adim -> mv_maxgrade adim (mv_vec v) = mv_vec v.
Proof.
  intros H. unfold mv_maxgrade.
  assert (G : Forall (fun t => grade adim (fst t) = 1) (mv_vec v)).
  { apply Forall_forall. intros [b c] Hb. unfold mv_vec in Hb. apply in_combine_l in Hb. apply in_map_iff in Hb.
    destruct Hb as (i & <- & Hi). apply in_seq in Hi. apply grade_pow. lia. }
  destruct (mv_vec v) as [|t l] eqn:E; [reflexivity|].
  rewrite fold_max_1.
  - rewrite (filter_ext_in' _ (fun _ => true)).
    + clear. induction (t :: l) as [|x m IH]; [reflexivity|]. cbn [filter]. rewrite IH. reflexivity.
    + intros a Ha. rewrite Forall_forall in G. rewrite (G a Ha). reflexivity.
  - rewrite Forall_map. exact G.
  - discriminate.
Qed.
Lemma mv_vec_map (v : list ge) : mv_vec v = map (fun i => (2 ^ i, nth i v (gz 0))) (seq 0 (length v)).
Proof.
  unfold mv_vec.
  assert (E : v = map (fun i => nth i v (gz 0)) (seq 0 (length v))).
  { apply nth_ext with (gz 0) (gz 0); [rewrite map_length, seq_length; reflexivity|].
    intros k Hk. set (f := fun i => nth i v (gz 0)).
    rewrite (nth_indep (map f _) (gz 0) (f 0)) by (rewrite map_length, seq_length; exact Hk).
    rewrite (map_nth f), seq_nth by exact Hk. reflexivity. }
  rewrite E at 2. apply combine_map.
Qed.
Lemma mapM_length (A B : Type) (f : A -> result B) l l' : mapM f l = Ok l' -> length l' = length l.
Proof. intros H. apply mapM_Ok in H. induction H; cbn [length]; congruence. Qed.
(** The unit tangent of a curve, by components. *)
Lemma tangent_explicit adim dd p a t :
  pseudoscalar adim (Some 1) dd = Ok p -> mv_as_vector adim (mv_div p a) = Ok t ->
  mv_div p a = map (fun i => (2 ^ i, nth i t (gz 0))) (seq 0 adim) /\ length t = adim
  /\ (forall i, i < adim -> exists x, nth i t (gz 0) = GDiv x a).
Proof.
  intros Hp Ht. unfold pseudoscalar, parametrization_derivative in Hp. cbn [odim] in Hp.
  destruct (parametrization_derivative_matrix adim 1 dd) as [m|] eqn:Em; cbn [bind] in Hp; [|discriminate].
  cbn [seq map fold_left bind] in Hp. injection Hp as Ep.
  assert (Hl : length (gcol m 0) = adim).
  { unfold parametrization_derivative_matrix in Em. destruct (as_dofdesc dd) as [dsc|]; cbn [bind] in Em; [|discriminate].
    destruct (reference_jacobian (map (fun i => GCoord i dsc) (seq 0 adim)) adim 1 (LDesc dsc)) as [j|] eqn:Ej; cbn [bind] in Em; [|discriminate].
    injection Em as <-. unfold gcol, cse_m. rewrite !map_length.
    unfold reference_jacobian in Ej. cbn [as_dofdesc bind] in Ej. apply mapM_length in Ej. rewrite seq_length in Ej. exact Ej. }
  set (v := map (cse "pseudoscalar") (gcol m 0)).
  assert (Hv : length v = adim) by (unfold v; rewrite map_length; exact Hl).
  assert (Ed : mv_div p a = map (fun i => (2 ^ i, GDiv (nth i v (gz 0)) a)) (seq 0 adim)).
  { rewrite <- Ep, maxgrade_vec by exact Hl. unfold cse_mv, mv_div. rewrite mv_vec_map, !map_map, Hl.
    apply map_ext_in. intros i Hi. apply in_seq in Hi. cbn [fst snd]. f_equal. f_equal. unfold v.
    rewrite (nth_indep (map (cse "pseudoscalar") _) (gz 0) (cse "pseudoscalar" (gz 0))) by (rewrite map_length; lia).
    rewrite map_nth. reflexivity. }
  unfold mv_as_vector in Ht. destruct (forallb _ (mv_div p a)); [|discriminate]. injection Ht as Ht.
  assert (Et : forall i, i < adim -> nth i t (gz 0) = GDiv (nth i v (gz 0)) a).
  { intros i Hi. rewrite <- Ht.
    set (f := fun i => match find (fun t => Nat.eqb (fst t) (2 ^ i)) (mv_div p a) with Some t => snd t | None => gz 0 end).
    rewrite (nth_indep (map f _) (gz 0) (f 0)) by (rewrite map_length, seq_length; exact Hi).
    rewrite (map_nth f), seq_nth by exact Hi. unfold f. cbn [Nat.add]. rewrite Ed.
    assert (G : forall l, In i l -> find (fun t : nat * ge => Nat.eqb (fst t) (2 ^ i)) (map (fun i => (2 ^ i, GDiv (nth i v (gz 0)) a)) l)
             = Some (2 ^ i, GDiv (nth i v (gz 0)) a)).
    { induction l as [|k l IH]; intros Hk; [contradiction|]. cbn [map find fst]. rewrite pow_eqb.
      destruct (Nat.eqb_spec k i); [subst; reflexivity|]. destruct Hk; [contradiction|]. apply IH. assumption. }
    rewrite G by (apply in_seq; lia). reflexivity. }
  split; [|split].
  - rewrite Ed. apply map_ext_in. intros i Hi. apply in_seq in Hi. rewrite Et by lia. reflexivity.
  - rewrite <- Ht, map_length, seq_length. reflexivity.
  - intros i Hi. exists (nth i v (gz 0)). apply Et. exact Hi.
Qed.
Lemma tangential_items id adim e (t : list ge) a : (forall i, i < adim -> exists x, nth i t (gz 0) = GDiv x a) ->
  items (fun a b => Nat.eqb (Nat.land a b) b) adim (map (fun i => (2 ^ i, nabprod id e i)) (seq 0 adim))
    (lift_mv (map (fun i => (2 ^ i, nth i t (gz 0))) (seq 0 adim)))
  = map (fun i => (0, EProd [ENab (Some id) i; EDsrc id e; EGeo (nth i t (gz 0))])) (seq 0 adim).
Proof.
  intros Hd. unfold items, lift_mv. rewrite map_map. cbn [fst snd].
  assert (G : forall l, (forall i, In i l -> i < adim) -> flat_map (fun xb : nat * ex => map (item adim xb)
     (filter (fun yb : nat * ex => Nat.eqb (Nat.land (fst xb) (fst yb)) (fst yb)) (map (fun x => (2 ^ x, lift (nth x t (gz 0)))) (seq 0 adim))))
     (map (fun i => (2 ^ i, nabprod id e i)) l) = map (fun i => (0, EProd [ENab (Some id) i; EDsrc id e; EGeo (nth i t (gz 0))])) l).
  { induction l as [|i l IH]; intros Hl; [reflexivity|]. cbn [map flat_map].
    rewrite IH by (intros j Hj; apply Hl; right; exact Hj).
    assert (Hi : i < adim) by (apply Hl; left; reflexivity). cbn [fst].
    assert (F : forall m, filter (fun yb : nat * ex => Nat.eqb (Nat.land (2 ^ i) (fst yb)) (fst yb)) (map (fun x => (2 ^ x, lift (nth x t (gz 0)))) m)
       = map (fun x => (2 ^ x, lift (nth x t (gz 0)))) (filter (Nat.eqb i) m)).
    { induction m as [|j m IHm]; [reflexivity|]. cbn [map filter fst]. rewrite land_pow.
      destruct (Nat.eqb_spec i j).
      - subst. rewrite Nat.eqb_refl. cbn [map]. rewrite IHm. reflexivity.
      - destruct (Nat.eqb_spec 0 (2 ^ j)) as [X|X]; [exfalso; symmetry in X; exact (pow_nz _ X)|]. exact IHm. }
    rewrite F, filter_seq_one by lia. cbn [map app]. f_equal.
    unfold item. cbn [fst snd]. rewrite Nat.lxor_nilpotent, rsign_same, emul_1l by exact Hi.
    destruct (Hd i Hi) as [x ->]. reflexivity. }
  apply G. intros i Hi. apply in_seq in Hi. lia.
Qed.
Lemma fold_scalar_get its acc : Forall (fun t : nat * ex => fst t = 0) its ->
  mget (fold_left (fun acc t => madd1 acc (fst t) (snd t)) its acc) 0 = fold_left eadd (map snd its) (mget acc 0).
Proof.
  revert acc. induction its as [|[b c] its IH]; intros acc H; [reflexivity|]. cbn [fold_left map fst snd].
  pose proof (Forall_inv H) as Hb. cbn [fst] in Hb. subst b. rewrite IH by exact (Forall_inv_tail H).
  rewrite mget_madd1. reflexivity.
Qed.
Lemma tangential_unfold id adim e dd p a t :
  pseudoscalar adim (Some 1) dd = Ok p -> area_element adim (Some 1) dd = Ok a -> mv_as_vector adim (mv_div p a) = Ok t ->
  exists m, (m = [] \/ exists c, m = [(0, c)])
    /\ mget m 0 = fsum (map (fun i => EProd [ENab (Some id) i; EDsrc id e; EGeo (nth i t (gz 0))]) (seq 0 adim))
    /\ tangential_derivative id adim e (Some 1) dd = mmapM resolve m.
Proof.
  intros Hp Ha Ht. destruct (@tangent_explicit adim dd p a t Hp Ht) as (E & L & G).
  unfold tangential_derivative. rewrite Hp, Ha. cbn [bind]. rewrite grad_items, E. unfold mrc. rewrite mprod_items.
  rewrite (@tangential_items id adim e t a G). eexists. split; [|split; [|reflexivity]].
  - apply fold_madd_scalar. rewrite Forall_map. apply Forall_forall. reflexivity.
  - rewrite fold_scalar_get; [|rewrite Forall_map; apply Forall_forall; reflexivity].
    cbn [mget]. rewrite map_map. reflexivity.
Qed.
Lemma scalar_mget (m m' : emv) : (m = [] \/ exists c, m = [(0, c)]) -> mmapM resolve m = Ok m' ->
  resolve (mget m 0) = Ok (mget m' 0) /\ forall b, b <> 0 -> mget m' b = EQ 0.
Proof.
  intros [->|[c ->]] H; unfold mmapM in H; cbn [mapM fst snd] in H.
  - injection H as <-. split; [reflexivity|]. reflexivity.
  - destruct (resolve c) as [r|] eqn:E; cbn [bind] in H; [|discriminate]. injection H as <-. split; [exact E|].
    intros b Hb. cbn [mget]. destruct (Nat.eqb_spec 0 b); [subst; contradiction|reflexivity].
Qed.
Lemma tangential_val id adim e dd p a t m nu : pure e ->
  pseudoscalar adim (Some 1) dd = Ok p -> area_element adim (Some 1) dd = Ok a -> mv_as_vector adim (mv_div p a) = Ok t ->
  tangential_derivative id adim e (Some 1) dd = Ok m ->
  pure (mget m 0) /\ val C nu (mget m 0) = sum_axes C adim (fun i => c_geo C (nth i t (gz 0)) *! d i (val C nu e))
  /\ forall b, b <> 0 -> mget m b = EQ 0.
Proof.
  intros Pe Hp Ha Ht Hm. destruct (@tangential_unfold id adim e dd p a t Hp Ha Ht) as (m0 & S0 & G0 & U).
  rewrite U in Hm. destruct (scalar_mget S0 Hm) as [Hr Hz]. rewrite G0 in Hr.
  destruct (@family C nat (fun i => EProd [ENab (Some id) i; EDsrc id e; EGeo (nth i t (gz 0))])
     (fun i => c_geo C (nth i t (gz 0)) *! d i (val C nu e)) (seq 0 adim) (mget m 0) nu) as [P V].
  - rewrite Forall_map. apply Forall_forall. intros; exact I.
  - intros i r' Hi Hr'.
    destruct (@dirder C id [] [EGeo (nth i t (gz 0))] [(EQ 1, i)] e r' nu) as [P V].
    + constructor.
    + constructor; [exact I|constructor].
    + constructor; [exact I|constructor].
    + discriminate.
    + exact Pe.
    + exact Hr'.
    + split; [exact P|]. rewrite V. cbn [map fst snd val]. rewrite rprod_cons, !rprod_nil, rsum_cons, rsum_nil, int_1. ring.
  - exact Hr.
  - split; [exact P|]. split; [exact V|exact Hz].
Qed.
Lemma tangential_ok id adim e dd p a t : pure e -> takable e ->
  pseudoscalar adim (Some 1) dd = Ok p -> area_element adim (Some 1) dd = Ok a -> mv_as_vector adim (mv_div p a) = Ok t ->
  exists m, tangential_derivative id adim e (Some 1) dd = Ok m.
Proof.
  intros Pe Te Hp Ha Ht. destruct (@tangential_unfold id adim e dd p a t Hp Ha Ht) as (m0 & S0 & G0 & U).
  rewrite U.
  assert (X : exists r, resolve (mget m0 0) = Ok r).
  { rewrite G0. apply family_ok.
    - rewrite Forall_map. apply Forall_forall. intros; exact I.
    - intros i Hi. apply (@dirder_ok C id [] [EGeo (nth i t (gz 0))] [(EQ 1, i)] e).
      + constructor.
      + constructor; [exact I|constructor].
      + constructor; [exact I|constructor].
      + discriminate.
      + exact Pe.
      + exact Te. }
  destruct X as [r Er]. destruct S0 as [->|[c ->]]; [eexists; reflexivity|].
  unfold mmapM. cbn [mapM fst snd]. cbn [mget Nat.eqb] in Er. rewrite Er. eexists. reflexivity.
Qed.
End V.
