(** Lemmas for LpProps.v, part 3: directional derivatives and vector calculus. *)
From Coq Require Import Setoid Ring InitialRing.
From Verif Require Import Base DofModel GeoModel CtorModel SymSpec LpModel LpSpec LpProofs LpProofs2.
Set Implicit Arguments.

Definition atom (c : ex) : Prop := match c with EQ _ | EGeo _ => True | _ => False end.
Definition good (t : ex) : Prop := match t with EQ _ | ESum _ => False | _ => True end.
Definition shape_of (l : list ex) : ex :=
  match l with [] => EQ 0 | [t] => t | _ => ESum l end.
Definition nonzero (e : ex) : bool := negb (is_num 0 e).

Lemma good_nonzero t : good t -> nonzero t = true.
Proof. destruct t; cbn; intros H; try reflexivity; contradiction. Qed.
Lemma eadd_shape al t : Forall good al -> good t -> eadd (shape_of al) t = shape_of (al ++ [t]).
Proof.
  intros Ha Ht. destruct al as [|x [|y al]].
  - cbn [shape_of app]. unfold eadd. destruct t; cbn in Ht |- *; try contradiction; reflexivity.
  - cbn [shape_of app]. pose proof (Forall_inv Ha) as Hx. cbn beta in Hx.
    unfold eadd. destruct x; cbn in Hx; try contradiction; destruct t; cbn in Ht |- *; try contradiction; reflexivity.
  - cbn [shape_of app]. unfold eadd. destruct t; cbn in Ht |- *; try contradiction; reflexivity.
Qed.
Lemma eadd_0r a : eadd a (EQ 0) = a.
Proof.
  unfold eadd. destruct a; cbn; try reflexivity. f_equal. lia.
Qed.
Lemma fsum_shape l : Forall (fun t => t = EQ 0 \/ good t) l -> fsum l = shape_of (filter nonzero l).
Proof.
  assert (G : forall al, Forall good al -> Forall (fun t => t = EQ 0 \/ good t) l ->
             fold_left eadd l (shape_of al) = shape_of (al ++ filter nonzero l)).
  { induction l as [|t l IH]; intros al Ha Hl; cbn [fold_left filter]; [rewrite app_nil_r; reflexivity|].
    destruct (Forall_inv Hl) as [->|Ht].
    - rewrite eadd_0r. cbn [nonzero is_num negb Z.eqb]. apply IH; [exact Ha|exact (Forall_inv_tail Hl)].
    - rewrite eadd_shape by assumption. rewrite (good_nonzero t Ht).
      rewrite IH; [rewrite <- app_assoc; reflexivity| |exact (Forall_inv_tail Hl)].
      apply Forall_app. split; [exact Ha|]. constructor; [exact Ht|constructor]. }
  intros H. exact (G [] (Forall_nil _) H).
Qed.

Section Id.
Variable id : nat.
Definition T (t : ex * nat) : ex := emul (fst t) (ENab (Some id) (snd t)).
Definition dirn (cs : list (ex * nat)) : ex := fsum (map T cs).
Definition nzc (cs : list (ex * nat)) := filter (fun t => nonzero (fst t)) cs.

Lemma T_cases c j : atom c ->
  (c = EQ 0 /\ T (c, j) = EQ 0) \/ (c = EQ 1 /\ T (c, j) = ENab (Some id) j)
  \/ (nonzero c = true /\ T (c, j) = EProd [c; ENab (Some id) j]).
Proof.
  intros Ha. unfold T. cbn [fst snd]. destruct c; cbn in Ha; try contradiction.
  - unfold emul. cbn [is_num orb]. destruct (Z.eqb_spec z 0); [subst; left; split; reflexivity|].
    destruct (Z.eqb_spec z 1); [subst; right; left; split; reflexivity|].
    right. right. split; [|reflexivity]. unfold nonzero. cbn [is_num]. destruct (Z.eqb_spec z 0); [contradiction|reflexivity].
  - right. right. split; reflexivity.
Qed.
Lemma T_good c j : atom c -> T (c, j) = EQ 0 \/ good (T (c, j)).
Proof. intros H. destruct (T_cases c j H) as [[_ E]|[[_ E]|[_ E]]]; rewrite E; [left|right|right]; cbn; auto. Qed.
Lemma T_nonzero c j : atom c -> nonzero (T (c, j)) = nonzero c.
Proof.
  intros H. destruct (T_cases c j H) as [[Ec E]|[[Ec E]|[Ec E]]]; rewrite E, Ec; reflexivity.
Qed.
Lemma filter_T cs : Forall (fun t => atom (fst t)) cs -> filter nonzero (map T cs) = map T (nzc cs).
Proof.
  induction 1 as [|[c j] cs Hc H IH]; [reflexivity|]. cbn [map filter nzc fst].
  rewrite T_nonzero by exact Hc. destruct (nonzero c); cbn [map]; rewrite IH; reflexivity.
Qed.
Lemma dirn_shape cs : Forall (fun t => atom (fst t)) cs -> dirn cs = shape_of (map T (nzc cs)).
Proof.
  intros H. unfold dirn. rewrite fsum_shape.
  - rewrite filter_T by exact H. reflexivity.
  - rewrite Forall_map. eapply Forall_impl; [|exact H]. intros [c j] Hc. apply T_good. exact Hc.
Qed.
Lemma resolve_atom c : atom c -> resolve c = Ok c.
Proof. destruct c; cbn; intros; try contradiction; reflexivity. Qed.
Lemma atom_nf c : atom c -> nf id c.
Proof. destruct c; cbn; intros; try contradiction; exact I. Qed.
Lemma atom_pure c : atom c -> pure c.
Proof. destruct c; cbn; intros; try contradiction; exact I. Qed.
Lemma atom_nabs c : atom c -> nabs c = [].
Proof. destruct c; cbn; intros; try contradiction; reflexivity. Qed.
Lemma emul_1l c : emul (EQ 1) c = c.
Proof.
  unfold emul. destruct c as [z| | | | | | | | | | ]; try reflexivity. change (1 * z)%Z with (match z with 0%Z => 0%Z | Z.pos p => Z.pos p | Z.neg p => Z.neg p end). destruct z; reflexivity.
Qed.

Lemma good_fsum1 t : good t -> fsum [t] = t.
Proof.
  intros H. rewrite fsum_shape by (constructor; [right; exact H|constructor]).
  cbn [filter]. rewrite (good_nonzero t H). reflexivity.
Qed.
Lemma resolve_T c j : atom c -> nonzero c = true -> resolve (T (c, j)) = Ok (T (c, j)).
Proof.
  intros Ha Hn. destruct (T_cases c j Ha) as [[Ec E]|[[Ec E]|[Ec E]]]; rewrite E.
  - subst c. discriminate.
  - reflexivity.
  - cbn [resolve mapM]. rewrite (resolve_atom c Ha). cbn [bind resolve].
    rewrite bind_prod_none.
    + unfold fprod. cbn [fold_left]. rewrite emul_1l.
      change (emul c (ENab (Some id) j)) with (T (c, j)). rewrite E. rewrite good_fsum1 by exact I. reflexivity.
    + constructor; [destruct c; cbn in Ha; try contradiction; reflexivity|].
      constructor; [reflexivity|constructor].
Qed.
Lemma nf_T c j : atom c -> nonzero c = true -> nf id (T (c, j)).
Proof.
  intros Ha Hn. destruct (T_cases c j Ha) as [[Ec E]|[[Ec E]|[Ec E]]]; rewrite E.
  - exact I.
  - reflexivity.
  - apply nf_prod. constructor; [apply atom_nf; exact Ha|]. constructor; [reflexivity|constructor].
Qed.
Lemma nabs_T c j : atom c -> nonzero c = true -> nabs (T (c, j)) = [(Some id, j)].
Proof.
  intros Ha Hn. destruct (T_cases c j Ha) as [[Ec E]|[[Ec E]|[Ec E]]]; rewrite E.
  - subst c. discriminate.
  - reflexivity.
  - cbn [nabs flat_map]. rewrite (atom_nabs c Ha). reflexivity.
Qed.
Lemma nzc_ok cs : Forall (fun t => atom (fst t)) cs ->
  Forall (fun t => atom (fst t) /\ nonzero (fst t) = true) (nzc cs).
Proof.
  intros H. rewrite Forall_forall in *. unfold nzc. intros t Ht. apply filter_In in Ht. destruct Ht. auto.
Qed.

Lemma factors_dirn cs : Forall (fun t => atom (fst t)) cs -> nzc cs <> [] ->
  is_num 0 (dirn cs) = false /\ is_num 1 (dirn cs) = false
  /\ (forall z, dirn cs <> EQ z)
  /\ Forall (nf id) (factors (dirn cs)) /\ mapM resolve (factors (dirn cs)) = Ok (factors (dirn cs))
  /\ flat_map nabs (factors (dirn cs)) = map (fun t => (Some id, snd t)) (nzc cs).
Proof.
  intros Ha Hn. rewrite dirn_shape by exact Ha. pose proof (nzc_ok Ha) as Hz.
  destruct (nzc cs) as [|[c j] [|t2 r]]; [contradiction| |].
  - cbn [map shape_of]. destruct (Forall_inv Hz) as [Hc Hcn]. cbn [fst] in Hc, Hcn.
    destruct (T_cases c j Hc) as [[Ec E]|[[Ec E]|[Ec E]]].
    + subst c. discriminate.
    + rewrite E. repeat split; try discriminate. constructor; [reflexivity|constructor].
    + rewrite E. repeat split; try discriminate.
      * cbn [factors]. constructor; [apply atom_nf; exact Hc|]. constructor; [reflexivity|constructor].
      * cbn [factors mapM]. rewrite (resolve_atom c Hc). reflexivity.
      * cbn [factors flat_map nabs]. rewrite (atom_nabs c Hc). reflexivity.
  - set (L := (c, j) :: t2 :: r) in *. 
    assert (Es : shape_of (map T L) = ESum (map T L)) by reflexivity. rewrite Es.
    repeat split; try discriminate.
    + cbn [factors]. constructor; [|constructor]. apply nf_sum. rewrite Forall_map.
      eapply Forall_impl; [|exact Hz]. intros [c' j'] [H1 H2]. apply nf_T; assumption.
    + cbn [factors mapM resolve].
      assert (E1 : mapM resolve (map T L) = Ok (map T L)).
      { apply mapM_res. clearbody L. clear Es Hn. induction Hz as [|[c' j'] l [H1 H2] Hz IH]; cbn [map]; constructor; [|exact IH].
        apply resolve_T; assumption. }
      rewrite E1. cbn [bind].
      assert (E2 : fsum (map T L) = shape_of (map T L)).
      { rewrite fsum_shape.
        - rewrite filter_T; [|eapply Forall_impl; [|exact Hz]; intros t [H1 _]; exact H1].
          f_equal. f_equal. unfold nzc. clearbody L. clear -Hz.
          induction Hz as [|t l [H1 H2] Hz IH]; cbn [filter]; [reflexivity|]. rewrite H2, IH. reflexivity.
        - rewrite Forall_map. eapply Forall_impl; [|exact Hz]. intros [c' j'] [H1 _]. apply T_good. exact H1. }
      rewrite E2, Es. reflexivity.
    + cbn [factors flat_map nabs]. rewrite app_nil_r. clearbody L. clear Es Hn.
      induction Hz as [|[c' j'] l [H1 H2] Hz IH]; cbn [map flat_map]; [reflexivity|].
      cbn [fst snd] in *. rewrite nabs_T by assumption. cbn [app]. rewrite IH. reflexivity.
Qed.
End Id.

Lemma max_ge l x : In x l -> x <= fold_left Nat.max l 0.
Proof.
  assert (G : forall a, (a <= fold_left Nat.max l a) /\ (In x l -> x <= fold_left Nat.max l a)).
  { induction l as [|y l IH]; intros a; cbn [fold_left In]; [split; [lia|contradiction]|].
    destruct (IH (Nat.max a y)) as [H1 H2]. split; [lia|]. intros [->|H]; [lia|auto]. }
  apply G.
Qed.

Section V.
Variable C : calculus.
Notation R := (dr_car (cr C)).
Notation r0 := (dr_0 (cr C)).
Notation r1 := (dr_1 (cr C)).
Notation "x +! y" := (dr_add (cr C) x y) (at level 50, left associativity).
Notation "x *! y" := (dr_mul (cr C) x y) (at level 40, left associativity).
Notation "-! x" := (dr_opp (cr C) x) (at level 35, right associativity).
Notation d := (dr_d (cr C)).
Add Ring Rr3 : (dr_ring (cr C)).

Lemma rsum_scale (A : Type) (c : R) (f : A -> R) l : rsum C (map (fun a => c *! f a) l) = c *! rsum C (map f l).
Proof. induction l as [|a l IH]; cbn [map]; [rewrite !rsum_nil; ring|]. rewrite !rsum_cons, IH. ring. Qed.
Lemma rsum_plus (A : Type) (f g : A -> R) l :
  rsum C (map (fun a => f a +! g a) l) = rsum C (map f l) +! rsum C (map g l).
Proof. induction l as [|a l IH]; cbn [map]; [rewrite !rsum_nil; ring|]. rewrite !rsum_cons, IH. ring. Qed.
Lemma rsum_zero (A : Type) (f : A -> R) l : (forall a, In a l -> f a = r0) -> rsum C (map f l) = r0.
Proof.
  induction l as [|a l IH]; intros H; cbn [map]; [reflexivity|].
  rewrite rsum_cons, H, IH by (try (left; reflexivity); intros; apply H; right; assumption). ring.
Qed.
Lemma sum_delta_gen j f s n : s <= j < s + n ->
  rsum C (map (fun ax => (if Nat.eqb j ax then r1 else r0) *! f ax) (seq s n)) = f j.
Proof.
  revert s. induction n as [|n IH]; intros s H; [lia|]. cbn [seq map]. rewrite rsum_cons.
  destruct (Nat.eqb_spec j s).
  - subst. rewrite rsum_zero; [ring|]. intros a Ha. apply in_seq in Ha.
    destruct (Nat.eqb_spec s a); [lia|ring].
  - rewrite IH by lia. ring.
Qed.
Lemma sum_delta j f n : j < n -> sum_axes C n (fun ax => (if Nat.eqb j ax then r1 else r0) *! f ax) = f j.
Proof. intros H. apply sum_delta_gen. lia. Qed.

Lemma val_dirn id nu cs :
  val C nu (dirn id cs) = rsum C (map (fun t => val C nu (fst t) *! nu (Some id) (snd t)) cs).
Proof.
  unfold dirn. rewrite val_fsum, map_map. f_equal. apply map_ext. intros [c j]. unfold T. rewrite val_emul. reflexivity.
Qed.
Lemma atom_val nu nu' c : atom c -> val C nu c = val C nu' c.
Proof. intros H. apply val_pure. apply atom_pure. exact H. Qed.

Lemma sum_exchange n (P Q : R) (f : nat -> R) (cs : list (ex * nat)) (w : ex -> R) :
  (forall t, In t cs -> snd t < n \/ w (fst t) = r0) ->
  sum_axes C n (fun ax => P *! rsum C (map (fun t => w (fst t) *! (if Nat.eqb (snd t) ax then r1 else r0)) cs) *! Q *! f ax)
  = P *! Q *! rsum C (map (fun t => w (fst t) *! f (snd t)) cs).
Proof.
  induction cs as [|t cs IH]; intros H.
  - cbn [map]. rewrite rsum_nil. unfold sum_axes. rewrite rsum_zero; [ring|]. intros; ring.
  - cbn [map]. rewrite rsum_cons.
    assert (E : sum_axes C n (fun ax => P *! rsum C (w (fst t) *! (if snd t =? ax then r1 else r0) ::
        map (fun t => w (fst t) *! (if Nat.eqb (snd t) ax then r1 else r0)) cs) *! Q *! f ax)
      = P *! Q *! w (fst t) *! sum_axes C n (fun ax => (if snd t =? ax then r1 else r0) *! f ax)
        +! sum_axes C n (fun ax => P *! rsum C (map (fun t => w (fst t) *! (if Nat.eqb (snd t) ax then r1 else r0)) cs) *! Q *! f ax)).
    { unfold sum_axes. rewrite <- rsum_scale, <- rsum_plus. f_equal. apply map_ext. intros ax. rewrite rsum_cons. ring. }
    rewrite E, IH by (intros; apply H; right; assumption).
    destruct (H t (or_introl eq_refl)) as [Hj|Hz].
    + rewrite sum_delta by exact Hj. ring.
    + rewrite Hz. ring.
Qed.

Lemma dirder id pre post cs a r nu :
  Forall atom pre -> Forall atom post -> Forall (fun t => atom (fst t)) cs -> nzc cs <> [] -> pure a ->
  resolve (EProd ((pre ++ factors (dirn id cs)) ++ EDsrc id a :: post)) = Ok r ->
  pure r /\ val C nu r = rprod C (map (val C nu) pre) *! rprod C (map (val C nu) post)
                         *! rsum C (map (fun t => val C nu (fst t) *! d (snd t) (val C nu a)) cs).
Proof.
  intros Hpre Hpost Ha Hn Pa Hr.
  destruct (factors_dirn id Ha Hn) as (_ & _ & _ & F1 & F2 & F3).
  assert (X1 : Forall (nf id) (pre ++ factors (dirn id cs))).
  { apply Forall_app. split; [|exact F1]. eapply Forall_impl; [|exact Hpre]. apply atom_nf. }
  assert (X2 : Forall (nf id) post) by (eapply Forall_impl; [|exact Hpost]; apply atom_nf).
  assert (Xa : forall l, Forall atom l -> mapM resolve l = Ok l).
  { intros l. induction 1 as [|x l Hx Hl IH]; cbn [mapM]; [reflexivity|].
    rewrite (resolve_atom x Hx), IH. reflexivity. }
  assert (Xn : forall l, Forall atom l -> flat_map nabs l = []).
  { intros l Hl. apply flat_map_nil. eapply Forall_impl; [|exact Hl]. apply atom_nabs. }
  assert (X3 : axes_of id ((pre ++ factors (dirn id cs)) ++ post) = map snd (nzc cs)).
  { unfold axes_of. rewrite !flat_map_app, (Xn pre Hpre), (Xn post Hpost), F3, app_nil_r. cbn [app].
    clear. induction (nzc cs) as [|t l IH]; [reflexivity|]. cbn [map filter fst onat_eqb].
    rewrite Nat.eqb_refl. cbn [map snd]. f_equal. exact IH. }
  assert (X4 : mapM resolve (pre ++ factors (dirn id cs)) = Ok (pre ++ factors (dirn id cs))).
  { pose proof (mapM_Ok _ _ (Xa pre Hpre)) as Y1. pose proof (mapM_Ok _ _ F2) as Y2.
    apply mapM_res. apply Forall2_app; assumption. }
  assert (X5 : axes_of id ((pre ++ factors (dirn id cs)) ++ post) <> []).
  { rewrite X3. destruct (nzc cs); [contradiction|discriminate]. }
  destruct (@resolve_product C id _ a _ r nu X1 X2 X5 X4 (Xa post Hpost) Pa Hr) as [P1 P2].
  split; [exact P1|]. rewrite P2, X3.
  rewrite <- (@sum_exchange (Datatypes.S (fold_left Nat.max (map snd (nzc cs)) 0))
     (rprod C (map (val C nu) pre)) (rprod C (map (val C nu) post)) (fun ax => d ax (val C nu a)) cs (val C nu)).
  - unfold sum_axes. f_equal. apply map_ext. intros ax.
    rewrite map_app, rprod_app, val_factors, val_dirn.
    rewrite (map_ext_in (val C (nu_at C id ax nu)) (val C nu) pre) by (intros x Hx; apply atom_val; rewrite Forall_forall in Hpre; auto).
    rewrite (map_ext_in (val C (nu_at C id ax nu)) (val C nu) post) by (intros x Hx; apply atom_val; rewrite Forall_forall in Hpost; auto).
    rewrite (rsum_ext C (fun t : ex * nat => val C (nu_at C id ax nu) (fst t) *! nu_at C id ax nu (Some id) (snd t))
               (fun t => val C nu (fst t) *! (if Nat.eqb (snd t) ax then r1 else r0)) cs); [reflexivity|].
    intros t Ht. unfold nu_at at 2. cbn [onat_eqb]. rewrite Nat.eqb_refl. f_equal. apply atom_val.
    rewrite Forall_forall in Ha. exact (Ha t Ht).
  - intros t Ht. destruct (nonzero (fst t)) eqn:E.
    + left. apply le_n_S. apply max_ge. apply in_map. apply filter_In. split; assumption.
    + right. unfold nonzero in E. apply negb_false_iff in E. apply is_num_eq in E. rewrite E. reflexivity.
Qed.
Lemma dirder_ok id pre post cs a :
  Forall atom pre -> Forall atom post -> Forall (fun t => atom (fst t)) cs -> nzc cs <> [] -> pure a ->
  (forall a' ax, resolve a = Ok a' -> exists c, take ax a' = Ok c) ->
  exists r, resolve (EProd ((pre ++ factors (dirn id cs)) ++ EDsrc id a :: post)) = Ok r.
Proof.
  intros Hpre Hpost Ha Hn Pa Hr.
  destruct (factors_dirn id Ha Hn) as (_ & _ & _ & F1 & F2 & F3).
  assert (X1 : Forall (nf id) (pre ++ factors (dirn id cs))).
  { apply Forall_app. split; [|exact F1]. eapply Forall_impl; [|exact Hpre]. apply atom_nf. }
  assert (X2 : Forall (nf id) post) by (eapply Forall_impl; [|exact Hpost]; apply atom_nf).
  assert (Xa : forall l, Forall atom l -> mapM resolve l = Ok l).
  { intros l. induction 1 as [|x l Hx Hl IH]; cbn [mapM]; [reflexivity|].
    rewrite (resolve_atom x Hx), IH. reflexivity. }
  apply (resolve_product_ok C); try assumption.
  - unfold axes_of. rewrite !flat_map_app, F3.
    destruct (nzc cs) as [|t l]; [contradiction|]. cbn [map].
    rewrite !filter_app. cbn [filter fst onat_eqb]. rewrite Nat.eqb_refl.
    rewrite !map_app. cbn [map]. intros E. apply app_eq_nil in E. destruct E as [E _].
    apply app_eq_nil in E. destruct E as [_ E]. discriminate.
  - pose proof (mapM_Ok _ _ (Xa pre Hpre)) as Y1. pose proof (mapM_Ok _ _ F2) as Y2.
    apply mapM_res. apply Forall2_app; assumption.
  - apply Xa. exact Hpost.
Qed.
End V.
