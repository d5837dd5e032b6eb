(** C78: the Beltrami operators. *)
From Coq Require Import Ring QArith Qcanon.
From Verif Require Import Base MatModel MatProofs PdeModel PdeSpec PdeProofs PdeProps PdeProps2 SymProofs2.
Set Implicit Arguments.
Open Scope string_scope. Open Scope list_scope. Open Scope nat_scope.

(** The two Calderon identities for the potentials of the Laplace kernel on [g] (O'Neil 2018):
    S D' = -I/4 + D^2 and D' S = -I/4 + (S')^2. *)
Definition calderon_SDp (W : world) (d g : nat) : Prop := let lap := plain (KLaplace d) in forall f,
  Single W [] lap (LSide 1) g g (DoubleN W [] lap LAvg g g f)
  = rsub W (Double W [] lap LAvg g g (Double W [] lap LAvg g g f)) (rmul W (w_num W (NRat 1 4)) f).
Definition calderon_DpS (W : world) (d g : nat) : Prop := let lap := plain (KLaplace d) in forall f,
  DoubleN W [] lap LAvg g g (Single W [] lap (LSide 1) g g f)
  = rsub W (SingleN W [] lap LAvg g g (SingleN W [] lap LAvg g g f)) (rmul W (w_num W (NRat 1 4)) f).

(** [Lop] is the surface operator belonging to a kernel: splitting the Laplacian of a potential
    that solves the PDE off the surface into normal and tangential parts gives
    L (S f) = kappa S' f + S'' f, with kappa the sum of the principal curvatures. *)
Definition surface_operator (W : world) (ka : list (string * rkval)) (k : kernel) (g : nat) (kappa : W) (Lop : W -> W) : Prop :=
  forall f, Lop (Single W ka k (LSide 1) g g f)
    = radd W (rmul W kappa (SingleN W ka k LAvg g g f)) (SingleNN W ka k LAvg g g f).

(** The sum of the principal curvatures: the dimension times the mean curvature, given by the
    user or else that of the surface. *)
Definition kappa_of (W : world) (b : beltrami) (curv : option pe) (g : nat) : W :=
  rmul W (of_Z W (Z.of_nat (b_dim b)))
    (match curv with Some h => ev W g g h | None => w_curv W (kdim (b_kernel b)) (b_dim b) g end).

(** *** Construction *)
Theorem beltrami_constructor k dim pre ka :
  (pre <> "left" -> pre <> "right" -> make_beltrami k dim pre ka = Err ValueError) /\
  ((pre = "left" \/ pre = "right") -> exists b, make_beltrami k dim pre ka = Ok b /\
     b_kernel b = k /\ b_kargs b = ka /\ (b_pre b = PcLeft <-> pre = "left") /\
     (forall d, dim = Some d -> b_dim b = d) /\ (dim = None -> b_dim b = kdim k - 1)).
Proof.
  unfold make_beltrami. split.
  - intros H1 H2. destruct (String.eqb_spec pre "left"); [tauto|]. destruct (String.eqb_spec pre "right"); [tauto|]. reflexivity.
  - intros [-> | ->]; simpl; eexists; split; try reflexivity; simpl;
    (split; [reflexivity|]); (split; [reflexivity|]); (split; [split; intros; congruence|]); split; intros; subst; reflexivity.
Qed.
Theorem beltrami_subclasses adim dim pre kn b :
  (make_laplace_beltrami adim dim pre = Ok b -> b_kernel b = plain (KLaplace adim) /\ args_match (b_kernel b) (b_kargs b)) /\
  (kn <> "dsource_vec" ->
   (make_yukawa_beltrami adim dim pre kn = Ok b -> b_kernel b = plain (KYukawa adim kn) /\ args_match (b_kernel b) (b_kargs b)) /\
   (make_helmholtz_beltrami adim dim pre kn = Ok b -> b_kernel b = plain (KHelmholtz adim kn) /\ args_match (b_kernel b) (b_kargs b))).
Proof.
  assert (A : forall k ka, make_beltrami k dim pre ka = Ok b -> b_kernel b = k /\ b_kargs b = ka).
  { intros k ka. unfold make_beltrami. destruct (_ =? _)%string; [intros [= <-]; auto|]. destruct (_ =? _)%string; [intros [= <-]; auto|discriminate]. }
  split; [|intros Hk; split]; intros H; apply A in H; destruct H as [-> ->]; split; auto.
  - split; [constructor|]. simpl. tauto.
  - split; [repeat constructor; simpl; tauto|]. split; [simpl; tauto|]. simpl. intros [E|[]]. congruence.
  - split; [repeat constructor; simpl; tauto|]. split; [simpl; tauto|]. simpl. intros [E|[]]. congruence.
Qed.

Section C78.
Variable W : world.
Hypothesis OK : world_ok W.
Add Ring Wr4 : (wo_ring OK).

Lemma ev_kappa b curv x L : bel_kappa b curv = Ok x -> ev W L L x = kappa_of W b curv L.
Proof.
  unfold bel_kappa, kappa_of. intros H. apply bind_Ok in H. destruct H as (h & Hh & H). injection H as <-.
  cbn [ev pint]. rewrite (wo_int OK). f_equal.
  destruct curv; [injection Hh as <-; reflexivity|]. unfold mean_curvature in Hh. destruct (_ || _); [|discriminate].
  injection Hh as <-. reflexivity.
Qed.
Lemma Single_add ka k l s t a b : Single W ka k l s t (radd W a b) = radd W (Single W ka k l s t a) (Single W ka k l s t b).
Proof. unfold Single, pot. apply (wo_lp_add OK). Qed.
Lemma Single_sub ka k l s t a b : Single W ka k l s t (rsub W a b) = rsub W (Single W ka k l s t a) (Single W ka k l s t b).
Proof. unfold Single, pot. apply (lp_sub OK). Qed.

Lemma nodsv_nil : ~ In "dsource_vec" (map (@fst string kval) []).
Proof. simpl. tauto. Qed.

Ltac unbind H :=
  repeat match type of H with
  | bind _ _ = Ok _ => let x := fresh "x" in let Hx := fresh "Hx" in
      apply bind_Ok in H; destruct H as (x & Hx & H)
  end.
Ltac evs L :=
  repeat match goal with
  | H : symS _ _ _ _ _ _ = Ok ?e |- context[ev W L L ?e] => rewrite (@ev_symS W L L _ _ _ _ _ _ _ H); cbn [ev res_src res_tgt]
  | H : symSp _ _ _ _ _ _ = Ok ?e |- context[ev W L L ?e] =>
      rewrite (@ev_symSp W OK L L _ _ _ DNone DNone _ e ltac:(discriminate) H); cbn [ev res_src res_tgt]
  | H : symSpp _ _ _ _ _ _ = Ok ?e |- context[ev W L L ?e] =>
      rewrite (@ev_symSpp W OK L L _ _ _ DNone DNone _ e ltac:(discriminate) H); cbn [ev res_src res_tgt]
  | H : symD _ _ _ _ _ ?ka = Ok ?e, Hn : ~ In "dsource_vec" (map fst ?ka) |- context[ev W L L ?e] =>
      rewrite (@ev_symD W L L _ _ _ _ _ _ _ Hn H); cbn [ev res_src res_tgt]
  | H : symDp _ _ _ _ _ ?ka = Ok ?e, Hn : ~ In "dsource_vec" (map fst ?ka) |- context[ev W L L ?e] =>
      rewrite (@ev_symDp W OK L L _ _ _ DNone DNone _ e ltac:(discriminate) Hn H); cbn [ev res_src res_tgt]
  end.

(** *** The operator is the preconditioned surface operator *)
Theorem beltrami_operator_meaning b sg curv L Lop e u :
  let ka := res_kargs L (b_kargs b) in
  calderon_SDp W (kdim (b_kernel b)) L -> calderon_DpS W (kdim (b_kernel b)) L ->
  surface_operator W ka (b_kernel b) L (kappa_of W b curv L) Lop ->
  bel_operator b sg curv [] = Ok e -> bel_prepare_solution b sg = Ok u ->
  (b_pre b = PcLeft -> ev W L L e = Single W ka (b_kernel b) (LSide 1) L L (Lop (ev W L L u))) /\
  (b_pre b = PcRight -> ev W L L e = Lop (ev W L L u)).
Proof.
  cbv zeta. intros HC1 HC2 HL He Hu. pose proof nodsv_nil as Hn.
  unfold bel_operator in He. destruct (is_laplace _); [discriminate|].
  apply bind_Ok in He. destruct He as (kap & Hk & He). cbv zeta in He. cbn [dmerge fold_left] in He.
  unfold bel_prepare_solution in Hu. cbv zeta in Hu.
  split; intros HP; rewrite HP in He, Hu; unbind He; unbind Hu.
  - injection He as <-. cbn [ev].
    change (rmul W (ev W L L sg) (rinv W (ev W L L (pint 4)))) with (ev W L L (PDiv sg (pint 4))).
    rewrite (ev_div_pos OK). evs L. rewrite (@ev_kappa _ _ _ L Hk).
    rewrite HL, !Single_add. unfold calderon_SDp in HC1. change (res_kargs L []) with (@nil (string * rkval)) in *. rewrite HC1. ring.
  - injection He as <-. cbn [ev].
    change (rmul W (ev W L L sg) (rinv W (ev W L L (pint 4)))) with (ev W L L (PDiv sg (pint 4))).
    rewrite (ev_div_pos OK). evs L. rewrite (@ev_kappa _ _ _ L Hk).
    rewrite HL, (DoubleN_sub OK). unfold calderon_DpS in HC2. change (res_kargs L []) with (@nil (string * rkval)) in *. rewrite HC2. ring.
Qed.

Theorem laplace_beltrami_operator_meaning b sg curv L Lop e u d :
  b_kernel b = plain (KLaplace d) -> b_kargs b = [] ->
  calderon_SDp W d L -> calderon_DpS W d L ->
  surface_operator W [] (b_kernel b) L (kappa_of W b curv L) Lop ->
  lap_bel_operator b sg curv [] = Ok e -> bel_prepare_solution b sg = Ok u ->
  let total x := rmul W (w_ones W L) (w_int W d (b_dim b) L x) in
  (b_pre b = PcLeft -> ev W L L e = Single W [] (b_kernel b) (LSide 1) L L (rsub W (Lop (ev W L L u)) (total (ev W L L u)))) /\
  (b_pre b = PcRight -> ev W L L e = radd W (Lop (ev W L L u)) (total (ev W L L u))).
Proof.
  intros HK HA HC1 HC2 HL He Hu. cbv zeta. pose proof nodsv_nil as Hn.
  unfold lap_bel_operator in He. apply bind_Ok in He. destruct He as (kap & Hk & He). cbv zeta in He.
  cbn [dmerge fold_left] in He. unfold bel_prepare_solution in Hu. cbv zeta in Hu.
  rewrite HA in He, Hu.
  split; intros HP; rewrite HP in He, Hu; unbind He; unbind Hu.
  - injection He as <-. cbn [ev].
    change (rmul W (ev W L L sg) (rinv W (ev W L L (pint 4)))) with (ev W L L (PDiv sg (pint 4))).
    rewrite (ev_div_pos OK). evs L. rewrite (@ev_kappa _ _ _ L Hk). cbn [res_kargs map res_dd] in *.
    rewrite Single_sub, HL, !Single_add. rewrite HK in *. unfold calderon_SDp in HC1. rewrite HC1. cbn [kdim plain kbase]. ring.
  - injection He as <-. cbn [ev].
    change (rmul W (ev W L L sg) (rinv W (ev W L L (pint 4)))) with (ev W L L (PDiv sg (pint 4))).
    rewrite (ev_div_pos OK). evs L. rewrite (@ev_kappa _ _ _ L Hk). cbn [res_kargs map res_dd] in *.
    rewrite HL. rewrite HK in *. unfold calderon_DpS in HC2. rewrite HC2. cbn [kdim plain kbase]. ring.
Qed.

(** *** Solving the integral equation solves the surface PDE *)
Theorem beltrami_equation b sg rhs curv L Lop e u r :
  let ka := res_kargs L (b_kargs b) in
  calderon_SDp W (kdim (b_kernel b)) L -> calderon_DpS W (kdim (b_kernel b)) L ->
  surface_operator W ka (b_kernel b) L (kappa_of W b curv L) Lop ->
  (forall f f', Single W ka (b_kernel b) (LSide 1) L L f = Single W ka (b_kernel b) (LSide 1) L L f' -> f = f') ->
  bel_operator b sg curv [] = Ok e -> bel_prepare_solution b sg = Ok u -> bel_prepare_rhs b rhs = Ok r ->
  (ev W L L e = ev W L L r <-> Lop (ev W L L u) = ev W L L rhs).
Proof.
  cbv zeta. intros HC1 HC2 HL HI He Hu Hr.
  destruct (@beltrami_operator_meaning b sg curv L Lop e u HC1 HC2 HL He Hu) as [M1 M2].
  unfold bel_prepare_rhs in Hr. cbv zeta in Hr. destruct (b_pre b).
  - rewrite (M1 eq_refl), (@ev_symS W L L _ _ _ _ _ _ _ Hr). cbn [res_src res_tgt].
    split; [apply HI|]. intros ->. reflexivity.
  - injection Hr as <-. rewrite (M2 eq_refl). tauto.
Qed.

(** For the Laplace-Beltrami operator, on data without mean: the solution recovered solves the
    equation and has integral zero. *)
Theorem laplace_beltrami_equation b sg rhs curv L Lop e u r d :
  b_kernel b = plain (KLaplace d) -> b_kargs b = [] ->
  calderon_SDp W d L -> calderon_DpS W d L ->
  surface_operator W [] (b_kernel b) L (kappa_of W b curv L) Lop ->
  (forall f f', Single W [] (b_kernel b) (LSide 1) L L f = Single W [] (b_kernel b) (LSide 1) L L f' -> f = f') ->
  let int := w_int W d (b_dim b) L in
  (forall f, int (Lop f) = r0 W) ->
  (forall f, int (rmul W (w_ones W L) (int f)) = rmul W (int (w_ones W L)) (int f)) ->
  (forall f, rmul W (int (w_ones W L)) f = r0 W -> f = r0 W) ->
  int (ev W L L rhs) = r0 W ->
  lap_bel_operator b sg curv [] = Ok e -> bel_prepare_solution b sg = Ok u -> bel_prepare_rhs b rhs = Ok r ->
  (ev W L L e = ev W L L r <-> Lop (ev W L L u) = ev W L L rhs /\ int (ev W L L u) = r0 W).
Proof.
  intros HK HA HC1 HC2 HL HI. cbv zeta. intros HLi Hc Hinv Hb He Hu Hr.
  destruct (@laplace_beltrami_operator_meaning b sg curv L Lop e u d HK HA HC1 HC2 HL He Hu) as [M1 M2].
  cbv zeta in M1, M2. set (int := w_int W d (b_dim b) L) in *. set (U := ev W L L u) in *. set (B := ev W L L rhs) in *.
  assert (iadd : forall x y, int (radd W x y) = radd W (int x) (int y)) by (intros; apply (wo_int_add OK)).
  assert (Z1 : radd W B (rmul W (w_ones W L) (int U)) = Lop U -> int U = r0 W).
  { intros E. apply Hinv. rewrite <- Hc. transitivity (int (radd W B (rmul W (w_ones W L) (int U)))).
    - rewrite iadd, Hb. ring.
    - rewrite E. apply HLi. }
  assert (Z2 : radd W (Lop U) (rmul W (w_ones W L) (int U)) = B -> int U = r0 W).
  { intros E. apply Hinv. rewrite <- Hc. transitivity (int (radd W (Lop U) (rmul W (w_ones W L) (int U)))).
    - rewrite iadd, HLi. ring.
    - rewrite E. apply Hb. }
  unfold bel_prepare_rhs in Hr. cbv zeta in Hr. destruct (b_pre b).
  - rewrite HA in Hr. rewrite (M1 eq_refl), (@ev_symS W L L _ _ _ _ _ _ _ Hr). cbn [res_src res_tgt res_kargs map].
    fold B. split.
    + intros E. apply HI in E.
      assert (Zu : int U = r0 W) by (apply Z1; rewrite <- E; ring).
      split; auto. rewrite <- E, Zu. ring.
    + intros [E Zu]. f_equal. rewrite E, Zu. ring.
  - injection Hr as <-. rewrite (M2 eq_refl). fold B. split.
    + intros E. assert (Zu : int U = r0 W) by auto. split; auto. rewrite <- E, Zu. ring.
    + intros [E Zu]. rewrite E, Zu. ring.
Qed.

(** *** When the operators exist *)
Lemma symSp_total k d l ka : args_match k ka -> exists e, symSp k d l DNone DNone ka = Ok e.
Proof. intros H. unfold symSp. rewrite (symS_total _ _ _ _ H). cbn [bind]. apply nderiv_total. Qed.
Lemma symDp_total k d l ka : args_match k ka -> exists e, symDp k d l DNone DNone ka = Ok e.
Proof. intros H. unfold symDp. rewrite (symD_total _ _ _ _ H). cbn [bind]. apply nderiv_total. Qed.
Lemma symSpp_total k d l ka : args_match k ka -> exists e, symSpp k d l DNone DNone ka = Ok e.
Proof.
  intros H. unfold symSpp. rewrite (symS_total _ _ _ _ H). cbn [bind]. unfold normal_second_derivative.
  apply psumM_total. intros i _. apply psumM_total. intros j _. simpl. eauto.
Qed.

(** The operator fails exactly for the Laplace kernel (TypeError) and, without a mean curvature,
    outside of curves in the plane and surfaces in space (NotImplementedError). *)
Theorem beltrami_total b sg curv rhs : args_match (b_kernel b) (b_kargs b) ->
  ((exists d, b_kernel b = plain (KLaplace d)) -> bel_operator b sg curv [] = Err TypeError) /\
  (~ (exists d, b_kernel b = plain (KLaplace d)) ->
     let dims := (kdim (b_kernel b) = 2 /\ b_dim b = 1) \/ (kdim (b_kernel b) = 3 /\ b_dim b = 2) in
     (curv <> None \/ dims -> exists e, bel_operator b sg curv [] = Ok e) /\
     (curv = None -> ~ dims -> bel_operator b sg curv [] = Err NotImplementedError)) /\
  (exists u, bel_prepare_solution b sg = Ok u) /\ (exists r, bel_prepare_rhs b rhs = Ok r).
Proof.
  intros HA. split; [|split; [|split]].
  - intros H. apply is_laplace_iff in H. unfold bel_operator. rewrite H. reflexivity.
  - intros H. cbv zeta. assert (HL : is_laplace (b_kernel b) = false).
    { apply not_true_iff_false. rewrite is_laplace_iff. auto. }
    unfold bel_operator. rewrite HL. cbv zeta. cbn [dmerge fold_left]. split.
    + intros Hc. assert (Hk : exists kap, bel_kappa b curv = Ok kap).
      { unfold bel_kappa. destruct curv; [simpl; eauto|]. destruct Hc as [Hc|Hc]; [congruence|].
        unfold mean_curvature. destruct Hc as [[-> ->]|[-> ->]]; simpl; eauto. }
      destruct Hk as (kap & ->). cbn [bind].
      assert (H0 : args_match (plain (KLaplace (kdim (b_kernel b)))) []) by apply args_match_nil.
      destruct (b_pre b).
      * rewrite (symD_total _ _ _ _ H0). cbn [bind]. rewrite (symD_total _ _ _ _ H0). cbn [bind].
        edestruct symSp_total as (x1 & ->); [exact HA|]. cbn [bind]. rewrite (symS_total _ _ _ _ HA). cbn [bind].
        edestruct symSpp_total as (x2 & ->); [exact HA|]. cbn [bind].
        edestruct symDp_total as (x3 & ->); [exact H0|]. cbn [bind].
        rewrite !(symS_total _ _ _ _ HA). cbn [bind]. rewrite (symS_total _ _ _ _ H0). cbn [bind]. eauto.
      * edestruct symSp_total as (x1 & ->); [exact H0|]. cbn [bind].
        edestruct symSp_total as (x2 & ->); [exact H0|]. cbn [bind].
        rewrite (symS_total _ _ _ _ HA), (symS_total _ _ _ _ H0). cbn [bind].
        edestruct symSpp_total as (x3 & ->); [exact HA|]. cbn [bind].
        edestruct symDp_total as (x4 & ->); [exact H0|]. cbn [bind].
        edestruct symDp_total as (x5 & ->); [exact H0|]. cbn [bind].
        edestruct symSp_total as (x6 & ->); [exact HA|]. cbn [bind]. eauto.
    + intros -> Hd. unfold bel_kappa, mean_curvature.
      replace (_ || _) with false; [reflexivity|]. symmetry. apply orb_false_iff.
      split; apply andb_false_iff; repeat match goal with |- context[?a =? ?c] => destruct (Nat.eqb_spec a c) end; auto; exfalso; apply Hd; auto.
  - unfold bel_prepare_solution. cbv zeta. destruct (b_pre b); rewrite (symS_total _ _ _ _ HA); cbn [bind]; [eauto|].
    rewrite (symS_total _ _ _ _ HA). eauto.
  - unfold bel_prepare_rhs. cbv zeta. destruct (b_pre b); eauto. rewrite (symS_total _ _ _ _ HA). eauto.
Qed.

Theorem laplace_beltrami_total adim dim pre b sg curv : make_laplace_beltrami adim dim pre = Ok b ->
  let dims := (adim = 2 /\ b_dim b = 1) \/ (adim = 3 /\ b_dim b = 2) in
  (curv <> None \/ dims -> exists e, lap_bel_operator b sg curv [] = Ok e) /\
  (curv = None -> ~ dims -> lap_bel_operator b sg curv [] = Err NotImplementedError).
Proof.
  intros Hb. cbv zeta. unfold make_laplace_beltrami, make_beltrami in Hb.
  assert (HK : b_kernel b = plain (KLaplace adim) /\ b_kargs b = []).
  { destruct (_ =? _)%string; [injection Hb as <-; auto|]. destruct (_ =? _)%string; [injection Hb as <-; auto|discriminate]. }
  clear Hb. destruct HK as [HK HA]. unfold lap_bel_operator. rewrite HK, HA. cbv zeta. cbn [dmerge fold_left]. split.
  - intros Hc. assert (Hk : exists kap, bel_kappa b curv = Ok kap).
    { unfold bel_kappa. destruct curv; [simpl; eauto|]. destruct Hc as [Hc|Hc]; [congruence|].
      unfold mean_curvature. rewrite HK. cbn [kdim plain kbase]. destruct Hc as [[-> ->]|[-> ->]]; simpl; eauto. }
    destruct Hk as (kap & ->). cbn [bind].
    assert (H0 : args_match (plain (KLaplace adim)) []) by apply args_match_nil.
    destruct (b_pre b).
    + rewrite (symD_total _ _ _ _ H0). cbn [bind]. rewrite (symD_total _ _ _ _ H0). cbn [bind].
      edestruct symSpp_total as (x2 & ->); [exact H0|]. cbn [bind].
      edestruct symDp_total as (x3 & ->); [exact H0|]. cbn [bind]. rewrite (symS_total _ _ _ _ H0). cbn [bind].
      edestruct symSp_total as (x1 & ->); [exact H0|]. cbn [bind].
      rewrite !(symS_total _ _ _ _ H0). cbn [bind]. rewrite !(symS_total _ _ _ _ H0). cbn [bind]. eauto.
    + edestruct symSp_total as (x1 & ->); [exact H0|]. cbn [bind].
      edestruct symSp_total as (x2 & ->); [exact H0|]. cbn [bind].
      rewrite (symS_total _ _ _ _ H0). cbn [bind].
      edestruct symSpp_total as (x3 & ->); [exact H0|]. cbn [bind].
      edestruct symDp_total as (x4 & ->); [exact H0|]. cbn [bind].
      edestruct symSp_total as (x6 & ->); [exact H0|]. cbn [bind].
      rewrite (symS_total _ _ _ _ H0). cbn [bind]. eauto.
  - intros -> Hd. unfold bel_kappa, mean_curvature. rewrite HK. cbn [kdim plain kbase].
    replace (_ || _) with false; [reflexivity|]. symmetry. apply orb_false_iff.
    split; apply andb_false_iff; repeat match goal with |- context[?a =? ?c] => destruct (Nat.eqb_spec a c) end; auto; exfalso; apply Hd; auto.
Qed.
End C78.

(** *** C76: keyword arguments of the operator *)
Lemma dset_keys ka x v y : In y (map fst (dset ka x v)) <-> y = x \/ In y (map fst ka).
Proof.
  induction ka as [|[z w] ka IH]; simpl; [split; intros [->|[]]; auto|].
  destruct (String.eqb_spec x z); simpl; [subst; intuition congruence|]. rewrite IH. tauto.
Qed.
Theorem beltrami_kwargs_refuted :
  exists b kw u, b_kernel b = plain (KHelmholtz 2 "k") /\ b_pre b = PcLeft /\
    make_beltrami (plain (KHelmholtz 2 "k")) None "left" [] = Ok b /\
    int_g_vec (b_kernel b) (PVar "u") (LSide 1) DNone DNone kw = Ok u /\
    bel_operator b (PVar "u") None kw = Err ValueError.
Proof. exists (mk_bel (plain (KHelmholtz 2 "k")) 1 PcLeft []), [("k", KVUser "k")]. eexists. repeat (split; [reflexivity|]). reflexivity. Qed.
Theorem beltrami_kwargs_fail b sg curv kw x kap : In x (map fst kw) -> x <> "dsource_vec" ->
  ~ (exists d, b_kernel b = plain (KLaplace d)) -> bel_kappa b curv = Ok kap ->
  bel_operator b sg curv kw = Err ValueError.
Proof.
  intros Hx Hd HL Hk. unfold bel_operator.
  assert (E : is_laplace (b_kernel b) = false) by (apply not_true_iff_false; rewrite is_laplace_iff; auto).
  rewrite E, Hk. cbn [bind]. destruct (b_pre b).
  - unfold symD at 1. rewrite int_g_vec_fails; [reflexivity|]. intros H. specialize (H x).
    rewrite dset_keys in H. unfold kernel_args in H. simpl in H. destruct H as [H _]. destruct H as [H|[]]; auto.
  - unfold symSp at 1, symS at 1. rewrite int_g_vec_fails; [reflexivity|]. intros H. specialize (H x).
    unfold kernel_args in H. simpl in H. tauto.
Qed.

(** *** The hypotheses are met *)
Lemma pw_calderon_SDp vars g : calderon_SDp (pw vars) 2 g.
Proof.
  intros f. assert (Hb : ordinary (KLaplace 2)) by reflexivity.
  rewrite pw_DoubleN, pw_Single, !pw_Double by auto.
  change (w_num (pw vars) (NRat 1 4)) with (cst (1 # 4)). change (wR (pw vars)) with PairR.
  replace (rmul PairR (cst (1 # 4)) f) with (circ (1 # 4, 0)%Q f).
  2:{ rewrite (circ_id f) at 2. rewrite circ_scale. apply circ_ext; reflexivity. }
  unfold tab, table. cbn [kbase kdirs]. rewrite !circ_comp, circ_sub. apply circ_ext; reflexivity.
Qed.
Lemma pw_calderon_DpS vars g : calderon_DpS (pw vars) 2 g.
Proof.
  intros f. assert (Hb : ordinary (KLaplace 2)) by reflexivity.
  rewrite pw_DoubleN, pw_Single, !pw_SingleN by auto.
  change (w_num (pw vars) (NRat 1 4)) with (cst (1 # 4)). change (wR (pw vars)) with PairR.
  replace (rmul PairR (cst (1 # 4)) f) with (circ (1 # 4, 0)%Q f).
  2:{ rewrite (circ_id f) at 2. rewrite circ_scale. apply circ_ext; reflexivity. }
  unfold tab, table. cbn [kbase kdirs]. rewrite !circ_comp, circ_sub. apply circ_ext; reflexivity.
Qed.
Definition bel_y pre := mk_bel (plain (KYukawa 2 "k")) 1 pre [("k", KVUser "k")].
Definition bel_l pre := mk_bel (plain (KLaplace 2)) 1 pre [].
(** Surface operators: [2 - P] and [1 - P], where [P] exchanges the nodes. *)
Definition Ly : F2 -> F2 := circ (2, -1)%Q.
Definition Ll : F2 -> F2 := circ (1, -1)%Q.
Lemma cst_mul_circ f : rmul PairR (cst 1) f = f.
Proof. destruct f. simpl. unfold lift2, cst; simpl. change (Q2Qc 1) with 1%Qc. f_equal; ring. Qed.
Lemma pw_kappa vars b g : b_dim b = 1 -> kappa_of (pw vars) b None g = cst 1.
Proof.
  intros Hd. unfold kappa_of. rewrite Hd. cbn [w_curv pw]. change (of_Z (pw vars) (Z.of_nat 1)) with (cst 1). apply cst_mul_circ.
Qed.
Lemma pw_Ly vars pre g : surface_operator (pw vars) [("k", RUser "k")] (b_kernel (bel_y pre)) g (kappa_of (pw vars) (bel_y pre) None g) Ly.
Proof.
  intros f. assert (Hb : ordinary (KYukawa 2 "k")) by reflexivity. rewrite pw_kappa by reflexivity. cbn [b_kernel bel_y].
  change (wR (pw vars)) with PairR. rewrite cst_mul_circ.
  rewrite pw_Single, pw_SingleN, pw_SingleNN by auto. unfold Ly, tab, table. cbn [kbase kdirs side_of].
  rewrite circ_comp, circ_add. apply circ_ext; reflexivity.
Qed.
Lemma pw_Ll vars pre g : surface_operator (pw vars) [] (b_kernel (bel_l pre)) g (kappa_of (pw vars) (bel_l pre) None g) Ll.
Proof.
  intros f. assert (Hb : ordinary (KLaplace 2)) by reflexivity. rewrite pw_kappa by reflexivity. cbn [b_kernel bel_l].
  change (wR (pw vars)) with PairR. rewrite cst_mul_circ.
  rewrite pw_Single, pw_SingleN, pw_SingleNN by auto. unfold Ll, tab, table. cbn [kbase kdirs side_of].
  rewrite circ_comp, circ_add. apply circ_ext; reflexivity.
Qed.
(** The single layer potentials of this world are injective. *)
Lemma circ_inj a b c d f f' : (a * c + b * d == 1)%Q -> (a * d + b * c == 0)%Q -> circ (c, d) f = circ (c, d) f' -> f = f'.
Proof.
  intros H1 H2 H. apply (f_equal (circ (a, b))) in H. rewrite !circ_comp in H.
  rewrite (@circ_ext _ _ 1%Q 0%Q f H1 H2), (@circ_ext _ _ 1%Q 0%Q f' H1 H2), <- !circ_id in H. exact H.
Qed.

Example ex_beltrami pre : let W := pw vs in let b := bel_y pre in
  make_yukawa_beltrami 2 None (match pre with PcLeft => "left" | PcRight => "right" end) "k" = Ok b /\
  calderon_SDp W 2 0 /\ calderon_DpS W 2 0 /\ surface_operator W [("k", RUser "k")] (b_kernel b) 0 (kappa_of W b None 0) Ly /\
  (forall f f', Single W [("k", RUser "k")] (b_kernel b) (LSide 1) 0 0 f = Single W [("k", RUser "k")] (b_kernel b) (LSide 1) 0 0 f' -> f = f') /\
  args_match (b_kernel b) (b_kargs b) /\
  match bel_operator b (PVar "u") None [], bel_prepare_solution b (PVar "u") with
  | Ok e, Ok u => q2 (ev W 0 0 e) = match pre with PcLeft => (80, -16)%Q | PcRight => (80, -16)%Q end /\
                  q2 (Ly (ev W 0 0 u)) = match pre with PcLeft => (32, -16)%Q | PcRight => (80, -16)%Q end
  | _, _ => False end.
Proof.
  cbv zeta. split; [destruct pre; reflexivity|]. split; [apply pw_calderon_SDp|]. split; [apply pw_calderon_DpS|].
  split; [apply pw_Ly|]. split.
  { intros f f'. cbn [b_kernel bel_y]. rewrite !pw_Single. apply (@circ_inj (3#8) (-1#8)); reflexivity. }
  split; [split; [repeat constructor; simpl; tauto|split; [simpl; tauto|simpl; intros [E|[]]; discriminate E]]|].
  destruct pre; vm_compute; split; reflexivity.
Qed.

Example ex_laplace_beltrami pre : let W := pw vs in let b := bel_l pre in let int := w_int W 2 (b_dim b) 0 in
  make_laplace_beltrami 2 None (match pre with PcLeft => "left" | PcRight => "right" end) = Ok b /\
  surface_operator W [] (b_kernel b) 0 (kappa_of W b None 0) Ll /\
  (forall f f', Single W [] (b_kernel b) (LSide 1) 0 0 f = Single W [] (b_kernel b) (LSide 1) 0 0 f' -> f = f') /\
  (forall f, int (Ll f) = r0 W) /\
  (forall f, int (rmul W (w_ones W 0) (int f)) = rmul W (int (w_ones W 0)) (int f)) /\
  (forall f, rmul W (int (w_ones W 0)) f = r0 W -> f = r0 W) /\
  (exists x, int (ev W 0 0 x) = r0 W /\ ev W 0 0 x <> r0 W).
Proof.
  cbv zeta. split; [destruct pre; reflexivity|]. split; [apply pw_Ll|]. split.
  { intros f f'. cbn [b_kernel bel_l]. rewrite !pw_Single. apply (@circ_inj (2#3) (-1#3)); reflexivity. }
  split.
  { intros [x y]. unfold Ll, circ. cbn [pw w_int b_dim bel_l fst snd].
    change (r0 (pw vs)) with (cst 0). unfold cst. change (Q2Qc 1%Q) with 1%Qc. replace (Q2Qc (-1)%Q) with (- (1))%Qc by reflexivity. change (Q2Qc 0%Q) with 0%Qc. f_equal; ring. }
  split.
  { intros [x y]. cbn [pw w_int b_dim bel_l fst snd w_ones rmul PairR wR lift2 cst]. unfold lift2, cst; cbn [fst snd].
    change (Q2Qc 1) with 1%Qc. f_equal; ring. }
  split.
  { intros [x y] H. change (r0 (pw vs)) with (cst 0) in *. cbn [pw w_int b_dim bel_l w_ones wR rmul PairR] in H. unfold lift2, cst in *. cbn [fst snd] in H.
    assert (K : (Q2Qc (inject_Z (Z.of_nat ((2 + 0) * (2 + 0)))) * (Q2Qc 1 + Q2Qc 1))%Qc <> 0%Qc) by (intros E; vm_compute in E; discriminate E).
    apply pair_equal_spec in H. destruct H as [H1 H2]. change (Q2Qc 0) with 0%Qc in *.
    apply Qcmult_integral in H1, H2. destruct H1, H2; try contradiction. subst. reflexivity. }
  exists (PSub (PVar "u") (pint 2)). split; [vm_compute; reflexivity|].
  intros E. apply (f_equal q2) in E. vm_compute in E. discriminate E.
Qed.

Print Assumptions beltrami_constructor.
Print Assumptions beltrami_subclasses.
Print Assumptions beltrami_operator_meaning.
Print Assumptions laplace_beltrami_operator_meaning.
Print Assumptions beltrami_equation.
Print Assumptions laplace_beltrami_equation.
Print Assumptions beltrami_total.
Print Assumptions laplace_beltrami_total.
Print Assumptions beltrami_kwargs_refuted.
Print Assumptions beltrami_kwargs_fail.
