(** C75: the boundary integral operators for Dirichlet and Neumann problems are the boundary
    limits of their representations. *)
From Coq Require Import Ring.
From Verif Require Import Base MatModel MatProofs PdeModel PdeSpec PdeProofs SymProofs2.
Set Implicit Arguments.
Open Scope string_scope.
Open Scope list_scope.
Open Scope nat_scope.

(** The term that removes the null space of the exterior Dirichlet and the interior Neumann
    problem for Laplace's equation. *)
Definition dirichlet_null (o : bvp_op) : Prop := (exists d, o_kernel o = plain (KLaplace d)) /\ o_sign o = 1%Z.
Definition neumann_null (o : bvp_op) : Prop := (exists d, o_kernel o = plain (KLaplace d)) /\ o_sign o = (-1)%Z.
Definition mean_term (W : world) (o : bvp_op) (null : Prop) (g : nat) (v x : W) : Prop :=
  (null -> x = rmul W (w_ones W g) (mean_of W (kdim (o_kernel o)) (kdim (o_kernel o) - 1) g v)) /\
  (~ null -> x = r0 W).

(** The Calderon identity D' S = -I/4 + (S')^2 for the Laplace kernel. *)
Definition calderon (W : world) (d g : nat) : Prop := forall f,
  DoubleN W [] (plain (KLaplace d)) (LSide 1) g g (Single W [] (plain (KLaplace d)) (LSide 1) g g f)
  = radd W (rmul W (w_num W (NRat (-1) 4)) f)
           (SingleN W [] (plain (KLaplace d)) LAvg g g (SingleN W [] (plain (KLaplace d)) LAvg g g f)).

(** The geometry meant by [dd] when the default is [L]. *)
Definition here (L : nat) (dd : dofd) : nat := match dd with DGeo g => g | _ => L end.

(** *** Construction *)
Theorem bvp_constructor k s alpha imp l2 ka :
  (s <> 1 -> s <> -1 -> make_bvp k s alpha imp l2 ka = Err AssertionError)%Z /\
  ((s = 1 \/ s = -1)%Z -> exists o, make_bvp k s alpha imp l2 ka = Ok o /\
     o_kernel o = k /\ o_sign o = s /\ o_improved o = imp /\ o_l2 o = l2 /\
     (forall a, ka = Some a -> o_kargs o = a) /\ (ka = None -> o_kargs o = []) /\
     (forall a, alpha = Some a -> o_alpha o = a) /\
     (alpha = None -> (exists d kn, k = plain (KHelmholtz d kn)) -> o_alpha o = NI) /\
     (alpha = None -> ~ (exists d kn, k = plain (KHelmholtz d kn)) -> o_alpha o = NInt 0)).
Proof.
  split.
  - intros H1 H2. unfold make_bvp. destruct (Z.eqb_spec s (-1)); [lia|]. destruct (Z.eqb_spec s 1); [lia|]. reflexivity.
  - intros Hs. unfold make_bvp.
    replace (negb ((s =? -1)%Z || (s =? 1)%Z)) with false by (destruct Hs; subst; reflexivity).
    eexists; split; [reflexivity|]. simpl.
    split; [reflexivity|]. split; [reflexivity|]. split; [reflexivity|]. split; [reflexivity|].
    split; [intros a ->; reflexivity|]. split; [intros ->; reflexivity|].
    split; [intros a ->; reflexivity|]. split; intros -> H.
    + destruct H as (d & kn & ->). reflexivity.
    + unfold is_helmholtz. destruct k as [b ds]; simpl. destruct b, ds; auto. exfalso. apply H. eexists _, _; reflexivity.
Qed.

Lemma is_laplace_iff k : is_laplace k = true <-> exists d, k = plain (KLaplace d).
Proof.
  unfold is_laplace. destruct k as [b ds]; simpl. destruct b, ds; split; intros H; try discriminate; eauto;
  try (destruct H as (? & H); discriminate H).
  exists d. reflexivity.
Qed.

Ltac hereify L dd :=
  change (res_src L dd) with (here L dd); change (res_tgt L dd) with (here L dd);
  change (res_dd L L dd) with (here L dd).

Section C75.
Variable W : world.
Hypothesis OK : world_ok W.
Add Ring Wr2 : (wo_ring OK).

(** *** What the representations are *)
Theorem dirichlet_representation_formula (o : bvp_op) u l src tgt kw ds dt r :
  ~ In "dsource_vec" (map fst (merged o kw)) ->
  dirichlet_representation o u (fun x => Ok x) l src tgt kw = Ok r ->
  let s := res_src ds src in let t := res_tgt dt tgt in
  let ka := res_kargs ds (merged o kw) in
  let v := unweighted W o s (ev W ds ds u) in
  ev W ds dt r = rsub W (rmul W (w_num W (o_alpha o)) (Single W ka (o_kernel o) l s t v))
                        (Double W ka (o_kernel o) l s t v).
Proof.
  intros Hn H. cbv zeta. unfold dirichlet_representation in H. simpl in H.
  apply bind_Ok in H. destruct H as (sx & Hs & H). apply bind_Ok in H. destruct H as (dx & Hd & H).
  injection H as <-. cbn [ev].
  rewrite (@ev_symS W ds dt _ _ _ _ _ _ _ Hs), (@ev_symD W ds dt _ _ _ _ _ _ _ Hn Hd).
  rewrite ev_unweighted by auto. rewrite res_src_dd. reflexivity.
Qed.

(** The Neumann representation, with its normal derivative; the inner single layer potential is
    evaluated where the target is. *)
Theorem neumann_representation_formula (o : bvp_op) u l src tgt kw ds dt r :
  ~ In "dsource_vec" (map fst (merged o kw)) ->
  neumann_representation o u (fun x => Ok x) l src tgt kw = Ok r ->
  let s := res_src ds src in let t := res_tgt dt tgt in
  let ka := res_kargs ds (merged o kw) in
  let lap := plain (KLaplace (kdim (o_kernel o))) in
  let v := unweighted W o s (ev W ds ds u) in
  ev W ds dt r = rsub W (Single W ka (o_kernel o) l s t v)
    (rmul W (w_num W (o_alpha o)) (Double W ka (o_kernel o) l s t (Single W [] lap (LSide 1) s (res_tgt ds tgt) v))).
Proof.
  intros Hn H. cbv zeta. unfold neumann_representation in H. cbv zeta in H.
  apply bind_Ok in H. destruct H as (s0 & Hs0 & H). apply bind_Ok in H. destruct H as (sx & Hs & H).
  apply bind_Ok in H. destruct H as (dx & Hd & H). cbn [bind] in H. injection H as <-. cbn [ev].
  rewrite (@ev_symS W ds dt _ _ _ _ _ _ _ Hs), (@ev_symD W ds dt _ _ _ _ _ _ _ Hn Hd).
  rewrite ev_unweighted by auto. cbn [ev]. rewrite (@ev_symS W ds ds _ _ _ _ _ _ _ Hs0).
  rewrite ev_unweighted by auto. rewrite res_src_dd. reflexivity.
Qed.

(** *** The Dirichlet operator *)
Theorem dirichlet_operator_is_limit (o : bvp_op) u dd L e r x :
  let g := here L dd in let ka := res_kargs L (o_kargs o) in
  (o_sign o = 1 \/ o_sign o = -1)%Z ->
  ~ In "dsource_vec" (map fst (o_kargs o)) ->
  single_continuous W ka (o_kernel o) g -> double_jump W ka (o_kernel o) g ->
  mean_term W o (dirichlet_null o) g (unweighted W o g (ev W L L u)) x ->
  dirichlet_operator o u dd [] = Ok e ->
  dirichlet_representation o u (fun x => Ok x) (LSide (o_sign o)) dd dd [] = Ok r ->
  ev W L L e = rmul W (sqrt_weight W o g) (radd W (ev W L L r) x).
Proof.
  cbv zeta. intros Hs Hn HS HD (Hx1 & Hx2) He Hr.
  rewrite (@dirichlet_representation_formula o u (LSide (o_sign o)) dd dd [] L L r Hn Hr).
  unfold merged. hereify L dd.
  unfold dirichlet_operator in He. cbv zeta in He.
  apply bind_Ok in He. destruct He as (sx & Hsx & He). apply bind_Ok in He. destruct He as (dx & Hdx & He).
  injection He as <-.
  set (U := ev W L L u) in *. set (g := here L dd) in *.
  assert (Eones : ev W L L (if dir_unique_up_to_constant o
     then PMul (POnes dd) (pmean (kdim (o_kernel o)) (kdim (o_kernel o) - 1)
        (PCse (PDiv u (get_sqrt_weight (o_l2 o) (kdim (o_kernel o)) dd))) dd) else pint 0) = x).
  { unfold dir_unique_up_to_constant. destruct (is_laplace (o_kernel o)) eqn:El; simpl.
    - destruct (Z.ltb_spec 0 (o_sign o)).
      + cbn [ev]. rewrite ev_pmean. rewrite ev_unweighted by auto. hereify L dd. fold g. fold U.
        symmetry. apply Hx1. split; [apply is_laplace_iff; auto|]. destruct Hs; lia.
      + cbn [ev pint]. rewrite (wo_int OK). symmetry. apply Hx2. intros (_ & E). lia.
    - rewrite (wo_int OK). symmetry. apply Hx2. intros (E & _). apply is_laplace_iff in E. congruence. }
  cbn [ev]. cbn [ev] in Eones. rewrite Eones.
  rewrite (ev_sqrt_weight OK L L). hereify L dd. fold g.
  change (rmul W (rmul W (ev W L L (prat (-1) 2)) (ev W L L (pint (o_sign o)))) (ev W L L u))
    with (ev W L L (PMul (PMul (prat (-1) 2) (pint (o_sign o))) u)).
  rewrite (ev_jump OK). fold U.
  rewrite (@ev_symS W L L _ _ _ _ _ _ _ Hsx), (@ev_symD W L L _ _ _ _ _ _ _ Hn Hdx).
  rewrite ev_unweighted by auto. hereify L dd. fold g. fold U.
  set (v := unweighted W o g U).
  rewrite (HS 1%Z (o_sign o) v) by auto. rewrite (HD (o_sign o) v Hs).
  assert (Eu : rmul W (sqrt_weight W o g) (signed W (o_sign o) (half W v)) = signed W (o_sign o) (half W U)).
  { unfold signed, half. rewrite <- (sqrt_weight_unweighted OK o g U). fold v. ring. }
  rewrite <- Eu. ring.
Qed.

(** Solving the integral equation and satisfying the boundary condition are the same thing. *)
Theorem dirichlet_equation_is_boundary_condition (o : bvp_op) u b L e r x :
  let ka := res_kargs L (o_kargs o) in
  (o_sign o = 1 \/ o_sign o = -1)%Z ->
  ~ In "dsource_vec" (map fst (o_kargs o)) ->
  single_continuous W ka (o_kernel o) L -> double_jump W ka (o_kernel o) L ->
  mean_term W o (dirichlet_null o) L (unweighted W o L (ev W L L u)) x ->
  dirichlet_operator o u DNone [] = Ok e ->
  dirichlet_representation o u (fun x => Ok x) (LSide (o_sign o)) DNone DNone [] = Ok r ->
  (ev W L L e = ev W L L (bvp_prepare_rhs o b) <-> radd W (ev W L L r) x = ev W L L b).
Proof.
  cbv zeta. intros Hs Hn HS HD Hx He Hr.
  rewrite (@dirichlet_operator_is_limit o u DNone L e r x Hs Hn HS HD Hx He Hr).
  unfold bvp_prepare_rhs. cbn [ev]. rewrite (ev_sqrt_weight OK). hereify L DNone.
  change (here L DNone) with L. split.
  - apply (sqrt_weight_cancel OK).
  - intros ->. reflexivity.
Qed.

(** *** The Neumann operator *)

Lemma normal_derivative_S ds dt k d l s t ka e r : t <> DStage1 -> symS k d l s t ka = Ok e ->
  normal_derivative (kdim k) e t = Ok r ->
  ev W ds dt r = SingleN W (res_kargs ds ka) k l (res_src ds s) (res_tgt dt t) (ev W ds ds d).
Proof.
  intros Ht Hs Hr. apply (@ev_symSp W OK ds dt k d l s t ka r Ht). unfold symSp. rewrite Hs. exact Hr.
Qed.
Lemma normal_derivative_D ds dt k d l s t ka e r : t <> DStage1 -> ~ In "dsource_vec" (map fst ka) ->
  symD k d l s t ka = Ok e -> normal_derivative (kdim k) e t = Ok r ->
  ev W ds dt r = DoubleN W (res_kargs ds ka) k l (res_src ds s) (res_tgt dt t) (ev W ds ds d).
Proof.
  intros Ht Hn Hs Hr. apply (@ev_symDp W OK ds dt k d l s t ka r Ht Hn). unfold symDp. rewrite Hs. exact Hr.
Qed.

Lemma ev_neumann_DpS0 (o : bvp_op) u dd L s0 d kw :
  let g := here L dd in let ka := res_kargs L (merged o kw) in
  let lap := plain (KLaplace (kdim (o_kernel o))) in
  let v := unweighted W o g (ev W L L u) in
  dd <> DStage1 -> ~ In "dsource_vec" (map fst (merged o kw)) ->
  (o_improved o = true -> calderon W (kdim (o_kernel o)) g) ->
  (is_laplace (o_kernel o) = true -> merged o kw = []) ->
  symS lap (PCse (PDiv u (get_sqrt_weight (o_l2 o) (kdim (o_kernel o)) dd))) (LSide 1) dd dd [] = Ok s0 ->
  neumann_DpS0 o u (PCse (PDiv u (get_sqrt_weight (o_l2 o) (kdim (o_kernel o)) dd))) (PCse s0) dd (merged o kw) = Ok d ->
  (o_improved o = false \/ ev W L L u = v) ->
  ev W L L d = DoubleN W ka (o_kernel o) (LSide 1) g g (Single W [] lap (LSide 1) g g v).
Proof.
  cbv zeta. intros Hdd Hn HC Hlap Hs0 Hd Hcase.
  set (g := here L dd). set (v := unweighted W o g (ev W L L u)) in *.
  assert (Es0 : ev W L L s0 = Single W [] (plain (KLaplace (kdim (o_kernel o)))) (LSide 1) g g v).
  { rewrite (@ev_symS W L L _ _ _ _ _ _ _ Hs0). rewrite ev_unweighted by auto. hereify L dd. reflexivity. }
  unfold neumann_DpS0 in Hd. cbv zeta in Hd. destruct (o_improved o) eqn:Ei.
  - destruct Hcase as [Hc|Hc]; [discriminate|].
    apply bind_Ok in Hd. destruct Hd as (sp & Hsp & Hd). apply bind_Ok in Hd. destruct Hd as (spsp & Hspsp & Hd).
    assert (Ec : ev W L L (PAdd (PMul (prat (-1) 4) u) spsp)
                 = DoubleN W [] (plain (KLaplace (kdim (o_kernel o)))) (LSide 1) g g
                     (Single W [] (plain (KLaplace (kdim (o_kernel o)))) (LSide 1) g g v)).
    { fold g in HC. rewrite (HC eq_refl v). cbn [ev prat]. f_equal; [rewrite Hc; reflexivity|].
      rewrite (@ev_symSp W OK L L _ _ _ _ _ _ _ Hdd Hspsp). rewrite (@ev_symSp W OK L L _ _ _ _ _ _ _ Hdd Hsp).
      rewrite ev_unweighted by auto. hereify L dd. reflexivity. }
    destruct (is_helmholtz (o_kernel o)) eqn:Eh.
    + apply bind_Ok in Hd. destruct Hd as (d0 & Hd0 & Hd). apply bind_Ok in Hd. destruct Hd as (d1 & Hd1 & Hd).
      injection Hd as <-.
      change (radd W (rsub W (ev W L L d0) (ev W L L d1)) (ev W L L (PAdd (PMul (prat (-1) 4) u) spsp))
        = DoubleN W (res_kargs L (merged o kw)) (o_kernel o) (LSide 1) g g
           (Single W [] (plain (KLaplace (kdim (o_kernel o)))) (LSide 1) g g v)).
      rewrite Ec. rewrite (@ev_symDp W OK L L _ _ _ _ _ _ _ Hdd Hn Hd0).
      assert (Hn0 : ~ In "dsource_vec" (map (@fst string kval) [])) by (simpl; tauto).
      rewrite (@ev_symDp W OK L L _ _ _ _ _ _ _ Hdd Hn0 Hd1). cbn [ev]. rewrite Es0. hereify L dd.
      change (res_kargs L []) with (@nil (string * rkval)). fold g. ring.
    + destruct (is_laplace (o_kernel o)) eqn:El; [|discriminate]. injection Hd as <-.
      rewrite Ec. rewrite (Hlap eq_refl). simpl.
      apply is_laplace_iff in El. destruct El as (d & ->). reflexivity.
  - rewrite (@ev_symDp W OK L L _ _ _ _ _ _ _ Hdd Hn Hd). cbn [ev]. rewrite Es0. hereify L dd. reflexivity.
Qed.

Theorem neumann_operator_is_limit (o : bvp_op) u dd L kw e r x :
  let g := here L dd in let ka := res_kargs L (merged o kw) in
  (o_sign o = 1 \/ o_sign o = -1)%Z -> dd <> DStage1 ->
  ~ In "dsource_vec" (map fst (merged o kw)) ->
  (o_improved o = false \/ o_l2 o = false \/ w_num W (o_alpha o) = r0 W) ->
  singleN_jump W ka (o_kernel o) g -> doubleN_continuous W ka (o_kernel o) g ->
  calderon W (kdim (o_kernel o)) g ->
  mean_term W o (neumann_null o) g (unweighted W o g (ev W L L u)) x ->
  neumann_operator o u dd kw = Ok e ->
  neumann_representation o u (fun p => normal_derivative (kdim (o_kernel o)) p dd) (LSide (o_sign o)) dd dd kw = Ok r ->
  ev W L L e = rmul W (sqrt_weight W o g) (radd W (ev W L L r) x).
Proof.
  cbv zeta. intros Hs Hdd Hn Hcase HS HD HC (Hx1 & Hx2) He Hr.
  assert (Hlap : is_laplace (o_kernel o) = true -> merged o kw = []).
  { intros El. apply is_laplace_iff in El. destruct El as (d & Ek).
    unfold neumann_representation in Hr. cbv zeta in Hr.
    apply bind_Ok in Hr. destruct Hr as (s0 & Hs0 & Hr). apply bind_Ok in Hr. destruct Hr as (sx & Hsx & Hr).
    unfold symS, int_g_vec in Hsx. rewrite Ek in Hsx. simpl in Hsx.
    destruct (merged o kw); auto. simpl in Hsx. discriminate. }
  unfold neumann_representation in Hr. cbv zeta in Hr.
  apply bind_Ok in Hr. destruct Hr as (s0 & Hs0 & Hr). apply bind_Ok in Hr. destruct Hr as (sx & Hsx & Hr).
  apply bind_Ok in Hr. destruct Hr as (dx & Hdx & Hr). apply bind_Ok in Hr. destruct Hr as (ms & Hms & Hr).
  apply bind_Ok in Hr. destruct Hr as (md & Hmd & Hr). injection Hr as <-.
  unfold neumann_operator in He. cbv zeta in He. rewrite Hs0 in He. cbn [bind] in He.
  apply bind_Ok in He. destruct He as (dp & Hdp & He). apply bind_Ok in He. destruct He as (sp & Hsp & He).
  injection He as <-.
  set (g := here L dd) in *. set (U := ev W L L u) in *. set (v := unweighted W o g U) in *.
  set (ka := res_kargs L (merged o kw)) in *.
  assert (Eones : ev W L L (if neu_unique_up_to_constant o
     then PMul (POnes dd) (pmean (kdim (o_kernel o)) (kdim (o_kernel o) - 1)
        (PCse (PDiv u (get_sqrt_weight (o_l2 o) (kdim (o_kernel o)) dd))) dd) else pint 0) = x).
  { unfold neu_unique_up_to_constant. destruct (is_laplace (o_kernel o)) eqn:El; simpl.
    - destruct (Z.ltb_spec (o_sign o) 0).
      + cbn [ev]. rewrite ev_pmean. rewrite ev_unweighted by auto. hereify L dd. fold g. fold U.
        symmetry. apply Hx1. split; [apply is_laplace_iff; auto|]. destruct Hs; lia.
      + cbn [ev pint]. rewrite (wo_int OK). symmetry. apply Hx2. intros (_ & E). lia.
    - rewrite (wo_int OK). symmetry. apply Hx2. intros (E & _). apply is_laplace_iff in E. congruence. }
  assert (Edp : rmul W (w_num W (o_alpha o)) (ev W L L dp) = rmul W (w_num W (o_alpha o))
      (DoubleN W ka (o_kernel o) (LSide 1) g g (Single W [] (plain (KLaplace (kdim (o_kernel o)))) (LSide 1) g g v))).
  { destruct Hcase as [Hc|[Hc|Hc]].
    - f_equal. apply (@ev_neumann_DpS0 o u dd L s0 dp kw); auto.
    - f_equal. apply (@ev_neumann_DpS0 o u dd L s0 dp kw); auto. right. unfold unweighted. rewrite Hc. reflexivity.
    - rewrite Hc. ring. }
  cbn [ev]. cbn [ev] in Eones. rewrite Eones. rewrite Edp.
  rewrite (ev_sqrt_weight OK L L). hereify L dd. fold g.
  change (rmul W (rmul W (ev W L L (prat (-1) 2)) (ev W L L (pint (o_sign o)))) (ev W L L u))
    with (ev W L L (PMul (PMul (prat (-1) 2) (pint (o_sign o))) u)).
  rewrite (ev_jump OK). fold U.
  rewrite (@ev_symSp W OK L L _ _ _ _ _ _ _ Hdd Hsp).
  rewrite (@normal_derivative_S L L _ _ _ _ _ _ _ _ Hdd Hsx Hms).
  rewrite (@normal_derivative_D L L _ _ _ _ _ _ _ _ Hdd Hn Hdx Hmd).
  cbn [ev]. rewrite (@ev_symS W L L _ _ _ _ _ _ _ Hs0).
  change (rmul W (ev W L L u) (rinv W (ev W L L (get_sqrt_weight (o_l2 o) (kdim (o_kernel o)) dd))))
    with (ev W L L (PCse (PDiv u (get_sqrt_weight (o_l2 o) (kdim (o_kernel o)) dd)))).
  rewrite ev_unweighted by auto. hereify L dd. fold g. fold U. fold v. fold ka.
  rewrite (HS (o_sign o) v Hs). rewrite (HD 1%Z (o_sign o)) by auto.
  assert (Eu : rmul W (sqrt_weight W o g) (signed W (o_sign o) (half W v)) = signed W (o_sign o) (half W U)).
  { unfold signed, half. rewrite <- (sqrt_weight_unweighted OK o g U). fold v. ring. }
  change (res_kargs L []) with (@nil (string * rkval)). rewrite <- Eu. ring.
Qed.

Theorem neumann_equation_is_boundary_condition (o : bvp_op) u b L kw e r x :
  let ka := res_kargs L (merged o kw) in
  (o_sign o = 1 \/ o_sign o = -1)%Z ->
  ~ In "dsource_vec" (map fst (merged o kw)) ->
  (o_improved o = false \/ o_l2 o = false \/ w_num W (o_alpha o) = r0 W) ->
  singleN_jump W ka (o_kernel o) L -> doubleN_continuous W ka (o_kernel o) L ->
  calderon W (kdim (o_kernel o)) L ->
  mean_term W o (neumann_null o) L (unweighted W o L (ev W L L u)) x ->
  neumann_operator o u DNone kw = Ok e ->
  neumann_representation o u (fun p => normal_derivative (kdim (o_kernel o)) p DNone) (LSide (o_sign o)) DNone DNone kw = Ok r ->
  (ev W L L e = ev W L L (bvp_prepare_rhs o b) <-> radd W (ev W L L r) x = ev W L L b).
Proof.
  cbv zeta. intros Hs Hn Hc HS HD HC Hx He Hr.
  rewrite (@neumann_operator_is_limit o u DNone L kw e r x Hs ltac:(discriminate) Hn Hc HS HD HC Hx He Hr).
  unfold bvp_prepare_rhs. cbn [ev]. rewrite (ev_sqrt_weight OK). hereify L DNone.
  change (here L DNone) with L. split.
  - apply (sqrt_weight_cancel OK).
  - intros ->. reflexivity.
Qed.

(** *** Weighting is a change of variable *)
Definition with_l2 (o : bvp_op) (b : bool) : bvp_op :=
  mk_bvp (o_kernel o) (o_sign o) (o_alpha o) (o_improved o) b (o_kargs o).

Lemma unweighted_false o g f : unweighted W (with_l2 o false) g f = f.
Proof. reflexivity. Qed.

(** The weights of L2 weighting: area element times quadrature weight, or one; the square-root
    weight squares to the weight. *)
Theorem bvp_weights l2 dim dd ds dt :
  let g := res_dd ds dt dd in
  ev W ds dt (get_weight l2 dim dd) = (if l2 then w_jacw W dim g else r1 W) /\
  ev W ds dt (get_sqrt_weight l2 dim dd) = (if l2 then w_sqrtw W dim g else r1 W) /\
  rmul W (ev W ds dt (get_sqrt_weight l2 dim dd)) (ev W ds dt (get_sqrt_weight l2 dim dd)) = ev W ds dt (get_weight l2 dim dd).
Proof.
  cbv zeta. unfold get_weight, get_sqrt_weight. destruct l2; cbn [ev pint].
  - split; [reflexivity|]. split; [reflexivity|]. apply (wo_sqrt OK).
  - rewrite (wo_int OK). cbn [of_Z of_pos]. split; [reflexivity|]. split; [reflexivity|]. ring.
Qed.

Theorem dirichlet_weighting (o : bvp_op) u dd L kw e e' :
  let w := PSqrtW (kdim (o_kernel o)) dd in
  ~ In "dsource_vec" (map fst (o_kargs o)) ->
  dirichlet_operator (with_l2 o true) u dd kw = Ok e ->
  dirichlet_operator (with_l2 o false) (PDiv u w) dd kw = Ok e' ->
  ev W L L e = rmul W (ev W L L w) (ev W L L e').
Proof.
  cbv zeta. intros Hn He He'. unfold dirichlet_operator in He, He'. cbv zeta in He, He'. cbn [o_l2 o_kernel o_kargs o_alpha o_sign with_l2 get_sqrt_weight] in He, He'.
  change (dir_unique_up_to_constant (with_l2 o false)) with (dir_unique_up_to_constant o) in He'.
  change (dir_unique_up_to_constant (with_l2 o true)) with (dir_unique_up_to_constant o) in He.
  apply bind_Ok in He. destruct He as (s1 & Hs1 & He). apply bind_Ok in He. destruct He as (d1 & Hd1 & He). injection He as <-.
  apply bind_Ok in He'. destruct He' as (s2 & Hs2 & He'). apply bind_Ok in He'. destruct He' as (d2 & Hd2 & He'). injection He' as <-.
  set (wx := PSqrtW (kdim (o_kernel o)) dd) in *.
  assert (Ev : ev W L L (PCse (PDiv (PDiv u wx) (pint 1))) = ev W L L (PCse (PDiv u wx))).
  { cbn [ev pint]. rewrite (wo_int OK). change (of_Z W 1) with (r1 W). rewrite (rinv_one OK). ring. }
  assert (Eone : ev W L L (if dir_unique_up_to_constant o then PMul (POnes dd) (pmean (kdim (o_kernel o)) (kdim (o_kernel o) - 1) (PCse (PDiv (PDiv u wx) (pint 1))) dd) else pint 0)
    = ev W L L (if dir_unique_up_to_constant o then PMul (POnes dd) (pmean (kdim (o_kernel o)) (kdim (o_kernel o) - 1) (PCse (PDiv u wx)) dd) else pint 0)).
  { destruct (dir_unique_up_to_constant o); auto. cbn [ev]. rewrite !ev_pmean, Ev. reflexivity. }
  cbn [ev] in Eone |- *. rewrite Eone.
  rewrite (@ev_symS W L L _ _ _ _ _ _ _ Hs1), (@ev_symS W L L _ _ _ _ _ _ _ Hs2), (@ev_symD W L L _ _ _ _ _ _ _ Hn Hd1), (@ev_symD W L L _ _ _ _ _ _ _ Hn Hd2), Ev.
  set (X := ev W L L (if dir_unique_up_to_constant o then _ else _)).
  assert (Ew : rmul W (ev W L L wx) (rinv W (ev W L L wx)) = r1 W) by apply (wo_sqrt_inv OK).
  cbn [pint prat ev]. rewrite !(wo_int OK). change (of_Z W 1) with (r1 W).
  set (c := rmul W (w_num W (NRat (-1) 2)) (of_Z W (o_sign o))).
  transitivity (radd W (rmul W c (rmul W (ev W L L u) (rmul W (ev W L L wx) (rinv W (ev W L L wx)))))
    (rmul W (ev W L L wx) (radd W (rsub W (rmul W (w_num W (o_alpha o)) (Single W (res_kargs L (o_kargs o)) (o_kernel o) (LSide 1)
                   (res_src L dd) (res_tgt L dd) (ev W L L (PCse (PDiv u wx)))))
         (Double W (res_kargs L (o_kargs o)) (o_kernel o) LAvg (res_src L dd) (res_tgt L dd) (ev W L L (PCse (PDiv u wx))))) X))).
  - rewrite Ew. cbn [ev]. ring.
  - cbn [ev]. ring.
Qed.
End C75.

(** *** When the operators can be built *)
Lemma nderiv_total k tds l s t ka a dd n : exists r, normal_derivative n (PLp k tds l s t ka a) dd = Ok r.
Proof. apply psumM_total. intros i Hi. simpl. eauto. Qed.

Theorem dirichlet_total (o : bvp_op) u dd l src tgt :
  args_match (o_kernel o) (o_kargs o) ->
  (exists e, dirichlet_operator o u dd [] = Ok e) /\
  (exists r, dirichlet_representation o u (fun x => Ok x) l src tgt [] = Ok r).
Proof.
  intros H. unfold dirichlet_operator, dirichlet_representation, merged. cbv zeta.
  rewrite !symS_total, !symD_total by auto. simpl. split; eexists; reflexivity.
Qed.

Lemma args_match_nil d : args_match (plain (KLaplace d)) [].
Proof. split; [constructor|]. split; [simpl; tauto|simpl; tauto]. Qed.

Theorem neumann_total (o : bvp_op) u dd l src tgt kw :
  args_match (o_kernel o) (merged o kw) ->
  (exists r, neumann_representation o u (fun x => Ok x) l src tgt kw = Ok r) /\
  (exists r, neumann_representation o u (fun p => normal_derivative (kdim (o_kernel o)) p dd) l src tgt kw = Ok r) /\
  ((exists e, neumann_operator o u dd kw = Ok e) <->
   o_improved o = false \/ (exists d, o_kernel o = plain (KLaplace d)) \/ (exists d n, o_kernel o = plain (KHelmholtz d n))).
Proof.
  intros H. pose proof (args_match_nil (kdim (o_kernel o))) as H0. split; [|split].
  - unfold neumann_representation. cbv zeta. rewrite (symS_total _ _ _ _ H0). cbn [bind].
    rewrite symS_total, symD_total by auto. simpl. eexists; reflexivity.
  - unfold neumann_representation. cbv zeta. rewrite (symS_total _ _ _ _ H0). cbn [bind].
    rewrite symS_total, symD_total by auto. cbn [bind].
    edestruct nderiv_total as (r1 & ->). edestruct nderiv_total as (r2 & ->). eexists; reflexivity.
  - unfold neumann_operator. cbv zeta. rewrite (symS_total _ _ _ _ H0). cbn [bind].
    assert (HSp : forall k d l s t ka, args_match k ka -> exists r, symSp k d l s t ka = Ok r).
    { intros k d l' s t ka Ha. unfold symSp. rewrite symS_total by auto. cbn [bind]. apply nderiv_total. }
    assert (HDp : forall k d l s t ka, args_match k ka -> exists r, symDp k d l s t ka = Ok r).
    { intros k d l' s t ka Ha. unfold symDp. rewrite symD_total by auto. cbn [bind]. apply nderiv_total. }
    unfold neumann_DpS0. cbv zeta. destruct (o_improved o) eqn:Ei.
    + edestruct HSp as (r1 & E1); [exact H0|]. rewrite E1. cbn [bind].
      edestruct HSp as (r2 & E2); [exact H0|]. rewrite E2. cbn [bind].
      destruct (is_helmholtz (o_kernel o)) eqn:Eh.
      * edestruct HDp as (r3 & E3); [exact H|]. rewrite E3. cbn [bind].
        edestruct HDp as (r4 & E4); [exact H0|]. rewrite E4. cbn [bind].
        edestruct HSp as (r5 & E5); [exact H|]. rewrite E5. cbn [bind].
        split; [intros _|eauto]. right; right. unfold is_helmholtz in Eh. destruct (o_kernel o) as [b ds]; simpl in *.
        destruct b, ds; try discriminate. eexists _, _; reflexivity.
      * destruct (is_laplace (o_kernel o)) eqn:El.
        -- cbn [bind]. edestruct HSp as (r5 & E5); [exact H|]. rewrite E5. cbn [bind].
           split; [intros _|eauto]. right; left. apply is_laplace_iff; auto.
        -- cbn [bind]. split; [intros (e & He); discriminate|]. intros [Hc|[Hc|Hc]]; [discriminate| |].
           ++ apply is_laplace_iff in Hc. congruence.
           ++ destruct Hc as (d & n & Hc). rewrite Hc in Eh. discriminate.
    + edestruct HDp as (r3 & E3); [exact H|]. rewrite E3. cbn [bind].
      edestruct HSp as (r5 & E5); [exact H|]. rewrite E5. cbn [bind]. split; [auto|eauto].
Qed.

Print Assumptions bvp_constructor.
Print Assumptions dirichlet_representation_formula.
Print Assumptions neumann_representation_formula.
Print Assumptions dirichlet_operator_is_limit.
Print Assumptions dirichlet_equation_is_boundary_condition.
Print Assumptions neumann_operator_is_limit.
Print Assumptions neumann_equation_is_boundary_condition.
Print Assumptions bvp_weights.
Print Assumptions dirichlet_weighting.
Print Assumptions dirichlet_total.
Print Assumptions neumann_total.
