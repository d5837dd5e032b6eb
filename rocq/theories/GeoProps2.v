(** C80, C81 continued. *)
From Coq Require Import Reals Lra Psatz Nsatz.
From Verif Require Import Base DofModel GeoModel GeoSpec GeoProofs GeoProofs2 GeoProofs3 GeoProofs4 GeoProofs5 GeoProofs6 GeoProps.
Set Implicit Arguments.
Open Scope R_scope.

(** *** Vertex ordering *)
Lemma op_norm_orth m n A O O' s :
  (forall v, dot m (O v) (O v) = dot m v v) -> (forall v, dot m (O' v) (O' v) = dot m v v) ->
  (forall v, dot n (A (O (O' v))) (A (O (O' v))) = dot n (A v) (A v)) ->
  op_norm m n A s -> op_norm m n (fun v => A (O v)) s.
Proof.
  intros H1 H2 H3 [P0 [P1 [v [P2 P3]]]]. split; [exact P0|]. split.
  - intros w. rewrite <- (H1 w). apply P1.
  - exists (O' v). rewrite H2, H3. auto.
Qed.

Definition mat2 (o : nat -> nat -> R) (v : nat -> R) (i : nat) : R := o i 0%nat * v 0%nat + o i 1%nat * v 1%nat.
(** The renumbering in equilateral coordinates. *)
Definition orth_of (P : nat -> nat -> R) (i j : nat) : R :=
  match i, j with
  | 0%nat, 0%nat => P 0%nat 0%nat + P 1%nat 0%nat / 2
  | 0%nat, _ => (- P 0%nat 0%nat + 2 * P 0%nat 1%nat + (- P 1%nat 0%nat + 2 * P 1%nat 1%nat) / 2) * sqrt 3 / 3
  | _, 0%nat => sqrt 3 / 2 * P 1%nat 0%nat
  | _, _ => (- P 1%nat 0%nat + 2 * P 1%nat 1%nat) / 2
  end.
Definition transp (o : nat -> nat -> R) (i j : nat) : R := o j i.

Lemma inv_sqrt3 : / sqrt 3 = sqrt 3 / 3.
Proof.
  assert (S : sqrt 3 * sqrt 3 = 3) by (apply sqrt_sqrt; lra). assert (P : 0 < sqrt 3) by (apply sqrt_lt_R0; lra).
  apply Rmult_eq_reg_r with (sqrt 3); [|lra]. rewrite Rinv_l by lra. replace (sqrt 3 / 3 * sqrt 3) with (sqrt 3 * sqrt 3 / 3) by (unfold Rdiv; ring). rewrite S. field.
Qed.

Lemma renumber_matrix s P : renumbers s P ->
  let o := orth_of P in
  (forall v, dot 2 (mat2 o v) (mat2 o v) = dot 2 v v)
  /\ (forall v, dot 2 (mat2 (transp o) v) (mat2 (transp o) v) = dot 2 v v)
  /\ (forall v i, (i < 2)%nat -> mat2 o (mat2 (transp o) v) i = v i)
  /\ (forall v j, (j < 2)%nat -> equi 2 (mat2 o v) j = P j 0%nat * equi 2 v 0 + P j 1%nat * equi 2 v 1).
Proof.
  intros (B & I & H) o.
  pose proof (H 1%nat 0%nat ltac:(lia) ltac:(lia)) as E00. pose proof (H 1%nat 1%nat ltac:(lia) ltac:(lia)) as E10.
  pose proof (H 2%nat 0%nat ltac:(lia) ltac:(lia)) as E01. pose proof (H 2%nat 1%nat ltac:(lia) ltac:(lia)) as E11. clear H.
  pose proof (B 0%nat ltac:(lia)) as B0. pose proof (B 1%nat ltac:(lia)) as B1. pose proof (B 2%nat ltac:(lia)) as B2. clear B.
  pose proof (I 0%nat 1%nat ltac:(lia) ltac:(lia)) as I01. pose proof (I 0%nat 2%nat ltac:(lia) ltac:(lia)) as I02.
  pose proof (I 1%nat 2%nat ltac:(lia) ltac:(lia)) as I12. clear I.
  assert (S : sqrt 3 * sqrt 3 = 3) by (apply sqrt_sqrt; lra).
  unfold o, mat2, orth_of, transp, dot, equi, Rdiv. rewrite inv_sqrt3. unfold Rdiv. clear o.
  revert S. generalize (sqrt 3). intros r S.
  assert (D : exists p00 p01 p10 p11, P 0%nat 0%nat = p00 /\ P 0%nat 1%nat = p01 /\ P 1%nat 0%nat = p10 /\ P 1%nat 1%nat = p11) by eauto 10.
  destruct D as (p00 & p01 & p10 & p11 & Q00 & Q01 & Q10 & Q11).
  cbn [sumR] in E00, E10, E01, E11. cbn [sumR]. rewrite Q00, Q01, Q10, Q11 in *.
  assert (F00 : p00 = (tri_vertex (s 1%nat) 0 - tri_vertex (s 0%nat) 0) / 2) by (cbn [tri_vertex] in E00; lra).
  assert (F10 : p10 = (tri_vertex (s 1%nat) 1 - tri_vertex (s 0%nat) 1) / 2) by (cbn [tri_vertex] in E10; lra).
  assert (F01 : p01 = (tri_vertex (s 2%nat) 0 - tri_vertex (s 0%nat) 0) / 2) by (cbn [tri_vertex] in E01; lra).
  assert (F11 : p11 = (tri_vertex (s 2%nat) 1 - tri_vertex (s 0%nat) 1) / 2) by (cbn [tri_vertex] in E11; lra).
  clear E00 E10 E01 E11.
  assert (X : forall v : nat -> R, exists x y, v 0%nat = x /\ v 1%nat = y) by eauto.
  assert (G : forall v j, (j < 2)%nat -> P j 0%nat * v 0%nat + P j 1%nat * v 1%nat = match j with 0%nat => p00 * v 0%nat + p01 * v 1%nat | _ => p10 * v 0%nat + p11 * v 1%nat end)
    by (intros v [|[|j]] Hj; [rewrite Q00, Q01|rewrite Q10, Q11|lia]; reflexivity).
  split; [|split; [|split]].
  1, 2: intros v; generalize (v 0%nat) (v 1%nat); intros x y; clear X G.
  3, 4: intros v [|[|i]] Hi; try lia; generalize (v 0%nat) (v 1%nat); intros x y; clear X G.
  all: try rewrite Q00; try rewrite Q01; try rewrite Q10; try rewrite Q11; clear Q00 Q01 Q10 Q11 P.
  all: destruct (s 0%nat) as [|[|[|]]]; destruct (s 1%nat) as [|[|[|]]]; destruct (s 2%nat) as [|[|[|]]]; try lia; cbn [tri_vertex] in F00, F10, F01, F11; subst p00 p01 p10 p11; clear - S.
  all: try (match goal with S : ?r * ?r = 3 |- _ => ring_simplify; replace (r ^ 2) with 3 by (rewrite <- S; ring) end); try field; try lra.
Qed.

(** The stretch factor of a triangle does not depend on the order of its corners. *)
Theorem stretch_vertex_order_invariant adim o dd d W W' s P k e :
  (0 < adim)%nat -> dim_is adim o 2 -> as_dofdesc dd = Ok d ->
  w_shape W d = Simplex -> w_shape W' d = Simplex -> renumbers s P ->
  (forall j a, (j < 2)%nat -> (a < adim)%nat -> tangent W' d k j a = sumR 2 (fun l => tangent W d k l a * P l j)) ->
  mapping_max_stretch adim o dd = Ok e -> gev W' e k = gev W e k.
Proof.
  intros A Ho Hd S1 S2 Hs HT Ee.
  destruct (stretch_factor_is_operator_norm dd W k A (or_intror eq_refl) Ho Hd) as [e1 [E1 [V1 _]]].
  destruct (stretch_factor_is_operator_norm dd W' k A (or_intror eq_refl) Ho Hd) as [e2 [E2 [V2 _]]].
  rewrite Ee in E1, E2. injection E1 as <-. injection E2 as <-.
  specialize (V1 ltac:(congruence)). specialize (V2 ltac:(congruence)).
  destruct (renumber_matrix Hs) as (O1 & O2 & O3 & O4).
  eapply is_stretch_unique; [exact V2|]. unfold is_stretch in V1 |- *. rewrite S1 in V1. rewrite S2.
  eapply op_norm_ext; [|apply (@op_norm_orth 2 adim (fun v => jac2 W 2 d k (equi 2 v)) (mat2 (orth_of P)) (mat2 (transp (orth_of P))));
    [exact O1|exact O2| |exact V1]].
  - intros v. apply dot_ext; intros a Ha; unfold jac2; cbn [sumR]; rewrite !HT by (assumption || lia); cbn [sumR];
      rewrite !O4 by lia; ring.
  - intros v. apply dot_ext; intros a Ha; unfold jac2; cbn [sumR equi]; rewrite !O3 by lia; reflexivity.
Qed.
Print Assumptions stretch_vertex_order_invariant.

Example cyclic_renumbering : renumbers (fun i => match i with 0 => 1 | 1 => 2 | _ => 0 end)%nat
  (fun i j => match i, j with 0%nat, _ => -1 | 1%nat, 0%nat => 1 | _, _ => 0 end).
Proof.
  split; [intros [|[|[|]]]; lia|]. split; [intros [|[|[|]]] [|[|[|]]]; lia|].
  intros [|[|[|i]]] [|[|c]] Hi Hc; try lia; cbn [sumR tri_vertex]; lra.
Qed.

(** *** Tangential bases *)
Theorem tangential_basis_orthonormal adim dim o dd d W k :
  (0 < adim)%nat -> dim_is adim o dim -> as_dofdesc dd = Ok d -> independent adim dim (tangent W d k) ->
  exists t, tangential_onb adim o dd = Ok t /\ length t = dim
    /\ (forall b, In b t -> length b = adim)
    /\ orthonormal adim dim (fun i => vat W (nth i t []) k)
    /\ forall j, (j < dim)%nat ->
         in_span adim (S j) (tangent W d k) (vat W (nth j t []) k)
         /\ in_span adim (S j) (fun i => vat W (nth i t []) k) (tangent W d k j).
Proof.
  intros A Ho Hd I. destruct (onb_ok dd A Ho Hd I) as [t [Et [Lt (I1 & I2 & I3 & I4)]]].
  exists t. split; [exact Et|]. split; [exact Lt|]. split; [exact I1|]. rewrite Lt in *. split; [exact I2|].
  assert (cut : forall n j c (f : nat -> nat -> R) a, (j < n)%nat -> (forall l, (j < l)%nat -> c l = 0) ->
    sumR n (fun l => c l * f l a) = sumR (S j) (fun l => c l * f l a)).
  { induction n as [|n IH]; intros j c f a L Z; [lia|]. destruct (Nat.eq_dec j n) as [->|N]; [reflexivity|].
    cbn [sumR]. rewrite (Z n) by lia. rewrite (IH j) by (assumption || lia). cbn [sumR]. ring. }
  intros j Hj. split.
  - destruct (I3 j Hj) as [c [Z E]]. exists c. intros a Ha. rewrite (E a Ha). apply cut; assumption.
  - destruct (I4 j Hj) as [c [Z E]]. exists c. intros a Ha. rewrite (E a Ha).
    rewrite (@cut dim j c (fun l => vat W (nth l t []) k)) by assumption. reflexivity.
Qed.
Print Assumptions tangential_basis_orthonormal.

(** [project_to_tangential] is the orthogonal projection onto the tangent space. *)
Theorem tangential_projection_is_orthogonal adim dd d v W k :
  (2 <= adim)%nat -> length v = adim -> as_dofdesc dd = Ok d -> independent adim (adim - 1) (tangent W d k) ->
  exists p, project_to_tangential v dd = Ok p /\ length p = adim
    /\ in_span adim (adim - 1) (tangent W d k) (vat W p k)
    /\ forall j, (j < adim - 1)%nat -> dot adim (fun a => vat W v k a - vat W p k a) (tangent W d k j) = 0.
Proof.
  intros A L Hd I. destruct (@project_ok adim dd d v W k A L Hd I) as (t & p & Et & Lt & It & _ & Ep & Lp & Vp).
  exists p. split; [exact Ep|]. split; [exact Lp|]. destruct (project_orth _ _ It Lt Vp) as [Q1 Q2]. auto.
Qed.
Print Assumptions tangential_projection_is_orthogonal.

(** The components [xyz_to_tangential] gives are those in the basis [tangential_onb]
    and [tangential_to_xyz] puts the vector together again. *)
Theorem tangential_components adim dd d v W k :
  (2 <= adim)%nat -> length v = adim -> as_dofdesc dd = Ok d -> independent adim (adim - 1) (tangent W d k) ->
  exists t u, tangential_onb adim None dd = Ok t /\ xyz_to_tangential v dd = Ok u /\ length u = (adim - 1)%nat
    /\ forall i, (i < adim - 1)%nat -> vat W u k i = dot adim (vat W (nth i t []) k) (vat W v k).
Proof.
  intros A L Hd I. destruct (@project_ok adim dd d v W k A L Hd I) as (t & p & Et & Lt & It & [u (Eu & Lu & Vu)] & _).
  exists t, u. auto.
Qed.
Print Assumptions tangential_components.

(** For curves in the plane and surfaces in space it removes the normal component. *)
Theorem tangential_projection_removes_normal adim dim dd d v W k n :
  hypersurface adim dim -> length v = adim -> as_dofdesc dd = Ok d -> gram_det W adim dim d k <> 0 ->
  unit_normal W adim dim d k n ->
  exists p, project_to_tangential v dd = Ok p
    /\ forall a, (a < adim)%nat -> vat W p k a = vat W v k a - dot adim n (vat W v k) * n a.
Proof.
  intros H L Hd N Hn. assert (D : (adim - 1 = dim)%nat) by (hs H; reflexivity).
  assert (A2 : (2 <= adim)%nat) by (hs H; lia).
  destruct (@tangential_projection_is_orthogonal adim dd d v W k A2 L Hd) as [p [Ep [Lp [Sp Op]]]].
  { rewrite D. apply hyper_indep; assumption. }
  exists p. split; [exact Ep|]. rewrite D in *.
  pose proof (unit_normal_unique H N Hn) as En. destruct Hn as (U1 & U2 & U3).
  assert (Pn : dot adim (vat W p k) n = 0).
  { destruct Sp as [c Ec]. rewrite (@dot_ext adim _ n (fun a => sumR dim (fun l => c l * tangent W d k l a)) n) by auto.
    rewrite dot_sum. rewrite (@sumR_ext dim _ (fun _ => 0)); [apply sumR_zero|].
    intros l Hl. rewrite dot_comm, U2 by exact Hl. ring. }
  set (c := dot adim n (vat W v k)).
  assert (Z : forall a, (a < adim)%nat -> (vat W v k a - vat W p k a) + (- c) * n a = 0).
  { apply (@hyper_complete adim dim W d k _ H N).
    - intros j Hj. rewrite dot_lin, Op, U2 by exact Hj. ring.
    - rewrite (@dot_ext adim (fun a => vat W v k a - vat W p k a + - c * n a) (ncomp adim dim W d k) (fun a => vat W v k a - vat W p k a + - c * n a) n) by (auto; intros; symmetry; auto).
      rewrite dot_lin, U1. rewrite (@dot_ext adim (fun a => vat W v k a - vat W p k a) n (fun a => vat W v k a + (-1) * vat W p k a) n) by (intros; ring || reflexivity).
      rewrite dot_lin, Pn, dot_comm. fold c. ring. }
  intros a Ha. specialize (Z a Ha). lra.
Qed.
Print Assumptions tangential_projection_removes_normal.

(** *** Cross products *)
Theorem cross_product_meaning a b :
  (length a = 3%nat /\ length b = 3%nat ->
     exists c, cross a b = Ok c /\ length c = 3%nat
       /\ forall W k w, dot 3 w (vat W c k) = det3 w (vat W a k) (vat W b k))
  /\ (~ (length a = 3 /\ length b = 3)%nat -> cross a b = Err AssertionError).
Proof.
  split.
  - intros [La Lb]. destruct (cross_ok _ _ La Lb) as [c [Ec [Lc Vc]]]. exists c. split; [exact Ec|]. split; [exact Lc|].
    intros W k w. unfold dot. cbn [sumR]. rewrite !Vc by lia. unfold crossR, det3. ring.
  - intros N. unfold cross. destruct (Nat.eqb_spec (length a) 3), (Nat.eqb_spec (length b) 3); cbn; tauto.
Qed.
Print Assumptions cross_product_meaning.

(** n x (n x v) is minus the tangential part. *)
Theorem n_cross_twice v dd d W k n :
  length v = 3%nat -> as_dofdesc dd = Ok d -> gram_det W 3 2 d k <> 0 -> unit_normal W 3 2 d k n ->
  exists u w, n_cross v dd = Ok u /\ n_cross u dd = Ok w
    /\ (forall x, dot 3 x (vat W u k) = det3 x n (vat W v k))
    /\ forall a, (a < 3)%nat -> vat W w k a = - (vat W v k a - dot 3 n (vat W v k) * n a).
Proof.
  intros L Hd N Hn. assert (H : hypersurface 3 2) by (right; auto).
  pose proof (unit_normal_unique H N Hn) as En.
  destruct (normal_ev dd H (or_intror (conj eq_refl eq_refl)) Hd) as [m [Em [Lm Vm]]].
  unfold n_cross. rewrite Em. cbn [bind].
  destruct (cross_ok _ _ Lm L) as [u [Eu [Lu Vu]]]. destruct (cross_ok _ _ Lm Lu) as [w [Ew [Lw Vw]]].
  assert (Mn : forall a, (a < 3)%nat -> vat W m k a = n a) by (intros; rewrite Vm, En by assumption; reflexivity).
  exists u, w. split; [exact Eu|]. split; [exact Ew|]. split.
  - intros x. unfold dot. cbn [sumR]. rewrite !Vu by lia. unfold crossR, det3. rewrite !Mn by lia. ring.
  - destruct Hn as (U1 & _ & _). intros a Ha. rewrite Vw by exact Ha.
    unfold dot in U1 |- *. cbn [sumR] in U1 |- *.
    destruct a as [|[|[|a]]]; [| | |lia]; unfold crossR; rewrite !Vu by lia; unfold crossR; rewrite !Mn by lia.
    all: generalize dependent (n 0%nat); intros n0; generalize dependent (n 1%nat); intros n1; generalize dependent (n 2%nat); intros n2.
    all: generalize (vat W v k 0) (vat W v k 1) (vat W v k 2); clear; intros; nsatz.
Qed.
Print Assumptions n_cross_twice.

(** *** Surface integrals *)
Theorem integral_is_quadrature adim dim e dd d W :
  hypersurface adim dim -> as_dofdesc dd = Ok d ->
  exists i, integral adim dim e dd = Ok i /\ forall k, gev W i k = quadrature W adim dim d (gev W e).
Proof.
  intros H Hd. unfold integral. rewrite Hd. cbn [bind].
  destruct (@area_ev adim dim (Some dim) (LDesc d) d W 0 H (or_introl eq_refl) eq_refl) as [a [Ea [Na _]]].
  rewrite Ea. cbn [bind]. eexists; split; [reflexivity|]. intros k. cbn [gev]. unfold quadrature, glen. cbn [gn omax]. rewrite Na. cbn [omax].
  apply sumR_ext. intros i _.
  destruct (@area_ev adim dim (Some dim) (LDesc d) d W i H (or_introl eq_refl) eq_refl) as [a' [Ea' [_ Va]]].
  rewrite Ea in Ea'. injection Ea' as <-. rewrite Va. reflexivity.
Qed.
Print Assumptions integral_is_quadrature.

Theorem area_is_quadrature_of_one adim dim dd d W :
  hypersurface adim dim -> as_dofdesc dd = Ok d ->
  exists i, area adim dim dd = Ok i /\ forall k, gev W i k = quadrature W adim dim d (fun _ => 1).
Proof.
  intros H Hd. unfold area. rewrite Hd. cbn [bind].
  destruct (@integral_is_quadrature adim dim (GOnes d) (LDesc d) d W H eq_refl) as [i [Ei Vi]]. rewrite Ei. cbn [bind].
  eexists; split; [reflexivity|]. intros k. unfold cse. cbn [gev]. apply (Vi k).
Qed.
Print Assumptions area_is_quadrature_of_one.

Theorem mean_is_average adim dim e dd d W :
  hypersurface adim dim -> as_dofdesc dd = Ok d -> quadrature W adim dim d (fun _ => 1) <> 0 ->
  exists m, mean adim dim e dd = Ok m
    /\ (forall k, gev W m k * quadrature W adim dim d (fun _ => 1) = quadrature W adim dim d (gev W e))
    /\ forall c, (forall k, gev W e k = c) -> forall k, gev W m k = c.
Proof.
  intros H Hd Nz. unfold mean. destruct (@integral_is_quadrature adim dim e dd d W H Hd) as [i [Ei Vi]].
  destruct (@area_is_quadrature_of_one adim dim dd d W H Hd) as [a [Ea Va]]. rewrite Ei, Ea. cbn [bind].
  eexists; split; [reflexivity|]. cbn [gev]. split.
  - intros k. rewrite Vi, Va. field. exact Nz.
  - intros c Hc k. rewrite Vi, Va. apply Rmult_eq_reg_r with (quadrature W adim dim d (fun _ => 1)); [|exact Nz].
    unfold Rdiv. rewrite Rmult_assoc, Rinv_l, Rmult_1_r by exact Nz. unfold quadrature. rewrite <- sumR_scal.
    apply sumR_ext. intros j _. rewrite Hc. ring.
Qed.
Print Assumptions mean_is_average.
