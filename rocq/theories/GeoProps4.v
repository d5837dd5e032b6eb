(** C80, C81 continued: a quadratic surface element and a quadratic curve on which
    the hypotheses hold, and what [_max_curvature] gives there. *)
From Coq Require Import Reals Lra Psatz Sorted.
From Verif Require Import Base DofModel DofProps GeoModel GeoSpec GeoProofs GeoProofs2 GeoProofs3 GeoProofs4 GeoProofs5 GeoProofs6 GeoProps GeoProps2 GeoProps3.
Set Implicit Arguments.
Open Scope R_scope.

(** Six-node quadratic triangle with reference nodes (u,v) and the exact derivatives
    at node 0 of the interpolating polynomial. *)
Definition nu (k : nat) : R := nth k [0; 1; 2; 0; 0; 1] 0.
Definition nv (k : nat) : R := nth k [0; 0; 0; 1; 2; 1] 0.
Definition p2_der (ax : list (Z * Z)) (f : nat -> R) : R :=
  match ax with
  | [(0, 1)]%Z => (- 3 * f 0%nat + 4 * f 1%nat - f 2%nat) / 2
  | [(1, 1)]%Z => (- 3 * f 0%nat + 4 * f 3%nat - f 4%nat) / 2
  | [(0, 2)]%Z => f 0%nat - 2 * f 1%nat + f 2%nat
  | [(1, 2)]%Z => f 0%nat - 2 * f 3%nat + f 4%nat
  | [(0, 1); (1, 1)]%Z => f 0%nat - f 1%nat - f 3%nat + f 5%nat
  | _ => 0
  end.
(** The functional is exact: it gives the derivatives of every quadratic polynomial. *)
Example p2_der_exact a b c p q r :
  let f k := a + b * nu k + c * nv k + p * (nu k) ^ 2 + q * nu k * nv k + r * (nv k) ^ 2 in
  p2_der [(0, 1)]%Z f = b /\ p2_der [(1, 1)]%Z f = c /\ p2_der [(0, 2)]%Z f = 2 * p
  /\ p2_der [(0, 1); (1, 1)]%Z f = q /\ p2_der [(1, 2)]%Z f = 2 * r.
Proof. cbn [p2_der nu nv nth]. repeat split; field. Qed.

(** The parabolic cylinder z = - x^2 / 2, parametrized by x = u + c v, y = v. *)
Definition cylinder (sh : shape) (c : R) : world :=
  mk_world (fun _ => 6%nat)
    (fun _ a k => match a with
                  | 0%nat => nu k + c * nv k
                  | 1%nat => nv k
                  | _ => - (nu k + c * nv k) ^ 2 / 2
                  end)
    (fun _ ax f _ => p2_der ax f) (fun _ _ => 1) (fun _ _ => 0) (fun _ _ f => f) (fun _ f => f) (fun _ => sh).

Definition up (a : nat) : R := match a with 2%nat => 1 | _ => 0 end.

Ltac cyl := unfold gram_det, unit_normal, volume, det3, gram, II, hess, second, tangent, dot, cylinder, up;
  cbn [sumR w_der w_coord p2_der nu nv nth Z.of_nat Pos.of_succ_nat Pos.succ].

Lemma cyl_tangent sh c d : forall j a, (j < 2)%nat -> (a < 3)%nat ->
  tangent (cylinder sh c) d 0 j a
  = match j, a with 0%nat, 0%nat => 1 | 1%nat, 0%nat => c | 1%nat, 1%nat => 1 | _, _ => 0 end.
Proof. intros [|[|j]] [|[|[|a]]] Hj Ha; try lia; cyl; field. Qed.
Lemma cyl_hess sh c d : forall i j a, (i < 2)%nat -> (j < 2)%nat -> (a < 3)%nat ->
  hess (cylinder sh c) 3 d 0 i j a
  = match a with 2%nat => - (match i with 0%nat => 1 | _ => c end) * (match j with 0%nat => 1 | _ => c end) | _ => 0 end.
Proof. intros [|[|i]] [|[|j]] [|[|[|a]]] Hi Hj Ha; try lia; cyl; field. Qed.
Lemma cyl_gram sh c d : forall i j, (i < 2)%nat -> (j < 2)%nat -> gram (cylinder sh c) 3 d 0 i j
  = match i, j with 0%nat, 0%nat => 1 | 1%nat, 1%nat => 1 + c * c | _, _ => c end.
Proof. intros [|[|i]] [|[|j]] Hi Hj; try lia; unfold gram, dot; cbn [sumR]; rewrite !cyl_tangent by lia; ring. Qed.
Lemma cyl_II sh c d : forall i j, (i < 2)%nat -> (j < 2)%nat -> II (cylinder sh c) d 0 up i j
  = - (match i with 0%nat => 1 | _ => c end) * (match j with 0%nat => 1 | _ => c end).
Proof. intros i j Hi Hj; unfold II, dot; cbn [sumR]; rewrite !cyl_hess by lia; unfold up; ring. Qed.

(** The hypotheses of the theorems hold at node 0. *)
Example cylinder_regular sh c d : gram_det (cylinder sh c) 3 2 d 0 <> 0 /\ unit_normal (cylinder sh c) 3 2 d 0 up.
Proof.
  split.
  - unfold gram_det. rewrite !cyl_gram by lia. lra.
  - split; [unfold dot, up; cbn [sumR]; lra|]. split.
    + intros j Hj. unfold dot. cbn [sumR]. rewrite !cyl_tangent by lia. unfold up. destruct j as [|[|j]]; [lra|lra|lia].
    + unfold volume, det3. rewrite !cyl_tangent by lia. unfold up. lra.
Qed.
Example cylinder_gram_inverse sh c d : gram_inverse (cylinder sh c) 3 2 d 0
  (fun i j => match i, j with 0%nat, 0%nat => 1 + c * c | 1%nat, 1%nat => 1 | _, _ => - c end).
Proof. intros [|[|i]] [|[|l]] Hi Hl; try lia; cbn [sumR Nat.eqb]; rewrite !cyl_gram by lia; ring. Qed.
Example cylinder_independent sh c d : independent 3 2 (tangent (cylinder sh c) d 0).
Proof. apply hyper_indep; [right; auto|]. apply cylinder_regular. Qed.
Example cylinder_area_positive sh c d : quadrature (cylinder sh c) 3 2 d (fun _ => 1) <> 0.
Proof.
  assert (G : forall k, gram_det (cylinder sh c) 3 2 d k = gram_det (cylinder sh c) 3 2 d 0) by reflexivity.
  assert (V : gram_det (cylinder sh c) 3 2 d 0 = 1) by (unfold gram_det; rewrite !cyl_gram by lia; ring).
  unfold quadrature. cbn [cylinder w_n w_qw]. cbn [sumR]. rewrite (G 1%nat), (G 2%nat), (G 3%nat), (G 4%nat), (G 5%nat), V, sqrt_1. lra.
Qed.

(** Whatever the parametrization, the curvatures are 0 and -1, the largest is 1 in
    absolute value, and the mean curvature the code computes is 1/2. *)
Lemma cylinder_principal sh c d y : principal (cylinder sh c) d 0 up y <-> y = 0 \/ y = -1.
Proof.
  unfold principal. rewrite !cyl_gram, !cyl_II by lia. split.
  - intros E. assert (Z : y * (y + 1) = 0) by (rewrite <- E; ring). apply Rmult_integral in Z. lra.
  - intros [-> | ->]; ring.
Qed.
Lemma cylinder_max sh c d : is_max_curvature (cylinder sh c) d 0 up 1.
Proof.
  split.
  - exists (-1). split; [apply cylinder_principal; auto|]. rewrite Rabs_left by lra. lra.
  - intros y Hy. apply cylinder_principal in Hy. destruct Hy as [-> | ->]; [rewrite Rabs_R0; lra|rewrite Rabs_left; lra].
Qed.
Lemma is_max_unique W d k n x y : is_max_curvature W d k n x -> is_max_curvature W d k n y -> x = y.
Proof. intros [[u [U1 U2]] U] [[v [V1 V2]] V]. specialize (U v V1). specialize (V u U1). lra. Qed.
Example cylinder_mean sh c dd d : as_dofdesc dd = Ok d -> exists e, mean_curvature 3 None dd = Ok e /\ gev (cylinder sh c) e 0 = 1 / 2.
Proof.
  intros Hd. destruct (cylinder_regular sh c d) as [N U].
  destruct (mean_curvature_is_trace dd (or_intror (conj eq_refl eq_refl)) (or_intror (conj eq_refl eq_refl) : dim_is 3 None 2) Hd N (@cylinder_gram_inverse sh c d) U) as [e [Ee Ve]].
  exists e. split; [exact Ee|]. rewrite Ve. unfold trace_II. cbn [sumR].
  change (dot 3 (hess (cylinder sh c) 3 d 0 0 0) up) with (II (cylinder sh c) d 0 up 0 0).
  change (dot 3 (hess (cylinder sh c) 3 d 0 0 1) up) with (II (cylinder sh c) d 0 up 0 1).
  change (dot 3 (hess (cylinder sh c) 3 d 0 1 0) up) with (II (cylinder sh c) d 0 up 1 0).
  change (dot 3 (hess (cylinder sh c) 3 d 0 1 1) up) with (II (cylinder sh c) d 0 up 1 1).
  rewrite !cyl_II by lia. cbn [INR]. field.
Qed.

(** With c = 0 the partial theorem applies and the code gives 1. *)
Example cylinder_straight sh dd d : as_dofdesc dd = Ok d -> exists e, max_curvature 3 None dd = Ok e /\ gev (cylinder sh 0) e 0 = 1.
Proof.
  intros Hd. destruct (cylinder_regular sh 0 d) as [N U].
  destruct (@surface_max_curvature_partial None dd d (cylinder sh 0) 0 up
     (fun i j => match i, j with 0%nat, 0%nat => -1 | _, _ => 0 end) (or_intror (conj eq_refl eq_refl)) Hd N U eq_refl) as [e [Ee Ve]].
  { intros [|[|i]] [|[|l]] Hi Hl; try lia; cbn [sumR]; rewrite !cyl_gram, !cyl_II by lia; ring. }
  exists e. split; [exact Ee|]. eapply is_max_unique; [exact Ve|apply cylinder_max].
Qed.

(** With c = 1 the same surface gets (1 + sqrt 5) / 2: the eigenvalue formula for
    symmetric matrices is applied to the shape operator's matrix, which is not
    symmetric. *)
Theorem surface_max_curvature_refuted sh dd d : as_dofdesc dd = Ok d ->
  exists e, max_curvature 3 None dd = Ok e
    /\ gev (cylinder sh 1) e 0 = (1 + sqrt 5) / 2
    /\ is_max_curvature (cylinder sh 1) d 0 up 1
    /\ ~ is_max_curvature (cylinder sh 1) d 0 up (gev (cylinder sh 1) e 0).
Proof.
  intros Hd. destruct (cylinder_regular sh 1 d) as [N U].
  unfold max_curvature. cbn [Nat.eqb odim Nat.sub].
  destruct (shop_ok dd (or_introl eq_refl : dim_is 3 (Some 2%nat) 2) Hd) as [m [Em [Sm Vm]]].
  rewrite Em. cbn [bind]. unfold small_sym_mat_eigenvalues. rewrite Sm. cbn [Nat.eqb negb bind eig2 map].
  eexists; split; [reflexivity|].
  assert (S : forall i j, (i < 2)%nat -> (j < 2)%nat -> mat (cylinder sh 1) m 0 i j = match i with 0%nat => -1 | _ => 0 end).
  { intros i j Hi Hj. rewrite Vm by assumption. unfold shop.
    pose proof (unit_normal_unique (or_intror (conj eq_refl eq_refl)) N U) as Eu.
    rewrite <- !(@II_ncomp (cylinder sh 1) d 0 up) by (assumption || lia).
    rewrite !cyl_gram, !cyl_II by lia. destruct i as [|[|i]]; [| |lia]; (destruct j as [|[|j]]; [| |lia]); field. }
  match goal with |- ?v = _ /\ _ => assert (Vv : v = (1 + sqrt 5) / 2) end.
  { unfold cse_eval, gz. cbn [gev map fold_left].
    change (gev (cylinder sh 1) (gat m 0 0) 0) with (mat (cylinder sh 1) m 0 0 0).
    change (gev (cylinder sh 1) (gat m 0 1) 0) with (mat (cylinder sh 1) m 0 0 1).
    change (gev (cylinder sh 1) (gat m 1 1) 0) with (mat (cylinder sh 1) m 0 1 1).
    rewrite !S by lia. replace (4 / 1 * (-1) ^ 2 + (-1 - 0) ^ 2) with 5 by field. replace (2 / 1) with 2 by field.
    assert (P : sqrt 5 * sqrt 5 = 5) by (apply sqrt_sqrt; lra). assert (P0 : 0 <= sqrt 5) by apply sqrt_pos.
    assert (P1 : 1 < sqrt 5) by nra.
    rewrite (Rabs_left ((-1 + 0 - sqrt 5) / 2)) by lra. rewrite (Rabs_right ((-1 + 0 + sqrt 5) / 2)) by lra.
    rewrite Rmax_left by lra. field. }
  split; [exact Vv|]. split; [apply cylinder_max|]. rewrite Vv. intros M.
  pose proof (is_max_unique M (@cylinder_max sh 1 d)) as E.
  assert (P : sqrt 5 * sqrt 5 = 5) by (apply sqrt_sqrt; lra). assert (Q : sqrt 5 = 1) by lra. rewrite Q in P. lra.
Qed.
Print Assumptions surface_max_curvature_refuted.

(** The value is not a property of the surface: two parametrizations of the same
    surface, with the same stretch of the normal and the same point, disagree. *)
Theorem max_curvature_parametrization_invariance_refuted sh dd d : as_dofdesc dd = Ok d ->
  exists e, max_curvature 3 None dd = Ok e
    /\ (forall y, principal (cylinder sh 0) d 0 up y <-> principal (cylinder sh 1) d 0 up y)
    /\ gev (cylinder sh 0) e 0 <> gev (cylinder sh 1) e 0.
Proof.
  intros Hd. destruct (surface_max_curvature_refuted sh dd Hd) as [e [Ee [Ve [_ _]]]].
  destruct (cylinder_straight sh dd Hd) as [e' [Ee' Ve']]. rewrite Ee in Ee'. injection Ee' as <-.
  exists e. split; [exact Ee|]. split; [intros y; rewrite !cylinder_principal; reflexivity|].
  rewrite Ve, Ve'. assert (P : sqrt 5 * sqrt 5 = 5) by (apply sqrt_sqrt; lra). intros E. assert (Q : sqrt 5 = 1) by lra. rewrite Q in P. lra.
Qed.
Print Assumptions max_curvature_parametrization_invariance_refuted.

(** Negative axes and non-positive derivative counts are accepted. *)
Theorem derivative_axes_are_axes_refuted : exists e d,
  num_reference_derivative (GVar "u") (AxTuple [(-1, -5)]%Z) LNone = Ok (GDer [(-1, -5)]%Z e d).
Proof. eexists _, _. reflexivity. Qed.
Print Assumptions derivative_axes_are_axes_refuted.

(** *** A curve: the parabola x = - t^2 / 2, y = t with nodes t = -1, 0, 1. *)
Definition nt (k : nat) : R := nth k [-1; 0; 1] 0.
Definition parabola (sh : shape) : world :=
  mk_world (fun _ => 3%nat) (fun _ a k => match a with 0%nat => - (nt k) ^ 2 / 2 | _ => nt k end)
    (fun _ ax f k => match k with
       | 0%nat => (- 3 * f 0%nat + 4 * f 1%nat - f 2%nat) / 2
       | 1%nat => (f 2%nat - f 0%nat) / 2
       | _ => (3 * f 2%nat - 4 * f 1%nat + f 0%nat) / 2 end)
    (fun _ _ => 1) (fun _ _ => 0) (fun _ _ f => f) (fun _ f => f) (fun _ => sh).
Definition right (a : nat) : R := match a with 0%nat => 1 | _ => 0 end.
Ltac par := unfold gram_det, unit_normal, volume, det2, gram, trace_II, hess, second, tangent, dot, parabola, right;
  cbn [sumR w_der w_coord nt nth Z.of_nat].
Example parabola_regular sh d : gram_det (parabola sh) 2 1 d 1 <> 0 /\ unit_normal (parabola sh) 2 1 d 1 right
  /\ gram_inverse (parabola sh) 2 1 d 1 (fun _ _ => 1).
Proof.
  split; [par; lra|]. split.
  - split; [par; lra|]. split; [|par; lra]. intros [|j] Hj; [par; lra|lia].
  - intros [|i] [|l] Hi Hl; try lia. cbn [sumR Nat.eqb]. par. field.
Qed.
Example parabola_curvature sh dd d : as_dofdesc dd = Ok d ->
  exists e m, mean_curvature 2 None dd = Ok e /\ gev (parabola sh) e 1 = 1
           /\ max_curvature 2 None dd = Ok m /\ gev (parabola sh) m 1 = 1.
Proof.
  intros Hd. destruct (parabola_regular sh d) as (N & U & B).
  destruct (mean_curvature_is_trace dd (or_introl (conj eq_refl eq_refl)) (or_intror (conj eq_refl eq_refl) : dim_is 2 None 1) Hd N B U) as [e [Ee Ve]].
  destruct (curve_max_curvature dd (or_introl (conj eq_refl eq_refl)) (or_intror (conj eq_refl eq_refl) : dim_is 2 None 1) Hd N B U) as [m [Em Vm]].
  assert (T : trace_II (parabola sh) 2 1 d 1 (fun _ _ => 1) right = -1) by (par; field).
  exists e, m. split; [exact Ee|]. split; [rewrite Ve, T; cbn [INR]; field|]. split; [exact Em|]. rewrite Vm, T, Rabs_left; lra.
Qed.
Example parabola_stretch d : is_stretch (parabola Hypercube) 2 1 d 1 2.
Proof.
  unfold is_stretch. cbn [parabola w_shape]. fold (parabola Hypercube).
  assert (J : forall v, dot 2 (jac2 (parabola Hypercube) 1 d 1 v) (jac2 (parabola Hypercube) 1 d 1 v) = 4 * (v 0%nat * v 0%nat)).
  { intros v. unfold jac2. par. field. }
  split; [lra|]. split.
  - intros v. rewrite J. unfold dot. cbn [sumR]. lra.
  - exists (fun _ => 1). rewrite J. unfold dot. cbn [sumR]. lra.
Qed.
