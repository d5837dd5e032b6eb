(** C80, C81: geometry primitives. *)
From Coq Require Import Reals Lra Psatz Sorted.
From Verif Require Import Base DofModel GeoModel GeoSpec GeoProofs GeoProofs2 GeoProofs3 GeoProofs4 GeoProofs5 GeoProofs6.
Set Implicit Arguments.
Open Scope R_scope.

(** *** Reference derivatives: accepted exactly when the axes strictly increase. *)
Theorem derivative_axes_validated (l : list (Z * Z)) (e : ge) (dd : dd_like) :
  (StronglySorted Z.lt (map fst l) ->
     exists d, as_dofdesc dd = Ok d /\ num_reference_derivative e (AxTuple l) dd = Ok (GDer l e d))
  /\ (~ StronglySorted Z.lt (map fst l) -> num_reference_derivative e (AxTuple l) dd = Err ValueError)
  /\ num_reference_derivative e AxOther dd = Err TypeError
  /\ forall z, num_reference_derivative e (AxInt z) dd = num_reference_derivative e (AxTuple [(z, 1%Z)]) dd.
Proof.
  destruct (as_dd_total dd) as [d Hd]. unfold num_reference_derivative, make_der. rewrite Hd. cbn [bind as_dofdesc].
  pose proof (axes_valid l) as V. split; [|split; [|split; [reflexivity|reflexivity]]].
  - intros S. apply V in S. destruct S as [A B]. exists d. split; [reflexivity|]. rewrite A, B, Nat.eqb_refl. reflexivity.
  - intros N. destruct (axes_eqb (sorted l) l) eqn:A; [|reflexivity]. cbn [negb].
    destruct (Nat.eqb (length (dict_keys l [])) (length l)) eqn:B; [|reflexivity]. exfalso. apply N, V.
    apply Nat.eqb_eq in B. auto.
Qed.
Print Assumptions derivative_axes_validated.

Example axes_ok : StronglySorted Z.lt (map fst [(0, 2); (1, 1)]%Z).
Proof. repeat constructor. Qed.
Example axes_bad : ~ StronglySorted Z.lt (map fst [(0, 2); (0, 1)]%Z).
Proof. intros H. inversion H as [|? ? ? F]; subst. inversion F; subst. lia. Qed.

(** *** Area element and normal *)
Theorem area_element_is_sqrt_gram adim dim o dd d W k :
  hypersurface adim dim -> dim_is adim o dim -> as_dofdesc dd = Ok d ->
  exists a, area_element adim o dd = Ok a /\ 0 <= gev W a k /\ gev W a k * gev W a k = gram_det W adim dim d k
    /\ (gram_det W adim dim d k <> 0 -> 0 < gev W a k).
Proof.
  intros H Ho Hd. destruct (area_ev dd W k H Ho Hd) as [a [Ea [_ Va]]]. exists a. split; [exact Ea|]. rewrite Va.
  pose proof (gram_det_nonneg W d k H) as P. split; [apply sqrt_pos|]. split; [apply sqrt_sqrt; exact P|].
  intros N. apply sqrt_lt_R0. lra.
Qed.
Print Assumptions area_element_is_sqrt_gram.

Lemma ncomp_unit_normal adim dim W d k : hypersurface adim dim -> gram_det W adim dim d k <> 0 ->
  unit_normal W adim dim d k (ncomp adim dim W d k).
Proof.
  intros H N. split; [apply ncomp_unit; assumption|]. split; [intros; apply ncomp_orth; assumption|].
  rewrite ncomp_oriented by assumption. apply sqrt_pos_nz; [apply gram_det_nonneg; exact H | exact N].
Qed.

Lemma unit_normal_unique adim dim W d k n : hypersurface adim dim -> gram_det W adim dim d k <> 0 ->
  unit_normal W adim dim d k n -> forall a, (a < adim)%nat -> n a = ncomp adim dim W d k a.
Proof.
  intros H N (U1 & U2 & U3).
  destruct (ncomp_unit_normal W d k H N) as (V1 & V2 & V3). set (m := ncomp adim dim W d k) in *.
  set (c := dot adim n m).
  assert (Z : forall a, (a < adim)%nat -> n a + (- c) * m a = 0).
  { apply (@hyper_complete adim dim W d k (fun a => n a + (- c) * m a) H N).
    - intros j Hj. rewrite dot_lin, U2, V2 by exact Hj. ring.
    - rewrite dot_lin. fold m. rewrite V1. fold c. ring. }
  assert (En : forall a, (a < adim)%nat -> n a = c * m a) by (intros a Ha; specialize (Z a Ha); lra).
  assert (C2 : c * c = 1).
  { rewrite <- U1. rewrite (@dot_ext adim n n (fun a => 0 + c * m a) (fun a => 0 + c * m a)) by (intros a Ha; rewrite En by exact Ha; ring).
    rewrite dot_lin. rewrite dot_comm, (@dot_comm adim m), !dot_lin. rewrite V1.
    unfold dot. rewrite (@sumR_ext adim (fun a => 0 * 0) (fun _ => 0)), (@sumR_ext adim (fun a => m a * 0) (fun _ => 0)), (@sumR_ext adim (fun a => 0 * m a) (fun _ => 0)) by (intros; ring).
    rewrite !sumR_zero. ring. }
  assert (Cv : volume adim W d k n = c * volume adim W d k m).
  { hs H; unfold volume, det2, det3; rewrite !En by lia; ring. }
  assert (0 < c) by (rewrite Cv in U3; nra). assert (c = 1) by nra. intros a Ha. rewrite En by exact Ha. rewrite H1. ring.
Qed.

Theorem normal_is_exterior_unit_normal adim dim o dd d W k :
  hypersurface adim dim -> dim_is adim o dim -> as_dofdesc dd = Ok d -> gram_det W adim dim d k <> 0 ->
  exists n, normal adim o dd = Ok n /\ length n = adim /\ unit_normal W adim dim d k (vat W n k)
    /\ forall n', unit_normal W adim dim d k n' -> forall a, (a < adim)%nat -> n' a = vat W n k a.
Proof.
  intros H Ho Hd N. destruct (normal_ev dd H Ho Hd) as [n [En [Ln Vn]]]. exists n. split; [exact En|]. split; [exact Ln|].
  destruct (ncomp_unit_normal W d k H N) as (U1 & U2 & U3). split.
  - split; [|split].
    + rewrite <- U1. apply dot_ext; intros; apply Vn; assumption.
    + intros j Hj. rewrite <- (U2 j Hj). apply dot_ext; intros; [apply Vn; assumption | reflexivity].
    + replace (volume adim W d k (vat W n k)) with (volume adim W d k (ncomp adim dim W d k)); [exact U3|].
      hs H; unfold volume, det2, det3; rewrite !Vn by lia; reflexivity.
  - intros n' Hn' a Ha. rewrite Vn by exact Ha. eapply unit_normal_unique; eassumption.
Qed.
Print Assumptions normal_is_exterior_unit_normal.

(** *** Fundamental forms and shape operator *)
Theorem first_fundamental_form_is_gram adim dim o dd d :
  (0 < adim)%nat -> dim_is adim o dim -> as_dofdesc dd = Ok d ->
  exists m, first_fundamental_form adim o dd = Ok m /\ is_mat dim dim m
    /\ forall W k i j, (i < dim)%nat -> (j < dim)%nat -> mat W m k i j = gram W adim d k i j.
Proof.
  intros A Ho Hd. exists (ff1 adim dim d). split; [apply ff1_ok; assumption|]. split; [apply is_mat_map|].
  intros; apply ff1_ev; assumption.
Qed.
Print Assumptions first_fundamental_form_is_gram.

Lemma II_ncomp W d k n i j : (forall a, (a < 3)%nat -> n a = ncomp 3 2 W d k a) -> (i < 2)%nat -> (j < 2)%nat ->
  II W d k n i j = ff2R W d k i j.
Proof. intros H Hi Hj. unfold II, ff2R. apply dot_ext; [|exact H]. intros; reflexivity. Qed.

Theorem second_fundamental_form_is_II o dd d W k n :
  dim_is 3 o 2 -> as_dofdesc dd = Ok d -> gram_det W 3 2 d k <> 0 -> unit_normal W 3 2 d k n ->
  exists m, second_fundamental_form 3 o dd = Ok m
    /\ forall i j, (i < 2)%nat -> (j < 2)%nat -> mat W m k i j = II W d k n i j.
Proof.
  intros Ho Hd N Hn. destruct (ff2_ok dd Ho Hd) as [m [Em [_ Vm]]]. exists m. split; [exact Em|].
  intros i j Hi Hj. rewrite Vm by assumption. symmetry. apply II_ncomp; try assumption.
  apply unit_normal_unique; [right; auto|assumption..].
Qed.
Print Assumptions second_fundamental_form_is_II.

(** The shape operator is the matrix S with I S = II. *)
Theorem shape_operator_is_weingarten o dd d W k n :
  dim_is 3 o 2 -> as_dofdesc dd = Ok d -> gram_det W 3 2 d k <> 0 -> unit_normal W 3 2 d k n ->
  exists m, shape_operator 3 o dd = Ok m /\ is_mat 2 2 m
    /\ forall i l, (i < 2)%nat -> (l < 2)%nat -> sumR 2 (fun j => gram W 3 d k i j * mat W m k j l) = II W d k n i l.
Proof.
  intros Ho Hd N Hn.
  assert (En : forall a, (a < 3)%nat -> n a = ncomp 3 2 W d k a) by (apply unit_normal_unique; [right; auto|assumption..]).
  destruct (shop_ok dd Ho Hd) as [m [Em [Sm Vm]]]. exists m. split; [exact Em|]. split.
  - clear -Em Ho Hd. unfold shape_operator in Em. rewrite (odim_is Ho) in Em. cbn [Nat.eqb andb negb] in Em.
    destruct (first_fundamental_form 3 (Some 2%nat) dd); [|discriminate]. destruct (second_fundamental_form 3 (Some 2%nat) dd); [|discriminate].
    cbn [bind] in Em. injection Em as <-. split; [reflexivity|]. intros r [<-|[<-|[]]]; reflexivity.
  - assert (Sy : gram W 3 d k 1 0 = gram W 3 d k 0 1) by (unfold gram, dot; cbn [sumR]; ring).
    unfold gram_det in N. rewrite Sy in N.
    intros i l Hi Hl. cbn [sumR]. rewrite !Vm by lia. rewrite (II_ncomp _ _ _ _ En Hi Hl).
    assert (S2 : ff2R W d k 1 0 = ff2R W d k 0 1) by reflexivity.
    destruct i as [|[|i]]; [| |lia]; (destruct l as [|[|l]]; [| |lia]); unfold shop; rewrite ?Sy, ?S2; field; exact N.
Qed.
Print Assumptions shape_operator_is_weingarten.

Theorem forms_only_for_surfaces adim dim dd :
  ~ (adim = 3 /\ dim = 2)%nat ->
  second_fundamental_form adim (Some dim) dd = Err NotImplementedError
  /\ shape_operator adim (Some dim) dd = Err NotImplementedError
  /\ (~ (adim = 2 /\ dim = 1)%nat -> mean_curvature adim (Some dim) dd = Err NotImplementedError).
Proof.
  intros N. assert (B : (Nat.eqb adim 3 && Nat.eqb dim 2)%bool = false).
  { destruct (Nat.eqb_spec adim 3), (Nat.eqb_spec dim 2); cbn; tauto. }
  unfold second_fundamental_form, shape_operator, mean_curvature. cbn [odim]. rewrite B. cbn [negb].
  split; [reflexivity|]. split; [reflexivity|]. intros N2.
  assert (B2 : (Nat.eqb adim 2 && Nat.eqb dim 1)%bool = false).
  { destruct (Nat.eqb_spec adim 2), (Nat.eqb_spec dim 1); cbn; tauto. }
  rewrite B2. reflexivity.
Qed.
Print Assumptions forms_only_for_surfaces.

(** Curves and surfaces use the same sign: minus the mean of the curvatures with
    respect to the exterior normal, positive for circles and spheres. *)
Theorem mean_curvature_is_trace adim dim o dd d W k b n :
  hypersurface adim dim -> dim_is adim o dim -> as_dofdesc dd = Ok d ->
  gram_det W adim dim d k <> 0 -> gram_inverse W adim dim d k b -> unit_normal W adim dim d k n ->
  exists e, mean_curvature adim o dd = Ok e /\ gev W e k = - / INR dim * trace_II W adim dim d k b n.
Proof.
  intros H Ho Hd N Hb Hn. destruct (mean_curvature_ev dd H Ho Hd N Hb) as [e [Ee Ve]]. exists e. split; [exact Ee|].
  rewrite Ve. f_equal. unfold trace_II. apply sumR_ext. intros i Hi. apply sumR_ext. intros j Hj. f_equal.
  apply dot_ext; [reflexivity|]. intros a Ha. symmetry. eapply unit_normal_unique; eassumption.
Qed.
Print Assumptions mean_curvature_is_trace.

(** *** Small matrices *)
Theorem small_inverse_is_inverse n m : is_mat n n m -> (n = 1 \/ n = 2)%nat ->
  exists r, small_mat_inverse m = Ok r /\ is_mat n n r
    /\ forall W k, (n = 1%nat -> mat W m k 0 0 <> 0) ->
         (n = 2%nat -> mat W m k 0 0 * mat W m k 1 1 - mat W m k 0 1 * mat W m k 1 0 <> 0) ->
         forall i l, (i < n)%nat -> (l < n)%nat ->
           sumR n (fun j => mat W m k i j * mat W r k j l) = (if Nat.eqb i l then 1 else 0)
           /\ sumR n (fun j => mat W r k i j * mat W m k j l) = (if Nat.eqb i l then 1 else 0).
Proof.
  intros M Hn. unfold small_mat_inverse. rewrite (is_mat_shape M) by lia. rewrite Nat.eqb_refl. cbn [negb].
  destruct Hn as [->| ->]; (eexists; split; [reflexivity|]).
  - split; [split; [reflexivity|intros r [<-|[]]; reflexivity]|]. intros W k H1 _ [|i] [|l] Hi Hl; try lia.
    cbn [sumR Nat.eqb]. unfold mat at 2 3. cbn [gat nth gev]. unfold gz. cbn [gev].
    change (gev W (gat m 0 0) k) with (mat W m k 0 0). specialize (H1 eq_refl). split; field; exact H1.
  - split; [split; [reflexivity|intros r [<-|[<-|[]]]; reflexivity]|]. intros W k _ H2. specialize (H2 eq_refl).
    intros i l Hi Hl.
    set (r := gscale _ _).
    assert (R : (mat W r k 0 0 = / (mat W m k 0 0 * mat W m k 1 1 - mat W m k 0 1 * mat W m k 1 0) * mat W m k 1 1)
      /\ (mat W r k 0 1 = / (mat W m k 0 0 * mat W m k 1 1 - mat W m k 0 1 * mat W m k 1 0) * - mat W m k 0 1)
      /\ (mat W r k 1 0 = / (mat W m k 0 0 * mat W m k 1 1 - mat W m k 0 1 * mat W m k 1 0) * - mat W m k 1 0)
      /\ (mat W r k 1 1 = / (mat W m k 0 0 * mat W m k 1 1 - mat W m k 0 1 * mat W m k 1 0) * mat W m k 0 0)).
    { unfold r, mat, gscale. cbn [map].
      repeat split; match goal with |- gev W (gat ?x ?i ?j) k = _ => let v := eval cbn [gat nth] in (gat x i j) in change (gat x i j) with v end;
        unfold gz; cbn [gev]; unfold mat in H2; field; exact H2. }
    destruct R as (R00 & R01 & R10 & R11). clearbody r. cbn [sumR].
    destruct i as [|[|i]]; [| |lia]; (destruct l as [|[|l]]; [| |lia]); cbn [Nat.eqb]; rewrite ?R00, ?R01, ?R10, ?R11; split; field; exact H2.
Qed.
Print Assumptions small_inverse_is_inverse.

Definition charpoly2 (W : world) (m : list (list ge)) (k : nat) (x : R) : R :=
  (mat W m k 0 0 - x) * (mat W m k 1 1 - x) - mat W m k 0 1 * mat W m k 1 0.

Theorem small_eigenvalues_are_roots m : is_mat 2 2 m ->
  exists l0 l1, small_mat_eigenvalues m = Ok [l0; l1]
    /\ forall W k, 0 <= 4 * mat W m k 0 1 * mat W m k 1 0 + (mat W m k 0 0 - mat W m k 1 1) ^ 2 ->
         gev W l0 k <= gev W l1 k
         /\ forall x, charpoly2 W m k x = 0 <-> x = gev W l0 k \/ x = gev W l1 k.
Proof.
  intros M. unfold small_mat_eigenvalues. rewrite (is_mat_shape M) by lia. cbn [Nat.eqb negb].
  eexists _, _; split; [reflexivity|]. intros W k P. unfold cse_eval, gz. cbn [gev].
  change (gev W (gat m 0 0) k) with (mat W m k 0 0). change (gev W (gat m 0 1) k) with (mat W m k 0 1).
  change (gev W (gat m 1 0) k) with (mat W m k 1 0). change (gev W (gat m 1 1) k) with (mat W m k 1 1).
  replace (2 / 1) with 2 by field. replace (4 / 1) with 4 by field.
  pose proof (sqrt_sqrt _ P) as S. pose proof (sqrt_pos (4 * mat W m k 0 1 * mat W m k 1 0 + (mat W m k 0 0 - mat W m k 1 1) ^ 2)) as S0.
  set (s := sqrt _) in *. split; [lra|]. intros x. unfold charpoly2.
  rewrite <- (@quad_roots (mat W m k 0 0 + mat W m k 1 1) (mat W m k 0 0 * mat W m k 1 1 - mat W m k 0 1 * mat W m k 1 0) s) by (rewrite S; ring).
  split; intros E; rewrite <- E; ring.
Qed.
Print Assumptions small_eigenvalues_are_roots.

Theorem sym_eigenvalues_are_roots m : is_mat 2 2 m ->
  exists l0 l1, small_sym_mat_eigenvalues m = Ok [l0; l1]
    /\ forall W k, mat W m k 0 1 = mat W m k 1 0 ->
         gev W l0 k <= gev W l1 k
         /\ forall x, charpoly2 W m k x = 0 <-> x = gev W l0 k \/ x = gev W l1 k.
Proof.
  intros M. unfold small_sym_mat_eigenvalues. rewrite (is_mat_shape M) by lia. cbn [Nat.eqb negb].
  eexists _, _; split; [reflexivity|]. intros W k Sy. unfold cse_eval, gz. cbn [gev].
  change (gev W (gat m 0 0) k) with (mat W m k 0 0). change (gev W (gat m 0 1) k) with (mat W m k 0 1).
  change (gev W (gat m 1 1) k) with (mat W m k 1 1).
  replace (2 / 1) with 2 by field. replace (4 / 1) with 4 by field.
  assert (P : 0 <= 4 * mat W m k 0 1 ^ 2 + (mat W m k 0 0 - mat W m k 1 1) ^ 2).
  { pose proof (pow2_ge_0 (mat W m k 0 1)). pose proof (pow2_ge_0 (mat W m k 0 0 - mat W m k 1 1)). lra. }
  pose proof (sqrt_sqrt _ P) as S. pose proof (sqrt_pos (4 * mat W m k 0 1 ^ 2 + (mat W m k 0 0 - mat W m k 1 1) ^ 2)) as S0.
  set (s := sqrt _) in *. split; [lra|]. intros x. unfold charpoly2. rewrite <- Sy.
  rewrite <- (@quad_roots (mat W m k 0 0 + mat W m k 1 1) (mat W m k 0 0 * mat W m k 1 1 - mat W m k 0 1 * mat W m k 0 1) s) by (rewrite S; ring).
  split; intros E; rewrite <- E; ring.
Qed.
Print Assumptions sym_eigenvalues_are_roots.

Theorem small_matrix_errors n m M : is_mat n m M -> (0 < n)%nat ->
  (n <> m -> small_mat_inverse M = Err ValueError /\ small_mat_eigenvalues M = Err ValueError /\ small_sym_mat_eigenvalues M = Err ValueError)
  /\ (n = m -> (2 < n)%nat -> small_mat_inverse M = Err NotImplementedError
        /\ small_mat_eigenvalues M = Err NotImplementedError /\ small_sym_mat_eigenvalues M = Err NotImplementedError).
Proof.
  intros HM P. unfold small_mat_inverse, small_mat_eigenvalues, small_sym_mat_eigenvalues. rewrite (is_mat_shape HM P). split.
  - intros N. apply Nat.eqb_neq in N. rewrite N. cbn [negb]. auto.
  - intros -> L. rewrite Nat.eqb_refl. cbn [negb]. destruct m as [|[|[|m]]]; try lia. auto.
Qed.
Print Assumptions small_matrix_errors.

(** *** Stretch factors *)
Theorem stretch_factor_is_operator_norm adim dim o dd d W k :
  (0 < adim)%nat -> (dim = 1 \/ dim = 2)%nat -> dim_is adim o dim -> as_dofdesc dd = Ok d ->
  exists e, mapping_max_stretch adim o dd = Ok e
    /\ (w_shape W d <> OtherShape -> is_stretch W adim dim d k (gev W e k))
    /\ (w_shape W d = OtherShape -> graises W e = true).
Proof.
  intros A D Ho Hd. unfold mapping_max_stretch.
  destruct (simplex_ok dd W k A D Ho Hd) as [s [Es Vs]]. destruct (hyper_ok dd W k A D Ho Hd) as [h [Eh Vh]].
  rewrite Es, Eh, Hd. cbn [bind]. eexists; split; [reflexivity|]. unfold cse, is_stretch. cbn [gev graises].
  destruct (w_shape W d); cbn [shape_eqb]; split; intros N; try discriminate; try congruence; assumption.
Qed.
Print Assumptions stretch_factor_is_operator_norm.

Theorem stretch_factor_other_dims adim dim dd : (0 < adim)%nat -> ~ (dim = 1 \/ dim = 2)%nat -> (0 < dim)%nat ->
  exists x, mapping_max_stretch adim (Some dim) dd = Err x.
Proof.
  intros A D P. destruct (as_dd_total dd) as [d Hd].
  unfold mapping_max_stretch, simplex_stretch, equilateral_pder_mat. cbn [odim]. rewrite (pdm_ok _ _ _ Hd). cbn [bind].
  destruct dim as [|[|[|[|dim]]]]; try lia; [|eexists; reflexivity]. cbn [equilateral_to_unit bind].
  set (E := repeat (repeat (gz 0) 3) 3). assert (ME : is_mat 3 3 E) by (split; [reflexivity|]; intros r Hr; apply repeat_spec in Hr; rewrite Hr; reflexivity).
  set (P0 := cse_em "equilateral_pder_mat" (gmatmul (pdmat adim 3 d) E)).
  assert (MP : is_mat adim 3 P0) by (apply cse_em_mat, (@gmatmul_mat adim 3 3); [apply pdmat_mat|exact ME|lia]).
  assert (MT : is_mat 3 adim (gtrans P0)) by (apply gtrans_mat; [exact MP|exact A]).
  assert (MJ : is_mat 3 3 (gmatmul (gtrans P0) P0)) by (apply (@gmatmul_mat 3 adim 3); assumption).
  assert (MS : is_mat 3 3 (gscale (gz 4) (cse_em "pd_mat_jtj" (gmatmul (gtrans P0) P0)))) by (apply gscale_mat, cse_em_mat, MJ).
  unfold small_sym_mat_eigenvalues. rewrite (is_mat_shape MS) by lia. eexists; reflexivity.
Qed.
Print Assumptions stretch_factor_other_dims.

Lemma is_stretch_unique W adim dim d k s s' : is_stretch W adim dim d k s -> is_stretch W adim dim d k s' -> s = s'.
Proof. unfold is_stretch. destruct (w_shape W d); apply op_norm_unique. Qed.

Lemma op_norm_ext m n A A' s : (forall v, dot n (A v) (A v) = dot n (A' v) (A' v)) -> op_norm m n A s -> op_norm m n A' s.
Proof.
  intros H [P0 [P1 [v [P2 P3]]]]. split; [exact P0|]. split; [intros w; rewrite <- H; apply P1|].
  exists v. rewrite <- H. auto.
Qed.

(** The squared length of the image only depends on the Gram matrix. *)
Lemma jac2_gram W W' adim dim d d' k k' v :
  (forall i j, (i < dim)%nat -> (j < dim)%nat -> gram W adim d k i j = gram W' adim d' k' i j) ->
  dot adim (jac2 W dim d k v) (jac2 W dim d k v) = dot adim (jac2 W' dim d' k' v) (jac2 W' dim d' k' v).
Proof.
  intros G. unfold jac2.
  rewrite <- (qform_gram adim dim (fun a j => tangent W d k j a)), <- (qform_gram adim dim (fun a j => tangent W' d' k' j a)).
  apply qform_ext. intros i j Hi Hj. f_equal. apply G; assumption.
Qed.

(** Rotations of the global coordinate system do not change the stretch factor. *)
Theorem stretch_rotation_invariant adim dim o dd d W W' Q k e :
  (0 < adim)%nat -> (dim = 1 \/ dim = 2)%nat -> dim_is adim o dim -> as_dofdesc dd = Ok d ->
  w_shape W' d = w_shape W d -> w_shape W d <> OtherShape ->
  (forall b c, (b < adim)%nat -> (c < adim)%nat -> sumR adim (fun a => Q a b * Q a c) = if Nat.eqb b c then 1 else 0) ->
  (forall j a, (a < adim)%nat -> tangent W' d k j a = sumR adim (fun b => Q a b * tangent W d k j b)) ->
  mapping_max_stretch adim o dd = Ok e -> gev W' e k = gev W e k.
Proof.
  intros A D Ho Hd S1 S2 HQ HT Ee.
  destruct (stretch_factor_is_operator_norm dd W k A D Ho Hd) as [e1 [E1 [V1 _]]].
  destruct (stretch_factor_is_operator_norm dd W' k A D Ho Hd) as [e2 [E2 [V2 _]]].
  rewrite Ee in E1, E2. injection E1 as <-. injection E2 as <-.
  specialize (V1 S2). specialize (V2 ltac:(rewrite S1; exact S2)).
  assert (G : forall i j, (i < dim)%nat -> (j < dim)%nat -> gram W adim d k i j = gram W' adim d k i j).
  { intros i j _ _. unfold gram at 2. unfold dot.
    rewrite (@sumR_ext adim _ (fun a => sumR adim (fun b => sumR adim (fun c => tangent W d k i b * (Q a b * Q a c) * tangent W d k j c)))).
    - rewrite sumR_swap. unfold gram, dot. apply sumR_ext. intros b Hb. rewrite sumR_swap.
      rewrite (@sumR_ext adim _ (fun c => (if Nat.eqb c b then 1 else 0) * (tangent W d k i b * tangent W d k j c))).
      + rewrite sumR_delta by exact Hb. reflexivity.
      + intros c Hc. rewrite (@sumR_ext adim _ (fun a => (tangent W d k i b * tangent W d k j c) * (Q a b * Q a c))) by (intros; ring).
        rewrite sumR_scal, HQ by assumption. rewrite Nat.eqb_sym. ring.
    - intros a Ha. rewrite !HT by exact Ha. rewrite Rmult_comm, <- sumR_scal. apply sumR_ext. intros b _.
      rewrite Rmult_comm, <- sumR_scal. apply sumR_ext. intros; ring. }
  eapply is_stretch_unique; [exact V2|]. revert V1. unfold is_stretch. rewrite S1.
  destruct (w_shape W d); apply op_norm_ext; intros v; apply jac2_gram; exact G.
Qed.
Print Assumptions stretch_rotation_invariant.
