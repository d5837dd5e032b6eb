(** C80, C81 continued: radii, centers, maximal curvature. *)
From Coq Require Import Reals Lra Psatz Sorted.
From Verif Require Import Base DofModel DofProps GeoModel GeoSpec GeoProofs GeoProofs2 GeoProofs3 GeoProofs4 GeoProofs5 GeoProofs6 GeoProps GeoProps2.
Set Implicit Arguments.
Open Scope R_scope.

(** *** Expansion radii *)
Definition radius_factor (dim : nat) : R := if Nat.eqb dim 2 then / 4 else / 2.

Lemma copy_same d : dd_copy d GANone OSentinel ONone = Ok d /\ dd_copy d GANone OSentinel (OGran (granularity d)) = Ok d.
Proof. destruct d as [g s gr]. unfold dd_copy. cbn. destruct s as [[]|], gr; cbn; auto. Qed.

(** Interpolation: nothing to do on the same descriptor, refused for centers, and otherwise the
    interpolant of the operand's values. *)
Theorem interpolation_contract e from to f t :
  as_dofdesc from = Ok f -> as_dofdesc to = Ok t ->
  (f <> t -> granularity t = CENTER -> interpolate e from to = Err ValueError)
  /\ (f = t \/ granularity t <> CENTER -> exists r, interpolate e from to = Ok r
      /\ forall W k, gev W r k = if dd_eqb f t then gev W e k else w_interp W f t (gev W e) k).
Proof.
  intros Hf Ht. unfold interpolate. rewrite Hf, Ht. cbn [bind].
  destruct (dd_eqb f t) eqn:E.
  - apply dd_eqb_eq in E. subst t. split; [congruence|]. intros _. exists e. auto.
  - assert (N : f <> t) by (intros ->; rewrite (proj2 (dd_eqb_eq t t) eq_refl) in E; discriminate).
    split; [intros _ ->; reflexivity|]. intros [H|H]; [congruence|].
    destruct (granularity t); [| congruence |]; eexists; split; reflexivity || (intros; reflexivity).
Qed.
Print Assumptions interpolation_contract.
Example ex_interpolation_to_centers : interpolate (gz 1) (LDesc (DD (Some (GName "g")) None NODE)) (LDesc (DD (Some (GName "g")) None CENTER)) = Err ValueError
  /\ interpolate (gz 1) (LDesc (DD (Some (GName "g")) None NODE)) (LDesc (DD (Some (GName "g")) (Some STAGE2) NODE))
     = Ok (GInterp (DD (Some (GName "g")) None NODE) (DD (Some (GName "g")) (Some STAGE2) NODE) (gz 1)).
Proof. split; reflexivity. Qed.

(** Asked for at the granularity of the given descriptor, the radius at a node is a
    quarter (surfaces) or half (curves) of the stretch factor there. *)
Theorem expansion_radius_is_fraction_of_stretch adim dim o gr dd d W k s :
  (0 < adim)%nat -> (dim = 1 \/ dim = 2)%nat -> dim_is adim o dim -> as_dofdesc dd = Ok d ->
  w_shape W d <> OtherShape -> is_stretch W adim dim d k s ->
  gr = None \/ (gr = Some (granularity d) /\ granularity d <> CENTER) ->
  exists r, expansion_radii adim o gr dd = Ok r /\ gev W r k = radius_factor dim * s.
Proof.
  intros A D Ho Hd Sh Hs Hg. destruct (stretch_factor_is_operator_norm (LDesc d) W k A D Ho eq_refl) as [e [Ee [Ve _]]].
  specialize (Ve Sh). pose proof (@is_stretch_unique _ _ _ _ _ _ _ Hs Ve) as ->.
  unfold expansion_radii. destruct (copy_same d) as [C1 C2].
  assert (Q : exists q, quad_resolution adim o gr dd = Ok q /\ gev W q k = gev W e k).
  { assert (I : interpolate e (LDesc d) (LDesc d) = Ok e).
    { unfold interpolate. cbn [as_dofdesc bind]. rewrite (proj2 (dd_eqb_eq d d) eq_refl). reflexivity. }
    unfold quad_resolution. rewrite Hd. cbn [bind]. destruct Hg as [-> | [-> Nc]]; cbn [ogran]; rewrite ?C1, ?C2, Ee; cbn [bind].
    - exists e. auto.
    - destruct (granularity d); [|congruence|]; exists e; auto. }
  destruct Q as [q [Eq Vq]]. rewrite Eq. cbn [bind]. eexists; split; [reflexivity|]. unfold cse, expansion_radii_factor. cbn [gev].
  rewrite Vq, (odim_is Ho). f_equal. unfold radius_factor. destruct (Nat.eqb dim 2); lra.
Qed.
Print Assumptions expansion_radius_is_fraction_of_stretch.

(** At the expansion centers both sides get the node's radius. *)
Theorem center_radius_is_node_radius adim dim o dd d W k r rc :
  (0 < adim)%nat -> (dim = 1 \/ dim = 2)%nat -> dim_is adim o dim -> as_dofdesc dd = Ok d -> granularity d = NODE ->
  expansion_radii adim o (Some NODE) dd = Ok r -> expansion_radii adim o (Some CENTER) dd = Ok rc ->
  gev W rc (2 * k) = gev W r k /\ gev W rc (2 * k + 1) = gev W r k.
Proof.
  intros A D Ho Hd G. destruct (stretch_factor_is_operator_norm (LDesc d) W k A D Ho eq_refl) as [e [Ee _]].
  destruct (copy_same d) as [C1 C2]. rewrite G in C2.
  unfold expansion_radii, quad_resolution. rewrite Hd. cbn [bind ogran]. rewrite C2, Ee. cbn [bind].
  destruct (dd_copy d GANone OSentinel (OGran CENTER)); [|discriminate]. cbn [bind].
  unfold interpolate. cbn [as_dofdesc bind]. rewrite (proj2 (dd_eqb_eq d d) eq_refl). cbn [bind].
  unfold interleave. cbn [as_dofdesc bind]. rewrite G. cbn [bind].
  intros E1 E2. injection E1 as <-. injection E2 as <-. unfold cse, cse_eval. cbn [gev].
  replace (Nat.even (2 * k)) with true by (symmetry; apply Nat.even_spec; exists k; reflexivity).
  replace (Nat.even (2 * k + 1)) with false by (symmetry; rewrite <- Nat.negb_odd; replace (Nat.odd (2 * k + 1)) with true; [reflexivity|symmetry; apply Nat.odd_spec; exists k; reflexivity]).
  replace (2 * k / 2)%nat with k by (symmetry; rewrite Nat.mul_comm; apply Nat.div_mul; lia).
  replace ((2 * k + 1) / 2)%nat with k by (symmetry; rewrite Nat.mul_comm, Nat.div_add_l by lia; change (1 / 2)%nat with 0%nat; lia).
  split; reflexivity.
Qed.
Print Assumptions center_radius_is_node_radius.

Lemma stretch_pos W adim dim d k s j a : (dim = 1 \/ dim = 2)%nat -> is_stretch W adim dim d k s ->
  (j < dim)%nat -> (a < adim)%nat -> tangent W d k j a <> 0 -> 0 < s.
Proof.
  intros D Hs Hj Ha N.
  set (e := fun i : nat => if Nat.eqb i j then 1 else 0).
  assert (J : jac2 W dim d k e a = 2 * tangent W d k j a).
  { unfold jac2. f_equal. rewrite (@sumR_ext dim _ (fun i => (if Nat.eqb i j then 1 else 0) * tangent W d k i a)) by (intros; unfold e; ring).
    apply (@sumR_delta dim j (fun i => tangent W d k i a)). exact Hj. }
  assert (X : forall A, op_norm dim adim A s -> (exists v, A v a <> 0) -> 0 < s).
  { intros A (P0 & P1 & _) [v Hv]. destruct (Rle_lt_or_eq_dec 0 s P0) as [L|E]; [exact L|]. exfalso. apply Hv.
    specialize (P1 v). rewrite <- E in P1. pose proof (dot_self_nonneg adim (A v)).
    apply (@dot_zero adim (A v)); [lra|exact Ha]. }
  unfold is_stretch in Hs. destruct (w_shape W d); (eapply X; [exact Hs|]).
  2, 3: exists e; rewrite J; lra.
  assert (V : exists v, forall i, (i < dim)%nat -> equi dim v i = e i).
  { destruct D as [-> | ->].
    - exists e. intros [|i] Hi; [reflexivity|lia].
    - assert (S3 : sqrt 3 <> 0) by (pose proof (sqrt_lt_R0 3 ltac:(lra)); lra).
      exists (fun i => match i with 0%nat => e 0%nat + e 1%nat / 2 | _ => e 1%nat * sqrt 3 / 2 end).
      intros [|[|i]] Hi; [| |lia]; unfold equi; field; exact S3. }
  destruct V as [v Hv]. exists v. replace (jac2 W dim d k (equi dim v) a) with (jac2 W dim d k e a); [rewrite J; lra|].
  unfold jac2. f_equal. apply sumR_ext. intros i Hi. rewrite Hv by exact Hi. reflexivity.
Qed.

(** The close-target tunnel lies inside the source danger zone and that inside the
    expansion disk, at every node where the parametrization has a nonzero derivative. *)
Theorem tunnel_inside_danger_zone_inside_disk adim dim o dd d W k j a :
  (0 < adim)%nat -> (dim = 1 \/ dim = 2)%nat -> dim_is adim o dim -> as_dofdesc dd = Ok d ->
  w_shape W d <> OtherShape -> (j < dim)%nat -> (a < adim)%nat -> tangent W d k j a <> 0 ->
  exists r z t, expansion_radii adim o None dd = Ok r /\ source_danger_zone_radii adim o None dd = Ok z
    /\ close_target_tunnel_radii adim o None dd = Ok t
    /\ 0 < gev W t k /\ gev W t k < gev W z k /\ gev W z k < gev W r k /\ gev W t k = gev W r k / 2.
Proof.
  intros A D Ho Hd Sh Hj Ha N.
  destruct (stretch_factor_is_operator_norm (LDesc d) W k A D Ho eq_refl) as [e [Ee [Ve _]]]. specialize (Ve Sh).
  destruct (@expansion_radius_is_fraction_of_stretch adim dim o None dd d W k _ A D Ho Hd Sh Ve (or_introl eq_refl)) as [r [Er Vr]].
  pose proof (@stretch_pos _ _ _ _ _ _ _ _ D Ve Hj Ha N) as P.
  unfold source_danger_zone_radii, close_target_tunnel_radii. rewrite Er. cbn [bind]. eexists _, _, _. repeat (split; [reflexivity|]).
  cbn [gev]. rewrite Vr. assert (0 < radius_factor dim * gev W e k).
  { apply Rmult_lt_0_compat; [|exact P]. unfold radius_factor. destruct (Nat.eqb dim 2); lra. }
  repeat split; lra.
Qed.
Print Assumptions tunnel_inside_danger_zone_inside_disk.

(** The center of side +-1 sits on the normal line at one radius from the node. *)
Theorem centers_at_radius_along_normal adim dim o dd d W k s n side :
  hypersurface adim dim -> dim_is adim o dim -> as_dofdesc dd = Ok d -> granularity d = NODE ->
  w_shape W d <> OtherShape -> gram_det W adim dim d k <> 0 -> unit_normal W adim dim d k n ->
  is_stretch W adim dim d k s -> (side = 1 \/ side = -1)%Z ->
  exists c, expansion_centers adim side o dd = Ok c /\ length c = adim
    /\ (forall a, (a < adim)%nat -> vat W c k a = w_coord W d a k + IZR side * (radius_factor dim * s) * n a)
    /\ dot adim (fun a => vat W c k a - w_coord W d a k) (fun a => vat W c k a - w_coord W d a k) = (radius_factor dim * s) ^ 2.
Proof.
  intros H Ho Hd G Sh N Hn Hs Hside. unfold expansion_centers. rewrite Hd. cbn [bind].
  assert (A : (0 < adim)%nat) by (hs H; lia). assert (D : (dim = 1 \/ dim = 2)%nat) by (hs H; lia).
  destruct (normal_ev dd H Ho Hd) as [m [Em [Lm Vm]]]. rewrite Em. cbn [bind].
  destruct (@expansion_radius_is_fraction_of_stretch adim dim o (Some NODE) dd d W k s A D Ho Hd Sh Hs) as [r [Er Vr]].
  { right. rewrite G. split; [reflexivity|discriminate]. }
  rewrite Er. cbn [bind]. eexists; split; [reflexivity|].
  pose proof (unit_normal_unique H N Hn) as En.
  assert (Lx : length (map (fun i => GCoord i d) (seq 0 adim)) = length (map (GMul (GMul (gz side) r)) m)).
  { rewrite !map_length, seq_length, Lm. reflexivity. }
  destruct (gzip_at GAdd _ _ Lx) as [Lz Vz]. rewrite map_length, seq_length in Lz, Vz.
  split; [unfold cse_v; rewrite map_length, Lz; reflexivity|].
  assert (V : forall a, (a < adim)%nat -> vat W (cse_v "expansion_centers" (gzip GAdd (map (fun i => GCoord i d) (seq 0 adim)) (map (GMul (GMul (gz side) r)) m))) k a
     = w_coord W d a k + IZR side * (radius_factor dim * s) * n a).
  { intros a Ha. unfold vat, cse_v. rewrite map_vat by (rewrite Lz; exact Ha). rewrite Vz by exact Ha.
    rewrite map_vat by (rewrite Lm; exact Ha). unfold cse, gz. cbn [gev].
    rewrite Vr, En by exact Ha. rewrite <- Vm by exact Ha. unfold vat.
    rewrite (@nth_indep _ _ _ _ (GCoord 0 d)) by (rewrite map_length, seq_length; exact Ha).
    rewrite (map_nth (fun i => GCoord i d) (seq 0 adim) 0%nat a), seq_nth by exact Ha. cbn [gev Nat.add].
    replace (IZR side / 1) with (IZR side) by field. reflexivity. }
  split; [exact V|]. destruct Hn as (U1 & _ & _).
  rewrite (@dot_ext adim _ _ (fun a => 0 + (IZR side * (radius_factor dim * s)) * n a) (fun a => 0 + (IZR side * (radius_factor dim * s)) * n a))
    by (intros a Ha; rewrite V by exact Ha; ring).
  rewrite dot_lin, dot_comm, (@dot_comm adim n), !dot_lin, U1.
  unfold dot. rewrite (@sumR_ext adim (fun a => 0 * 0) (fun _ => 0)), (@sumR_ext adim (fun a => n a * 0) (fun _ => 0)), (@sumR_ext adim (fun a => 0 * n a) (fun _ => 0)) by (intros; ring).
  rewrite !sumR_zero. destruct Hside as [-> | ->]; ring.
Qed.
Print Assumptions centers_at_radius_along_normal.

(** *** Maximal curvature *)
Theorem curve_max_curvature dim o dd d W k b n :
  hypersurface 2 dim -> dim_is 2 o dim -> as_dofdesc dd = Ok d ->
  gram_det W 2 dim d k <> 0 -> gram_inverse W 2 dim d k b -> unit_normal W 2 dim d k n ->
  exists e, max_curvature 2 o dd = Ok e /\ gev W e k = Rabs (trace_II W 2 dim d k b n).
Proof.
  intros H Ho Hd N Hb Hn. unfold max_curvature. cbn [Nat.eqb]. rewrite (odim_is Ho).
  destruct (mean_curvature_is_trace dd H (or_introl eq_refl) Hd N Hb Hn) as [e [Ee Ve]]. rewrite Ee. cbn [bind].
  eexists; split; [reflexivity|]. cbn [gev]. rewrite Ve.
  destruct H as [[_ ->]|[X _]]; [|discriminate]. cbn [INR]. rewrite Rinv_1, <- Rabs_Ropp. f_equal. ring.
Qed.
Print Assumptions curve_max_curvature.

(** [x] is the largest absolute principal curvature. *)
Definition is_max_curvature (W : world) (d : dofdesc) (k : nat) (n : nat -> R) (x : R) : Prop :=
  (exists y, principal W d k n y /\ Rabs y = x) /\ forall y, principal W d k n y -> Rabs y <= x.

(** Surfaces: right when the shape operator's matrix happens to be symmetric in the
    reference coordinates (missing: all other parametrizations, see the refutation). *)
Theorem surface_max_curvature_partial o dd d W k n S :
  dim_is 3 o 2 -> as_dofdesc dd = Ok d -> gram_det W 3 2 d k <> 0 -> unit_normal W 3 2 d k n ->
  S 0%nat 1%nat = S 1%nat 0%nat ->
  (forall i l, (i < 2)%nat -> (l < 2)%nat -> sumR 2 (fun j => gram W 3 d k i j * S j l) = II W d k n i l) ->
  exists e, max_curvature 3 o dd = Ok e /\ is_max_curvature W d k n (gev W e k).
Proof.
  intros Ho Hd N Hn Sy HS. unfold max_curvature. cbn [Nat.eqb]. rewrite (odim_is Ho).
  destruct (shape_operator_is_weingarten dd (or_introl eq_refl : dim_is 3 (Some 2%nat) 2) Hd N Hn) as [m [Em [Mm Hm]]].
  rewrite Em. cbn [bind]. destruct (sym_eigenvalues_are_roots Mm) as [l0 [l1 [El Hl]]]. rewrite El. cbn [bind].
  eexists; split; [reflexivity|]. unfold cse_eval. cbn [gev map fold_left].
  assert (N' : gram W 3 d k 0 0 * gram W 3 d k 1 1 - gram W 3 d k 0 1 * gram W 3 d k 1 0 <> 0) by exact N.
  assert (E : forall j l, (j < 2)%nat -> (l < 2)%nat -> mat W m k j l = S j l).
  { intros j l Hj Hl'.
    pose proof (HS 0%nat l ltac:(lia) Hl') as A0. pose proof (HS 1%nat l ltac:(lia) Hl') as A1.
    rewrite <- (Hm 0%nat l ltac:(lia) Hl') in A0. rewrite <- (Hm 1%nat l ltac:(lia) Hl') in A1. cbn [sumR] in A0, A1.
    apply Rmult_eq_reg_l with (gram W 3 d k 0 0 * gram W 3 d k 1 1 - gram W 3 d k 0 1 * gram W 3 d k 1 0); [|exact N'].
    set (g00 := gram W 3 d k 0 0) in *. set (g01 := gram W 3 d k 0 1) in *. set (g10 := gram W 3 d k 1 0) in *. set (g11 := gram W 3 d k 1 1) in *.
    destruct j as [|[|j]]; [| |lia].
    - transitivity (g11 * (0 + g00 * mat W m k 0 l + g01 * mat W m k 1 l) - g01 * (0 + g10 * mat W m k 0 l + g11 * mat W m k 1 l)); [ring|].
      rewrite <- A0, <- A1. ring.
    - transitivity (g00 * (0 + g10 * mat W m k 0 l + g11 * mat W m k 1 l) - g10 * (0 + g00 * mat W m k 0 l + g01 * mat W m k 1 l)); [ring|].
      rewrite <- A0, <- A1. ring. }
  destruct (Hl W k) as [Le Rt]; [rewrite !E by lia; exact Sy|].
  assert (P : forall x, principal W d k n x <-> charpoly2 W m k x = 0).
  { intros x. unfold principal, charpoly2. rewrite <- !HS by lia. cbn [sumR]. rewrite <- !E by lia.
    set (s00 := mat W m k 0 0) in *. set (s01 := mat W m k 0 1) in *. set (s10 := mat W m k 1 0) in *. set (s11 := mat W m k 1 1) in *.
    match goal with |- ?L = 0 <-> ?R = 0 =>
      assert (Q : L = (gram W 3 d k 0 0 * gram W 3 d k 1 1 - gram W 3 d k 0 1 * gram W 3 d k 1 0) * R) by ring end.
    rewrite Q. split; intros Z.
    - apply Rmult_integral in Z. destruct Z as [Z|Z]; [contradiction|exact Z].
    - rewrite Z. ring. }
  split.
  - destruct (Rle_dec (Rabs (gev W l0 k)) (Rabs (gev W l1 k))) as [L|L].
    + exists (gev W l1 k). split; [apply P, Rt; auto|]. rewrite Rmax_right by exact L. reflexivity.
    + exists (gev W l0 k). split; [apply P, Rt; auto|]. rewrite Rmax_left by lra. reflexivity.
  - intros y Hy. apply P, Rt in Hy. destruct Hy as [-> | ->]; [apply Rmax_l|apply Rmax_r].
Qed.
Print Assumptions surface_max_curvature_partial.
