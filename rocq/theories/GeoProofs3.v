From Coq Require Import Reals Lra Psatz.
From Verif Require Import Base DofModel GeoModel GeoSpec GeoProofs GeoProofs2.
Set Implicit Arguments.
Open Scope R_scope.

Lemma Rpower_32 g : 0 < g -> Rpower g (3 / 2) = g * sqrt g.
Proof.
  intros H. replace (3 / 2) with (1 + / 2) by field. rewrite Rpower_plus, Rpower_1, Rpower_sqrt by exact H. reflexivity.
Qed.

Lemma mean_curvature_ev adim dim o dd d W k b : hypersurface adim dim -> dim_is adim o dim -> as_dofdesc dd = Ok d ->
  gram_det W adim dim d k <> 0 -> gram_inverse W adim dim d k b ->
  exists e, mean_curvature adim o dd = Ok e
    /\ gev W e k = - / INR dim * trace_II W adim dim d k b (ncomp adim dim W d k).
Proof.
  intros H Ho Hd Hg Hb. destruct (sqrt_pos_nz (gram_det_nonneg W d k H) Hg) as [N [S P]].
  unfold mean_curvature. rewrite (odim_is Ho). hs H; cbn [Nat.eqb andb].
  - rewrite (pdm_ok _ _ _ Hd). cbn [bind].
    assert (Hr : forall l, reference_jacobian l 2 1 dd = reference_jacobian l 2 1 (LDesc d)).
    { intros l. unfold reference_jacobian. rewrite Hd. reflexivity. }
    rewrite Hr, refjac_ok by (cbn; lia). cbn [bind].
    eexists; split; [reflexivity|].
    cbv [gat cse_m cse_v map seq nth pdmat cse]. cbn [gev]. rewrite !ev_pdc.
    set (xpp := w_der W d _ (gev W (pdc d 0 0)) k). set (ypp := w_der W d _ (gev W (pdc d 0 1)) k).
    assert (Ex : xpp = hess W 2 d k 0 0 0) by reflexivity.
    assert (Ey : ypp = hess W 2 d k 0 0 1) by reflexivity.
    clearbody xpp ypp. subst xpp ypp.
    unfold trace_II, dot. cbn [sumR ncomp]. specialize (Hb 0%nat 0%nat ltac:(lia) ltac:(lia)).
    cbn [sumR Nat.eqb] in Hb. rewrite Rplus_0_l in Hb.
    replace (tangent W d k 0 0 ^ 2 + tangent W d k 0 1 ^ 2) with (gram_det W 2 1 d k)
      by (unfold gram_det, gram, dot; cbn [sumR]; ring).
    change (gram W 2 d k 0 0) with (gram_det W 2 1 d k) in Hb.
    rewrite Rpower_32 by (pose proof (gram_det_nonneg W d k (or_introl (conj eq_refl eq_refl) : hypersurface 2 1)); lra).
    assert (Eb : b 0%nat 0%nat = / gram_det W 2 1 d k) by (apply Rmult_eq_reg_r with (gram_det W 2 1 d k); [rewrite Hb; field|]; exact Hg).
    rewrite Eb. change (INR 1) with 1. field. split; assumption.
  - destruct (@shop_ok (Some 2%nat) dd d (or_introl eq_refl) Hd) as [m [Em [Sm Hm]]]. rewrite Em. cbn [bind].
    rewrite Sm. cbn [fst seq map]. eexists; split; [reflexivity|].
    cbn [gsum fold_left gev]. unfold mat in Hm. rewrite !Hm by lia.
    pose proof (Hb 0%nat 0%nat ltac:(lia) ltac:(lia)) as B00. pose proof (Hb 0%nat 1%nat ltac:(lia) ltac:(lia)) as B01.
    pose proof (Hb 1%nat 0%nat ltac:(lia) ltac:(lia)) as B10. pose proof (Hb 1%nat 1%nat ltac:(lia) ltac:(lia)) as B11.
    cbn [sumR Nat.eqb] in B00, B01, B10, B11.
    assert (Sy : gram W 3 d k 1 0 = gram W 3 d k 0 1) by (unfold gram, dot; cbn [sumR]; ring).
    unfold gram_det in Hg. rewrite Sy in *.
    unfold trace_II. cbn [sumR].
    change (dot 3 (hess W 3 d k 0 0) (ncomp 3 2 W d k)) with (ff2R W d k 0 0).
    change (dot 3 (hess W 3 d k 0 1) (ncomp 3 2 W d k)) with (ff2R W d k 0 1).
    change (dot 3 (hess W 3 d k 1 0) (ncomp 3 2 W d k)) with (ff2R W d k 0 1).
    change (dot 3 (hess W 3 d k 1 1) (ncomp 3 2 W d k)) with (ff2R W d k 1 1).
    unfold shop. change (INR 2) with (1 + 1).
    revert Hg B00 B01 B10 B11. generalize (gram W 3 d k 0 0) (gram W 3 d k 0 1) (gram W 3 d k 1 1)
      (ff2R W d k 0 0) (ff2R W d k 0 1) (ff2R W d k 1 1). intros E F G e f g Hg B00 B01 B10 B11.
    set (D := E * G - F * F) in *.
    assert (H0 : b 0%nat 0%nat = G / D).
    { apply Rmult_eq_reg_r with D; [|exact Hg]. transitivity (G * (0 + b 0%nat 0%nat * E + b 0%nat 1%nat * F) + (- F) * (0 + b 0%nat 0%nat * F + b 0%nat 1%nat * G));
      [unfold D; ring|]. rewrite B00, B01. field. exact Hg. }
    assert (H1 : b 0%nat 1%nat = - F / D).
    { apply Rmult_eq_reg_r with D; [|exact Hg]. transitivity ((- F) * (0 + b 0%nat 0%nat * E + b 0%nat 1%nat * F) + E * (0 + b 0%nat 0%nat * F + b 0%nat 1%nat * G));
      [unfold D; ring|]. rewrite B00, B01. field. exact Hg. }
    assert (H2 : b 1%nat 0%nat = - F / D).
    { apply Rmult_eq_reg_r with D; [|exact Hg]. transitivity (G * (0 + b 1%nat 0%nat * E + b 1%nat 1%nat * F) + (- F) * (0 + b 1%nat 0%nat * F + b 1%nat 1%nat * G));
      [unfold D; ring|]. rewrite B10, B11. field. exact Hg. }
    assert (H3 : b 1%nat 1%nat = E / D).
    { apply Rmult_eq_reg_r with D; [|exact Hg]. transitivity ((- F) * (0 + b 1%nat 0%nat * E + b 1%nat 1%nat * F) + E * (0 + b 1%nat 0%nat * F + b 1%nat 1%nat * G));
      [unfold D; ring|]. rewrite B10, B11. field. exact Hg. }
    rewrite H0, H1, H2, H3. field. exact Hg.
Qed.

(** *** Eigenvalues of symmetric 2x2 matrices *)
Lemma sym2_eig a b d : let s := sqrt (4 * b ^ 2 + (a - d) ^ 2) in let l := (a + d + s) / 2 in
  (forall x y, a * x * x + 2 * b * x * y + d * y * y <= l * (x * x + y * y))
  /\ exists x y, x * x + y * y = 1 /\ a * x * x + 2 * b * x * y + d * y * y = l.
Proof.
  intros s l. assert (P : 0 <= 4 * b ^ 2 + (a - d) ^ 2) by (pose proof (pow2_ge_0 b); pose proof (pow2_ge_0 (a - d)); lra).
  assert (S : s * s = 4 * b ^ 2 + (a - d) ^ 2) by (apply sqrt_sqrt; exact P).
  assert (S0 : 0 <= s) by apply sqrt_pos.
  set (p := s - (a - d)). set (r := s + (a - d)).
  assert (PR : p * r = 4 * b * b) by (unfold p, r; nra).
  assert (Pp : 0 <= p) by (unfold p; destruct (Rle_dec (a - d) s); [lra|]; exfalso; nra).
  assert (Pr : 0 <= r) by (unfold r; destruct (Rle_dec (d - a) s); [lra|]; exfalso; nra).
  assert (I : forall x y, l * (x * x + y * y) - (a * x * x + 2 * b * x * y + d * y * y)
      = (p * x * x - 4 * b * x * y + r * y * y) / 2) by (intros; unfold l, p, r; field).
  clearbody p r l. clear s S S0 P. destruct (Req_dec p 0) as [Z|NZ].
  - assert (B : b = 0) by nra. split.
    + intros x y. specialize (I x y). rewrite Z, B in I. assert (0 <= r * y * y) by nra. nra.
    + exists 1, 0. split; [ring|]. specialize (I 1 0). rewrite Z, B in *. lra.
  - assert (PP : 0 < p) by lra. split.
    + intros x y. specialize (I x y).
      assert (0 <= p * x * x - 4 * b * x * y + r * y * y).
      { apply Rmult_le_reg_l with p; [exact PP|]. rewrite Rmult_0_r.
        replace (p * (p * x * x - 4 * b * x * y + r * y * y)) with ((p * x - 2 * b * y) ^ 2 + (p * r - 4 * b * b) * y * y) by ring.
        rewrite PR. replace (4 * b * b - 4 * b * b) with 0 by ring. pose proof (pow2_ge_0 (p * x - 2 * b * y)). lra. }
      lra.
    + set (q := 4 * b * b + p * p). assert (Q : 0 < q) by (unfold q; nra).
      pose proof (sqrt_lt_R0 q Q) as Sq. pose proof (sqrt_sqrt q ltac:(lra)) as Sq2.
      exists (2 * b / sqrt q), (p / sqrt q). split.
      * replace (2 * b / sqrt q * (2 * b / sqrt q) + p / sqrt q * (p / sqrt q)) with (q / (sqrt q * sqrt q))
          by (unfold q; field; unfold q in Sq; lra). rewrite Sq2. field. lra.
      * specialize (I (2 * b / sqrt q) (p / sqrt q)).
        assert (E : p * (2 * b / sqrt q) * (2 * b / sqrt q) - 4 * b * (2 * b / sqrt q) * (p / sqrt q) + r * (p / sqrt q) * (p / sqrt q)
           = p * (p * r - 4 * b * b) / (sqrt q * sqrt q)) by (field; lra).
        rewrite E, PR in I. replace (p * (4 * b * b - 4 * b * b)) with 0 in I by ring.
        assert (E1 : 2 * b / sqrt q * (2 * b / sqrt q) + p / sqrt q * (p / sqrt q) = 1).
        { replace (2 * b / sqrt q * (2 * b / sqrt q) + p / sqrt q * (p / sqrt q)) with (q / (sqrt q * sqrt q))
          by (unfold q; field; unfold q in Sq; lra). rewrite Sq2. field. lra. }
        rewrite E1 in I. unfold Rdiv in I at 5. lra.
Qed.

(** The roots of the characteristic polynomial. *)
Lemma quad_roots tr det sd : sd * sd = tr * tr - 4 * det -> forall x,
  x * x - tr * x + det = 0 <-> x = (tr - sd) / 2 \/ x = (tr + sd) / 2.
Proof.
  intros H x. split.
  - intros E. assert ((x - (tr - sd) / 2) * (x - (tr + sd) / 2) = 0) by (field_simplify; nra).
    apply Rmult_integral in H0. destruct H0; [left|right]; lra.
  - intros [->| ->]; field_simplify; nra.
Qed.

Lemma sym_eig_ok m n : gshape m = (n, n) -> (n = 1 \/ n = 2)%nat ->
  exists l, small_sym_mat_eigenvalues m = Ok l /\ length l = n.
Proof.
  intros S [->| ->]; unfold small_sym_mat_eigenvalues; rewrite S; cbn [Nat.eqb negb]; eexists; split; reflexivity.
Qed.
