(** Laplace: the gradients converge to those of the kernel. *)
From Coq Require Import Reals Lra Lia List.
From Coquelicot Require Import Coquelicot.
From Verif Require Import Base TsModel TsSpec TsLeg TsProofs TsProofs2 TsProofs3.
Import ListNotations.
Open Scope R_scope.

Section S.
Variables s c t : tri R.
Hypothesis Hs : s <> c.
Hypothesis Ht : t <> c.
Hypothesis Hlt : dist t c < dist s c.
Let x := cosang s c t.
Let r := rho s c t.
Let Dn := 1 - 2 * x * r + r * r.

Lemma x_bound : x * x <= 1. Proof. now apply cos_bound. Qed.
Lemma r_pos : 0 < r. Proof. now apply rho_pos. Qed.
Lemma r_lt : r < 1.
Proof. unfold r, rho. apply Rlt_div_l; [now apply dist_pos | lra]. Qed.
Lemma r_abs : Rabs r < 1.
Proof. rewrite Rabs_pos_eq; [apply r_lt | apply Rlt_le, r_pos]. Qed.
Lemma Dn_pos : 0 < Dn. Proof. apply D_pos; [apply x_bound | apply r_abs]. Qed.

Lemma eucl_D : eucl s t = dist s c * sqrt Dn.
Proof.
  pose proof (segment_dist s c t 1 Hs Ht) as E. rewrite !Rmult_1_r in E.
  replace (on_segment c t 1) with t in E by (symmetry; unfold on_segment; apply tri_ext; simpl; ring).
  exact E.
Qed.
Lemma st_ne : s <> t. Proof. intros E. subst. lra. Qed.

Lemma series_P : is_series (fun n => P x n * r ^ n) (/ sqrt Dn).
Proof.
  apply is_pseries_R. replace (/ sqrt Dn) with (gen x r) by reflexivity.
  rewrite <- (gen_series x r x_bound r_abs). apply PSeries_correct, inside; [apply radius_ge, x_bound | apply r_abs].
Qed.
Lemma series_nP : is_series (fun n => INR n * P x n * r ^ n) (r * ((x - r) / (Dn * sqrt Dn))).
Proof.
  pose proof (gen_ode x r x_bound r_abs) as O. rewrite (gen_series x r x_bound r_abs) in O. fold Dn in O.
  assert (E : PSeries (PS_derive (P x)) r = (x - r) / (Dn * sqrt Dn)).
  { pose proof Dn_pos as HD. pose proof (sqrt_lt_R0 _ HD). apply Rmult_eq_reg_l with Dn; [|lra]. rewrite O.
    unfold gen. fold Dn. field. lra. }
  rewrite <- E, <- PSeries_incr_1.
  assert (I : ex_pseries (PS_incr_1 (PS_derive (P x))) r).
  { apply inside; [apply radius_incr, radius_deriv, radius_ge, x_bound | apply r_abs]. }
  apply PSeries_correct, is_pseries_R in I.
  apply (is_series_ext (V := R_NormedModule) (fun n => PS_incr_1 (PS_derive (P x)) n * r ^ n)); [|exact I].
  intros [|n]; unfold PS_incr_1, PS_derive; [|reflexivity].
  change (@zero R_NormedModule) with 0. simpl INR. rewrite !Rmult_0_l. reflexivity.
Qed.
Lemma series_DP : is_series (fun n => DP x n * r ^ n) (r / (Dn * sqrt Dn)).
Proof.
  pose proof (dgen_series x r x_bound r_abs) as O. fold Dn in O.
  assert (E : PSeries (DP x) r = r / (Dn * sqrt Dn)).
  { pose proof Dn_pos as HD. pose proof (sqrt_lt_R0 _ HD). apply Rmult_eq_reg_l with Dn; [|lra]. rewrite O.
    unfold gen. fold Dn. field. lra. }
  apply is_pseries_R. rewrite <- E. apply PSeries_correct, inside; [apply DP_radius, x_bound | apply r_abs].
Qed.

Lemma series_scal (k : R) (a : nat -> R) l : is_series a l -> is_series (fun n => k * a n) (k * l).
Proof. apply (is_series_scal_l (K := R_AbsRing) (V := R_NormedModule) k a l). Qed.
Lemma series_add (a b : nat -> R) la lb : is_series a la -> is_series b lb -> is_series (fun n => a n + b n) (la + lb).
Proof. apply (is_series_plus (K := R_AbsRing) (V := R_NormedModule) a b la lb). Qed.

Lemma eucl_cube : eucl s t ^ 3 = dist s c ^ 3 * (Dn * sqrt Dn).
Proof.
  rewrite eucl_D. pose proof (sqrt_sqrt Dn (Rlt_le _ _ Dn_pos)) as Q.
  replace ((dist s c * sqrt Dn) ^ 3) with (dist s c ^ 3 * ((sqrt Dn * sqrt Dn) * sqrt Dn)) by ring.
  now rewrite Q.
Qed.

Lemma tder_series m : is_series (tder s c t m) ((co m s - co m t) / eucl s t ^ 3).
Proof.
  pose proof (dist_pos s c Hs) as Ps. pose proof (dist_pos t c Ht) as Pt. pose proof Dn_pos as HD.
  pose proof (sqrt_lt_R0 _ HD) as Hq.
  set (T := (co m t - co m c) / dist t c). set (A := (co m s - co m c) / dist s c - x * (co m t - co m c) / dist t c).
  set (k := / (dist t c * dist s c)).
  pose proof (series_add _ _ _ _ (series_scal (k * T) _ _ series_nP) (series_scal (k * A) _ _ series_DP)) as H.
  replace ((co m s - co m t) / eucl s t ^ 3)
    with (k * T * (r * ((x - r) / (Dn * sqrt Dn))) + k * A * (r / (Dn * sqrt Dn))).
  - apply (is_series_ext (V := R_NormedModule) (fun n => k * T * (INR n * P x n * r ^ n) + k * A * (DP x n * r ^ n)));
      [|exact H].
    intros n. change (k * T * (INR n * P x n * r ^ n) + k * A * (DP x n * r ^ n) = tder s c t m n).
    unfold tder. fold x. fold T. fold A. destruct n as [|n].
    + rewrite DP_0. simpl. ring.
    + replace (dist t c ^ (S n - 1) / dist s c ^ (S n + 1)) with (k * r ^ S n); [ring|].
      unfold k, r, rho, Rdiv. rewrite Rpow_mult_distr, pow_inv. replace (S n - 1)%nat with n by lia.
      replace (S n + 1)%nat with (S (S n)) by lia. simpl. field. repeat split; try apply pow_nonzero; lra.
  - rewrite eucl_cube. unfold k, T, A, r, rho. field. repeat split; lra.
Qed.

Lemma sder_series m : is_series (sder s c t m) ((co m t - co m s) / eucl s t ^ 3).
Proof.
  pose proof (dist_pos s c Hs) as Ps. pose proof (dist_pos t c Ht) as Pt. pose proof Dn_pos as HD.
  pose proof (sqrt_lt_R0 _ HD) as Hq. pose proof (sqrt_sqrt Dn (Rlt_le _ _ HD)) as Hqq.
  set (U := (co m s - co m c) / dist s c). set (B := (co m t - co m c) / dist t c - x * (co m s - co m c) / dist s c).
  set (k := / (dist s c * dist s c)).
  pose proof (series_add _ _ _ _ (series_scal (- (k * U)) _ _ (series_add _ _ _ _ series_nP series_P))
                (series_scal (k * B) _ _ series_DP)) as H.
  replace ((co m t - co m s) / eucl s t ^ 3)
    with (- (k * U) * (r * ((x - r) / (Dn * sqrt Dn)) + / sqrt Dn) + k * B * (r / (Dn * sqrt Dn))).
  - eapply (is_series_ext (V := R_NormedModule)); [|exact H].
    intros n. cbv beta.
    change (- (k * U) * (INR n * P x n * r ^ n + P x n * r ^ n) + k * B * (DP x n * r ^ n) = sder s c t m n).
    unfold sder. fold x. fold U. fold B.
    replace (dist t c ^ n / dist s c ^ (n + 2)) with (k * r ^ n); [simpl; ring|].
    unfold k, r, rho, Rdiv. rewrite Rpow_mult_distr, pow_inv. replace (n + 2)%nat with (S (S n)) by lia. simpl. field.
    repeat split; try apply pow_nonzero; lra.
  - rewrite eucl_cube.
    replace (/ sqrt Dn) with (Dn / (Dn * sqrt Dn)) by (field; lra).
    clear H Hqq. assert (E : Dn = 1 - 2 * x * r + r * r) by reflexivity.
    revert Hq. generalize (sqrt Dn). clearbody Dn. intros q Hq.
    transitivity ((- (k * U) * (r * (x - r) + Dn) + k * B * r) / (Dn * q)); [field; split; lra|].
    transitivity (((co m t - co m s) / dist s c ^ 3) / (Dn * q)); [|field; repeat split; lra].
    f_equal. rewrite E. unfold k, U, B, r, rho. field. split; lra.
Qed.

Lemma kernel_tder m : (m < 3)%nat -> partial_at (laplace_kernel s) m t ((co m s - co m t) / eucl s t ^ 3).
Proof.
  intros Hm. unfold partial_at, laplace_kernel.
  pose proof (dist_derive m t s Hm (fun E => st_ne (eq_sym E))) as D.
  assert (Sy : forall a b, dist a b = dist b a).
  { intros a b. rewrite !dist_sub. f_equal. unfold dotp, sub. simpl. ring. }
  pose proof (dist_pos _ _ st_ne) as Pst. rewrite <- dist_eucl.
  set (f := fun u : R => dist (set_co m u t) s) in *.
  assert (F : f (co m t) = dist s t) by (unfold f; now rewrite set_co_same, Sy).
  apply (is_derive_ext (V := R_NormedModule) (fun u : R => / f u)).
  { intros u. unfold f. now rewrite <- dist_eucl, Sy. }
  clearbody f. auto_derive.
  - repeat split; [eexists; exact D | rewrite F; lra].
  - change (fun x0 : R => f x0) with f. rewrite (is_derive_unique f _ _ D), F, (Sy t s). field. lra.
Qed.
Lemma kernel_sder m : (m < 3)%nat -> partial_at (fun s => laplace_kernel s t) m s ((co m t - co m s) / eucl s t ^ 3).
Proof.
  intros Hm. unfold partial_at, laplace_kernel.
  pose proof (dist_derive m s t Hm st_ne) as D.
  pose proof (dist_pos _ _ st_ne) as Pst. rewrite <- dist_eucl.
  set (f := fun u : R => dist (set_co m u s) t) in *.
  assert (F : f (co m s) = dist s t) by (unfold f; now rewrite set_co_same).
  apply (is_derive_ext (V := R_NormedModule) (fun u : R => / f u)).
  { intros u. unfold f. now rewrite <- dist_eucl. }
  clearbody f. auto_derive.
  - repeat split; [eexists; exact D | rewrite F; lra].
  - change (fun x0 : R => f x0) with f. rewrite (is_derive_unique f _ _ D), F. field. lra.
Qed.
End S.

Lemma series_lim (a : nat -> R) l : is_series a l -> is_lim_seq (sum_n a) l.
Proof. intros H. exact H. Qed.
