(** Laplace: values of the target-specific expansions. *)
From Coq Require Import Reals Lra Lia List.
From Coquelicot Require Import Coquelicot.
From Verif Require Import Base TsModel TsSpec TsLeg TsProofs.
Import ListNotations.
Open Scope R_scope.

(** ** Geometry *)
Definition dotp (a b : tri R) : R := co 0 a * co 0 b + co 1 a * co 1 b + co 2 a * co 2 b.
Definition sub (a b : tri R) : tri R := tab (fun m => co m a - co m b).
Lemma tri_ext (A : Type) (a b : tri A) : co 0 a = co 0 b -> co 1 a = co 1 b -> co 2 a = co 2 b -> a = b.
Proof. destruct a, b. simpl. intros -> -> ->. reflexivity. Qed.
Lemma dist_sub a b : dist a b = sqrt (dotp (sub a b) (sub a b)).
Proof. reflexivity. Qed.
Lemma dist_eucl a b : dist a b = eucl a b.
Proof. unfold dist, eucl. f_equal. simpl. ring. Qed.
Lemma dotp_pos a : 0 <= dotp a a.
Proof. unfold dotp. nra. Qed.
Lemma dist_sq a b : dist a b * dist a b = dotp (sub a b) (sub a b).
Proof. rewrite dist_sub. apply sqrt_sqrt, dotp_pos. Qed.
Lemma dist_nneg a b : 0 <= dist a b.
Proof. apply sqrt_pos. Qed.
Lemma sum_sq_0 a b c : 0 = a * a + b * b + c * c -> a = 0 /\ b = 0 /\ c = 0.
Proof.
  intros H. assert (a * a = 0) by nra. assert (b * b = 0) by nra. assert (c * c = 0) by nra.
  repeat split; apply Rsqr_0_uniq; assumption.
Qed.
Lemma dist_pos a b : a <> b -> 0 < dist a b.
Proof.
  intros H. destruct (dist_nneg a b) as [|E]; [assumption|]. exfalso. apply H.
  pose proof (dist_sq a b) as Q. rewrite <- E in Q. unfold dotp, sub in Q. simpl in Q.
  rewrite Rmult_0_l in Q. apply sum_sq_0 in Q. apply tri_ext; simpl; lra.
Qed.
Lemma dist_refl a : dist a a = 0.
Proof. rewrite dist_sub. replace (dotp (sub a a) (sub a a)) with 0 by (unfold dotp, sub; simpl; ring). apply sqrt_0. Qed.
Lemma cauchy a b : dotp a b * dotp a b <= dotp a a * dotp b b.
Proof.
  assert (E : dotp a a * dotp b b - dotp a b * dotp a b =
    (co 0 a * co 1 b - co 1 a * co 0 b) ^ 2 + (co 0 a * co 2 b - co 2 a * co 0 b) ^ 2
    + (co 1 a * co 2 b - co 2 a * co 1 b) ^ 2) by (unfold dotp; ring).
  assert (0 <= (co 0 a * co 1 b - co 1 a * co 0 b) ^ 2) by apply pow2_ge_0.
  assert (0 <= (co 0 a * co 2 b - co 2 a * co 0 b) ^ 2) by apply pow2_ge_0.
  assert (0 <= (co 1 a * co 2 b - co 2 a * co 1 b) ^ 2) by apply pow2_ge_0. lra.
Qed.

(** cos of the angle at c between t and s *)
Definition cosang (s c t : tri R) : R := dotp (sub t c) (sub s c) / (dist t c * dist s c).
Lemma cos_bound s c t : s <> c -> t <> c -> cosang s c t * cosang s c t <= 1.
Proof.
  intros Hs Ht. apply dist_pos in Hs, Ht. unfold cosang.
  pose proof (cauchy (sub t c) (sub s c)) as H. rewrite <- !dist_sq in H.
  assert (0 < dist t c * dist s c) by (apply Rmult_lt_0_compat; assumption).
  replace (dotp (sub t c) (sub s c) / (dist t c * dist s c) * (dotp (sub t c) (sub s c) / (dist t c * dist s c)))
    with ((dotp (sub t c) (sub s c) * dotp (sub t c) (sub s c)) / ((dist t c * dist s c) * (dist t c * dist s c)))
    by (field; lra).
  apply Rle_div_l; [nra|]. rewrite Rmult_1_l. lra.
Qed.

Lemma segment_dist s c t tau : s <> c -> t <> c ->
  eucl s (on_segment c t tau) = dist s c * sqrt (1 - 2 * cosang s c t * (dist t c / dist s c * tau)
      + (dist t c / dist s c * tau) * (dist t c / dist s c * tau)).
Proof.
  intros Hs Ht. apply dist_pos in Hs, Ht.
  rewrite <- (sqrt_square (dist s c)) at 1 by lra. rewrite <- sqrt_mult_alt by nra.
  unfold eucl. f_equal.
  transitivity (dist s c * dist s c - 2 * dotp (sub t c) (sub s c) * tau + dist t c * dist t c * (tau * tau)).
  - rewrite !dist_sq. unfold dotp, sub, on_segment. simpl. ring.
  - unfold cosang. field. lra.
Qed.

(** ** The n-th term *)
Definition lterm (s c t : tri R) (n : nat) : R := P (cosang s c t) n * (dist t c ^ n / dist s c ^ S n).
Definition rho (s c t : tri R) : R := dist t c / dist s c.
Lemma rho_pos s c t : s <> c -> t <> c -> 0 < rho s c t.
Proof. intros Hs Ht. apply dist_pos in Hs, Ht. unfold rho. now apply Rdiv_lt_0_compat. Qed.
Lemma lterm_rho s c t n : s <> c -> lterm s c t n = P (cosang s c t) n * rho s c t ^ n / dist s c.
Proof.
  intros Hs. apply dist_pos in Hs. unfold lterm, rho. unfold Rdiv. rewrite Rpow_mult_distr, pow_inv. simpl. field.
  split; [lra|]. apply pow_nonzero. lra.
Qed.

Lemma segment_series s c t tau : s <> c -> t <> c -> Rabs (rho s c t * tau) < 1 ->
  / eucl s (on_segment c t tau) = PSeries (lterm s c t) tau.
Proof.
  intros Hs Ht H. rewrite segment_dist by assumption. fold (rho s c t).
  pose proof (cos_bound s c t Hs Ht) as Hx.
  rewrite (PSeries_ext _ (PS_scal (/ dist s c) (fun n => P (cosang s c t) n * rho s c t ^ n))).
  - rewrite PSeries_scal.
    pose proof (gen_series (cosang s c t) (rho s c t * tau) Hx H) as G.
    assert (E : PSeries (fun n => P (cosang s c t) n * rho s c t ^ n) tau = PSeries (P (cosang s c t)) (rho s c t * tau)).
    { unfold PSeries. apply Series_ext. intros n. rewrite Rpow_mult_distr. ring. }
    rewrite E, G. unfold gen.
    pose proof (D_pos (cosang s c t) (rho s c t * tau) Hx H) as HD. pose proof (sqrt_lt_R0 _ HD).
    apply dist_pos in Hs. rewrite Rinv_mult. reflexivity.
  - intros n. rewrite lterm_rho by assumption. unfold PS_scal, scal; simpl. unfold mult; simpl. unfold Rdiv. ring.
Qed.

Lemma lterm_taylor s c t n : s <> c -> t <> c ->
  Derive_n (fun tau => laplace_kernel s (on_segment c t tau)) n 0 / INR (fact n) = lterm s c t n.
Proof.
  intros Hs Ht. pose proof (rho_pos s c t Hs Ht) as Hr. pose proof (cos_bound s c t Hs Ht) as Hx.
  rewrite (Derive_n_ext_loc _ (PSeries (lterm s c t))).
  - rewrite Derive_n_coef.
    + field. apply INR_fact_neq_0.
    + apply Rbar_lt_le_trans with (/ rho s c t).
      * simpl. now apply Rinv_0_lt_compat.
      * destruct (CV_radius_bounded (lterm s c t)) as [B _]. apply (B (/ rho s c t)).
        exists (/ dist s c). intros k. rewrite lterm_rho by assumption.
        pose proof (P_bound (cosang s c t) k Hx). apply dist_pos in Hs.
        assert (rho s c t ^ k <> 0) by (apply pow_nonzero; lra).
        replace (P (cosang s c t) k * rho s c t ^ k / dist s c * (/ rho s c t) ^ k) with (P (cosang s c t) k / dist s c).
        -- unfold Rdiv. rewrite Rabs_mult. rewrite (Rabs_pos_eq (/ dist s c)) by (apply Rlt_le, Rinv_0_lt_compat; lra).
           rewrite <- (Rmult_1_l (/ dist s c)) at 2. apply Rmult_le_compat_r; [|assumption].
           apply Rlt_le, Rinv_0_lt_compat; lra.
        -- rewrite pow_inv. field. split; [assumption | lra].
  - assert (Hi : 0 < / rho s c t) by now apply Rinv_0_lt_compat.
    exists (mkposreal _ Hi). intros y Hy. apply segment_series; try assumption.
    unfold ball in Hy; simpl in Hy. unfold AbsRing_ball, abs, minus, plus, opp in Hy; simpl in Hy.
    assert (Hy' : Rabs y < / rho s c t) by (replace y with (y + - 0) by ring; exact Hy).
    rewrite Rabs_mult, (Rabs_pos_eq (rho s c t)) by lra.
    apply Rmult_lt_reg_l with (/ rho s c t); [assumption|].
    rewrite <- Rmult_assoc, Rinv_l, Rmult_1_l, Rmult_1_r by lra. assumption.
Qed.
Lemma laplace_qbx_sum p c s t : s <> c -> t <> c -> laplace_qbx p c s t = sum_n (lterm s c t) p.
Proof. intros Hs Ht. unfold laplace_qbx, qbx_expansion. apply sum_n_ext. intros n. now apply lterm_taylor. Qed.

(** ** ts_laplace_s *)
Lemma s_loop_ok s c t fuel : s <> c -> t <> c -> forall j result, (2 <= j)%nat ->
  s_loop (cosang s c t) (rho s c t) fuel (INR j) (P (cosang s c t) (j - 2)) (P (cosang s c t) (j - 1))
    (dist t c ^ j / dist s c ^ S j) result
  = result + sum_n_m (lterm s c t) j (j + fuel - 1).
Proof.
  intros Hs Ht. induction fuel as [|fuel IH]; intros j result Hj.
  - simpl. rewrite sum_n_m_zero by lia. change (@zero R_AbelianGroup) with 0. ring.
  - cbn [s_loop]. destruct j as [|[|j]]; try lia.
    replace (S (S j) - 2)%nat with j by lia. replace (S (S j) - 1)%nat with (S j) by lia.
    replace (((2 * INR (S (S j)) - 1) * cosang s c t * P (cosang s c t) (S j) - (INR (S (S j)) - 1) * P (cosang s c t) j) / INR (S (S j)))
      with (P (cosang s c t) (S (S j))) by (rewrite P_SS, INR_SS; f_equal; ring).
    replace (INR (S (S j)) + 1) with (INR (S (S (S j)))) by (rewrite !S_INR; ring).
    replace (dist t c ^ S (S j) / dist s c ^ S (S (S j)) * rho s c t)
      with (dist t c ^ S (S (S j)) / dist s c ^ S (S (S (S j)))).
    2:{ unfold rho. apply dist_pos in Hs. simpl. field. repeat split; try lra. apply pow_nonzero. lra. }
    rewrite (IH (S (S (S j)))) by lia.
    replace (S (S (S j)) + fuel - 1)%nat with (S (S j) + S fuel - 1)%nat by lia.
    rewrite (sum_Sn_m _ (S (S j)) _) by lia. unfold lterm at 2. change plus with Rplus. ring.
Qed.

Lemma ts_laplace_s_ok s c t charge p : s <> c -> t <> c ->
  ts_laplace_s s c t charge p = Fin (charge * RtoC (laplace_qbx p c s t))%C.
Proof.
  intros Hs Ht. rewrite laplace_qbx_sum by assumption.
  pose proof (dist_pos s c Hs) as Ps. pose proof (dist_pos t c Ht) as Pt.
  unfold ts_laplace_s. unfold fdiv at 1.
  destruct (Req_EM_T (dist s c) 0) as [E|_]; [lra|]. cbn [fbind].
  destruct p as [|p].
  - cbn [Nat.eqb]. do 3 f_equal. rewrite sum_O. unfold lterm. rewrite P_0. simpl. field. lra.
  - cbn [Nat.eqb]. unfold fdiv. destruct (Req_EM_T (dist t c * dist s c) 0) as [E|_]; [nra|]. cbn [fbind].
    do 3 f_equal.
    change (((co0 t - co0 c) * (co0 s - co0 c) + (co1 t - co1 c) * (co1 s - co1 c) + (co2 t - co2 c) * (co2 s - co2 c))
            / (dist t c * dist s c)) with (cosang s c t).
    fold (rho s c t).
    replace (dist t c * dist t c / (dist s c * dist s c * dist s c)) with (dist t c ^ 2 / dist s c ^ 3)
      by (field; lra).
    replace 2 with (INR 2) at 1 by (simpl; ring).
    pose proof (s_loop_ok s c t (S p - 1) Hs Ht 2
      (1 / dist s c + cosang s c t * dist t c / (dist s c * dist s c)) (le_n 2)) as H.
    simpl (2 - 2)%nat in H. simpl (2 - 1)%nat in H. rewrite P_0, P_1 in H. rewrite H.
    unfold sum_n. rewrite (sum_Sn_m _ 0) by lia. change plus with Rplus.
    replace (2 + (S p - 1) - 1)%nat with (S p) by lia.
    destruct p as [|p].
    + rewrite sum_n_n. rewrite sum_n_m_zero by lia. change (@zero R_AbelianGroup) with 0.
      unfold lterm. rewrite P_0, P_1. simpl. field. lra.
    + rewrite (sum_Sn_m _ 1) by lia. change plus with Rplus. unfold lterm at 2 3. rewrite P_0, P_1. simpl. field. lra.
Qed.

(** ** Convergence *)
Lemma kernel_series s c t : s <> c -> t <> c -> dist t c < dist s c ->
  is_series (lterm s c t) (laplace_kernel s t) /\ eucl s t <> 0.
Proof.
  intros Hs Ht H. pose proof (cos_bound s c t Hs Ht) as Hx. pose proof (rho_pos s c t Hs Ht) as Hr.
  assert (Hr1 : rho s c t < 1).
  { unfold rho. apply Rlt_div_l; [now apply dist_pos|]. lra. }
  assert (Ha : Rabs (rho s c t * 1) < 1) by (rewrite Rmult_1_r, Rabs_pos_eq; lra).
  assert (E1 : on_segment c t 1 = t).
  { unfold on_segment. apply tri_ext; simpl; ring. }
  split.
  - pose proof (segment_series s c t 1 Hs Ht Ha) as E. rewrite E1 in E. unfold laplace_kernel. rewrite E.
    unfold PSeries. rewrite <- (Series_ext (lterm s c t)) by (intros; rewrite pow1; ring).
    apply Series_correct.
    apply (ex_series_ext (fun n => / dist s c * (P (cosang s c t) n * rho s c t ^ n))).
    + intros n. rewrite lterm_rho by assumption. unfold Rdiv. simpl. ring.
    + apply (ex_series_scal_l (K := R_AbsRing) (V := R_NormedModule) (/ dist s c) (fun n => P (cosang s c t) n * rho s c t ^ n)).
      pose proof (inside (P (cosang s c t)) (rho s c t) (radius_ge _ Hx)) as I.
      rewrite Rmult_1_r in Ha. specialize (I Ha). apply ex_pseries_R in I. exact I.
  - pose proof (segment_dist s c t 1 Hs Ht) as E. rewrite E1 in E. rewrite E. fold (rho s c t).
    pose proof (D_pos (cosang s c t) (rho s c t * 1) Hx Ha) as HD. apply sqrt_lt_R0 in HD.
    apply dist_pos in Hs. apply Rgt_not_eq. now apply Rmult_lt_0_compat.
Qed.

Lemma laplace_qbx_limit c s t : s <> c -> t <> c -> dist t c < dist s c ->
  is_lim_seq (fun p => laplace_qbx p c s t) (laplace_kernel s t).
Proof.
  intros Hs Ht H. apply (is_lim_seq_ext (sum_n (lterm s c t))).
  - intros p. symmetry. now apply laplace_qbx_sum.
  - apply is_lim_seq_spec. destruct (kernel_series s c t Hs Ht H) as [K _].
    apply is_lim_seq_spec. exact K.
Qed.

Lemma laplace_qbx_error p c s t : s <> c -> t <> c -> dist t c < dist s c ->
  Rabs (laplace_qbx p c s t - laplace_kernel s t) <= rho s c t ^ S p / (dist s c - dist t c).
Proof.
  intros Hs Ht H. rewrite laplace_qbx_sum by assumption.
  pose proof (cos_bound s c t Hs Ht) as Hx. pose proof (rho_pos s c t Hs Ht) as Hr.
  pose proof (dist_pos s c Hs) as Ps. pose proof (dist_pos t c Ht) as Pt.
  assert (Hr1 : rho s c t < 1).
  { unfold rho. apply Rlt_div_l; lra. }
  destruct (kernel_series s c t Hs Ht H) as [K _].
  assert (EK : ex_series (lterm s c t)) by (eexists; exact K).
  rewrite <- (is_series_unique _ _ K).
  rewrite (Series_incr_n (lterm s c t) (S p)) by (try lia; assumption).
  simpl pred. rewrite <- sum_n_Reals.
  replace (sum_n (lterm s c t) p - (sum_n (lterm s c t) p + Series (fun k => lterm s c t (S p + k))))
    with (- Series (fun k => lterm s c t (S p + k))) by ring.
  rewrite Rabs_Ropp.
  assert (B : forall k, Rabs (lterm s c t (S p + k)) <= / dist s c * rho s c t ^ S p * rho s c t ^ k).
  { intros k. rewrite lterm_rho by assumption. unfold Rdiv. rewrite !Rabs_mult, pow_add.
    rewrite (Rabs_pos_eq (/ dist s c)) by (apply Rlt_le, Rinv_0_lt_compat; lra).
    pose proof (P_bound (cosang s c t) (S p + k) Hx) as HB.
    assert (0 <= rho s c t ^ S p * rho s c t ^ k) by (apply Rmult_le_pos; apply pow_le; lra).
    rewrite (Rabs_pos_eq (rho s c t ^ S p * rho s c t ^ k)) by assumption.
    assert (0 < / dist s c) by (apply Rinv_0_lt_compat; lra).
    pose proof (Rabs_pos (P (cosang s c t) (S p + k))).
    replace (/ dist s c * rho s c t ^ S p * rho s c t ^ k) with (1 * (rho s c t ^ S p * rho s c t ^ k) * / dist s c) by ring.
    apply Rmult_le_compat_r; [lra|]. apply Rmult_le_compat_r; assumption. }
  assert (G : is_series (fun k => / dist s c * rho s c t ^ S p * rho s c t ^ k)
                (/ dist s c * rho s c t ^ S p * / (1 - rho s c t))).
  { apply (is_series_scal_l (K := R_AbsRing) (V := R_NormedModule) (/ dist s c * rho s c t ^ S p) (fun k => rho s c t ^ k)). apply is_series_geom. rewrite Rabs_pos_eq; lra. }
  eapply Rle_trans; [apply Series_Rabs|].
  { apply (ex_series_le (fun k => Rabs (lterm s c t (S p + k))) (fun k => / dist s c * rho s c t ^ S p * rho s c t ^ k)).
    - intros k. unfold norm; simpl. unfold abs; simpl. rewrite Rabs_Rabsolu. apply B.
    - eexists; exact G. }
  eapply Rle_trans; [apply (Series_le _ (fun k => / dist s c * rho s c t ^ S p * rho s c t ^ k))|].
  - intros k. split; [apply Rabs_pos | apply B].
  - eexists; exact G.
  - rewrite (is_series_unique _ _ G). right. unfold rho in *. field. split; lra.
Qed.
