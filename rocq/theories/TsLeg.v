(** Legendre polynomials: the recurrences that impl.pyx uses give the Taylor coefficients of
    the generating function (1 - 2xt + t^2)^(-1/2). *)
From Coq Require Import Reals Lra Lia List.
From Coquelicot Require Import Coquelicot.
Open Scope R_scope.

Fixpoint PP (x : R) (n : nat) : R * R :=
  match n with
  | O => (1, x)
  | S n' => let '(a, b) := PP x n' in
            (b, ((2 * INR n' + 3) * x * b - (INR n' + 1) * a) / (INR n' + 2))
  end.
Definition P (x : R) (n : nat) : R := fst (PP x n).
Fixpoint DD (x : R) (n : nat) : R * R :=
  match n with
  | O => (0, 1)
  | S n' => let '(a, b) := DD x n' in
            (b, ((2 * INR n' + 3) * (P x (S n') + x * b) - (INR n' + 1) * a) / (INR n' + 2))
  end.
Definition DP (x : R) (n : nat) : R := fst (DD x n).

Lemma PP_snd x n : snd (PP x n) = P x (S n).
Proof. unfold P. simpl. destruct (PP x n). reflexivity. Qed.
Lemma DD_snd x n : snd (DD x n) = DP x (S n).
Proof. unfold DP. simpl. destruct (DD x n). reflexivity. Qed.
Lemma P_0 x : P x 0 = 1. Proof. reflexivity. Qed.
Lemma P_1 x : P x 1 = x. Proof. reflexivity. Qed.
Lemma DP_0 x : DP x 0 = 0. Proof. reflexivity. Qed.
Lemma DP_1 x : DP x 1 = 1. Proof. reflexivity. Qed.
Lemma P_SS x n : P x (S (S n)) = ((2 * INR n + 3) * x * P x (S n) - (INR n + 1) * P x n) / (INR n + 2).
Proof.
  rewrite <- (PP_snd x (S n)). simpl PP. pose proof (PP_snd x n) as H.
  unfold P at 2. destruct (PP x n) as [a b]. simpl in *. rewrite H. reflexivity.
Qed.
Lemma DP_SS x n : DP x (S (S n)) =
  ((2 * INR n + 3) * (P x (S n) + x * DP x (S n)) - (INR n + 1) * DP x n) / (INR n + 2).
Proof.
  rewrite <- (DD_snd x (S n)). simpl DD. pose proof (DD_snd x n) as H.
  unfold DP at 2. destruct (DD x n) as [a b]. cbn [fst snd] in *. rewrite H. reflexivity.
Qed.
Lemma INR2_pos n : 0 < INR n + 2. Proof. pose proof (pos_INR n). lra. Qed.
Lemma bonnet x n : (INR n + 2) * P x (S (S n)) = (2 * INR n + 3) * x * P x (S n) - (INR n + 1) * P x n.
Proof. rewrite P_SS. pose proof (INR2_pos n). field. lra. Qed.
Lemma bonnet' x n : (INR n + 2) * DP x (S (S n)) =
  (2 * INR n + 3) * (P x (S n) + x * DP x (S n)) - (INR n + 1) * DP x n.
Proof. rewrite DP_SS. pose proof (INR2_pos n). field. lra. Qed.

Lemma two_rel x n :
  x * DP x (S n) - DP x n = (INR n + 1) * P x (S n) /\ DP x (S n) - x * DP x n = (INR n + 1) * P x n.
Proof.
  induction n as [|n [A B]].
  - rewrite DP_0, DP_1, P_1, P_0. simpl. split; ring.
  - pose proof (INR2_pos n) as Hp. pose proof (bonnet' x n) as H1. pose proof (bonnet x n) as H2.
    assert (E : DP x (S (S n)) = x * DP x (S n) + (INR n + 2) * P x (S n)).
    { apply Rmult_eq_reg_l with (INR n + 2); [|lra]. rewrite H1.
      replace (DP x n) with (x * DP x (S n) - (INR n + 1) * P x (S n)) by lra. ring. }
    rewrite S_INR. split.
    + rewrite E. replace ((INR n + 1 + 1) * P x (S (S n))) with ((INR n + 2) * P x (S (S n))) by ring.
      rewrite H2.
      assert (Q : (x * x - 1) * DP x (S n) = (INR n + 1) * (x * P x (S n) - P x n)).
      { replace ((INR n + 1) * (x * P x (S n) - P x n))
          with (x * ((INR n + 1) * P x (S n)) - (INR n + 1) * P x n) by ring.
        rewrite <- A, <- B. ring. }
      lra.
    + rewrite E. ring.
Qed.

Lemma energy x n : x * x <= 1 ->
  (INR n + 1) ^ 2 * P x (S n) ^ 2 + (1 - x * x) * DP x (S n) ^ 2 <= (INR n + 1) ^ 2.
Proof.
  intros Hx. induction n as [|n IH].
  - rewrite P_1, DP_1. simpl INR. nra.
  - destruct (two_rel x (S n)) as [A B]. rewrite S_INR in *.
    pose proof (pos_INR n).
    assert (E : (INR n + 1 + 1) ^ 2 * P x (S (S n)) ^ 2 + (1 - x * x) * DP x (S (S n)) ^ 2
              = (INR n + 1 + 1) ^ 2 * P x (S n) ^ 2 + (1 - x * x) * DP x (S n) ^ 2).
    { replace ((INR n + 1 + 1) ^ 2 * P x (S (S n)) ^ 2) with (((INR n + 1 + 1) * P x (S (S n))) ^ 2) by ring.
      replace ((INR n + 1 + 1) ^ 2 * P x (S n) ^ 2) with (((INR n + 1 + 1) * P x (S n)) ^ 2) by ring.
      rewrite <- A, <- B. ring. }
    rewrite E.
    assert (F : P x (S n) ^ 2 <= 1).
    { assert (0 <= (1 - x * x) * DP x (S n) ^ 2) by (apply Rmult_le_pos; [lra | apply pow2_ge_0]).
      assert (0 < (INR n + 1) ^ 2) by (apply pow_lt; lra).
      apply Rmult_le_reg_l with ((INR n + 1) ^ 2); lra. }
    nra.
Qed.

Lemma P_bound x n : x * x <= 1 -> Rabs (P x n) <= 1.
Proof.
  intros Hx. destruct n as [|n].
  - rewrite P_0, Rabs_R1. lra.
  - pose proof (energy x n Hx). pose proof (pos_INR n).
    assert (F : P x (S n) ^ 2 <= 1).
    { assert (0 <= (1 - x * x) * DP x (S n) ^ 2) by (apply Rmult_le_pos; [lra | apply pow2_ge_0]).
      assert (0 < (INR n + 1) ^ 2) by (apply pow_lt; lra).
      apply Rmult_le_reg_l with ((INR n + 1) ^ 2); lra. }
    apply Rsqr_incr_0_var; [|lra]. rewrite <- Rsqr_abs. unfold Rsqr. nra.
Qed.

Lemma DP_bound x n : x * x <= 1 -> Rabs (DP x n) <= INR n * INR n.
Proof.
  intros Hx. assert (Ha : Rabs x <= 1).
  { apply Rsqr_incr_0_var; [|lra]. rewrite <- Rsqr_abs. unfold Rsqr. lra. }
  induction n as [|n IH].
  - rewrite DP_0, Rabs_R0. simpl. lra.
  - destruct (two_rel x n) as [_ B].
    replace (DP x (S n)) with (x * DP x n + (INR n + 1) * P x n) by lra.
    eapply Rle_trans; [apply Rabs_triang|]. rewrite !Rabs_mult.
    pose proof (P_bound x n Hx). pose proof (pos_INR n).
    rewrite (Rabs_pos_eq (INR n + 1)) by lra. rewrite S_INR.
    pose proof (Rabs_pos (DP x n)). pose proof (Rabs_pos x). pose proof (Rabs_pos (P x n)). nra.
Qed.

(** P' really is the derivative of P. *)
Lemma P_derive n (x : R) : is_derive (fun x : R => P x n) x (DP x n).
Proof.
  enough (H : is_derive (fun x : R => P x n) x (DP x n) /\ is_derive (fun x : R => P x (S n)) x (DP x (S n))) by apply H.
  induction n as [|n [IH1 IH2]].
  - split.
    + apply (is_derive_ext (V := R_NormedModule) (fun _ : R => 1)); [intros; now rewrite P_0|]. rewrite DP_0. auto_derive; auto.
    + apply (is_derive_ext (V := R_NormedModule) (fun x : R => x)); [intros; now rewrite P_1|]. rewrite DP_1. auto_derive; auto.
  - split; [exact IH2|].
    apply (is_derive_ext (V := R_NormedModule) (fun x : R => ((2 * INR n + 3) * x * P x (S n) - (INR n + 1) * P x n) / (INR n + 2)));
      [intros; now rewrite P_SS|].
    rewrite DP_SS. pose proof (INR2_pos n).
    set (f := fun x : R => P x n) in *. set (g := fun x : R => P x (S n)) in *.
    change (is_derive (fun x : R => ((2 * INR n + 3) * x * g x - (INR n + 1) * f x) / (INR n + 2)) x
      (((2 * INR n + 3) * (g x + x * DP x (S n)) - (INR n + 1) * DP x n) / (INR n + 2))).
    clearbody f g.
    auto_derive.
    + repeat split; eexists; eassumption.
    + change (fun x0 : R => f x0) with f. change (fun x0 : R => g x0) with g.
      rewrite (is_derive_unique f x _ IH1), (is_derive_unique g x _ IH2). field. lra.
Qed.

(** The generating function. *)
Definition gen (x t : R) : R := / sqrt (1 - 2 * x * t + t * t).

Lemma D_pos x t : x * x <= 1 -> Rabs t < 1 -> 0 < 1 - 2 * x * t + t * t.
Proof.
  intros Hx Ht. apply Rabs_def2 in Ht. destruct Ht.
  assert ((x * t) * (x * t) <= t * t) by nra.
  assert (t * t < 1) by nra.
  assert (-1 <= x <= 1) by nra.
  destruct (Rle_dec 0 t); nra.
Qed.

Lemma radius_ge x : x * x <= 1 -> Rbar_le 1 (CV_radius (P x)).
Proof.
  intros Hx. destruct (CV_radius_bounded (P x)) as [H _]. apply (H 1).
  exists 1. intros n. rewrite pow1, Rmult_1_r. now apply P_bound.
Qed.
Lemma radius_lt a t : Rbar_le 1 (CV_radius a) -> Rabs t < 1 -> Rbar_lt (Rabs t) (CV_radius a).
Proof.
  intros H Ht. apply Rbar_lt_le_trans with 1; [exact Ht | exact H].
Qed.
(** A bound that lets [CV_radius] be at least one. *)
Lemma radius_poly (a : nat -> R) (c : R) : (forall n, Rabs (a n) <= c * (INR n + 1) * (INR n + 1)) ->
  Rbar_le 1 (CV_radius a).
Proof.
  intros H. apply Rbar_le_trans with (CV_radius (PS_derive (PS_derive (fun _ => 1)))).
  - rewrite !CV_radius_derive. destruct (CV_radius_bounded (fun _ => 1)) as [B _]. apply (B 1).
    exists 1. intros n. rewrite pow1, Rmult_1_r, Rabs_R1. lra.
  - destruct (CV_radius_bounded a) as [B _].
    destruct (CV_radius_bounded (PS_derive (PS_derive (fun _ : nat => 1)))) as [_ B'].
    apply B'. intros r [M HM]. apply (B r). exists (c * M). intros n.
    rewrite Rabs_mult. specialize (HM n). unfold PS_derive in HM.
    rewrite !S_INR in HM. rewrite Rabs_mult in HM.
    assert (0 <= c).
    { specialize (H 0%nat). simpl in H. pose proof (Rabs_pos (a 0%nat)). lra. }
    pose proof (pos_INR n).
    rewrite (Rabs_pos_eq ((INR n + 1) * ((INR n + 1 + 1) * 1))) in HM by nra.
    apply Rle_trans with (c * (INR n + 1) * (INR n + 1) * Rabs (r ^ n)).
    + apply Rmult_le_compat_r; [apply Rabs_pos | apply H].
    + apply Rle_trans with (c * (((INR n + 1) * ((INR n + 1 + 1) * 1)) * Rabs (r ^ n)));
        [|apply Rmult_le_compat_l; lra].
      replace (c * (INR n + 1) * (INR n + 1) * Rabs (r ^ n)) with (c * (((INR n + 1) * (INR n + 1)) * Rabs (r ^ n))) by ring.
      apply Rmult_le_compat_l; [lra|]. apply Rmult_le_compat_r; [apply Rabs_pos|]. nra.
Qed.

Lemma inside a t : Rbar_le 1 (CV_radius a) -> Rabs t < 1 -> ex_pseries a t.
Proof. intros H Ht. apply CV_radius_inside. now apply radius_lt. Qed.
Lemma radius_incr a : Rbar_le 1 (CV_radius a) -> Rbar_le 1 (CV_radius (PS_incr_1 a)).
Proof. now rewrite CV_radius_incr_1. Qed.
Lemma radius_deriv a : Rbar_le 1 (CV_radius a) -> Rbar_le 1 (CV_radius (PS_derive a)).
Proof. now rewrite CV_radius_derive. Qed.

Lemma gen_ode x t : x * x <= 1 -> Rabs t < 1 ->
  (1 - 2 * x * t + t * t) * PSeries (PS_derive (P x)) t = (x - t) * PSeries (P x) t.
Proof.
  intros Hx Ht.
  assert (R1 := radius_ge x Hx). assert (R2 := radius_deriv _ R1).
  assert (E : PSeries (PS_plus (PS_plus (PS_derive (P x)) (PS_scal (- (2 * x)) (PS_incr_1 (PS_derive (P x)))))
                 (PS_incr_1 (PS_incr_1 (PS_derive (P x))))) t
            = PSeries (PS_plus (PS_scal x (P x)) (PS_scal (-1) (PS_incr_1 (P x)))) t).
  { apply PSeries_ext. intros n.
    change (PS_derive (P x) n + - (2 * x) * PS_incr_1 (PS_derive (P x)) n + PS_incr_1 (PS_incr_1 (PS_derive (P x))) n
            = x * P x n + (-1) * PS_incr_1 (P x) n).
    destruct n as [|[|n]]; unfold PS_incr_1, PS_derive; change (@zero R_NormedModule) with 0.
    - rewrite P_1, P_0. simpl INR. ring.
    - pose proof (bonnet x 0) as Hb. rewrite P_1, P_0 in *. simpl INR in *. lra.
    - pose proof (bonnet x (S n)) as Hb. rewrite !S_INR in *. lra. }
  rewrite !PSeries_plus in E.
  - rewrite !PSeries_scal, !PSeries_incr_1 in E. lra.
  - apply ex_pseries_scal; [apply Rmult_comm|]. now apply inside.
  - apply ex_pseries_scal; [apply Rmult_comm|]. apply inside; [now apply radius_incr | exact Ht].
  - now apply inside.
  - apply ex_pseries_scal; [apply Rmult_comm|]. apply inside; [now apply radius_incr | exact Ht].
  - apply ex_pseries_plus; [now apply inside|].
    apply ex_pseries_scal; [apply Rmult_comm|]. apply inside; [now apply radius_incr | exact Ht].
  - apply inside; [now apply radius_incr, radius_incr | exact Ht].
Qed.

Lemma gen_series x t : x * x <= 1 -> Rabs t < 1 -> PSeries (P x) t = gen x t.
Proof.
  intros Hx Ht.
  set (f := fun t => PSeries (P x) t * sqrt (1 - 2 * x * t + t * t)).
  assert (Hd : forall u, Rabs u < 1 -> is_derive f u 0).
  { intros u Hu. pose proof (D_pos x u Hx Hu) as HD.
    pose proof (is_derive_PSeries (P x) u (radius_lt _ _ (radius_ge x Hx) Hu)) as HG.
    pose proof (gen_ode x u Hx Hu) as Ho.
    assert (Hs := sqrt_lt_R0 _ HD). assert (Hss := sqrt_sqrt _ (Rlt_le _ _ HD)).
    unfold f. auto_derive.
    - repeat split; [eexists; exact HG | exact HD].
    - change (fun x0 : R => PSeries (P x) x0) with (PSeries (P x)).
      rewrite (is_derive_unique (PSeries (P x)) u _ HG).
      revert Hs Hss Ho. generalize (PSeries (P x) u) (PSeries (PS_derive (P x)) u).
      intros G G'. replace (1 + - (2 * x * u) + u * u) with (1 - 2 * x * u + u * u) by ring.
      generalize (sqrt (1 - 2 * x * u + u * u)). intros s Hs Hss Ho.
      apply Rmult_eq_reg_r with s; [|lra].
      transitivity (G' * (s * s) + G * (u - x)); [field; lra | rewrite Hss; lra]. }
  assert (Hf : f t = 1).
  { assert (f0 : f 0 = 1).
    { unfold f. rewrite PSeries_0, P_0. replace (1 - 2 * x * 0 + 0 * 0) with 1 by ring. rewrite sqrt_1. ring. }
    rewrite <- f0. apply Rabs_def2 in Ht. destruct Ht as [Ht1 Ht2].
    destruct (Rtotal_order t 0) as [Hlt | [-> | Hgt]].
    - apply (eq_is_derive f t 0); [|exact Hlt]. intros u Hu. apply Hd. apply Rabs_def1; lra.
    - reflexivity.
    - symmetry. apply (eq_is_derive f 0 t); [|exact Hgt]. intros u Hu. apply Hd. apply Rabs_def1; lra. }
  unfold f in Hf. unfold gen. pose proof (D_pos x t Hx Ht) as HD. pose proof (sqrt_lt_R0 _ HD).
  apply Rmult_eq_reg_r with (sqrt (1 - 2 * x * t + t * t)); [|lra]. rewrite Hf. field. lra.
Qed.

Lemma P_taylor x n : x * x <= 1 -> P x n = Derive_n (gen x) n 0 / INR (fact n).
Proof.
  intros Hx.
  rewrite <- (Derive_n_ext_loc (PSeries (P x))).
  - rewrite Derive_n_coef.
    + field. apply INR_fact_neq_0.
    + apply Rbar_lt_le_trans with 1; [simpl; lra | now apply radius_ge].
  - exists (mkposreal 1 Rlt_0_1). intros y Hy. apply gen_series; [exact Hx|].
    unfold ball in Hy; simpl in Hy. unfold AbsRing_ball, abs, minus, plus, opp in Hy; simpl in Hy.
    now replace y with (y + - 0) by ring.
Qed.

(** Series of the x-derivatives. *)
Lemma DP_radius x : x * x <= 1 -> Rbar_le 1 (CV_radius (DP x)).
Proof.
  intros Hx. apply (radius_poly _ 1). intros n. eapply Rle_trans; [now apply DP_bound|].
  pose proof (pos_INR n). nra.
Qed.
Lemma DP_three x n : DP x (S (S n)) + DP x n = 2 * x * DP x (S n) + P x (S n).
Proof.
  destruct (two_rel x n) as [A _]. destruct (two_rel x (S n)) as [_ B]. rewrite S_INR in B. lra.
Qed.
Lemma dgen_series x t : x * x <= 1 -> Rabs t < 1 ->
  (1 - 2 * x * t + t * t) * PSeries (DP x) t = t * gen x t.
Proof.
  intros Hx Ht. rewrite <- (gen_series x t Hx Ht).
  assert (R1 := radius_ge x Hx). assert (R2 := DP_radius x Hx).
  assert (E : PSeries (PS_plus (PS_plus (DP x) (PS_scal (- (2 * x)) (PS_incr_1 (DP x))))
                 (PS_incr_1 (PS_incr_1 (DP x)))) t
            = PSeries (PS_incr_1 (P x)) t).
  { apply PSeries_ext. intros n.
    change (DP x n + - (2 * x) * PS_incr_1 (DP x) n + PS_incr_1 (PS_incr_1 (DP x)) n = PS_incr_1 (P x) n).
    destruct n as [|[|n]]; unfold PS_incr_1; change (@zero R_NormedModule) with 0.
    - rewrite DP_0. ring.
    - rewrite DP_0, DP_1, P_0. ring.
    - pose proof (DP_three x n). lra. }
  rewrite !PSeries_plus in E.
  - rewrite !PSeries_scal, !PSeries_incr_1 in E. lra.
  - now apply inside.
  - apply ex_pseries_scal; [apply Rmult_comm|]. apply inside; [now apply radius_incr | exact Ht].
  - apply ex_pseries_plus; [now apply inside|].
    apply ex_pseries_scal; [apply Rmult_comm|]. apply inside; [now apply radius_incr | exact Ht].
  - apply inside; [now apply radius_incr, radius_incr | exact Ht].
Qed.
