(** Decay of the spherical Bessel functions for |z| <= 1. *)
From Coq Require Import Reals List Lra Lia.
From Coquelicot Require Import Coquelicot.
From Verif Require Import Base TsModel TsSpec TsProofs5 JfModel JfSpec JfProofs JfProofs2 JfProofs3 JfProofs4 JfProofs5.
Import ListNotations.
Set Implicit Arguments.
Open Scope R_scope.

(** A bound from a bound of the derivative *)
Lemma cmvt (f d : R -> C) (M r : R) : 0 <= r -> f 0 = RtoC 0 -> (forall t, 0 <= t <= r -> cderiv f t (d t)) ->
  (forall t, 0 <= t <= r -> Cmod (d t) <= M) -> Cmod (f r) <= r * M.
Proof.
  intros Hr F0 D B. destruct (Req_dec (Cmod (f r)) 0) as [Z0|NZ].
  { rewrite Z0. apply Rmult_le_pos; [exact Hr|]. eapply Rle_trans; [apply Cmod_ge_0|apply (B 0); lra]. }
  assert (P : 0 < Cmod (f r)) by (pose proof (Cmod_ge_0 (f r)); lra).
  set (a := fst (f r) / Cmod (f r)). set (b := snd (f r) / Cmod (f r)).
  assert (SQ : fst (f r) * fst (f r) + snd (f r) * snd (f r) = Cmod (f r) * Cmod (f r)).
  { pose proof (nrm2_Cmod (f r)) as N. unfold nrm2, Rsqr in N. exact N. }
  assert (AB : a * a + b * b = 1).
  { unfold a, b. replace (fst (f r) / Cmod (f r) * (fst (f r) / Cmod (f r)) + snd (f r) / Cmod (f r) * (snd (f r) / Cmod (f r)))
      with ((fst (f r) * fst (f r) + snd (f r) * snd (f r)) / (Cmod (f r) * Cmod (f r))) by (field; lra). rewrite SQ. field. lra. }
  set (phi := fun t => a * fst (f t) + b * snd (f t)).
  assert (PD : forall t, 0 <= t <= r -> is_derive phi t (a * fst (d t) + b * snd (d t))).
  { intros t Ht. destruct (D t Ht) as [D1 D2]. unfold phi. apply (is_derive_plus (V := R_NormedModule)); apply is_derive_scal; assumption. }
  assert (PB : forall x y, a * x + b * y <= sqrt (x * x + y * y)).
  { intros x y. apply Rsqr_incr_0_var; [|apply sqrt_pos]. rewrite Rsqr_sqrt by nra. unfold Rsqr.
    pose proof (Rle_0_sqr (a * y - b * x)) as Q. unfold Rsqr in Q.
    assert (E : (a * x + b * y) * (a * x + b * y) + (a * y - b * x) * (a * y - b * x) = (a * a + b * b) * (x * x + y * y)) by ring. rewrite AB in E. lra. }
  assert (CM : forall c : C, a * fst c + b * snd c <= Cmod c).
  { intros c. eapply Rle_trans; [apply PB|]. unfold Cmod. right. f_equal. ring. }
  assert (PR : phi r = Cmod (f r)).
  { unfold phi, a, b. replace (fst (f r) / Cmod (f r) * fst (f r) + snd (f r) / Cmod (f r) * snd (f r))
      with ((fst (f r) * fst (f r) + snd (f r) * snd (f r)) / Cmod (f r)) by (field; lra). rewrite SQ. field. lra. }
  assert (P0 : phi 0 = 0) by (unfold phi; rewrite F0; unfold RtoC; cbn [fst snd]; ring).
  destruct (MVT_gen phi 0 r (fun t => a * fst (d t) + b * snd (d t))) as (c & Hc & E).
  - intros t Ht. rewrite Rmin_left, Rmax_right in Ht by exact Hr. apply PD. lra.
  - intros t Ht. rewrite Rmin_left, Rmax_right in Ht by exact Hr. apply continuity_pt_filterlim, (ex_derive_continuous (V := R_NormedModule)).
    eexists. apply PD. lra.
  - rewrite Rmin_left, Rmax_right in Hc by exact Hr. rewrite PR, P0, !Rminus_0_r in E. rewrite E, Rmult_comm.
    apply Rmult_le_compat_l; [exact Hr|]. eapply Rle_trans; [apply CM|apply B; lra].
Qed.

Section Decay.
Variable z : C.
Definition zt (t : R) : C := (z * RtoC t)%C.
Lemma zt_deriv t : cderiv zt t z.
Proof.
  pose proof (@cderiv_real (fun u => u) t 1 (is_derive_id t)) as D0. pose proof (@cderiv_scal z _ _ _ D0) as D1.
  eapply cderiv_eq; [|exact D1]. ring.
Qed.
(** z^(n+1) j_n(z), on the ray through z *)
Fixpoint gg (n : nat) (t : R) : C * C :=
  match n with
  | O => (csin (zt t), (csin (zt t) - zt t * ccos (zt t))%C)
  | S n' => let '(a, b) := gg n' t in (b, (RtoC (2 * INR n' + 3) * b - zt t * zt t * a)%C)
  end.
Definition g (n : nat) (t : R) : C := fst (gg n t).
Lemma g_0 t : g 0 t = csin (zt t). Proof. reflexivity. Qed.
Lemma g_1 t : g 1 t = (csin (zt t) - zt t * ccos (zt t))%C. Proof. reflexivity. Qed.
Lemma g_SS n t : g (S (S n)) t = (RtoC (2 * INR n + 3) * g (S n) t - zt t * zt t * g n t)%C.
Proof. unfold g. cbn [gg]. destruct (gg n t). reflexivity. Qed.

Lemma sin_deriv t : cderiv (fun u => csin (zt u)) t (z * ccos (zt t))%C.
Proof.
  pose proof Ci_ne as NI. assert (N2 : RtoC 2 <> RtoC 0) by (apply RtoC_ne; lra).
  pose proof (@cderiv_scal Ci _ _ _ (zt_deriv t)) as D1. pose proof (@cderiv_opp _ _ _ D1) as D2.
  pose proof (@cderiv_scal (/ (2 * Ci))%C _ _ _ (@cderiv_minus _ _ _ _ _ (@cderiv_cexp _ _ _ D1) (@cderiv_cexp _ _ _ D2))) as D.
  eapply cderiv_eq; [|eapply cderiv_ext; [|exact D]].
  - unfold ccos. cbv beta. field. repeat split; assumption.
  - intros u. cbv beta. unfold csin, Cdiv. ring.
Qed.
Lemma cos_deriv t : cderiv (fun u => ccos (zt u)) t (- (z * csin (zt t)))%C.
Proof.
  pose proof Ci_ne as NI. assert (N2 : RtoC 2 <> RtoC 0) by (apply RtoC_ne; lra).
  pose proof (@cderiv_scal Ci _ _ _ (zt_deriv t)) as D1. pose proof (@cderiv_opp _ _ _ D1) as D2.
  pose proof (@cderiv_scal (/ 2)%C _ _ _ (@cderiv_plus _ _ _ _ _ (@cderiv_cexp _ _ _ D1) (@cderiv_cexp _ _ _ D2))) as D.
  eapply cderiv_eq; [|eapply cderiv_ext; [|exact D]].
  - cbv beta. unfold csin. set (a := cexp (Ci * zt t)%C). set (b := cexp (- (Ci * zt t))%C).
    transitivity (Ci * Ci * (z * ((a - b) / (2 * Ci))))%C; [field; repeat split; assumption|].
    rewrite Ci_sq. unfold Cdiv. ring.
  - intros u. cbv beta. unfold ccos, Cdiv. ring.
Qed.
Definition e (n : nat) (t : R) : C := match n with O => ccos (zt t) | S m => (zt t * g m t)%C end.
Lemma g_deriv n : (forall t, cderiv (g n) t (z * e n t)%C) /\ (forall t, cderiv (g (S n)) t (z * e (S n) t)%C)
  /\ (forall t, (zt t * e n t)%C = (RtoC (2 * INR n + 1) * g n t - g (S n) t)%C).
Proof.
  induction n as [|n (IH1 & IH2 & IH3)].
  - split; [intros t; apply sin_deriv|]. split; intros t.
    + pose proof (@cderiv_minus _ _ _ _ _ (sin_deriv t) (@cderiv_mult _ _ _ _ _ (zt_deriv t) (cos_deriv t))) as D.
      eapply cderiv_eq; [|eapply cderiv_ext; [|exact D]]; [|intros u; reflexivity]. cbn [e]. rewrite g_0. ring.
    + cbn [e]. rewrite g_0, g_1. simpl INR. replace (2 * 0 + 1) with 1 by ring. ring.
  - split; [exact IH2|]. split; intros t.
    + pose proof (@cderiv_mult _ _ _ _ _ (zt_deriv t) (zt_deriv t)) as Z2.
      pose proof (@cderiv_minus _ _ _ _ _ (@cderiv_scal (RtoC (2 * INR n + 3)) _ _ _ (IH2 t)) (@cderiv_mult _ _ _ _ _ Z2 (IH1 t))) as D.
      cbv beta in D. eapply cderiv_eq; [|eapply cderiv_ext; [|exact D]]; [|intros u; cbv beta; rewrite g_SS; reflexivity].
      transitivity (z * zt t * (RtoC (2 * INR n + 3) * g n t - RtoC 2 * g n t - zt t * e n t))%C; [cbn [e]|].
      * replace (RtoC 2) with (RtoC 1 + RtoC 1)%C by (rewrite <- RtoC_plus; f_equal; ring). ring.
      * replace (RtoC 2) with (RtoC 1 + RtoC 1)%C by (rewrite <- RtoC_plus; f_equal; ring). cbn [e].
        rewrite IH3. replace (RtoC (2 * INR n + 3)) with (RtoC (2 * INR n + 1) + RtoC 1 + RtoC 1)%C by (rewrite <- !RtoC_plus; f_equal; ring). ring.
    + cbn [e]. rewrite g_SS, S_INR. replace (2 * (INR n + 1) + 1) with (2 * INR n + 3) by ring. ring.
Qed.
Lemma zt_0 : zt 0 = RtoC 0. Proof. unfold zt. ring. Qed.
Lemma g_at_0 n : g n 0 = RtoC 0.
Proof.
  enough (g n 0 = RtoC 0 /\ g (S n) 0 = RtoC 0) by tauto. induction n as [|n [I1 I2]].
  - rewrite g_0, g_1, zt_0. unfold csin. replace (Ci * RtoC 0)%C with (RtoC 0) by ring. replace (- RtoC 0)%C with (RtoC 0) by ring.
    unfold Cdiv. split; ring.
  - split; [exact I2|]. rewrite g_SS, I1, I2. ring.
Qed.
Lemma cexp_mod w : Cmod w <= 1 -> Cmod (cexp w) <= exp 1.
Proof.
  intros H. unfold cexp, Cmod. cbn [fst snd].
  replace ((exp (fst w) * cos (snd w)) ^ 2 + (exp (fst w) * sin (snd w)) ^ 2) with (exp (fst w) * exp (fst w) * ((sin (snd w))² + (cos (snd w))²)) by (unfold Rsqr; ring).
  rewrite sin2_cos2, Rmult_1_r, sqrt_square by (left; apply exp_pos).
  assert (A : fst w <= 1) by (eapply Rle_trans; [apply Rle_abs|]; eapply Rle_trans; [apply Rmax_l|]; eapply Rle_trans; [apply Rmax_Cmod|exact H]).
  destruct A as [A|A]; [left; apply exp_increasing, A|rewrite A; lra].
Qed.
Lemma Cmod_Ci : Cmod Ci = 1.
Proof. unfold Cmod, Ci. cbn [fst snd]. replace (0 ^ 2 + 1 ^ 2) with 1 by ring. apply sqrt_1. Qed.
Lemma ccos_mod w : Cmod w <= 1 -> Cmod (ccos w) <= exp 1.
Proof.
  intros H. unfold ccos. rewrite Cmod_div by (apply RtoC_ne; lra). rewrite Cmod_RtoC, Rabs_pos_eq by lra.
  assert (A : Cmod (Ci * w)%C <= 1) by (rewrite Cmod_mult, Cmod_Ci; lra).
  pose proof (@cexp_mod _ A) as B1. assert (A' : Cmod (- (Ci * w))%C <= 1) by (rewrite Cmod_opp; exact A). pose proof (@cexp_mod _ A') as B2.
  pose proof (Cmod_triangle (cexp (Ci * w)%C) (cexp (- (Ci * w))%C)) as Tr. lra.
Qed.
Hypothesis H1 : Cmod z <= 1.
Lemma zt_mod t : 0 <= t -> Cmod (zt t) = Cmod z * t.
Proof. intros H. unfold zt. rewrite Cmod_mult, Cmod_RtoC, Rabs_pos_eq by exact H. reflexivity. Qed.
Lemma g_bound n : forall t, 0 <= t <= 1 -> Cmod (g n t) <= exp 1 * (Cmod z * t) ^ S n.
Proof.
  pose proof (Cmod_ge_0 z) as Pz. assert (Pe : 0 < exp 1) by apply exp_pos.
  induction n as [|n IH]; intros t Ht.
  - replace (exp 1 * (Cmod z * t) ^ 1) with (t * (Cmod z * exp 1)) by ring.
    apply cmvt with (d := fun t => (z * e 0 t)%C); [lra|apply g_at_0|intros s _; apply g_deriv|].
    intros s Hs. rewrite Cmod_mult. apply Rmult_le_compat_l; [exact Pz|]. cbn [e]. apply ccos_mod. rewrite zt_mod by lra. nra.
  - replace (exp 1 * (Cmod z * t) ^ S (S n)) with (t * (Cmod z * (exp 1 * (Cmod z * t) ^ S n))) by (cbn [pow]; ring).
    apply cmvt with (d := fun t => (z * e (S n) t)%C); [lra|apply g_at_0|intros s _; apply g_deriv|].
    intros s Hs. rewrite Cmod_mult. apply Rmult_le_compat_l; [exact Pz|]. cbn [e]. rewrite Cmod_mult, zt_mod by lra.
    apply Rle_trans with (1 * Cmod (g n s)); [apply Rmult_le_compat_r; [apply Cmod_ge_0|nra]|]. rewrite Rmult_1_l.
    eapply Rle_trans; [apply IH; lra|]. apply Rmult_le_compat_l; [lra|]. apply pow_incr. split; [nra|]. apply Rmult_le_compat_l; lra.
Qed.
Hypothesis Hz : z <> RtoC 0.
Fixpoint cpw (n : nat) : C := match n with O => z | S n => (z * cpw n)%C end.
Lemma cpw_ne n : cpw n <> RtoC 0. Proof. induction n as [|n IH]; [exact Hz|apply Cmult_neq_0; assumption]. Qed.
Lemma cpw_mod n : Cmod (cpw n) = Cmod z ^ S n.
Proof. induction n as [|n IH]; [cbn; ring|]. cbn [cpw]. rewrite Cmod_mult, IH. reflexivity. Qed.
Lemma j_is_g j : bessel_at z j -> forall n, j n = (g n 1 / cpw n)%C.
Proof.
  intros (Hr & E0 & E1). assert (Z1 : zt 1 = z) by (unfold zt; ring). apply rec_ext with (z := z); [exact Hr| | |].
  - intros n. rewrite g_SS, Z1. cbn [cpw]. pose proof (cpw_ne n). field. split; assumption.
  - rewrite E0, g_0, Z1. reflexivity.
  - rewrite E1, g_1, Z1. cbn [cpw]. field. exact Hz.
Qed.
Lemma j_bounded j : bessel_at z j -> forall n, Cmod (j n) <= exp 1.
Proof.
  intros Hj n. rewrite (j_is_g Hj). rewrite Cmod_div by apply cpw_ne. rewrite cpw_mod. assert (P : 0 < Cmod z ^ S n) by (apply pow_lt, Cmod_gt_0, Hz).
  apply Rmult_le_reg_r with (Cmod z ^ S n); [exact P|]. unfold Rdiv. rewrite Rmult_assoc, Rinv_l, Rmult_1_r by lra.
  eapply Rle_trans; [apply g_bound; lra|]. rewrite Rmult_1_r. lra.
Qed.
Lemma INR_pow2 m : INR m < 2 ^ m.
Proof. induction m as [|m IH]; [cbn; lra|]. rewrite S_INR. cbn [pow]. assert (1 <= 2 ^ m) by (apply pow_R1_Rle; lra). lra. Qed.
Lemma j_decreases j : bessel_at z j -> forall n, Cmod (j (S n)) <= Cmod (j n).
Proof.
  intros Hj n. destruct (Rle_lt_dec (Cmod (j (S n))) (Cmod (j n))) as [|L]; [assumption|]. exfalso.
  assert (G : forall m, Cmod (j (n + m)%nat) <= Cmod (j (S (n + m))) /\ 2 ^ m * Cmod (j (S n)) <= Cmod (j (S (n + m)))).
  { induction m as [|m [I1 I2]]; [rewrite Nat.add_0_r; cbn [pow]; split; lra|].
    pose proof (@grow_step z Hz H1 j _ (proj1 Hj) I1) as G. replace (n + S m)%nat with (S (n + m)) by lia.
    split; [pose proof (Cmod_ge_0 (j (S (n + m)))); lra|]. cbn [pow]. lra. }
  set (a := Cmod (j (S n))) in *. assert (Pa : 0 < a) by (pose proof (Cmod_ge_0 (j n)); lra).
  destruct (nfloor_ex (exp 1 / a)) as (m & _ & Hm); [left; apply Rmult_lt_0_compat; [apply exp_pos|apply Rinv_0_lt_compat, Pa]|].
  destruct (G (S m)) as [_ Gm]. pose proof (j_bounded Hj (S (n + S m))) as B. pose proof (INR_pow2 (S m)) as Q. rewrite S_INR in Q.
  assert (X : exp 1 < INR (S m) * a).
  { rewrite S_INR. apply Rmult_lt_reg_r with (/ a); [apply Rinv_0_lt_compat, Pa|]. rewrite Rmult_assoc, Rinv_r, Rmult_1_r by lra. exact Hm. }
  rewrite S_INR in X. assert (INR m + 1 < 2 ^ S m) by exact Q. nra.
Qed.
Lemma j_mono j : bessel_at z j -> forall n m, (n <= m)%nat -> Cmod (j m) <= Cmod (j n).
Proof. intros Hj n m H. induction H as [|m _ IH]; [lra|]. eapply Rle_trans; [apply (j_decreases Hj)|exact IH]. Qed.
Lemma j_ratio j : bessel_at z j -> forall n, (2 * INR n + 2) * Cmod (j (S n)) <= Cmod z * Cmod (j n).
Proof.
  intros Hj n. pose proof (proj1 Hj n) as Rn. pose proof (pos_INR n) as Pn.
  assert (E : (RtoC (2 * INR n + 3) * j (S n))%C = (z * (j n + j (S (S n))))%C) by (rewrite Rn; field; exact Hz).
  assert (M : (2 * INR n + 3) * Cmod (j (S n)) <= Cmod z * (Cmod (j n) + Cmod (j (S (S n))))).
  { replace ((2 * INR n + 3) * Cmod (j (S n))) with (Cmod (RtoC (2 * INR n + 3) * j (S n))%C) by (rewrite Cmod_mult, Cmod_RtoC, Rabs_pos_eq by lra; reflexivity).
    rewrite E, Cmod_mult. apply Rmult_le_compat_l; [apply Cmod_ge_0|apply Cmod_triangle]. }
  pose proof (j_decreases Hj (S n)) as Dn. pose proof (Cmod_ge_0 (j (S (S n)))) as P2. pose proof (Cmod_ge_0 z) as Pz. 
  assert (Cmod z * Cmod (j (S (S n))) <= Cmod (j (S n))) by nra. nra.
Qed.
End Decay.

(** ** Relative accuracy *)
Section Acc.
Variables (z : C) (T N : nat) (j : nat -> C).
Hypothesis (HT : (1 <= T)%nat) (Hz : z <> RtoC 0) (H1 : Cmod z <= 1) (Hj : bessel_at z j) (HX : exceeds z T N).
Lemma j1_j0 : Cmod (j 1%nat) <= Cmod (j 0%nat). Proof. apply (j_decreases H1 Hz Hj). Qed.
Lemma companion_is : companion z j = lommel z.
Proof. unfold companion. pose proof j1_j0. destruct (Rlt_dec _ _); [lra|reflexivity]. Qed.
Definition eps := 15 / 10 ^ 21.
Lemma eps_pos : 0 < eps. Proof. unfold eps. apply Rmult_lt_0_compat; [lra|]. apply Rinv_0_lt_compat, pow_lt. lra. Qed.
Lemma value_error n : (n <= T)%nat -> Cmod (truncated z j N n - j n)%C <= eps * Cmod (j n).
Proof.
  intros Hn. destruct HX as [HN _]. eapply Rle_trans; [apply (@truncated_close z Hz H1 T HT j N (or_intror j1_j0) HX n Hn)|].
  apply Rmult_le_compat_l; [apply Rlt_le, eps_pos|]. apply (j_mono H1 Hz Hj). lia.
Qed.
Lemma value_error_next : Cmod (truncated z j N (S T) - j (S T))%C <= eps * Cmod (j T).
Proof.
  destruct HX as [HN HP]. unfold truncated. rewrite companion_is.
  assert (LN : lommel z N <> RtoC 0) by (intros E0; pose proof (@lommel_ge1 z Hz H1 N ltac:(lia)) as G; rewrite E0, Cmod_0 in G; lra).
  replace (j (S T) - j N * lommel z (S T) / lommel z N - j (S T))%C with (- (j N * (lommel z (S T) / lommel z N)))%C by (field; exact LN).
  rewrite Cmod_opp, Cmod_mult, Cmod_div by exact LN.
  pose proof (@compare_up z Hz H1 T HT (lommel z) (lommel_rec z)) as CU.
  assert (DB : 2 * Cmod (lommel z (T - 1)) <= Cmod (lommel z T)) by (replace T with (S (T - 1)) at 2 by lia; apply (lommel_double Hz H1)).
  specialize (CU DB (N - T)%nat). replace (T + (N - T))%nat with N in CU by lia.
  assert (PN : 0 < Cmod (lommel z N)) by (apply Cmod_gt_0, LN).
  assert (PT : 1 <= Cmod (lommel z T)) by (apply (@lommel_ge1 z Hz H1); lia).
  assert (Pz : 0 < Cmod z) by (apply Cmod_gt_0, Hz).
  (* upper bound for the next polynomial *)
  assert (UP : Cmod z * Cmod (lommel z (S T)) <= (2 * INR T + 2) * Cmod (lommel z T)).
  { destruct T as [|t] eqn:ET; [lia|]. rewrite (lommel_rec z t). replace (S t - 1)%nat with t in DB by lia.
    rewrite <- Cmod_mult. replace (z * (RtoC (2 * INR t + 3) / z * lommel z (S t) - lommel z t))%C with (RtoC (2 * INR t + 3) * lommel z (S t) + - (z * lommel z t))%C by (field; exact Hz).
    eapply Rle_trans; [apply Cmod_triangle|]. rewrite Cmod_opp, !Cmod_mult, Cmod_RtoC, Rabs_pos_eq by (pose proof (pos_INR t); lra).
    rewrite S_INR. pose proof (Cmod_ge_0 (lommel z t)). nra. }
  pose proof (j_ratio H1 Hz Hj T) as JR. pose proof (@j_mono z H1 Hz j Hj (S T) N ltac:(lia)) as JM.
  set (jn := Cmod (j N)) in *. set (js := Cmod (j (S T))) in *. set (jt := Cmod (j T)) in *. set (lt := Cmod (lommel z T)) in *.
  set (ls := Cmod (lommel z (S T))) in *. set (ln := Cmod (lommel z N)) in *. set (q := Cmod (snd (upward z T (N - T)))) in *. set (x := Cmod z) in *.
  assert (A : lt * 10 ^ 20 * (2 / 3) <= ln) by (assert (0 <= 2 / 3 * lt) by lra; nra).
  assert (P0 : 0 <= jn) by apply Cmod_ge_0. assert (P1 : 0 <= js) by apply Cmod_ge_0. assert (P2 : 0 <= jt) by apply Cmod_ge_0. assert (P3 : 0 <= ls) by apply Cmod_ge_0.
  pose proof (pos_INR T) as PI.
  (* jn * ls <= jt * lt *)
  assert (B : jn * ls <= jt * lt).
  { apply Rle_trans with (js * ls); [apply Rmult_le_compat_r; assumption|].
    apply Rmult_le_reg_l with (x * (2 * INR T + 2)); [apply Rmult_lt_0_compat; lra|].
    replace (x * (2 * INR T + 2) * (js * ls)) with ((2 * INR T + 2) * js * (x * ls)) by ring.
    replace (x * (2 * INR T + 2) * (jt * lt)) with (x * jt * ((2 * INR T + 2) * lt)) by ring.
    apply Rmult_le_compat; [apply Rmult_le_pos; lra|apply Rmult_le_pos; lra|exact JR|exact UP]. }
  apply Rmult_le_reg_r with ln; [exact PN|]. replace (jn * (ls / ln) * ln) with (jn * ls) by (field; lra).
  eapply Rle_trans; [exact B|]. unfold eps. set (h := 10 ^ 20) in *. replace (10 ^ 21) with (10 * h) by (unfold h; ring).
  assert (Ph : 0 < h) by (unfold h; apply pow_lt; lra).
  replace (15 / (10 * h) * jt * ln) with (jt * (3 / 2 / h * ln)) by (field; lra).
  apply Rmult_le_compat_l; [exact P2|]. apply Rmult_le_reg_r with h; [exact Ph|]. replace (3 / 2 / h * ln * h) with (3 / 2 * ln) by (field; lra). lra.
Qed.
Lemma derivative_error n : (n <= T)%nat -> Cmod (rec_derivative (truncated z j N) n - rec_derivative j n)%C <= 2 / 10 ^ 20 * Cmod (rec_derivative j n).
Proof.
  intros Hn. assert (E2 : 2 / 10 ^ 20 = 4 / 3 * eps) by (unfold eps; replace (10 ^ 21) with (10 * 10 ^ 20) by ring; field; apply pow_nonzero; lra).
  rewrite E2. pose proof eps_pos as Pe. destruct n as [|n].
  - cbn [rec_derivative]. replace (- truncated z j N 1 - - j 1%nat)%C with (- (truncated z j N 1 - j 1%nat))%C by ring. rewrite !Cmod_opp.
    pose proof (@value_error 1 ltac:(lia)) as V. pose proof (Cmod_ge_0 (j 1%nat)). nra.
  - set (x := INR (S n)). assert (Hx : 1 <= x) by (unfold x; rewrite S_INR; pose proof (pos_INR n); lra).
    assert (D : RtoC (2 * x + 1) <> RtoC 0) by (apply RtoC_ne; lra).
    (* the error *)
    assert (ER : Cmod (rec_derivative (truncated z j N) (S n) - rec_derivative j (S n))%C <= eps * Cmod (j (S n))).
    { cbn [rec_derivative]. fold x.
      replace ((RtoC x * truncated z j N n - RtoC (x + 1) * truncated z j N (S (S n))) / RtoC (2 * x + 1) - (RtoC x * j n - RtoC (x + 1) * j (S (S n))) / RtoC (2 * x + 1))%C
        with ((RtoC x * (truncated z j N n - j n) + - (RtoC (x + 1) * (truncated z j N (S (S n)) - j (S (S n))))) / RtoC (2 * x + 1))%C by (field; exact D).
      rewrite Cmod_div by exact D. rewrite Cmod_RtoC, (Rabs_pos_eq (2 * x + 1)) by lra.
      apply Rmult_le_reg_r with (2 * x + 1); [lra|]. unfold Rdiv at 1. rewrite Rmult_assoc, Rinv_l, Rmult_1_r by lra.
      eapply Rle_trans; [apply Cmod_triangle|]. rewrite Cmod_opp, !Cmod_mult, !Cmod_RtoC, !Rabs_pos_eq by lra.
      assert (V1 : Cmod (truncated z j N n - j n)%C <= eps * Cmod (j (S n))).
      { destruct HX as [HN _]. eapply Rle_trans; [apply (@truncated_close z Hz H1 T HT j N (or_intror j1_j0) HX n ltac:(lia))|].
        apply Rmult_le_compat_l; [lra|]. apply (j_mono H1 Hz Hj). lia. }
      assert (V2 : Cmod (truncated z j N (S (S n)) - j (S (S n)))%C <= eps * Cmod (j (S n))).
      { destruct (Nat.eq_dec (S n) T) as [E|NE]; [rewrite E; apply value_error_next|].
        eapply Rle_trans; [apply value_error; lia|]. apply Rmult_le_compat_l; [lra|]. apply (j_decreases H1 Hz Hj). }
      replace (eps * Cmod (j (S n)) * (2 * x + 1)) with (x * (eps * Cmod (j (S n))) + (x + 1) * (eps * Cmod (j (S n)))) by ring.
      apply Rplus_le_compat; apply Rmult_le_compat_l; lra. }
    (* the derivative itself *)
    assert (DV : rec_derivative j (S n) = (RtoC x / z * j (S n) - j (S (S n)))%C).
    { cbn [rec_derivative]. fold x. pose proof (proj1 Hj n) as Rn. assert (En : j n = (RtoC (2 * x + 1) / z * j (S n) - j (S (S n)))%C).
      { rewrite Rn. replace (2 * INR n + 3) with (2 * x + 1) by (unfold x; rewrite S_INR; ring). field. exact Hz. }
      rewrite En. replace (RtoC (x + 1)) with (RtoC (2 * x + 1) - RtoC x)%C by (rewrite <- RtoC_minus; f_equal; ring). field. split; [exact Hz|exact D]. }
    assert (LB : 3 / 4 * Cmod (j (S n)) <= Cmod (rec_derivative j (S n))).
    { rewrite DV. eapply Rle_trans; [|apply step_lower; [exact Hz|exact H1|lra]].
      pose proof (j_ratio H1 Hz Hj (S n)) as JR. fold x in JR. pose proof (Cmod_ge_0 (j (S n))) as P1. pose proof (Cmod_ge_0 (j (S (S n)))) as P2.
      assert (Cmod z * Cmod (j (S n)) <= Cmod (j (S n))) by nra. nra. }
    eapply Rle_trans; [exact ER|]. nra.
Qed.
End Acc.
