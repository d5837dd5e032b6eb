(** Growth of the solutions for |z| <= 1, and the accuracy of the values. *)
From Coq Require Import Reals List Lra Lia.
From Coquelicot Require Import Coquelicot.
From Verif Require Import Base TsModel TsSpec TsProofs5 JfModel JfSpec JfProofs JfProofs2 JfProofs3 JfProofs4.
Import ListNotations.
Set Implicit Arguments.
Open Scope R_scope.

Lemma Cmod_RtoC x : Cmod (RtoC x) = Rabs x. Proof. apply Cmod_R. Qed.
Lemma step_lower (z a b : C) (c : R) : z <> RtoC 0 -> Cmod z <= 1 -> 0 <= c -> c * Cmod a - Cmod b <= Cmod (RtoC c / z * a - b)%C.
Proof.
  intros Hz H1 Hc. assert (P : 0 < Cmod z) by (apply Cmod_gt_0, Hz).
  apply Rle_trans with (Cmod (RtoC c / z * a)%C - Cmod b).
  - rewrite Cmod_mult, Cmod_div, Cmod_RtoC, Rabs_pos_eq by assumption. apply Rplus_le_compat_r, Rmult_le_compat_r; [apply Cmod_ge_0|].
    apply Rmult_le_reg_r with (Cmod z); [exact P|]. unfold Rdiv. rewrite Rmult_assoc, Rinv_l, Rmult_1_r by lra.
    rewrite <- (Rmult_1_r c) at 2. apply Rmult_le_compat_l; assumption.
  - pose proof (Cmod_triangle (RtoC c / z * a - b)%C b) as Tr.
    replace (RtoC c / z * a - b + b)%C with (RtoC c / z * a)%C in Tr by ring. lra.
Qed.

Section Growth.
Variable z : C.
Hypothesis (Hz : z <> RtoC 0) (H1 : Cmod z <= 1).
Lemma grow_step u n : bessel_rec z u -> Cmod (u n) <= Cmod (u (S n)) -> 2 * Cmod (u (S n)) <= Cmod (u (S (S n))).
Proof.
  intros Hu Hn. rewrite Hu. pose proof (pos_INR n) as P. pose proof (@step_lower z (u (S n)) (u n) (2 * INR n + 3) Hz H1 ltac:(lra)) as St0.
  pose proof (Cmod_ge_0 (u (S n))). assert (0 <= INR n * Cmod (u (S n))) by (apply Rmult_le_pos; lra). nra.
Qed.
Lemma lommel_double n : 2 * Cmod (lommel z n) <= Cmod (lommel z (S n)).
Proof.
  induction n as [|n IH].
  - unfold lommel. rewrite solution_0, solution_1, Cmod_0, Cmod_1. lra.
  - apply grow_step; [apply lommel_rec|]. pose proof (Cmod_ge_0 (lommel z n)). lra.
Qed.
Lemma lommel'_double n : (1 <= n)%nat -> 2 * Cmod (lommel' z n) <= Cmod (lommel' z (S n)).
Proof.
  induction n as [|[|n] IH]; intros Hn; [lia| |].
  - change (lommel' z 1) with (RtoC 0). rewrite Cmod_0. pose proof (Cmod_ge_0 (lommel' z 2)). lra.
  - apply grow_step; [apply lommel'_rec|]. pose proof (Cmod_ge_0 (lommel' z (S n))). specialize (IH ltac:(lia)). lra.
Qed.
Lemma lommel_mono n m : (n <= m)%nat -> Cmod (lommel z n) <= Cmod (lommel z m).
Proof.
  induction 1 as [|m _ IH]; [lra|]. pose proof (lommel_double m). pose proof (Cmod_ge_0 (lommel z m)). lra.
Qed.
Lemma lommel'_mono n m : (1 <= n <= m)%nat -> Cmod (lommel' z n) <= Cmod (lommel' z m).
Proof.
  intros [Hn H]. induction H as [|m Hm IH]; [lra|]. pose proof (@lommel'_double m ltac:(lia)). pose proof (Cmod_ge_0 (lommel' z m)). lra.
Qed.
Lemma lommel'_2 : Cmod (lommel' z 2) = 1.
Proof.
  replace (lommel' z 2) with (- RtoC 1)%C; [rewrite Cmod_opp; apply Cmod_1|].
  rewrite (lommel'_rec z 0%nat). change (lommel' z 1) with (RtoC 0). change (lommel' z 0) with (RtoC 1). ring.
Qed.
Lemma lommel_ge1 n : (1 <= n)%nat -> 1 <= Cmod (lommel z n).
Proof. intros H. pose proof (lommel_mono H) as M. change (lommel z 1) with (RtoC 1) in M. rewrite Cmod_1 in M. exact M. Qed.
Lemma lommel'_ge1 n : (2 <= n)%nat -> 1 <= Cmod (lommel' z n).
Proof. intros H. pose proof (@lommel'_mono 2 n ltac:(lia)) as M. rewrite lommel'_2 in M. exact M. Qed.
Lemma lommel'_le n m : (n <= m)%nat -> (2 <= m)%nat -> Cmod (lommel' z n) <= Cmod (lommel' z m).
Proof.
  intros H H2. destruct n as [|n]; [|apply lommel'_mono; lia]. change (lommel' z 0) with (RtoC 1). rewrite Cmod_1. apply lommel'_ge1, H2.
Qed.

(** *** The upward sequence *)
Section Up.
Variable T : nat.
Hypothesis HT : (1 <= T)%nat.
Notation p m := (snd (upward z T m)).
Lemma up_grow m : Cmod (fst (upward z T m)) <= Cmod (p m) /\ 2 * INR (T + m) * Cmod (p m) <= Cmod (p (S m)).
Proof.
  induction m as [|m [IH1 IH2]].
  - split; [cbn [upward fst snd]; rewrite Cmod_0, Cmod_1; lra|]. rewrite upward_S. cbn [snd]. pose proof (pos_INR (T + 0)) as P.
    pose proof (@step_lower z (p 0) (fst (upward z T 0)) (2 * INR (T + 0) + 1) Hz H1 ltac:(lra)) as St0.
    cbn [upward fst snd] in *. rewrite Cmod_0, Cmod_1 in *. lra.
  - assert (A : Cmod (fst (upward z T (S m))) <= Cmod (p (S m))).
    { rewrite upward_S at 1. cbn [fst]. assert (1 <= INR (T + m)) by (change 1 with (INR 1); apply le_INR; lia).
      pose proof (Cmod_ge_0 (p m)). nra. }
    split; [exact A|]. rewrite (upward_S z T (S m)). cbn [snd]. pose proof (pos_INR (T + S m)) as P.
    pose proof (@step_lower z (p (S m)) (fst (upward z T (S m))) (2 * INR (T + S m) + 1) Hz H1 ltac:(lra)) as St0. lra.
Qed.
Lemma up_pow m : 2 ^ m <= Cmod (p m).
Proof.
  induction m as [|m IH]; [cbn [upward snd pow]; rewrite Cmod_1; lra|]. destruct (up_grow m) as [_ G]. cbn [pow].
  assert (1 <= INR (T + m)) by (change 1 with (INR 1); apply le_INR; lia). assert (0 < 2 ^ m) by (apply pow_lt; lra). nra.
Qed.
Lemma up_mul c m d : (c <= T + m)%nat -> (2 * INR c) ^ d * Cmod (p m) <= Cmod (p (m + d)).
Proof.
  intros Hc. induction d as [|d IH]; [rewrite Nat.add_0_r; cbn [pow]; lra|]. replace (m + S d)%nat with (S (m + d)) by lia.
  destruct (up_grow (m + d)) as [_ G]. cbn [pow]. assert (INR c <= INR (T + (m + d))) by (apply le_INR; lia).
  pose proof (pos_INR c). pose proof (Cmod_ge_0 (p (m + d))). 
  apply Rle_trans with (2 * INR c * Cmod (p (m + d))); [rewrite Rmult_assoc; apply Rmult_le_compat_l; lra|].
  apply Rle_trans with (2 * INR (T + (m + d)) * Cmod (p (m + d))); [|exact G]. apply Rmult_le_compat_r; lra.
Qed.
(** Another solution compared to it *)
Section Compare.
Variable u : nat -> C.
Hypothesis (Hu : bessel_rec z u) (Hd : 2 * Cmod (u (T - 1)%nat) <= Cmod (u T)).
Lemma cas m : (fst (upward z T m) * u (T + m)%nat - snd (upward z T m) * u (T + m - 1)%nat)%C = (- u (T - 1)%nat)%C.
Proof.
  induction m as [|m IH]; [cbn [upward fst snd]; rewrite Nat.add_0_r; ring|].
  rewrite upward_S. cbn [fst snd]. rewrite <- IH. destruct (T + m)%nat as [|q] eqn:Q; [lia|].
  replace (T + S m)%nat with (S (S q)) by lia. replace (S (S q) - 1)%nat with (S q) by lia. replace (S q - 1)%nat with q by lia.
  rewrite (Hu q). rewrite S_INR. replace (2 * (INR q + 1) + 1) with (2 * INR q + 3) by ring. ring.
Qed.
Lemma p_ne m : p m <> RtoC 0.
Proof. intros E. pose proof (up_pow m) as U. rewrite E, Cmod_0 in U. assert (0 < 2 ^ m) by (apply pow_lt; lra). lra. Qed.
Lemma ratio_step m : Cmod (u (T + S m)%nat / p (S m) - u (T + m)%nat / p m)%C <= Cmod (u (T - 1)%nat) * (/ 2 * (/ 4) ^ m).
Proof.
  pose proof (cas (S m)) as E. rewrite upward_S in E. cbn [fst snd] in E.
  assert (E' : (u (T + S m)%nat / p (S m) - u (T + m)%nat / p m)%C = (- u (T - 1)%nat / (p (S m) * p m))%C).
  { rewrite <- E. replace (T + S m - 1)%nat with (T + m)%nat by lia. rewrite (upward_S z T m). cbn [snd].
    change (RtoC (2 * INR (T + m) + 1) / z * p m - fst (upward z T m))%C with (snd (snd (upward z T m), (RtoC (2 * INR (T + m) + 1) / z * p m - fst (upward z T m))%C)).
    rewrite <- upward_S. field. split; apply p_ne. }
  rewrite E'. pose proof (@p_ne m). pose proof (@p_ne (S m)). rewrite Cmod_div by (apply Cmult_neq_0; assumption). rewrite Cmod_opp, Cmod_mult.
  unfold Rdiv. apply Rmult_le_compat_l; [apply Cmod_ge_0|].
  replace (/ 2 * (/ 4) ^ m) with (/ (2 ^ S m * 2 ^ m)).
  2:{ cbn [pow]. replace 4 with (2 * 2) by ring. rewrite pow_inv, Rpow_mult_distr. field. apply pow_nonzero. lra. }
  apply Rinv_le_contravar.
  - apply Rmult_lt_0_compat; apply pow_lt; lra.
  - apply Rmult_le_compat; try (apply pow_le; lra); apply up_pow.
Qed.
Lemma ratio_all m : Cmod (u (T + m)%nat / p m - u T)%C <= Cmod (u (T - 1)%nat) * (2 / 3 * (1 - (/ 4) ^ m)).
Proof.
  induction m as [|m IH].
  - rewrite Nat.add_0_r. cbn [upward snd pow]. replace (u T / RtoC 1 - u T)%C with (RtoC 0) by (unfold Cdiv; rewrite <- (RtoC_inv 1) by lra; rewrite Rinv_1; ring). rewrite Cmod_0. lra.
  - pose proof (Cmod_triangle (u (T + S m)%nat / p (S m) - u (T + m)%nat / p m)%C (u (T + m)%nat / p m - u T)%C) as Tr.
    replace (u (T + S m)%nat / p (S m) - u (T + m)%nat / p m + (u (T + m)%nat / p m - u T))%C with (u (T + S m)%nat / p (S m) - u T)%C in Tr by ring.
    pose proof (ratio_step m) as St. cbn [pow]. lra.
Qed.
Lemma compare_up m : 2 / 3 * Cmod (u T) * Cmod (p m) <= Cmod (u (T + m)%nat).
Proof.
  pose proof (ratio_all m) as A. pose proof (Cmod_triangle (u (T + m)%nat / p m)%C (- (u (T + m)%nat / p m - u T))%C) as Tr.
  replace (u (T + m)%nat / p m + - (u (T + m)%nat / p m - u T))%C with (u T) in Tr by ring. rewrite Cmod_opp in Tr.
  assert (0 < (/ 4) ^ m) by (apply pow_lt; lra). pose proof (Cmod_ge_0 (u (T - 1)%nat)).
  assert (B : 2 / 3 * Cmod (u T) <= Cmod (u (T + m)%nat / p m)%C) by nra.
  rewrite Cmod_div in B by apply p_ne. assert (P : 0 < Cmod (p m)) by (apply Cmod_gt_0, p_ne).
  apply Rmult_le_compat_r with (r := Cmod (p m)) in B; [|lra]. replace (Cmod (u (T + m)%nat) / Cmod (p m) * Cmod (p m)) with (Cmod (u (T + m)%nat)) in B by (field; lra). lra.
Qed.
End Compare.

Lemma companion_grow j N : (2 <= T)%nat \/ Cmod (j 1%nat) <= Cmod (j 0%nat) -> (T < N)%nat ->
  forall n, (n <= T)%nat -> 2 / 3 * Cmod (companion z j n) * Cmod (p (N - T)) <= Cmod (companion z j N).
Proof.
  intros HB HN n Hn. unfold companion. destruct (Rlt_dec _ _) as [B|B].
  - destruct HB as [HB|HB]; [|exfalso; lra].
    pose proof (@compare_up (lommel' z) (lommel'_rec z)) as CU. replace N with (T + (N - T))%nat at 2 by lia.
    eapply Rle_trans; [|apply CU]; [|replace T with (S (T - 1)) at 2 by lia; apply lommel'_double; lia].
    apply Rmult_le_compat_r; [apply Cmod_ge_0|]. apply Rmult_le_compat_l; [lra|]. apply lommel'_le; lia.
  - pose proof (@compare_up (lommel z) (lommel_rec z)) as CU. replace N with (T + (N - T))%nat at 2 by lia.
    eapply Rle_trans; [|apply CU]; [|replace T with (S (T - 1)) at 2 by lia; apply lommel_double].
    apply Rmult_le_compat_r; [apply Cmod_ge_0|]. apply Rmult_le_compat_l; [lra|]. apply lommel_mono. exact Hn.
Qed.
Lemma companion_ne j N : (2 <= N)%nat -> companion z j N <> RtoC 0.
Proof.
  intros HN E. unfold companion in E. destruct (Rlt_dec _ _).
  - pose proof (@lommel'_ge1 N HN) as G. rewrite E, Cmod_0 in G. lra.
  - pose proof (@lommel_ge1 N ltac:(lia)) as G. rewrite E, Cmod_0 in G. lra.
Qed.
Lemma truncated_close j N : (2 <= T)%nat \/ Cmod (j 1%nat) <= Cmod (j 0%nat) -> exceeds z T N ->
  forall n, (n <= T)%nat -> Cmod (truncated z j N n - j n)%C <= 15 / 10 ^ 21 * Cmod (j N).
Proof.
  intros HB [HN HX] n Hn. unfold truncated. pose proof (@companion_ne j N ltac:(lia)) as NE.
  replace (j n - j N * companion z j n / companion z j N - j n)%C with (- (j N * (companion z j n / companion z j N)))%C by (field; exact NE).
  rewrite Cmod_opp, Cmod_mult, Rmult_comm. apply Rmult_le_compat_r; [apply Cmod_ge_0|]. rewrite Cmod_div by exact NE.
  pose proof (companion_grow j HB HN Hn) as G. assert (P : 0 < Cmod (companion z j N)) by (apply Cmod_gt_0, NE).
  apply Rmult_le_reg_r with (Cmod (companion z j N)); [exact P|]. unfold Rdiv at 1. rewrite Rmult_assoc, Rinv_l, Rmult_1_r by lra.
  pose proof (Cmod_ge_0 (companion z j n)) as P0. set (a := Cmod (companion z j n)) in *. set (b := Cmod (companion z j N)) in *. set (q := Cmod (p (N - T))) in *.
  assert (A : 2 / 3 * a * 10 ^ 20 <= b) by (eapply Rle_trans; [|exact G]; apply Rmult_le_compat_l; lra).
  replace (10 ^ 21) with (10 * 10 ^ 20) by ring. assert (0 < 10 ^ 20) by (apply pow_lt; lra). set (t := 10 ^ 20) in *.
  apply Rmult_le_reg_r with t; [assumption|]. replace (15 / (10 * t) * b * t) with (3 / 2 * b) by (field; lra). lra.
Qed.
(** The search ends at 63 at the latest if T <= 53. *)
Lemma search_63 : (T <= 53)%nat -> exceeds z T 63.
Proof.
  intros H. split; [lia|]. replace (63 - T)%nat with (53 - T + 10)%nat by lia.
  apply Rlt_le_trans with ((2 * INR 53) ^ 10 * Cmod (p (53 - T))); [|apply up_mul; lia].
  pose proof (up_pow (53 - T)) as U. assert (1 <= 2 ^ (53 - T)) by (apply pow_R1_Rle; lra).
  apply Rlt_le_trans with ((2 * INR 53) ^ 10 * 1).
  - rewrite Rmult_1_r, INR_IZR_INZ. change (Z.of_nat 53) with 53%Z. lra.
  - apply Rmult_le_compat_l; [apply pow_le; pose proof (pos_INR 53); lra|lra].
Qed.
End Up.
End Growth.
(** *** Large arguments *)
Lemma step_upper (z a b : C) (c : R) : z <> RtoC 0 -> 0 <= c <= Cmod z -> Cmod (RtoC c / z * a - b)%C <= Cmod a + Cmod b.
Proof.
  intros Hz Hc. assert (P : 0 < Cmod z) by (apply Cmod_gt_0, Hz).
  pose proof (Cmod_triangle (RtoC c / z * a)%C (- b)%C) as Tr. rewrite Cmod_opp in Tr. unfold Cminus.
  eapply Rle_trans; [exact Tr|]. apply Rplus_le_compat_r.
  rewrite Cmod_mult, Cmod_div, Cmod_RtoC, Rabs_pos_eq by tauto. rewrite <- (Rmult_1_l (Cmod a)) at 2. apply Rmult_le_compat_r; [apply Cmod_ge_0|].
  apply Rmult_le_reg_r with (Cmod z); [exact P|]. unfold Rdiv. rewrite Rmult_assoc, Rinv_l, Rmult_1_r by lra. lra.
Qed.
Lemma up_large z T m : 127 <= Cmod z -> (T + m <= 63)%nat -> Cmod (fst (upward z T m)) <= 2 ^ m /\ Cmod (snd (upward z T m)) <= 2 ^ m.
Proof.
  intros Hz. assert (NE : z <> RtoC 0) by (intros E; rewrite E, Cmod_0 in Hz; lra).
  induction m as [|m IH]; intros H; [cbn [upward fst snd pow]; rewrite Cmod_0, Cmod_1; lra|].
  destruct (IH ltac:(lia)) as [I1 I2]. rewrite upward_S. cbn [fst snd pow]. assert (0 < 2 ^ m) by (apply pow_lt; lra). split; [lra|].
  eapply Rle_trans; [apply step_upper; [exact NE|]|lra]. pose proof (pos_INR (T + m)).
  assert (INR (T + m) <= INR 62) by (apply le_INR; lia). rewrite (INR_IZR_INZ 62) in *. change (Z.of_nat 62) with 62%Z in *. lra.
Qed.
Lemma large_not z T N : 127 <= Cmod z -> (N <= 63)%nat -> ~ exceeds z T N.
Proof.
  intros Hz HN [A B]. destruct (@up_large z T (N - T) Hz ltac:(lia)) as [_ U].
  assert (2 ^ (N - T) <= 2 ^ 63) by (apply Rle_pow; [lra|lia]). lra.
Qed.
