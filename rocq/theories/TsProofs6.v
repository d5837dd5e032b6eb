(** Helmholtz: Hankel values and the target-specific expansions. *)
From Coq Require Import Reals Lra Lia List.
From Coquelicot Require Import Coquelicot.
From Verif Require Import Base TsModel TsSpec TsLeg TsProofs TsProofs2 TsProofs3 TsProofs5.
Import ListNotations.
Open Scope R_scope.

(** ** Hankel functions *)
Section Hank.
Variable k : C.
Variable h : nat -> R -> C.
Hypothesis Hk : k <> RtoC 0.
Hypothesis Hh : sph_hankel k h.

Lemma h_is n r : 0 < r -> h n r = the_hankel k n r.
Proof.
  intros Hr. destruct Hh as [A B]. destruct (hankel_exists k Hk) as [A' B'].
  apply (family_unique k Hk); auto. intros u Hu. now rewrite B, B'.
Qed.
Lemma h_SS n r : 0 < r -> h (S (S n)) r = (RtoC (2 * INR n + 3) * (/ (k * RtoC r)) * h (S n) r - h n r)%C.
Proof. intros Hr. rewrite !h_is by assumption. unfold the_hankel, EF. rewrite F_SS. unfold zi. ring. Qed.
Lemma h_0 r : 0 < r -> h 0 r = (cexp (Ci * (k * RtoC r)) / (Ci * (k * RtoC r)))%C.
Proof. apply Hh. Qed.
Lemma h_1 r : 0 < r -> h 1 r = (h 0 r * (1 / (k * RtoC r) - Ci))%C.
Proof.
  intros Hr. rewrite !h_is by assumption. unfold the_hankel, EF.
  change (F k (e0 k Ci) (e1 k Ci) 1 r) with (e1 k Ci r). change (F k (e0 k Ci) (e1 k Ci) 0 r) with (e0 k Ci r).
  unfold e1, zi, Cdiv. ring.
Qed.
Lemma h_der_0 r : 0 < r -> sph_derivative k h 0 r = (- h 1 r)%C.
Proof. intros Hr. unfold sph_derivative, Cdiv. simpl INR. ring. Qed.
Lemma h_der_S n r : 0 < r -> sph_derivative k h (S n) r = (h n r - RtoC (INR (S n) + 1) * (/ (k * RtoC r)) * h (S n) r)%C.
Proof.
  intros Hr. unfold sph_derivative, Cdiv. rewrite (h_SS n r Hr), !S_INR. rewrite !RtoC_plus, RtoC_mult, c3, c2. ring.
Qed.

Definition chold (a : list C) (f : nat -> C) (n : nat) : Prop := forall i, (i <= n)%nat -> nth_error a i = Some (f i).
Definition hscaled (scale r : R) (n : nat) : C := (RtoC (scale ^ n) * h n r)%C.
Definition hdscaled (scale r : R) (n : nat) : C := (RtoC (scale ^ n) * sph_derivative k h n r)%C.

Lemma RtoC_pow_S scale n : RtoC (scale ^ S n) = (RtoC scale * RtoC (scale ^ n))%C.
Proof. simpl. now rewrite RtoC_mult. Qed.

Lemma h_up_ok scale r : 0 < r -> forall fuel i a, (1 <= i)%nat -> (i + fuel < length a)%nat -> chold a (hscaled scale r) i ->
  exists a', h_up (scale * scale) (RtoC scale / (k * RtoC r))%C fuel i a = Fin a' /\
    chold a' (hscaled scale r) (i + fuel) /\ length a' = length a.
Proof.
  intros Hr. induction fuel as [|fuel IH]; intros i a Hi Hl Ha.
  - exists a. rewrite Nat.add_0_r. auto.
  - cbn [h_up]. rewrite (rd_ok _ _ _ _ (Ha i (le_n i))), (rd_ok _ _ _ _ (Ha (i - 1)%nat ltac:(lia))). cbn [fbind].
    rewrite wr_ok by lia. cbn [fbind].
    destruct (IH (S i) (upd a (i + 1) (RtoC scale / (k * RtoC r) * RtoC (2 * INR i + 1) * hscaled scale r i
                - RtoC (scale * scale) * hscaled scale r (i - 1))%C)) as (a' & E & H1 & H2).
    + lia.
    + rewrite upd_length. lia.
    + intros j Hj. destruct (Nat.eq_dec j (i + 1)) as [->|Hn].
      * rewrite upd_same by lia. f_equal. destruct i as [|i]; [lia|].
        replace (S i + 1)%nat with (S (S i)) by lia. replace (S i - 1)%nat with i by lia.
        unfold hscaled. rewrite (h_SS i r Hr), !RtoC_pow_S, S_INR.
        rewrite !RtoC_plus, !RtoC_mult, !RtoC_plus, c3, c2. unfold Cdiv. ring.
      * rewrite upd_other by lia. apply Ha. lia.
    + exists a'. rewrite upd_length in H2. replace (i + S fuel)%nat with (S i + fuel)%nat by lia. auto.
Qed.

Lemma h_der_ok scale r a : 0 < r -> forall fuel i d, (1 <= i)%nat -> (i + fuel <= length d)%nat ->
  chold a (hscaled scale r) (i + fuel - 1) -> chold d (hdscaled scale r) (i - 1) ->
  exists d', h_der scale (1 / (k * RtoC r))%C fuel i a (Some d) = Fin (Some d') /\
    chold d' (hdscaled scale r) (i + fuel - 1) /\ length d' = length d.
Proof.
  intros Hr. induction fuel as [|fuel IH]; intros i d Hi Hl Ha Hd.
  - exists d. rewrite Nat.add_0_r. auto.
  - cbn [h_der]. rewrite (rd_ok _ _ _ _ (Ha i ltac:(lia))), (rd_ok _ _ _ _ (Ha (i - 1)%nat ltac:(lia))). cbn [fbind wr_ptr].
    rewrite wr_ok by lia. cbn [fbind].
    destruct (IH (S i) (upd d i (RtoC scale * hscaled scale r (i - 1) - 1 / (k * RtoC r) * RtoC (INR i + 1) * hscaled scale r i)%C))
      as (d' & E & H1 & H2).
    + lia.
    + rewrite upd_length. lia.
    + intros j Hj. apply Ha. lia.
    + replace (S i - 1)%nat with i by lia. intros j Hj. destruct (Nat.eq_dec j i) as [->|Hn].
      * rewrite upd_same by lia. f_equal. destruct i as [|i]; [lia|]. replace (S i - 1)%nat with i by lia.
        unfold hdscaled, hscaled. rewrite (h_der_S i r Hr), !RtoC_pow_S. unfold Cdiv. ring.
      * rewrite upd_other by lia. apply Hd. lia.
    + exists d'. rewrite upd_length in H2. replace (i + S fuel - 1)%nat with (S i + fuel - 1)%nat by lia. auto.
Qed.

Definition above (r : R) : Prop := 1 / 1000000000000000 <= Cmod (k * RtoC r)%C.

Lemma h3dall_ok nterms r scale a ifder d : 0 < r -> above r -> 0 < scale ->
  (nterms < length a)%nat -> (2 <= length a)%nat ->
  (ifder = true -> exists d', d = Some d' /\ (nterms < length d')%nat) ->
  exists a' d', h3dall nterms (k * RtoC r)%C scale a ifder d = Fin (a', d') /\
    chold a' (hscaled scale r) nterms /\
    (ifder = true -> exists e, d' = Some e /\ chold e (hdscaled scale r) nterms).
Proof.
  intros Hr Hab Hsc Hl H2 Hd. unfold h3dall, above in *.
  destruct (Rlt_dec (Cmod (k * RtoC r)%C) (1 / 1000000000000000)) as [|_]; [lra|].
  unfold h3d01. destruct (Rlt_dec (Cmod (k * RtoC r)%C) (1 / 1000000000000000)) as [|_]; [lra|].
  rewrite <- (h_0 r Hr).
  rewrite wr_ok by lia. cbn [fbind]. rewrite wr_ok by (rewrite upd_length; lia). cbn [fbind].
  rewrite wr_ok by (rewrite !upd_length; lia). cbn [fbind].
  match goal with |- context [h_up _ _ _ _ ?b] => set (a1 := b) end.
  assert (L1 : length a1 = length a) by (unfold a1; now rewrite !upd_length).
  assert (C1 : chold a1 (hscaled scale r) 1).
  { intros [|[|i]] Hi; [| |lia]; unfold a1, hscaled.
    - rewrite !upd_other by lia. rewrite upd_same by lia. f_equal. simpl. ring.
    - rewrite upd_same by (rewrite !upd_length; lia). f_equal. rewrite (h_1 r Hr), RtoC_pow_S. simpl. ring. }
  clearbody a1.
  assert (U : exists a', h_up (scale * scale) (RtoC scale / (k * RtoC r))%C (nterms - 1) 1 a1 = Fin a' /\
            chold a' (hscaled scale r) (Nat.max 1 nterms) /\ length a' = length a).
  { destruct (h_up_ok scale r Hr (nterms - 1) 1 a1 (le_n 1)) as (a' & E & X & Y); [lia | exact C1|].
    exists a'. split; [exact E|]. split; [|congruence]. replace (Nat.max 1 nterms) with (1 + (nterms - 1))%nat by lia. exact X. }
  destruct U as (a' & E & X & Y). rewrite E. cbn [fbind].
  assert (X' : chold a' (hscaled scale r) nterms) by (intros i Hi; apply X; lia).
  destruct ifder.
  - destruct (Hd eq_refl) as (d0 & -> & Hd0).
    rewrite (rd_ok _ _ _ _ (X 1%nat ltac:(lia))). cbn [fbind wr_ptr]. rewrite wr_ok by lia. cbn [fbind].
    destruct (h_der_ok scale r a' Hr nterms 1 (upd d0 0 (- hscaled scale r 1 / RtoC scale)%C)) as (d' & E' & X2 & Y2).
    + lia.
    + rewrite upd_length. lia.
    + intros i Hi. apply X'. lia.
    + intros i Hi. replace i with O by lia. rewrite upd_same by lia. f_equal. unfold hscaled, hdscaled.
      rewrite (h_der_0 r Hr). simpl. rewrite Rmult_1_r. field. intros Ez. apply RtoC_inj in Ez. lra.
    + rewrite E'. cbn [fbind]. exists a', (Some d'). split; [reflexivity|]. split; [exact X'|].
      intros _. exists d'. split; [reflexivity|]. intros i Hi. apply X2. lia.
  - exists a', d. split; [reflexivity|]. split; [exact X'|]. discriminate.
Qed.
End Hank.

(** ** Sums *)
Definition csum_m (f : nat -> C) (n m : nat) : C := (sum_n_m (fun i => fst (f i)) n m, sum_n_m (fun i => snd (f i)) n m).
Lemma csum_m_empty f n m : (m < n)%nat -> csum_m f n m = RtoC 0.
Proof. intros H. unfold csum_m. rewrite !sum_n_m_zero by exact H. reflexivity. Qed.
Lemma csum_m_step f n m : (n <= m)%nat -> csum_m f n m = (f n + csum_m f (S n) m)%C.
Proof. intros H. unfold csum_m. rewrite !(sum_Sn_m _ n) by exact H. apply C_eq; reflexivity. Qed.
Lemma csum_0 f p : csum f p = csum_m f 0 p. Proof. reflexivity. Qed.
Lemma csum_ext f g p : (forall n, f n = g n) -> csum f p = csum g p.
Proof. intros H. unfold csum. f_equal; apply sum_n_ext; intros n; now rewrite H. Qed.
Lemma csum_deriv (f : nat -> R -> C) (x : R) (d : nat -> C) p : (forall n, cderiv (f n) x (d n)) ->
  cderiv (fun u => csum (fun n => f n u) p) x (csum d p).
Proof.
  intros H. split; simpl.
  - apply (is_derive_sum_n (V := R_NormedModule) (fun n u => fst (f n u))). intros n _. apply H.
  - apply (is_derive_sum_n (V := R_NormedModule) (fun n u => snd (f n u))). intros n _. apply H.
Qed.

Section Helm.
Variable junk : nat -> R.
Variable cjunk : nat -> C.
Variable jfuns : nat -> C -> R -> bool -> option (list C * list C).
Variable k : C.
Variables j h : nat -> R -> C.
Hypothesis Hk : k <> RtoC 0.
Hypothesis Hj : sph_bessel k j.
Hypothesis Hh : sph_hankel k h.
Hypothesis Hc : jfuns_contract k j jfuns.
Variables s c t : tri R.
Hypothesis Hs : s <> c.
Hypothesis Ht : t <> c.
Hypothesis Hab : above k (dist s c).
Let x := cosang s c t.

Lemma cos_between_is : cos_between s c t = x.
Proof. unfold cos_between, x, cosang. rewrite !dist_eucl. reflexivity. Qed.
Lemma legendre_P n y : y * y <= 1 -> legendre n y = P y n.
Proof. intros Hy. rewrite (P_taylor y n Hy). reflexivity. Qed.

Definition hterm (n : nat) : C := (RtoC (2 * INR n + 1) * j n (dist t c) * h n (dist s c) * RtoC (P x n))%C.
Lemma helmholtz_qbx_sum p : helmholtz_qbx k j h p c s t = (Ci * k * csum hterm p)%C.
Proof.
  unfold helmholtz_qbx. f_equal. apply csum_ext. intros n. rewrite cos_between_is.
  rewrite legendre_P by now apply cos_bound. rewrite <- !dist_eucl. reflexivity.
Qed.

Lemma abs_pos r : 0 < r -> 0 < Cmod (k * RtoC r)%C.
Proof. intros Hr. apply Cmod_gt_0. now apply kr_ne. Qed.
Definition scale_of (r : R) : R := if Rlt_dec (Cmod (k * RtoC r)%C) 1 then Cmod (k * RtoC r)%C else 1.
Lemma scale_pos r : 0 < r -> 0 < scale_of r.
Proof. intros Hr. unfold scale_of. destruct (Rlt_dec _ 1); [now apply abs_pos | lra]. Qed.

Lemma precompute_ok p ifder js jd jscale :
  ts_helmholtz_precompute jfuns c t p ifder k = Fin (js, jd, jscale) ->
  jscale = scale_of (dist t c) /\
  chold js (fun n => j n (dist t c) / RtoC (jscale ^ n))%C p /\
  (ifder = true -> chold jd (fun n => sph_derivative k j n (dist t c) / RtoC (jscale ^ n))%C p).
Proof.
  unfold ts_helmholtz_precompute. fold (scale_of (dist t c)).
  destruct (jfuns (Nat.max 1 p) (k * RtoC (dist t c))%C (scale_of (dist t c)) ifder) as [[a b]|] eqn:E; [|discriminate].
  intros [= -> -> <-]. split; [reflexivity|].
  destruct (Hc _ _ _ _ _ _ (dist_pos t c Ht) (scale_pos _ (dist_pos t c Ht)) E) as [A B].
  split; [intros i Hi; apply A; lia | intros Hi i Hl; apply B; [exact Hi | lia]].
Qed.

Lemma cancel (a b : R) (n : nat) (u v : C) : 0 < a -> 0 < b ->
  (RtoC ((a / b) ^ n) * (u / RtoC (a ^ n)) * (RtoC (b ^ n) * v))%C = (u * v)%C.
Proof.
  intros Ha Hb. unfold Rdiv. rewrite Rpow_mult_distr, pow_inv, RtoC_mult, RtoC_inv by (apply pow_nonzero; lra).
  assert (RtoC (a ^ n) <> RtoC 0) by (intros E; apply RtoC_inj in E; revert E; apply pow_nonzero; lra).
  assert (RtoC (b ^ n) <> RtoC 0) by (intros E; apply RtoC_inj in E; revert E; apply pow_nonzero; lra).
  field. auto.
Qed.

Lemma cos_fin : fdiv ((co0 t - co0 c) * (co0 s - co0 c) + (co1 t - co1 c) * (co1 s - co1 c) + (co2 t - co2 c) * (co2 s - co2 c))
    (dist t c * dist s c) = Fin x.
Proof.
  unfold fdiv. destruct (Req_EM_T (dist t c * dist s c) 0) as [E|_]; [|reflexivity].
  pose proof (dist_pos s c Hs). pose proof (dist_pos t c Ht). nra.
Qed.
Lemma cos_fin' : fdiv (co0 (sub t c) * co0 (sub s c) + co1 (sub t c) * co1 (sub s c) + co2 (sub t c) * co2 (sub s c))
    (dist t c * dist s c) = Fin x.
Proof. exact cos_fin. Qed.
Lemma cbuf_length : length (cbuf cjunk) = BUFSIZE.
Proof. unfold cbuf. now rewrite map_length, seq_length. Qed.
Lemma fdiv_scale : fdiv (scale_of (dist t c)) (scale_of (dist s c)) = Fin (scale_of (dist t c) / scale_of (dist s c)).
Proof.
  unfold fdiv. destruct (Req_EM_T (scale_of (dist s c)) 0) as [E|_]; [|reflexivity].
  pose proof (scale_pos _ (dist_pos s c Hs)). lra.
Qed.

(** ** S *)
Section Loops.
Variables js jd hs hd : list C.
Variables lv ld : list R.
Variables a b : R.
Variable p : nat.
Hypothesis Pa : 0 < a.
Hypothesis Pb : 0 < b.
Hypothesis Vj : chold js (fun n => j n (dist t c) / RtoC (a ^ n))%C p.
Hypothesis Vh : chold hs (hscaled h b (dist s c)) p.
Hypothesis Vl : holds_to lv (P x) p.

Lemma hs_loop_ok : forall fuel n result, (n + fuel = S p)%nat ->
  hs_loop (a / b) js hs lv fuel n ((a / b) ^ n) result = Fin (result + csum_m hterm n p)%C.
Proof.
  induction fuel as [|fuel IH]; intros n result Hn.
  - simpl. rewrite csum_m_empty by lia. f_equal. ring.
  - cbn [hs_loop].
    rewrite (rd_ok _ _ _ _ (Vj n ltac:(lia))), (rd_ok _ _ _ _ (Vh n ltac:(lia))), (rd_ok _ _ _ _ (Vl n ltac:(lia))). cbn [fbind].
    replace ((a / b) ^ n * (a / b)) with ((a / b) ^ S n) by (simpl; ring).
    rewrite IH by lia. f_equal. rewrite (csum_m_step _ n p) by lia. unfold hterm at 2, hscaled.
    pose proof (cancel a b n (j n (dist t c)) (h n (dist s c)) Pa Pb) as Q. rewrite RtoC_mult.
    transitivity (result + (RtoC (2 * INR n + 1) * (RtoC ((a / b) ^ n) * (j n (dist t c) / RtoC (a ^ n))
      * (RtoC (b ^ n) * h n (dist s c))) * RtoC (P x n)) + csum_m hterm (S n) p)%C; [ring|]. rewrite Q. ring.
Qed.

Hypothesis Vd : holds_to ld (DP x) p.
Definition htder (m n : nat) : C :=
  (RtoC (2 * INR n + 1) * h n (dist s c) / RtoC (dist t c)
   * (k * sph_derivative k j n (dist t c) * RtoC (P x n) * RtoC (co m t - co m c)
      + RtoC ((co m s - co m c) / dist s c - x * (co m t - co m c) / dist t c) * j n (dist t c) * RtoC (DP x n)))%C.
Definition hsder (m n : nat) : C :=
  (RtoC (2 * INR n + 1) * j n (dist t c) / RtoC (dist s c)
   * (k * RtoC (co m s - co m c) * sph_derivative k h n (dist s c) * RtoC (P x n)
      + RtoC ((co m t - co m c) / dist t c - x * (co m s - co m c) / dist s c) * h n (dist s c) * RtoC (DP x n)))%C.

Hypothesis Vjd : chold jd (fun n => sph_derivative k j n (dist t c) / RtoC (a ^ n))%C p.
Lemma hsp_loop_ok : forall fuel n grad, (n + fuel = S p)%nat ->
  hsp_loop (a / b) x (dist s c) (dist t c) k (sub s c) (sub t c) js jd hs lv ld fuel n ((a / b) ^ n) grad
  = Fin (tab (fun m => (co m grad + csum_m (htder m) n p)%C)).
Proof.
  induction fuel as [|fuel IH]; intros n grad Hn.
  - simpl. f_equal. destruct grad. unfold tab. simpl. rewrite !csum_m_empty by lia. f_equal; ring.
  - cbn [hsp_loop].
    rewrite (rd_ok _ _ _ _ (Vj n ltac:(lia))), (rd_ok _ _ _ _ (Vjd n ltac:(lia))), (rd_ok _ _ _ _ (Vh n ltac:(lia))),
      (rd_ok _ _ _ _ (Vl n ltac:(lia))), (rd_ok _ _ _ _ (Vd n ltac:(lia))). cbn [fbind].
    replace ((a / b) ^ n * (a / b)) with ((a / b) ^ S n) by (simpl; ring).
    rewrite IH by lia. f_equal.
    pose proof (cancel a b n (j n (dist t c)) (h n (dist s c)) Pa Pb) as Q.
    pose proof (cancel a b n (sph_derivative k j n (dist t c)) (h n (dist s c)) Pa Pb) as Q'.
    assert (G : forall g tm A, (g + RtoC ((2 * INR n + 1) * (a / b) ^ n) * hscaled h b (dist s c) n / RtoC (dist t c)
         * (k * (sph_derivative k j n (dist t c) / RtoC (a ^ n)) * RtoC (P x n) * tm
            + A * (j n (dist t c) / RtoC (a ^ n)) * RtoC (DP x n)))%C
       = (g + RtoC (2 * INR n + 1) * h n (dist s c) / RtoC (dist t c)
          * (k * sph_derivative k j n (dist t c) * RtoC (P x n) * tm + A * j n (dist t c) * RtoC (DP x n)))%C).
    { intros g tm A. rewrite RtoC_mult. unfold hscaled, Cdiv.
      transitivity (g + RtoC (2 * INR n + 1) * / RtoC (dist t c)
        * (k * (RtoC ((a / b) ^ n) * (sph_derivative k j n (dist t c) / RtoC (a ^ n)) * (RtoC (b ^ n) * h n (dist s c))) * RtoC (P x n) * tm
           + A * (RtoC ((a / b) ^ n) * (j n (dist t c) / RtoC (a ^ n)) * (RtoC (b ^ n) * h n (dist s c))) * RtoC (DP x n)))%C;
        [unfold Cdiv; ring|]. rewrite Q, Q'. ring. }
    unfold tab. rewrite !G. clear G. simpl co.
    rewrite !(csum_m_step _ n p) by lia. f_equal; rewrite <- Cplus_assoc; reflexivity.
Qed.

Hypothesis Vhd : chold hd (hdscaled k h b (dist s c)) p.
Lemma hd_loop_ok : forall fuel n grad, (n + fuel = S p)%nat ->
  hd_loop (a / b) x (dist s c) (dist t c) k (sub s c) (sub t c) js hs hd lv ld fuel n ((a / b) ^ n) grad
  = Fin (tab (fun m => (co m grad + csum_m (hsder m) n p)%C)).
Proof.
  induction fuel as [|fuel IH]; intros n grad Hn.
  - simpl. f_equal. destruct grad. unfold tab. simpl. rewrite !csum_m_empty by lia. f_equal; ring.
  - cbn [hd_loop].
    rewrite (rd_ok _ _ _ _ (Vj n ltac:(lia))), (rd_ok _ _ _ _ (Vh n ltac:(lia))), (rd_ok _ _ _ _ (Vhd n ltac:(lia))),
      (rd_ok _ _ _ _ (Vl n ltac:(lia))), (rd_ok _ _ _ _ (Vd n ltac:(lia))). cbn [fbind].
    replace ((a / b) ^ n * (a / b)) with ((a / b) ^ S n) by (simpl; ring).
    rewrite IH by lia. f_equal.
    pose proof (cancel a b n (j n (dist t c)) (h n (dist s c)) Pa Pb) as Q.
    pose proof (cancel a b n (j n (dist t c)) (sph_derivative k h n (dist s c)) Pa Pb) as Q'.
    assert (G : forall g sm A, (g + RtoC ((2 * INR n + 1) * (a / b) ^ n) * (j n (dist t c) / RtoC (a ^ n)) / RtoC (dist s c)
         * (k * sm * hdscaled k h b (dist s c) n * RtoC (P x n)
            + A * hscaled h b (dist s c) n * RtoC (DP x n)))%C
       = (g + RtoC (2 * INR n + 1) * j n (dist t c) / RtoC (dist s c)
          * (k * sm * sph_derivative k h n (dist s c) * RtoC (P x n) + A * h n (dist s c) * RtoC (DP x n)))%C).
    { intros g sm A. rewrite RtoC_mult. unfold hscaled, hdscaled, Cdiv.
      transitivity (g + RtoC (2 * INR n + 1) * / RtoC (dist s c)
        * (k * sm * (RtoC ((a / b) ^ n) * (j n (dist t c) / RtoC (a ^ n)) * (RtoC (b ^ n) * sph_derivative k h n (dist s c))) * RtoC (P x n)
           + A * (RtoC ((a / b) ^ n) * (j n (dist t c) / RtoC (a ^ n)) * (RtoC (b ^ n) * h n (dist s c))) * RtoC (DP x n)))%C;
        [unfold Cdiv; ring|]. rewrite Q, Q'. ring. }
    unfold tab. rewrite !G. clear G. simpl co.
    rewrite !(csum_m_step _ n p) by lia. f_equal; rewrite <- Cplus_assoc; reflexivity.
Qed.
End Loops.

Lemma ts_helmholtz_s_ok charge p ifder js jd jscale : (p < BUFSIZE)%nat ->
  ts_helmholtz_precompute jfuns c t p ifder k = Fin (js, jd, jscale) ->
  ts_helmholtz_s junk cjunk s c t charge p k js jscale = Fin (charge * helmholtz_qbx k j h p c s t)%C.
Proof.
  intros Hp Hpre. destruct (precompute_ok _ _ _ _ _ Hpre) as (-> & Vj & _).
  unfold ts_helmholtz_s. rewrite cos_fin. cbn [fbind].
  destruct (legvals_ok x p (rbuf junk) None) as (lv & dv & E & Vl & _); [rewrite rbuf_length; exact Hp | exact I|].
  rewrite E. cbn [fbind fst]. fold (scale_of (dist s c)).
  destruct (h3dall_ok k h Hk Hh p (dist s c) (scale_of (dist s c)) (cbuf cjunk) false None) as (hs & hd & E2 & Vh & _).
  - now apply dist_pos.
  - exact Hab.
  - now apply scale_pos, dist_pos.
  - rewrite cbuf_length. exact Hp.
  - rewrite cbuf_length. unfold BUFSIZE. lia.
  - discriminate.
  - rewrite E2. cbn [fbind fst]. rewrite fdiv_scale. cbn [fbind].
    pose proof (hs_loop_ok js hs lv _ _ p (scale_pos _ (dist_pos t c Ht)) (scale_pos _ (dist_pos s c Hs)) Vj Vh Vl (p + 1) 0 (RtoC 0)) as Q.
    simpl pow in Q. rewrite Q by lia. cbn [fbind]. f_equal. rewrite helmholtz_qbx_sum, csum_0. ring.
Qed.

Lemma ts_helmholtz_sp_ok charge p js jd jscale grad : (p < BUFSIZE)%nat ->
  ts_helmholtz_precompute jfuns c t p true k = Fin (js, jd, jscale) ->
  ts_helmholtz_sp junk cjunk grad s c t charge p k js jd jscale
  = Fin (tab (fun m => (co m grad + charge * (Ci * k * csum (htder m) p))%C)).
Proof.
  intros Hp Hpre. destruct (precompute_ok _ _ _ _ _ Hpre) as (-> & Vj & Vjd). specialize (Vjd eq_refl).
  unfold ts_helmholtz_sp. fold (sub s c) (sub t c). rewrite cos_fin'. cbn [fbind].
  destruct (legendre_buffers_ok junk x p Hp) as (lv & ld & E & Vl & Vd). rewrite E. cbn [fbind].
  fold (scale_of (dist s c)).
  destruct (h3dall_ok k h Hk Hh p (dist s c) (scale_of (dist s c)) (cbuf cjunk) false None) as (hs & hd & E2 & Vh & _).
  - now apply dist_pos.
  - exact Hab.
  - now apply scale_pos, dist_pos.
  - rewrite cbuf_length. exact Hp.
  - rewrite cbuf_length. unfold BUFSIZE. lia.
  - discriminate.
  - rewrite E2. cbn [fbind fst]. rewrite fdiv_scale. cbn [fbind].
    pose proof (hsp_loop_ok js jd hs lv ld _ _ p (scale_pos _ (dist_pos t c Ht)) (scale_pos _ (dist_pos s c Hs)) Vj Vh Vl Vd Vjd
      (p + 1) 0 (tab (fun _ => RtoC 0))) as Q.
    simpl pow in Q. rewrite Q by lia. cbn [fbind]. f_equal. unfold tab. simpl co. rewrite !csum_0. f_equal; ring.
Qed.

Lemma ts_helmholtz_d_ok dipole dipstr p ifder js jd jscale : (p < BUFSIZE)%nat ->
  ts_helmholtz_precompute jfuns c t p ifder k = Fin (js, jd, jscale) ->
  ts_helmholtz_d junk cjunk s c t dipole dipstr p k js jscale
  = Fin (dipstr * (RtoC (co 0 dipole) * (Ci * k * csum (hsder 0) p) + RtoC (co 1 dipole) * (Ci * k * csum (hsder 1) p)
                   + RtoC (co 2 dipole) * (Ci * k * csum (hsder 2) p)))%C.
Proof.
  intros Hp Hpre. destruct (precompute_ok _ _ _ _ _ Hpre) as (-> & Vj & _).
  unfold ts_helmholtz_d. fold (sub s c) (sub t c). rewrite cos_fin'. cbn [fbind].
  destruct (legendre_buffers_ok junk x p Hp) as (lv & ld & E & Vl & Vd). rewrite E. cbn [fbind].
  fold (scale_of (dist s c)).
  destruct (h3dall_ok k h Hk Hh p (dist s c) (scale_of (dist s c)) (cbuf cjunk) true (Some (cbuf cjunk))) as (hs & hd & E2 & Vh & Vhd).
  - now apply dist_pos.
  - exact Hab.
  - now apply scale_pos, dist_pos.
  - rewrite cbuf_length. exact Hp.
  - rewrite cbuf_length. unfold BUFSIZE. lia.
  - intros _. eexists. split; [reflexivity|]. rewrite cbuf_length. exact Hp.
  - destruct (Vhd eq_refl) as (e & -> & Ve). rewrite E2. cbn [fbind fst]. rewrite fdiv_scale. cbn [fbind].
    pose proof (hd_loop_ok js hs e lv ld _ _ p (scale_pos _ (dist_pos t c Ht)) (scale_pos _ (dist_pos s c Hs)) Vj Vh Vl Vd Ve
      (p + 1) 0 (tab (fun _ => RtoC 0))) as Q.
    simpl pow in Q. rewrite Q by lia. cbn [fbind]. f_equal. unfold tab. simpl co. simpl co0. simpl co1. simpl co2.
    rewrite !csum_0. ring.
Qed.
End Helm.

(** ** Gradients *)
Lemma cP_comp n (X : R -> R) (u d : R) : is_derive X u d -> cderiv (fun u => RtoC (P (X u) n)) u (RtoC (d * DP (X u) n)).
Proof. intros H. apply cderiv_real. now apply P_comp. Qed.

Section Grad.
Variable k : C.
Variables j h : nat -> R -> C.
Hypothesis Hk : k <> RtoC 0.
Hypothesis Hj : sph_family k j.
Hypothesis Hh : sph_family k h.
Variables s c t : tri R.
Hypothesis Hs : s <> c.
Hypothesis Ht : t <> c.

Lemma hterm_tder m n : (m < 3)%nat ->
  cderiv (fun u => hterm j h s c (set_co m u t) n) (co m t) (htder k j h s c t m n).
Proof.
  intros Hm. pose proof (dist_derive m t c Hm Ht) as D1. pose proof (cos_derive m s c t Hm Hs Ht) as D2.
  apply (cP_comp n) in D2. cbv beta in D2. rewrite set_co_same in D2.
  assert (Pt := dist_pos t c Ht). assert (Ps := dist_pos s c Hs).
  assert (D3 : cderiv (fun u => j n (dist (set_co m u t) c)) (co m t)
    (RtoC ((co m t - co m c) / dist t c) * (k * sph_derivative k j n (dist t c)))%C).
  { apply (cderiv_comp (j n) (fun u : R => dist (set_co m u t) c) (co m t)); [exact D1|]. rewrite set_co_same. now apply Hj. }
  pose proof (cderiv_scal (RtoC (2 * INR n + 1) * h n (dist s c))%C _ _ _ (cderiv_mult _ _ _ _ _ D3 D2)) as M.
  cbv beta in M. rewrite set_co_same in M.
  apply (cderiv_ext _ (fun u => hterm j h s c (set_co m u t) n)) in M; [|intros u; unfold hterm; ring].
  eapply cderiv_eq; [|exact M]. unfold htder, dcos.
  assert (RtoC (dist t c) <> RtoC 0) by (intros E; apply RtoC_inj in E; lra).
  set (A := (co m s - co m c) / dist s c - cosang s c t * (co m t - co m c) / dist t c).
  replace (RtoC (A / dist t c * DP (cosang s c t) n)) with (RtoC A / RtoC (dist t c) * RtoC (DP (cosang s c t) n))%C
    by (unfold Rdiv; rewrite !RtoC_mult, RtoC_inv by lra; reflexivity).
  replace (RtoC ((co m t - co m c) / dist t c)) with (RtoC (co m t - co m c) / RtoC (dist t c))%C
    by (unfold Rdiv; rewrite RtoC_mult, RtoC_inv by lra; reflexivity).
  field. assumption.
Qed.

Lemma hterm_sder m n : (m < 3)%nat ->
  cderiv (fun u => hterm j h (set_co m u s) c t n) (co m s) (hsder k j h s c t m n).
Proof.
  intros Hm. pose proof (dist_derive m s c Hm Hs) as D1. pose proof (cos_derive m t c s Hm Ht Hs) as D2.
  apply (cP_comp n) in D2. cbv beta in D2. rewrite set_co_same in D2.
  assert (Pt := dist_pos t c Ht). assert (Ps := dist_pos s c Hs).
  assert (D3 : cderiv (fun u => h n (dist (set_co m u s) c)) (co m s)
    (RtoC ((co m s - co m c) / dist s c) * (k * sph_derivative k h n (dist s c)))%C).
  { apply (cderiv_comp (h n) (fun u : R => dist (set_co m u s) c) (co m s)); [exact D1|]. rewrite set_co_same. now apply Hh. }
  pose proof (cderiv_scal (RtoC (2 * INR n + 1) * j n (dist t c))%C _ _ _ (cderiv_mult _ _ _ _ _ D3 D2)) as M.
  cbv beta in M. rewrite set_co_same in M.
  apply (cderiv_ext _ (fun u => hterm j h (set_co m u s) c t n)) in M;
    [|intros u; unfold hterm; rewrite (cosang_sym (set_co m u s) c t); ring].
  eapply cderiv_eq; [|exact M]. unfold hsder, dcos. rewrite (cosang_sym t c s).
  assert (RtoC (dist s c) <> RtoC 0) by (intros E; apply RtoC_inj in E; lra).
  set (A := (co m t - co m c) / dist t c - cosang s c t * (co m s - co m c) / dist s c).
  replace (RtoC (A / dist s c * DP (cosang s c t) n)) with (RtoC A / RtoC (dist s c) * RtoC (DP (cosang s c t) n))%C
    by (unfold Rdiv; rewrite !RtoC_mult, RtoC_inv by lra; reflexivity).
  replace (RtoC ((co m s - co m c) / dist s c)) with (RtoC (co m s - co m c) / RtoC (dist s c))%C
    by (unfold Rdiv; rewrite RtoC_mult, RtoC_inv by lra; reflexivity).
  field. assumption.
Qed.

Lemma helmholtz_qbx_tder p m : (m < 3)%nat ->
  cpartial_at (fun t => helmholtz_qbx k j h p c s t) m t (Ci * k * csum (htder k j h s c t m) p)%C.
Proof.
  intros Hm. unfold cpartial_at.
  apply (cderiv_ext_loc (fun u => (Ci * k * csum (fun n => hterm j h s c (set_co m u t) n) p)%C)).
  - apply (filter_imp (fun u => set_co m u t <> c)); [|now apply locally_ne].
    intros u Hu. symmetry. now apply helmholtz_qbx_sum.
  - apply cderiv_scal. apply (csum_deriv (fun n u => hterm j h s c (set_co m u t) n)).
    intros n. now apply hterm_tder.
Qed.
Lemma helmholtz_qbx_sder p m : (m < 3)%nat ->
  cpartial_at (fun s => helmholtz_qbx k j h p c s t) m s (Ci * k * csum (hsder k j h s c t m) p)%C.
Proof.
  intros Hm. unfold cpartial_at.
  apply (cderiv_ext_loc (fun u => (Ci * k * csum (fun n => hterm j h (set_co m u s) c t n) p)%C)).
  - apply (filter_imp (fun u => set_co m u s <> c)); [|now apply locally_ne].
    intros u Hu. symmetry. now apply helmholtz_qbx_sum.
  - apply cderiv_scal. apply (csum_deriv (fun n u => hterm j h (set_co m u s) c t n)).
    intros n. now apply hterm_sder.
Qed.
End Grad.
