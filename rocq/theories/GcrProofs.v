(** Inner products, and one step of the solver. *)
From Coq Require Import Reals Lra Ring.
From Verif Require Import Base GmresModel GmresSpec GmresProofs GcrSpec.
Set Implicit Arguments.

Section G.
Variables V K : Type.
Variable sc : scalars K.
Variable vo : vops V K.
Variable vs : vspace vo.
Variable dot : V -> V -> K.
Variable q : V -> R.
Hypothesis IP : inner_product sc vo dot q.
Notation "a +v b" := (vadd vo a b) (at level 50, left associativity).
Notation "a -v b" := (vsub vo a b) (at level 50, left associativity).
Notation "c *v b" := (vscale vo c b) (at level 40).
Notation "a +k b" := (kadd sc a b) (at level 50, left associativity).
Notation "a -k b" := (ksub sc a b) (at level 50, left associativity).
Notation "a *k b" := (kmul sc a b) (at level 40, left associativity).
Notation conj := (kconj sc).
Notation re := (of_real sc).
Notation K0 := (k0 sc).
Notation K1 := (k1 sc).

Add Ring KR : (k_ring sc).

Lemma real_zero : re 0%R = K0.
Proof.
  pose proof (real_add sc 0 0) as H. rewrite Rplus_0_r in H.
  transitivity (re 0%R +k re 0%R -k re 0%R); [ring|]. rewrite <- H. ring.
Qed.
Lemma real_opp x : re (- x)%R = kopp sc (re x).
Proof.
  transitivity (re (- x)%R +k re x -k re x); [ring|]. rewrite <- (real_add sc). rewrite Rplus_opp_l, real_zero. ring.
Qed.
Lemma real_sub x y : re (x - y)%R = re x -k re y.
Proof. unfold Rminus. rewrite (real_add sc), real_opp. ring. Qed.
Lemma conj_zero : conj K0 = K0.
Proof. rewrite <- real_zero. apply (conj_real sc). Qed.
Lemma abs2_K0 : kabs2 sc K0 = 0%R.
Proof. apply (real_inj sc). rewrite <- (abs2_spec sc), real_zero. ring. Qed.
Lemma abs2_conj c : kabs2 sc (conj c) = kabs2 sc c.
Proof. apply (real_inj sc). rewrite <- !(abs2_spec sc), (conj_conj sc). ring. Qed.
Lemma abs2_mul c d : kabs2 sc (c *k d) = (kabs2 sc c * kabs2 sc d)%R.
Proof. apply (real_inj sc). rewrite (real_mul sc), <- !(abs2_spec sc), (conj_mul sc). ring. Qed.
Lemma abs2_real x : kabs2 sc (re x) = (x * x)%R.
Proof. apply (real_inj sc). rewrite (real_mul sc), <- (abs2_spec sc), (conj_real sc). reflexivity. Qed.
Lemma abs2_nonzero c : c <> K0 -> (0 < kabs2 sc c)%R.
Proof.
  intros H. pose proof (abs2_pos sc c). destruct (Req_dec (kabs2 sc c) 0) as [E|E]; [|lra].
  exfalso. apply H. apply (abs2_zero sc). exact E.
Qed.

Lemma dot_zero_r u : dot u (vzero vs) = K0.
Proof.
  pose proof (ip_add IP u (vzero vs) (vzero vs)) as H. rewrite (add_zero vs) in H.
  transitivity (dot u (vzero vs) +k dot u (vzero vs) -k dot u (vzero vs)); [ring|]. rewrite <- H. ring.
Qed.
Lemma dot_opp_r u v : dot u (vopp vs v) = kopp sc (dot u v).
Proof.
  transitivity (dot u (v +v vopp vs v) -k dot u v); [rewrite (ip_add IP); ring|]. rewrite (add_opp vs), dot_zero_r. ring.
Qed.
Lemma dot_sub_r u v w : dot u (v -v w) = dot u v -k dot u w.
Proof. rewrite (sub_def vs), (ip_add IP), dot_opp_r. ring. Qed.
Lemma conj_sub c d : conj (c -k d) = conj c -k conj d.
Proof.
  transitivity (conj (c -k d) +k conj d -k conj d); [ring|]. rewrite <- (conj_add sc). f_equal. f_equal. ring.
Qed.
Lemma dot_sub_l u v w : dot (u -v v) w = dot u w -k dot v w.
Proof. rewrite (ip_conj IP w), dot_sub_r, conj_sub, <- !(ip_conj IP). reflexivity. Qed.
Lemma dot_add_l u v w : dot (u +v v) w = dot u w +k dot v w.
Proof. rewrite (ip_conj IP w), (ip_add IP), (conj_add sc), <- !(ip_conj IP). reflexivity. Qed.
Lemma dot_scale_l c u w : dot (c *v u) w = conj c *k dot u w.
Proof. rewrite (ip_conj IP w), (ip_scale IP), (conj_mul sc), <- !(ip_conj IP). reflexivity. Qed.
Lemma dot_flip u v : dot u v = K0 -> dot v u = K0.
Proof. intros H. rewrite (ip_conj IP), H. apply conj_zero. Qed.

(** The squared norm along a line. *)
Lemma q_line t w r : q (r -v (re t *k dot w r) *v w)
  = (q r - 2 * t * kabs2 sc (dot w r) + t * t * kabs2 sc (dot w r) * q w)%R.
Proof.
  apply (real_inj sc). rewrite <- (ip_self IP). rewrite dot_sub_r, !dot_sub_l, !(ip_scale IP), !dot_scale_l.
  rewrite (conj_mul sc), (conj_real sc). rewrite (ip_self IP r), (ip_self IP w). rewrite (ip_conj IP w r).
  set (d := dot w r).
  replace (q r - 2 * t * kabs2 sc d + t * t * kabs2 sc d * q w)%R
    with (q r - (t * kabs2 sc d + t * kabs2 sc d) + t * t * kabs2 sc d * q w)%R by ring.
  rewrite (real_add sc), real_sub, (real_add sc), !(real_mul sc), <- (abs2_spec sc d). ring.
Qed.
Lemma q_orth w r : q w = 1%R -> q (r -v dot w r *v w) = (q r - kabs2 sc (dot w r))%R.
Proof.
  intros H. pose proof (q_line 1 w r) as L. rewrite (real_one sc), H in L.
  replace (K1 *k dot w r) with (dot w r) in L by ring. rewrite L. ring.
Qed.
Lemma cauchy w r : (kabs2 sc (dot w r) <= q w * q r)%R.
Proof.
  set (a := kabs2 sc (dot w r)). pose proof (abs2_pos sc (dot w r)) as Ha. fold a in Ha.
  pose proof (ip_pos IP w) as Hw. pose proof (ip_pos IP r) as Hr.
  destruct (Req_dec (q w) 0) as [E|E].
  - destruct (Req_dec a 0) as [Z|Z]; [rewrite E, Z; lra|exfalso].
    pose proof (ip_pos IP (r -v (re ((q r + 1) / (2 * a))%R *k dot w r) *v w)) as P. rewrite q_line in P. fold a in P. rewrite E in P.
    replace (2 * ((q r + 1) / (2 * a)) * a)%R with (q r + 1)%R in P by (field; exact Z). lra.
  - pose proof (ip_pos IP (r -v (re (/ q w)%R *k dot w r) *v w)) as P. rewrite q_line in P. fold a in P.
    replace (q r - 2 * / q w * a + / q w * / q w * a * q w)%R with (q r - a / q w)%R in P by (field; exact E).
    assert (X : (a / q w * q w <= q r * q w)%R) by (apply Rmult_le_compat_r; lra).
    unfold Rdiv in X. rewrite Rmult_assoc, Rinv_l in X by exact E. lra.
Qed.
Lemma q_scale c u : q (c *v u) = (kabs2 sc c * q u)%R.
Proof.
  apply (real_inj sc). rewrite <- (ip_self IP), (ip_scale IP), dot_scale_l, (ip_self IP), (real_mul sc), <- (abs2_spec sc). ring.
Qed.
Lemma gnorm_q u : gnorm sc dot u = sqrt (q u).
Proof.
  unfold gnorm, kabs. rewrite (ip_self IP), abs2_real. f_equal.
  change (q u * q u)%R with (Rsqr (q u)). apply sqrt_Rsqr. apply (ip_pos IP).
Qed.
Lemma q_normalized w : q w <> 0%R -> q (ginv sc (gnorm sc dot w) *v w) = 1%R.
Proof.
  intros H. rewrite q_scale. unfold ginv. rewrite abs2_real, gnorm_q.
  assert (S : (sqrt (q w) * sqrt (q w) = q w)%R) by (apply sqrt_sqrt, (ip_pos IP)).
  assert (N : sqrt (q w) <> 0%R) by (intros Z; rewrite Z in S; lra).
  rewrite <- S at 3. field. exact N.
Qed.

(** Orthonormal slots. *)
Definition slot (l : list (option V)) (i : nat) (x : V) : Prop := nth_error l i = Some (Some x).
Definition orthonormal (Ae : list (option V)) (m : nat) : Prop :=
  forall i j x y, i < m -> j < m -> slot Ae i x -> slot Ae j y -> dot x y = if Nat.eqb i j then K1 else K0.
Definition perp (Ae : list (option V)) (m : nat) (v : V) : Prop := forall i x, i < m -> slot Ae i x -> dot x v = K0.

Lemma orth_dot Ae e m : orthonormal Ae m -> forall js w rp w' rp', NoDup js -> (forall j, In j js -> j < m) ->
  orth vo dot Ae e js w rp = Ok (w', rp') ->
  (forall i x, i < m -> slot Ae i x -> dot x w' = if in_dec Nat.eq_dec i js then K0 else dot x w)
  /\ (forall v, perp Ae m v -> dot v w' = dot v w) /\ (q w' <= q w)%R.
Proof.
  intros HO. induction js as [|j js IH]; intros w rp w' rp' HN Hj H; cbn [orth] in H.
  - injection H as <- <-. split; [intros; reflexivity|]. split; [reflexivity|lra].
  - destruct (rd Ae j) as [aj|] eqn:Ea; cbn [bind] in H; [|discriminate].
    destruct (rd e j) as [ej|]; cbn [bind] in H; [|discriminate].
    assert (Sj : slot Ae j aj).
    { unfold rd in Ea. unfold slot. destruct (nth_error Ae j) as [[x|]|]; try discriminate. injection Ea as ->. reflexivity. }
    inversion HN as [|? ? Hn HN']; subst.
    assert (Hjm : j < m) by (apply Hj; left; reflexivity).
    destruct (IH _ _ _ _ HN' (fun i Hi => Hj i (or_intror Hi)) H) as (D1 & D2 & D3).
    assert (q1 : q aj = 1%R).
    { apply (real_inj sc). rewrite <- (ip_self IP), (real_one sc). rewrite (HO j j aj aj Hjm Hjm Sj Sj), Nat.eqb_refl. reflexivity. }
    split; [|split].
    + intros i x Hi Si. rewrite (D1 i x Hi Si). rewrite dot_sub_r, (ip_scale IP), (HO i j x aj Hi Hjm Si Sj).
      destruct (Nat.eqb_spec i j) as [->|Hne].
      * assert (x = aj) by (unfold slot in *; congruence). subst x.
        destruct (in_dec Nat.eq_dec j js); [contradiction|]. destruct (in_dec Nat.eq_dec j (j :: js)) as [_|B]; [ring|].
        destruct B. left. reflexivity.
      * destruct (in_dec Nat.eq_dec i js) as [B|B]; destruct (in_dec Nat.eq_dec i (j :: js)) as [B'|B']; try reflexivity; try ring.
        -- destruct B'. right. exact B.
        -- destruct B' as [->|B']; [contradiction|]. contradiction.
    + intros v Hv. rewrite (D2 v Hv), dot_sub_r, (ip_scale IP), (dot_flip (Hv j aj Hjm Sj)). ring.
    + eapply Rle_trans; [exact D3|]. rewrite (q_orth w q1). pose proof (abs2_pos sc (dot aj w)). lra.
Qed.

(** One trip: the new direction is orthogonal to the slots, has norm one, and has not
    lost its product with the residual. *)
Lemma trip_dot Ae e m w rp w1 rp1 r : orthonormal Ae m -> perp Ae m r -> dot r w <> K0 ->
  trip vo dot (gnorm sc dot) (ginv sc) Ae e m w rp = Ok (w1, rp1) ->
  perp Ae m w1 /\ q w1 = 1%R /\ dot r w1 <> K0 /\ (kabs2 sc (dot r w) <= kabs2 sc (dot r w1) * q w)%R.
Proof.
  intros HO Hr Hn H. unfold trip in H. destruct (orth vo dot Ae e (seq 0 m) w rp) as [[w' rp']|] eqn:E; cbn [bind] in H; [|discriminate].
  injection H as <- <-.
  destruct (@orth_dot Ae e m HO _ _ _ _ _ (seq_NoDup m 0) (fun j Hj => proj2 (proj1 (in_seq _ _ _) Hj)) E) as (D1 & D2 & D3).
  specialize (D2 r Hr).
  assert (Hq : q w' <> 0%R).
  { intros Z. pose proof (cauchy w' r) as X. rewrite Z in X. pose proof (abs2_pos sc (dot w' r)).
    assert (Y : kabs2 sc (dot w' r) = 0%R) by lra. apply (abs2_zero sc) in Y. apply dot_flip in Y. rewrite D2 in Y. exact (Hn Y). }
  pose proof (ip_pos IP w') as Hp.
  assert (Hs : kabs2 sc (ginv sc (gnorm sc dot w')) = (/ q w')%R).
  { unfold ginv. rewrite abs2_real, gnorm_q.
    assert (S : (sqrt (q w') * sqrt (q w') = q w')%R) by (apply sqrt_sqrt, (ip_pos IP)).
    assert (N : sqrt (q w') <> 0%R) by (intros Z; rewrite Z in S; lra).
    rewrite <- S at 3. field. exact N. }
  assert (Hk : kabs2 sc (dot r (ginv sc (gnorm sc dot w') *v w')) = (kabs2 sc (dot r w) / q w')%R).
  { rewrite (ip_scale IP), abs2_mul, Hs, D2. unfold Rdiv. ring. }
  split; [|split; [|split]].
  - intros i x Hi Sx. rewrite (ip_scale IP), (D1 i x Hi Sx).
    destruct (in_dec Nat.eq_dec i (seq 0 m)) as [_|B]; [ring|]. destruct B. apply in_seq. lia.
  - apply q_normalized. exact Hq.
  - intros Z. rewrite Z, abs2_K0 in Hk. pose proof (abs2_nonzero Hn) as P.
    assert (X : (0 < kabs2 sc (dot r w) / q w')%R) by (apply Rdiv_lt_0_compat; lra). lra.
  - rewrite Hk. pose proof (abs2_pos sc (dot r w)) as P.
    unfold Rdiv. rewrite Rmult_assoc. rewrite <- (Rmult_1_r (kabs2 sc (dot r w))) at 1. apply Rmult_le_compat_l; [exact P|].
    apply (Rmult_le_reg_l (q w')); [lra|]. rewrite <- Rmult_assoc, Rinv_r by exact Hq. lra.
Qed.
End G.
