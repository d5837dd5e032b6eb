(** Laplace: gradients of the target-specific expansions. *)
From Coq Require Import Reals Lra Lia List.
From Coquelicot Require Import Coquelicot.
From Verif Require Import Base TsModel TsSpec TsLeg TsProofs TsProofs2.
Import ListNotations.
Open Scope R_scope.

Lemma set_co_same m p : set_co m (co m p) p = p.
Proof. destruct p. destruct m as [|[|[|m]]]; reflexivity. Qed.

Lemma dist_derive m (p c : tri R) : (m < 3)%nat -> p <> c ->
  is_derive (fun u : R => dist (set_co m u p) c) (co m p) ((co m p - co m c) / dist p c).
Proof.
  intros Hm H. apply dist_pos in H.
  assert (Hq : 0 < dotp (sub p c) (sub p c)) by (rewrite <- dist_sq; nra).
  rewrite dist_sub in *.
  apply (is_derive_ext (V := R_NormedModule)
    (fun u : R => sqrt (dotp (sub (set_co m u p) c) (sub (set_co m u p) c)))); [intros; now rewrite dist_sub|].
  unfold dotp, sub, set_co in *. simpl co in *. destruct p as [p0 p1 p2], c as [c0 c1 c2].
  destruct m as [|[|[|m]]]; [| | |lia]; simpl in *; auto_derive; try exact Hq; try (split; [exact Hq | exact I]);
    (match goal with |- context [sqrt ?e] => match goal with |- context [sqrt ?e'] => idtac end end);
    unfold Rminus in *; field; apply Rgt_not_eq; assumption.
Qed.

Lemma dot_derive m (p c q : tri R) : (m < 3)%nat ->
  is_derive (fun u : R => dotp (sub (set_co m u p) c) q) (co m p) (co m q).
Proof.
  intros Hm. unfold dotp, sub, set_co. simpl co. destruct p as [p0 p1 p2], c as [c0 c1 c2], q as [q0 q1 q2].
  destruct m as [|[|[|m]]]; [| | |lia]; simpl; auto_derive; auto; ring.
Qed.
Lemma dotp_comm a b : dotp a b = dotp b a. Proof. unfold dotp. ring. Qed.

(** The derivative of the cosine when [t] moves; by symmetry also when [s] does. *)
Definition dcos (s c t : tri R) (m : nat) : R :=
  ((co m s - co m c) / dist s c - cosang s c t * (co m t - co m c) / dist t c) / dist t c.
Lemma cos_derive m s c t : (m < 3)%nat -> s <> c -> t <> c ->
  is_derive (fun u : R => cosang s c (set_co m u t)) (co m t) (dcos s c t m).
Proof.
  intros Hm Hs Ht. pose proof (dist_derive m t c Hm Ht) as D1. pose proof (dot_derive m t c (sub s c) Hm) as D2.
  apply dist_pos in Hs, Ht. unfold cosang.
  set (f := fun u : R => dist (set_co m u t) c) in *. set (g := fun u : R => dotp (sub (set_co m u t) c) (sub s c)) in *.
  assert (F : f (co m t) = dist t c) by (unfold f; now rewrite set_co_same).
  assert (G : g (co m t) = dotp (sub t c) (sub s c)) by (unfold g; now rewrite set_co_same).
  change (is_derive (fun u : R => g u / (f u * dist s c)) (co m t) (dcos s c t m)).
  clearbody f g. auto_derive.
  - repeat split; try (eexists; eassumption). rewrite F. nra.
  - change (fun x : R => g x) with g. change (fun x : R => f x) with f.
    rewrite (is_derive_unique f _ _ D1), (is_derive_unique g _ _ D2), F, G.
    unfold dcos, cosang. destruct m as [|[|[|m]]]; [| | |lia]; unfold sub; simpl; field; lra.
Qed.
Lemma cosang_sym s c t : cosang s c t = cosang t c s.
Proof. unfold cosang. rewrite dotp_comm, Rmult_comm. reflexivity. Qed.

(** Derivatives of the n-th term. *)
Definition tder (s c t : tri R) (m n : nat) : R :=
  dist t c ^ (n - 1) / dist s c ^ (n + 1) *
  (INR n * ((co m t - co m c) / dist t c) * P (cosang s c t) n
   + ((co m s - co m c) / dist s c - cosang s c t * (co m t - co m c) / dist t c) * DP (cosang s c t) n).
Definition sder (s c t : tri R) (m n : nat) : R :=
  dist t c ^ n / dist s c ^ (n + 2) *
  (- (INR n + 1) * ((co m s - co m c) / dist s c) * P (cosang s c t) n
   + ((co m t - co m c) / dist t c - cosang s c t * (co m s - co m c) / dist s c) * DP (cosang s c t) n).

Lemma P_comp n (X : R -> R) (u d : R) : is_derive X u d ->
  is_derive (fun u : R => P (X u) n) u (d * DP (X u) n).
Proof.
  intros H. apply (is_derive_comp (V := R_NormedModule) (fun x : R => P x n) X); [apply P_derive | exact H].
Qed.

Lemma lterm_tder m n s c t : (m < 3)%nat -> s <> c -> t <> c ->
  is_derive (fun u : R => lterm s c (set_co m u t) n) (co m t) (tder s c t m n).
Proof.
  intros Hm Hs Ht. pose proof (dist_derive m t c Hm Ht) as D1. pose proof (cos_derive m s c t Hm Hs Ht) as D2.
  apply (P_comp n) in D2. cbv beta in D2. rewrite set_co_same in D2.
  apply dist_pos in Hs, Ht. unfold lterm.
  set (f := fun u : R => dist (set_co m u t) c) in *. set (g := fun u : R => P (cosang s c (set_co m u t)) n) in *.
  assert (F : f (co m t) = dist t c) by (unfold f; now rewrite set_co_same).
  assert (G : g (co m t) = P (cosang s c t) n) by (unfold g; now rewrite set_co_same).
  change (is_derive (fun u : R => g u * (f u ^ n / dist s c ^ S n)) (co m t) (tder s c t m n)).
  change (is_derive g (co m t) (dcos s c t m * DP (cosang s c t) n)) in D2.
  clearbody f g. auto_derive.
  - repeat split; try (eexists; eassumption).
  - change (fun x : R => g x) with g. change (fun x : R => f x) with f.
    rewrite (is_derive_unique f _ _ D1), (is_derive_unique g _ _ D2), F, G.
    unfold tder, dcos. replace (n + 1)%nat with (S n) by lia.
    assert (dist s c ^ S n <> 0) by (apply pow_nonzero; lra).
    destruct n as [|n].
    + simpl. rewrite P_0, DP_0. field. lra.
    + replace (S n - 1)%nat with n by lia. simpl pred.
      replace (dist t c ^ S n) with (dist t c * dist t c ^ n) by reflexivity.
      change (dist s c * dist s c ^ S n) with (dist s c ^ S (S n)).
      generalize dependent (dist s c ^ S (S n)). intros K HK.
      field. repeat split; lra.
Qed.

Lemma lterm_sder m n s c t : (m < 3)%nat -> s <> c -> t <> c ->
  is_derive (fun u : R => lterm (set_co m u s) c t n) (co m s) (sder s c t m n).
Proof.
  intros Hm Hs Ht. pose proof (dist_derive m s c Hm Hs) as D1. pose proof (cos_derive m t c s Hm Ht Hs) as D2.
  apply (P_comp n) in D2. cbv beta in D2. rewrite set_co_same in D2.
  apply dist_pos in Hs, Ht. unfold lterm.
  set (f := fun u : R => dist (set_co m u s) c) in *. set (g := fun u : R => P (cosang t c (set_co m u s)) n) in *.
  assert (F : f (co m s) = dist s c) by (unfold f; now rewrite set_co_same).
  assert (G : g (co m s) = P (cosang s c t) n) by (unfold g; now rewrite set_co_same, cosang_sym).
  apply (is_derive_ext (V := R_NormedModule) (fun u : R => g u * (dist t c ^ n / f u ^ S n))).
  { intros u. unfold g, f. now rewrite cosang_sym. }
  change (is_derive g (co m s) (dcos t c s m * DP (cosang t c s) n)) in D2.
  clearbody f g.
  assert (Hn : dist s c ^ n <> 0) by (apply pow_nonzero; lra).
  auto_derive.
  - repeat split; try (eexists; eassumption). rewrite F. apply Rmult_integral_contrapositive_currified; [lra | exact Hn].
  - change (fun x : R => g x) with g. change (fun x : R => f x) with f.
    rewrite (is_derive_unique f _ _ D1), (is_derive_unique g _ _ D2), F, G.
    unfold sder, dcos. rewrite (cosang_sym t c s).
    replace (n + 2)%nat with (S (S n)) by lia.
    change (match n with O => 1 | S _ => INR n + 1 end) with (INR (S n)). rewrite S_INR.
    replace (dist s c ^ S (S n)) with (dist s c * (dist s c * dist s c ^ n)) by reflexivity.
    replace (dist s c ^ S n) with (dist s c * dist s c ^ n) by reflexivity.
    field. repeat split; lra.
Qed.

Lemma is_derive_sum_lt (f : nat -> R -> R) (x : R) (d : nat -> R) p :
  (forall n, is_derive (f n) x (d n)) -> is_derive (fun u => sum_n (fun n => f n u) p) x (sum_n d p).
Proof. intros H. apply (is_derive_sum_n (V := R_NormedModule)). intros n _. apply H. Qed.

Lemma locally_ne m (p c : tri R) : (m < 3)%nat -> p <> c -> locally (co m p) (fun u => set_co m u p <> c).
Proof.
  intros Hm H. pose proof (dist_derive m p c Hm H) as D.
  assert (Cn : continuous (fun u : R => dist (set_co m u p) c) (co m p)).
  { apply (ex_derive_continuous (V := R_NormedModule)). eexists; exact D. }
  apply (filter_imp (fun u => 0 < dist (set_co m u p) c)).
  - intros u Hu E. rewrite E, dist_refl in Hu. lra.
  - apply Cn. apply (open_gt 0). rewrite set_co_same. now apply dist_pos.
Qed.

Lemma laplace_qbx_tder p m c s t : (m < 3)%nat -> s <> c -> t <> c ->
  partial_at (fun t => laplace_qbx p c s t) m t (sum_n (tder s c t m) p).
Proof.
  intros Hm Hs Ht. unfold partial_at.
  apply (is_derive_ext_loc (V := R_NormedModule) (fun u : R => sum_n (fun n => lterm s c (set_co m u t) n) p)).
  - apply (filter_imp (fun u => set_co m u t <> c)); [|now apply locally_ne].
    intros u Hu. symmetry. now apply laplace_qbx_sum.
  - apply is_derive_sum_lt. intros n. now apply lterm_tder.
Qed.
Lemma laplace_qbx_sder p m c s t : (m < 3)%nat -> s <> c -> t <> c ->
  partial_at (fun s => laplace_qbx p c s t) m s (sum_n (sder s c t m) p).
Proof.
  intros Hm Hs Ht. unfold partial_at.
  apply (is_derive_ext_loc (V := R_NormedModule) (fun u : R => sum_n (fun n => lterm (set_co m u s) c t n) p)).
  - apply (filter_imp (fun u => set_co m u s <> c)); [|now apply locally_ne].
    intros u Hu. symmetry. now apply laplace_qbx_sum.
  - apply is_derive_sum_lt. intros n. now apply lterm_sder.
Qed.

(** ** ts_laplace_sp *)
Section Fixed.
Variable junk : nat -> R.

Lemma rd_ok A (a : list A) i v : nth_error a i = Some v -> rd a i = Fin v.
Proof. unfold rd. now intros ->. Qed.
Lemma co_tab (A : Type) (f : nat -> A) m : (m < 3)%nat -> co m (tab f) = f m.
Proof. intros Hm. destruct m as [|[|[|m]]]; [| | |lia]; reflexivity. Qed.

Lemma sp_loop_ok s c t l d p : s <> c -> t <> c ->
  holds_to l (P (cosang s c t)) p -> holds_to d (DP (cosang s c t)) p ->
  forall fuel n grad, (1 <= n)%nat -> (n + fuel <= S p)%nat ->
  sp_loop (cosang s c t) (dist s c) (dist t c) (sub s c) (sub t c) l d fuel n
    (dist t c ^ (n - 1) / dist s c ^ (n + 1)) grad
  = Fin (tab (fun m => co m grad + sum_n_m (tder s c t m) n (n + fuel - 1))).
Proof.
  intros Hs Ht Hl Hd. induction fuel as [|fuel IH]; intros n grad Hn Hp.
  - simpl. f_equal. destruct grad. unfold tab. simpl.
    rewrite !sum_n_m_zero by lia. change (@zero R_AbelianGroup) with 0. f_equal; ring.
  - cbn [sp_loop]. rewrite (rd_ok _ _ _ _ (Hl n ltac:(lia))), (rd_ok _ _ _ _ (Hd n ltac:(lia))). cbn [fbind].
    replace (dist t c ^ (n - 1) / dist s c ^ (n + 1) * (dist t c / dist s c))
      with (dist t c ^ (S n - 1) / dist s c ^ (S n + 1)).
    2:{ apply dist_pos in Hs, Ht. destruct n as [|n]; [lia|].
        replace (S (S n) - 1)%nat with (S n) by lia. replace (S n - 1)%nat with n by lia.
        simpl. field. split; try apply pow_nonzero; lra. }
    rewrite IH by lia. f_equal. unfold tab. simpl co.
    replace (S n + fuel - 1)%nat with (n + S fuel - 1)%nat by lia.
    rewrite !(sum_Sn_m _ n) by lia. change plus with Rplus. f_equal; rewrite Rplus_assoc; reflexivity.
Qed.

Lemma ts_laplace_sp_ok s c t charge p grad : s <> c -> t <> c -> (p < BUFSIZE)%nat ->
  ts_laplace_sp junk grad s c t charge p
  = Fin (tab (fun m => (co m grad + charge * RtoC (sum_n (tder s c t m) p))%C)).
Proof.
  intros Hs Ht Hp. unfold ts_laplace_sp, fdiv.
  destruct (Req_EM_T (dist t c * dist s c) 0) as [E|_].
  { apply dist_pos in Hs, Ht. nra. }
  cbn [fbind]. fold (sub s c) (sub t c).
  change ((co0 (sub t c) * co0 (sub s c) + co1 (sub t c) * co1 (sub s c) + co2 (sub t c) * co2 (sub s c)) / (dist t c * dist s c))
    with (cosang s c t).
  destruct (legendre_buffers_ok junk (cosang s c t) p Hp) as (l & d & E & Hl & Hd). rewrite E. cbn [fbind].
  assert (Ps := dist_pos s c Hs).
  replace (1 / (dist s c * dist s c)) with (dist t c ^ (1 - 1) / dist s c ^ (1 + 1)) by (simpl; field; lra).
  rewrite (sp_loop_ok s c t l d p Hs Ht Hl Hd p 1) by lia. cbn [fbind].
  assert (Z : forall m, tder s c t m 0 = 0).
  { intros m. unfold tder. rewrite DP_0. simpl INR. rewrite !Rmult_0_l, Rmult_0_r, Rplus_0_l, Rmult_0_r. reflexivity. }
  assert (Q : forall m, 0 + sum_n_m (tder s c t m) 1 (1 + p - 1) = sum_n (tder s c t m) p).
  { intros m. unfold sum_n. rewrite (sum_Sn_m _ 0) by lia. rewrite Z. change plus with Rplus.
    replace (1 + p - 1)%nat with p by lia. reflexivity. }
  unfold tab. simpl co. rewrite !Q. reflexivity.
Qed.

(** ** ts_laplace_d *)
Lemma d_loop_ok s c t l d p : s <> c -> t <> c ->
  holds_to l (P (cosang s c t)) p -> holds_to d (DP (cosang s c t)) p ->
  forall fuel n grad, (n + fuel <= S p)%nat -> (1 <= n + fuel)%nat ->
  d_loop (cosang s c t) (dist s c) (dist t c) (sub s c) (sub t c) l d fuel n
    (dist t c ^ n / dist s c ^ (n + 2)) grad
  = Fin (tab (fun m => co m grad + sum_n_m (sder s c t m) n (n + fuel - 1))).
Proof.
  intros Hs Ht Hl Hd. induction fuel as [|fuel IH]; intros n grad Hp H1.
  - simpl. f_equal. destruct grad. unfold tab. simpl.
    rewrite !sum_n_m_zero by lia. change (@zero R_AbelianGroup) with 0. f_equal; ring.
  - cbn [d_loop]. rewrite (rd_ok _ _ _ _ (Hl n ltac:(lia))), (rd_ok _ _ _ _ (Hd n ltac:(lia))). cbn [fbind].
    replace (dist t c ^ n / dist s c ^ (n + 2) * (dist t c / dist s c))
      with (dist t c ^ S n / dist s c ^ (S n + 2)).
    2:{ apply dist_pos in Hs, Ht. simpl. field. split; try apply pow_nonzero; lra. }
    rewrite IH by lia. f_equal. unfold tab. simpl co.
    replace (S n + fuel - 1)%nat with (n + S fuel - 1)%nat by lia.
    rewrite !(sum_Sn_m _ n) by lia. change plus with Rplus. f_equal; rewrite Rplus_assoc; reflexivity.
Qed.

Lemma ts_laplace_d_ok s c t dipole dipstr p : s <> c -> t <> c -> (p < BUFSIZE)%nat ->
  ts_laplace_d junk s c t dipole dipstr p
  = Fin (dipstr * RtoC (co 0 dipole * sum_n (sder s c t 0) p + co 1 dipole * sum_n (sder s c t 1) p
                        + co 2 dipole * sum_n (sder s c t 2) p))%C.
Proof.
  intros Hs Ht Hp. unfold ts_laplace_d, fdiv.
  destruct (Req_EM_T (dist t c * dist s c) 0) as [E|_].
  { apply dist_pos in Hs, Ht. nra. }
  cbn [fbind]. fold (sub s c) (sub t c).
  change ((co0 (sub t c) * co0 (sub s c) + co1 (sub t c) * co1 (sub s c) + co2 (sub t c) * co2 (sub s c)) / (dist t c * dist s c))
    with (cosang s c t).
  destruct (legendre_buffers_ok junk (cosang s c t) p Hp) as (l & d & E & Hl & Hd). rewrite E. cbn [fbind].
  assert (Ps := dist_pos s c Hs).
  replace (1 / (dist s c * dist s c)) with (dist t c ^ 0 / dist s c ^ (0 + 2)) by (simpl; field; lra).
  rewrite (d_loop_ok s c t l d p Hs Ht Hl Hd (p + 1) 0) by lia. cbn [fbind].
  replace (0 + (p + 1) - 1)%nat with p by lia. unfold tab. simpl co. simpl co0. simpl co1. simpl co2. unfold sum_n.
  rewrite !Rplus_0_l. reflexivity.
Qed.
End Fixed.
