(** Complex-valued functions of a real variable; spherical Hankel functions. *)
From Coq Require Import Reals Lra Lia List.
From Coquelicot Require Import Coquelicot.
From Verif Require Import Base TsModel TsSpec TsLeg TsProofs TsProofs2 TsProofs3.
Import ListNotations.
Open Scope R_scope.

Lemma C_eq (a b : C) : fst a = fst b -> snd a = snd b -> a = b.
Proof. destruct a, b. simpl. intros -> ->. reflexivity. Qed.

(** ** cderiv *)
Lemma cderiv_ext f g x d : (forall u, f u = g u) -> cderiv f x d -> cderiv g x d.
Proof.
  intros H [A B]. split; (eapply is_derive_ext; [|eassumption]); intros u; cbv beta; now rewrite H.
Qed.
Lemma cderiv_ext_loc f g x d : locally x (fun u => f u = g u) -> cderiv f x d -> cderiv g x d.
Proof.
  intros H [A B]. split; (eapply is_derive_ext_loc; [|eassumption]);
    (eapply filter_imp; [|exact H]); cbv beta; intros u ->; reflexivity.
Qed.
Lemma cderiv_unique f x d d' : cderiv f x d -> cderiv f x d' -> d = d'.
Proof.
  intros [A B] [A' B']. apply is_derive_unique in A, B, A', B'. apply C_eq; congruence.
Qed.
Lemma cderiv_const a (x : R) : cderiv (fun _ => a) x (RtoC 0).
Proof. split; simpl; auto_derive; auto. Qed.
Lemma cderiv_real (f : R -> R) (x d : R) : is_derive f x d -> cderiv (fun u => RtoC (f u)) x (RtoC d).
Proof. intros H. split; simpl; [exact H | auto_derive; auto]. Qed.

Ltac gen_fun f := let g := fresh "g" in pose (g := f); change f with g in *; clearbody g.

Lemma cderiv_plus f g x a b : cderiv f x a -> cderiv g x b -> cderiv (fun u => (f u + g u)%C) x (a + b)%C.
Proof.
  intros [A B] [A' B']. split; simpl.
  - apply (is_derive_plus (V := R_NormedModule) (fun u => fst (f u)) (fun u => fst (g u))); assumption.
  - apply (is_derive_plus (V := R_NormedModule) (fun u => snd (f u)) (fun u => snd (g u))); assumption.
Qed.
Lemma cderiv_opp f x a : cderiv f x a -> cderiv (fun u => (- f u)%C) x (- a)%C.
Proof.
  intros [A B]. split; simpl.
  - apply (is_derive_opp (V := R_NormedModule) (fun u => fst (f u))); assumption.
  - apply (is_derive_opp (V := R_NormedModule) (fun u => snd (f u))); assumption.
Qed.
Lemma cderiv_minus f g x a b : cderiv f x a -> cderiv g x b -> cderiv (fun u => (f u - g u)%C) x (a - b)%C.
Proof. intros A B. apply cderiv_plus; [exact A | now apply cderiv_opp]. Qed.
Lemma cderiv_mult f g x a b : cderiv f x a -> cderiv g x b ->
  cderiv (fun u => (f u * g u)%C) x (a * g x + f x * b)%C.
Proof.
  intros [A B] [A' B'].
  set (f1 := fun u : R => fst (f u)) in *. set (f2 := fun u : R => snd (f u)) in *.
  set (g1 := fun u : R => fst (g u)) in *. set (g2 := fun u : R => snd (g u)) in *.
  split; unfold Cmult, Cplus; simpl fst; simpl snd.
  - change (is_derive (fun u : R => f1 u * g1 u - f2 u * g2 u) x
      (fst a * g1 x - snd a * g2 x + (f1 x * fst b - f2 x * snd b))).
    clearbody f1 f2 g1 g2. auto_derive; [repeat split; eexists; eassumption|].
    change (fun x0 : R => f1 x0) with f1. change (fun x0 : R => f2 x0) with f2.
    change (fun x0 : R => g1 x0) with g1. change (fun x0 : R => g2 x0) with g2.
    rewrite (is_derive_unique f1 _ _ A), (is_derive_unique f2 _ _ B), (is_derive_unique g1 _ _ A'), (is_derive_unique g2 _ _ B').
    ring.
  - change (is_derive (fun u : R => f1 u * g2 u + f2 u * g1 u) x
      (fst a * g2 x + snd a * g1 x + (f1 x * snd b + f2 x * fst b))).
    clearbody f1 f2 g1 g2. auto_derive; [repeat split; eexists; eassumption|].
    change (fun x0 : R => f1 x0) with f1. change (fun x0 : R => f2 x0) with f2.
    change (fun x0 : R => g1 x0) with g1. change (fun x0 : R => g2 x0) with g2.
    rewrite (is_derive_unique f1 _ _ A), (is_derive_unique f2 _ _ B), (is_derive_unique g1 _ _ A'), (is_derive_unique g2 _ _ B').
    ring.
Qed.
Lemma cderiv_scal k f x a : cderiv f x a -> cderiv (fun u => (k * f u)%C) x (k * a)%C.
Proof.
  intros H. pose proof (cderiv_mult _ _ _ _ _ (cderiv_const k x) H) as M. cbv beta in M.
  replace (k * a)%C with (RtoC 0 * f x + k * a)%C by ring. exact M.
Qed.
Lemma cderiv_eq f x d d' : d = d' -> cderiv f x d -> cderiv f x d'.
Proof. now intros ->. Qed.
Lemma cderiv_cexp g x d : cderiv g x d -> cderiv (fun u => cexp (g u)) x (d * cexp (g x))%C.
Proof.
  intros [A B]. set (g1 := fun u : R => fst (g u)) in *. set (g2 := fun u : R => snd (g u)) in *.
  split; unfold cexp, Cmult; simpl fst; simpl snd.
  - change (is_derive (fun u : R => exp (g1 u) * cos (g2 u)) x
      (fst d * (exp (g1 x) * cos (g2 x)) - snd d * (exp (g1 x) * sin (g2 x)))).
    clearbody g1 g2. auto_derive; [repeat split; eexists; eassumption|].
    change (fun x0 : R => g1 x0) with g1. change (fun x0 : R => g2 x0) with g2.
    rewrite (is_derive_unique g1 _ _ A), (is_derive_unique g2 _ _ B). ring.
  - change (is_derive (fun u : R => exp (g1 u) * sin (g2 u)) x
      (fst d * (exp (g1 x) * sin (g2 x)) + snd d * (exp (g1 x) * cos (g2 x)))).
    clearbody g1 g2. auto_derive; [repeat split; eexists; eassumption|].
    change (fun x0 : R => g1 x0) with g1. change (fun x0 : R => g2 x0) with g2.
    rewrite (is_derive_unique g1 _ _ A), (is_derive_unique g2 _ _ B). ring.
Qed.
Lemma cderiv_comp (f : R -> C) (g : R -> R) (x d : R) e : is_derive g x d -> cderiv f (g x) e ->
  cderiv (fun u => f (g u)) x (RtoC d * e)%C.
Proof.
  intros G [A B]. split; simpl.
  - replace (d * fst e - 0 * snd e) with (scal (V := R_NormedModule) d (fst e)) by (unfold scal; simpl; unfold mult; simpl; ring).
    apply (is_derive_comp (V := R_NormedModule) (fun u => fst (f u)) g); assumption.
  - replace (d * snd e + 0 * fst e) with (scal (V := R_NormedModule) d (snd e)) by (unfold scal; simpl; unfold mult; simpl; ring).
    apply (is_derive_comp (V := R_NormedModule) (fun u => snd (f u)) g); assumption.
Qed.

Lemma c2 : RtoC 2 = (RtoC 1 + RtoC 1)%C. Proof. rewrite <- RtoC_plus. f_equal. Qed.
Lemma c3 : RtoC 3 = (RtoC 1 + RtoC 1 + RtoC 1)%C. Proof. rewrite <- !RtoC_plus. f_equal. ring. Qed.

(** ** Families generated by the three-term recurrence *)
Section Fam.
Variable k : C.
Hypothesis Hk : k <> RtoC 0.
Definition zi (r : R) : C := (/ (k * RtoC r))%C.
Lemma kr_ne r : 0 < r -> (k * RtoC r)%C <> RtoC 0.
Proof. intros Hr. apply Cmult_neq_0; [exact Hk|]. intros E. apply RtoC_inj in E. lra. Qed.
Lemma zi_deriv r : 0 < r -> cderiv zi r (- (k * (zi r * zi r)))%C.
Proof.
  intros Hr. assert (Hc : RtoC r <> RtoC 0) by (intros E; apply RtoC_inj in E; lra).
  assert (D : cderiv (fun u => RtoC (/ u)) r (RtoC (- / (r * r)))).
  { apply (cderiv_real (fun u => / u)). auto_derive; [lra|]. field. lra. }
  apply (cderiv_scal (/ k)%C) in D.
  apply (cderiv_ext_loc (fun u => (/ k * RtoC (/ u))%C)).
  - assert (Hp : 0 < r / 2) by lra. exists (mkposreal _ Hp). intros u Hu.
    unfold ball in Hu; simpl in Hu. unfold AbsRing_ball, abs, minus, plus, opp in Hu; simpl in Hu.
    apply Rabs_def2 in Hu. assert (0 < u) by lra. unfold zi. rewrite RtoC_inv by lra. field. split; [|exact Hk].
    intros E. apply RtoC_inj in E. lra.
  - eapply cderiv_eq; [|exact D]. unfold zi. rewrite RtoC_opp, RtoC_inv, RtoC_mult by nra. field. split; assumption.
Qed.

(** e^(sigma z)/z and its descendants *)
Variable f0 f1 : R -> C.
Hypothesis D0 : forall r, 0 < r -> cderiv f0 r (- (k * f1 r))%C.
Hypothesis D1 : forall r, 0 < r -> cderiv f1 r (k * (f0 r - RtoC 2 * zi r * f1 r))%C.
Fixpoint FF (n : nat) (r : R) : C * C :=
  match n with
  | O => (f0 r, f1 r)
  | S n' => let '(a, b) := FF n' r in (b, (RtoC (2 * INR n' + 3) * zi r * b - a)%C)
  end.
Definition F (n : nat) (r : R) : C := fst (FF n r).
Lemma F_0 r : F 0 r = f0 r. Proof. reflexivity. Qed.
Lemma F_1 r : F 1 r = f1 r. Proof. reflexivity. Qed.
Lemma F_SS n r : F (S (S n)) r = (RtoC (2 * INR n + 3) * zi r * F (S n) r - F n r)%C.
Proof. unfold F. cbn [FF]. destruct (FF n r). reflexivity. Qed.

Lemma F_derivs n : (forall r, 0 < r -> cderiv (F n) r (k * (RtoC (INR n) * zi r * F n r - F (S n) r))%C) /\
  (forall r, 0 < r -> cderiv (F (S n)) r (k * (F n r - RtoC (INR n + 2) * zi r * F (S n) r))%C).
Proof.
  induction n as [|n [IH1 IH2]].
  - split; intros r Hr.
    + eapply cderiv_eq; [|apply (D0 r Hr)]. change (F 1 r) with (f1 r). simpl INR. ring.
    + eapply cderiv_eq; [|apply (D1 r Hr)]. change (F 1 r) with (f1 r). change (F 0 r) with (f0 r). simpl INR. replace (0 + 2) with 2 by ring. reflexivity.
  - split; intros r Hr.
    + eapply cderiv_eq; [|apply (IH2 r Hr)]. rewrite F_SS, S_INR. rewrite !RtoC_plus, RtoC_mult, c3, c2. ring.
    + pose proof (IH1 r Hr) as A. pose proof (IH2 r Hr) as B. pose proof (zi_deriv r Hr) as Z.
      pose proof (cderiv_minus _ _ _ _ _ (cderiv_mult _ _ _ _ _ (cderiv_scal (RtoC (2 * INR n + 3)) _ _ _ Z) B) A) as M.
      cbv beta in M. apply (cderiv_ext _ (F (S (S n)))) in M; [|intros u; now rewrite F_SS].
      eapply cderiv_eq; [|exact M]. rewrite F_SS, S_INR. rewrite !RtoC_plus, RtoC_mult, c3, c2. ring.
Qed.
Lemma F_family : sph_family k F.
Proof.
  intros n r Hr. destruct (F_derivs n) as [A _]. eapply cderiv_eq; [|apply (A r Hr)].
  unfold sph_derivative, zi, Cdiv. ring.
Qed.
End Fam.

(** A family is determined by its first member. *)
Lemma family_unique k (Hk : k <> RtoC 0) f g : sph_family k f -> sph_family k g ->
  (forall r, 0 < r -> f O r = g O r) -> forall n r, 0 < r -> f n r = g n r.
Proof.
  intros Hf Hg H0. induction n as [|n IH]; intros r Hr; [now apply H0|].
  pose proof (Hf n r Hr) as A. pose proof (Hg n r Hr) as B.
  assert (A' : cderiv (f n) r (k * sph_derivative k g n r)%C).
  { apply (cderiv_ext_loc (g n)); [|exact B].
    assert (Hp : 0 < r / 2) by lra. exists (mkposreal _ Hp). intros u Hu.
    unfold ball in Hu; simpl in Hu. unfold AbsRing_ball, abs, minus, plus, opp in Hu; simpl in Hu.
    apply Rabs_def2 in Hu. symmetry. apply IH. lra. }
  pose proof (cderiv_unique _ _ _ _ A A') as E. unfold sph_derivative in E. rewrite (IH r Hr) in E.
  pose proof (kr_ne k Hk r Hr) as Hz.
  assert (E2 : (RtoC (INR n) / (k * RtoC r) * g n r - f (S n) r)%C = (RtoC (INR n) / (k * RtoC r) * g n r - g (S n) r)%C).
  { replace (RtoC (INR n) / (k * RtoC r) * g n r - f (S n) r)%C
      with (/ k * (k * (RtoC (INR n) / (k * RtoC r) * g n r - f (S n) r)))%C
      by (rewrite Cmult_assoc, Cinv_l by exact Hk; ring).
    rewrite E. rewrite Cmult_assoc, Cinv_l by exact Hk. ring. }
  replace (f (S n) r) with (RtoC (INR n) / (k * RtoC r) * g n r - (RtoC (INR n) / (k * RtoC r) * g n r - f (S n) r))%C by ring.
  rewrite E2. ring.
Qed.

(** The two exponential families, sigma = i or -i. *)
Section Exp.
Variable k sg : C.
Hypothesis Hk : k <> RtoC 0.
Hypothesis Hsg : (sg * sg)%C = (- RtoC 1)%C.
Definition e0 (r : R) : C := (cexp (sg * (k * RtoC r)) * zi k r)%C.
Definition e1 (r : R) : C := (e0 r * (zi k r - sg))%C.
Lemma kr_deriv (r : R) : cderiv (fun u => (sg * (k * RtoC u))%C) r (sg * k)%C.
Proof.
  assert (D : cderiv (fun u => RtoC u) r (RtoC 1)).
  { apply (cderiv_real (fun u : R => u)). auto_derive; auto. }
  apply (cderiv_scal k), (cderiv_scal sg) in D. eapply cderiv_eq; [|exact D]. ring.
Qed.
Lemma e0_deriv r : 0 < r -> cderiv e0 r (- (k * e1 r))%C.
Proof.
  intros Hr. pose proof (cderiv_cexp _ _ _ (kr_deriv r)) as E. cbv beta in E.
  pose proof (cderiv_mult _ _ _ _ _ E (zi_deriv k Hk r Hr)) as M. cbv beta in M.
  eapply cderiv_eq; [|exact M]. unfold e1, e0. ring.
Qed.
Lemma e1_deriv r : 0 < r -> cderiv e1 r (k * (e0 r - RtoC 2 * zi k r * e1 r))%C.
Proof.
  intros Hr. pose proof (e0_deriv r Hr) as E.
  pose proof (cderiv_minus _ _ _ _ _ (zi_deriv k Hk r Hr) (cderiv_const sg r)) as Z.
  pose proof (cderiv_mult _ _ _ _ _ E Z) as M. cbv beta in M.
  eapply cderiv_eq; [|exact M]. unfold e1.
  transitivity (k * e0 r * (- (RtoC 2 * zi k r * zi k r) + RtoC 2 * sg * zi k r - sg * sg))%C; rewrite c2; [ring | rewrite Hsg; ring].
Qed.
Definition EF := F k e0 e1.
Lemma EF_family : sph_family k EF.
Proof. apply F_family; [exact Hk | exact e0_deriv | exact e1_deriv]. Qed.
End Exp.
Lemma Ci_sq : (Ci * Ci)%C = (- RtoC 1)%C.
Proof. apply C_eq; simpl; ring. Qed.

Lemma family_scal k f a : sph_family k f -> sph_family k (fun n r => a * f n r)%C.
Proof.
  intros H n r Hr. eapply cderiv_eq; [|apply cderiv_scal, (H n r Hr)]. unfold sph_derivative. ring.
Qed.
Lemma family_minus k f g : sph_family k f -> sph_family k g -> sph_family k (fun n r => f n r - g n r)%C.
Proof.
  intros H H' n r Hr. eapply cderiv_eq; [|apply cderiv_minus; [apply (H n r Hr) | apply (H' n r Hr)]].
  unfold sph_derivative. ring.
Qed.

Lemma Ci_ne : Ci <> RtoC 0.
Proof. intros E. apply (f_equal snd) in E. simpl in E. lra. Qed.

(** Existence. *)
Definition the_hankel (k : C) (n : nat) (r : R) : C := (- Ci * EF k Ci n r)%C.
Lemma hankel_exists k : k <> RtoC 0 -> sph_hankel k (the_hankel k).
Proof.
  intros Hk. split.
  - apply family_scal, EF_family; [exact Hk | apply Ci_sq].
  - intros r Hr. unfold the_hankel, EF. rewrite F_0. unfold e0, zi.
    pose proof (kr_ne k Hk r Hr) as Hz. pose proof Ci_ne.
    assert (E : (- Ci)%C = (/ Ci)%C).
    { transitivity (/ Ci * (- (Ci * Ci)))%C; [field; exact Ci_ne | rewrite Ci_sq; ring]. }
    rewrite E. field. repeat split; auto.
    + intros Er. apply RtoC_inj in Er. lra.
Qed.
Definition the_bessel (k : C) (n : nat) (r : R) : C := (/ (2 * Ci) * (EF k Ci n r - EF k (- Ci) n r))%C.
Lemma bessel_exists k : k <> RtoC 0 -> sph_bessel k (the_bessel k).
Proof.
  intros Hk. assert (Sq : (- Ci * - Ci)%C = (- RtoC 1)%C) by (rewrite <- Ci_sq; ring). split.
  - apply family_scal. apply family_minus; apply EF_family; auto. apply Ci_sq.
  - intros r Hr. unfold the_bessel, EF. rewrite !F_0. unfold e0, zi, csin.
    pose proof (kr_ne k Hk r Hr) as Hz. pose proof Ci_ne.
    replace (- Ci * (k * RtoC r))%C with (- (Ci * (k * RtoC r)))%C by ring.
    field. repeat split; auto; intros Er; apply RtoC_inj in Er; lra.
Qed.
