(** Lemmas for C85, C86: fields on the surface. *)
From Coq Require Import Ring.
From Verif Require Import Base MatModel PdeModel PdeSpec MaxModel MaxSpec MaxProofs.
Set Implicit Arguments.
Open Scope string_scope.
Open Scope list_scope.
Open Scope nat_scope.

Section P.
Variable W : mworld.
Hypothesis HW : mworld_ok W.
Add Ring WR : (mo_ring HW).
Local Notation "x + y" := (radd W x y). Local Notation "x * y" := (rmul W x y).
Local Notation "x - y" := (rsub W x y). Local Notation "- x" := (ropp W x).
Local Notation half := (m_num W (NRat 1 2)).

Lemma vals_S' l k v J : vals v J -> vals (symSv l k v) (pot_S W l (mev W k) J).
Proof.
  intros [L E]. eapply vals_veq; [apply vals_S; auto|]. intros a Ha. unfold pot_S. rewrite (E a Ha). reflexivity.
Qed.
Lemma curl_lp' l k v J : vals v J -> exists r, curl (symSv l k v) = Ok r /\ vals r (pot_rot W l (mev W k) J).
Proof.
  intros [L E]. destruct (curl_lp HW l k v L) as (r & Er & Vr). exists r. split; [exact Er|].
  eapply vals_veq; [exact Vr|]. intros a Ha. unfold pot_rot, rot.
  rewrite ?(E 0), ?(E 1), ?(E 2) by lia. reflexivity.
Qed.

Lemma mueller_E_vals o d l j m J M rho : vals j J -> vals m M ->
  exists r, mueller_E o d l j m rho = Ok r
  /\ vals r (mueller_el W (mev W (mu_omega o)) (mev W (d_eps d)) (mev W (d_mu d)) (mev W (mueller_k o d)) l J M (mev W rho)).
Proof.
  intros VJ VM. unfold mueller_E.
  destruct (curl_lp' l (mueller_k o d) VM) as (cm & Ecm & Vcm). rewrite Ecm. cbn [bind].
  destruct (grad_lp W l (mueller_k o d) rho) as (g & Eg & Vg). rewrite Eg. cbn [bind].
  destruct (vals_add (vals_scale (MMul (MMul (MMul mi (mu_omega o)) (d_mu d)) (d_eps d)) (vals_S' l (mueller_k o d) VJ))
      (vals_scale (d_mu d) Vcm)) as (s & Es & Vs). rewrite Es. cbn [bind].
  destruct (vals_sub Vs Vg) as (r & Er & Vr). rewrite Er. cbn [bind].
  eexists. split; [reflexivity|]. apply vals_cse. eapply vals_veq; [exact Vr|].
  intros a Ha. reflexivity.
Qed.
Lemma mueller_H_vals o d l j m J M rho : vals j J -> vals m M ->
  exists r, mueller_H o d l j m rho = Ok r
  /\ vals r (mueller_mag W (mev W (mu_omega o)) (mev W (d_eps d)) (mev W (d_mu d)) (mev W (mueller_k o d)) l J M (mev W rho)).
Proof.
  intros VJ VM. unfold mueller_H.
  destruct (curl_lp' l (mueller_k o d) VJ) as (cm & Ecm & Vcm). rewrite Ecm. cbn [bind].
  destruct (grad_lp W l (mueller_k o d) rho) as (g & Eg & Vg). rewrite Eg. cbn [bind].
  destruct (vals_add (vals_scale (MMul (MMul (MMul (MMul (mint (-1)) mi) (mu_omega o)) (d_mu d)) (d_eps d)) (vals_S' l (mueller_k o d) VM))
      (vals_scale (d_eps d) Vcm)) as (s & Es & Vs). rewrite Es. cbn [bind].
  destruct (vals_add Vs Vg) as (r & Er & Vr). rewrite Er. cbn [bind].
  eexists. split; [reflexivity|]. apply vals_cse. eapply vals_veq; [exact Vr|].
  intros a Ha. unfold mueller_mag, mint, mi, im. cbn [mev]. rewrite (mo_int HW). cbn [of_Z of_pos]. ring.
Qed.

Section Frame.
Hypothesis HF : frame W.

Lemma nn_tan (t : nat -> W) a : a < 3 ->
  cross3 W (nrm W) (cross3 W (nrm W) (tangential W t)) a = - tangential W t a.
Proof. intros Ha. apply (double_cross HW HF); auto. apply (nrm_tangential HW HF). Qed.
Lemma nn_self f a : cross3 W (nrm W) (fun i => nrm W i * f) a = r0 W.
Proof. destruct a as [|[|a]]; cbn [cross3]; ring. Qed.
Lemma n_nf f : dot3 W (nrm W) (fun i => nrm W i * f) = f.
Proof.
  transitivity (dot3 W (nrm W) (nrm W) * f); [unfold dot3; ring|]. rewrite (fr_unit HF). ring.
Qed.

(** n x curl S J on the side s. *)
Lemma n_rot_side k s t : jumps W k -> (s = 1 \/ s = -1)%Z -> forall a, a < 3 ->
  cross3 W (nrm W) (pot_rot W (LSide s) k (tangential W t)) a
  = cross3 W (nrm W) (pot_rot W LAvg k (tangential W t)) a + of_Z W s * half * tangential W t a.
Proof.
  intros Jk Hs a Ha.
  rewrite (cross_veq (nrm W) (v := fun i => pot_rot W LAvg k (tangential W t) i
     - of_Z W s * half * cross3 W (nrm W) (tangential W t) i)) by (intros i _; apply (pot_rot_side HW); auto).
  rewrite (cross_sub HW (nrm W) (pot_rot W LAvg k (tangential W t)) (fun i => of_Z W s * half * cross3 W (nrm W) (tangential W t) i)).
  rewrite (cross_mul HW (nrm W) (cross3 W (nrm W) (tangential W t)) (of_Z W s * half)).
  rewrite nn_tan by auto. ring.
Qed.
Lemma ndot_rot_side k s J : jumps W k -> (s = 1 \/ s = -1)%Z ->
  dot3 W (nrm W) (pot_rot W (LSide s) k J) = dot3 W (nrm W) (pot_rot W LAvg k J).
Proof.
  intros Jk Hs. unfold dot3. rewrite !(pot_rot_side HW J Jk Hs). cbn [cross3]. ring.
Qed.
Lemma n_grad_side k s f : jumps W k -> (s = 1 \/ s = -1)%Z -> forall a, a < 3 ->
  cross3 W (nrm W) (pot_grad W (LSide s) k f) a = cross3 W (nrm W) (pot_grad W LAvg k f) a.
Proof.
  intros Jk Hs a Ha.
  destruct (lt3 Ha) as [->|[->| ->]]; cbn [cross3]; rewrite !(pot_grad_side f Jk Hs) by lia; ring.
Qed.
Lemma ndot_grad_side k s f : jumps W k -> (s = 1 \/ s = -1)%Z ->
  dot3 W (nrm W) (pot_grad W (LSide s) k f) = dot3 W (nrm W) (pot_grad W LAvg k f) - of_Z W s * half * f.
Proof.
  intros Jk Hs. unfold dot3. rewrite !(pot_grad_side f Jk Hs) by lia.
  pose proof (fr_unit HF) as U. unfold dot3 in U.
  transitivity (nrm W 0 * pot_grad W LAvg k f 0 + nrm W 1 * pot_grad W LAvg k f 1 + nrm W 2 * pot_grad W LAvg k f 2
     - of_Z W s * half * ((nrm W 0 * nrm W 0 + nrm W 1 * nrm W 1 + nrm W 2 * nrm W 2) * f)); [ring|].
  rewrite U. ring.
Qed.

(** Mueller fields on one side. *)
Variables omega eps mu k : W.
Hypothesis Jk : jumps W k.
Variables tj tm : nat -> W.
Let J := tangential W tj.
Let M := tangential W tm.

Lemma cross_lin3 (n u v w : vec W) c d a :
  cross3 W n (fun i => c * u i + d * v i - w i) a = c * cross3 W n u a + d * cross3 W n v a - cross3 W n w a.
Proof. destruct a as [|[|a]]; cbn [cross3]; ring. Qed.
Lemma cross_lin3p (n u v w : vec W) c d a :
  cross3 W n (fun i => c * u i + d * v i + w i) a = c * cross3 W n u a + d * cross3 W n v a + cross3 W n w a.
Proof. destruct a as [|[|a]]; cbn [cross3]; ring. Qed.
Lemma dot_lin3 (n u v w : vec W) c d :
  dot3 W n (fun i => c * u i + d * v i - w i) = c * dot3 W n u + d * dot3 W n v - dot3 W n w.
Proof. unfold dot3; ring. Qed.
Lemma dot_lin3p (n u v w : vec W) c d :
  dot3 W n (fun i => c * u i + d * v i + w i) = c * dot3 W n u + d * dot3 W n v + dot3 W n w.
Proof. unfold dot3; ring. Qed.

Lemma el_cross s rho : (s = 1 \/ s = -1)%Z -> forall a, a < 3 ->
  cross3 W (nrm W) (mueller_el W omega eps mu k (LSide s) J M rho) a
  = cross3 W (nrm W) (mueller_el W omega eps mu k LAvg J M rho) a + of_Z W s * half * (mu * M a).
Proof.
  intros Hs a Ha. unfold mueller_el. rewrite !cross_lin3.
  rewrite (n_grad_side rho Jk Hs Ha). unfold M at 1. rewrite (n_rot_side tm Jk Hs Ha). fold M.
  assert (Q : forall n, cross3 W n (pot_S W (LSide s) k J) a = cross3 W n (pot_S W LAvg k J) a).
  { intros n. apply cross_veq. intros i _. apply pot_S_side; auto. }
  rewrite Q. ring.
Qed.
Lemma mag_cross s rho : (s = 1 \/ s = -1)%Z -> forall a, a < 3 ->
  cross3 W (nrm W) (mueller_mag W omega eps mu k (LSide s) J M rho) a
  = cross3 W (nrm W) (mueller_mag W omega eps mu k LAvg J M rho) a + of_Z W s * half * (eps * J a).
Proof.
  intros Hs a Ha. unfold mueller_mag. rewrite !cross_lin3p.
  rewrite (n_grad_side rho Jk Hs Ha). unfold J at 1. rewrite (n_rot_side tj Jk Hs Ha). fold J.
  assert (Q : forall n, cross3 W n (pot_S W (LSide s) k M) a = cross3 W n (pot_S W LAvg k M) a).
  { intros n. apply cross_veq. intros i _. apply pot_S_side; auto. }
  rewrite Q. ring.
Qed.
Lemma el_dot s rho : (s = 1 \/ s = -1)%Z ->
  dot3 W (nrm W) (mueller_el W omega eps mu k (LSide s) J M rho)
  = dot3 W (nrm W) (mueller_el W omega eps mu k LAvg J M rho) + of_Z W s * half * rho.
Proof.
  intros Hs. unfold mueller_el. rewrite !dot_lin3.
  rewrite (ndot_grad_side rho Jk Hs), (ndot_rot_side M Jk Hs).
  assert (Q : forall n, dot3 W n (pot_S W (LSide s) k J) = dot3 W n (pot_S W LAvg k J)).
  { intros n. apply dot_veq. intros i _. apply pot_S_side; auto. }
  rewrite Q. ring.
Qed.
Lemma mag_dot s rho : (s = 1 \/ s = -1)%Z ->
  dot3 W (nrm W) (mueller_mag W omega eps mu k (LSide s) J M rho)
  = dot3 W (nrm W) (mueller_mag W omega eps mu k LAvg J M rho) - of_Z W s * half * rho.
Proof.
  intros Hs. unfold mueller_mag. rewrite !dot_lin3p.
  rewrite (ndot_grad_side rho Jk Hs), (ndot_rot_side J Jk Hs).
  assert (Q : forall n, dot3 W n (pot_S W (LSide s) k M) = dot3 W n (pot_S W LAvg k M)).
  { intros n. apply dot_veq. intros i _. apply pot_S_side; auto. }
  rewrite Q. ring.
Qed.
End Frame.

(** Equality of tangential components. *)
Lemma tangential_eq (u v : vec W) : frame W -> dot3 W (nrm W) u = r0 W -> dot3 W (nrm W) v = r0 W ->
  (dot3 W (m_basis W 0) u = dot3 W (m_basis W 0) v /\ dot3 W (m_basis W 1) u = dot3 W (m_basis W 1) v)
  <-> veq W u v.
Proof.
  intros HF Nu Nv. split.
  - intros [A B] a Ha. rewrite (frame_expand HW HF u Ha), (frame_expand HW HF v Ha), A, B, Nu, Nv. reflexivity.
  - intros H. split; apply dot_veq; exact H.
Qed.
End P.
