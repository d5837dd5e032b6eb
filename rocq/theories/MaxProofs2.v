(** Lemmas for C85, C86: fields in the volume. *)
From Coq Require Import Ring.
From Verif Require Import Base MatModel PdeModel PdeSpec MaxModel MaxSpec MaxProofs.
Set Implicit Arguments.
Open Scope string_scope.
Open Scope list_scope.
Open Scope nat_scope.

Section P.
Variable W : mworld.
Hypothesis HW : mworld_ok W.
Add Ring WR : (mo_ring HW).
Local Notation "x + y" := (radd W x y). Local Notation "x * y" := (rmul W x y).
Local Notation "x - y" := (rsub W x y). Local Notation "- x" := (ropp W x).

Lemma firstn3 (a b : list mx) : length a = 3 -> firstn 3 (a ++ b) = a.
Proof. intros L. destruct (len3 _ L) as (x & y & z & ->). reflexivity. Qed.
Lemma skipn3 (a b : list mx) : length a = 3 -> skipn 3 (a ++ b) = b.
Proof. intros L. destruct (len3 _ L) as (x & y & z & ->). reflexivity. Qed.

Variable D : nat -> W -> W.
Hypothesis HV : volume W D.

Lemma maxwell_veq omega eps mu E H E' H' : veq W E E' -> veq W H H' ->
  maxwell W D omega eps mu E' H' -> maxwell W D omega eps mu E H.
Proof.
  intros QE QH [F A G N]. constructor.
  - intros a Ha. rewrite (curl_veq D QE). rewrite (F a Ha). unfold vmul. rewrite (QH a Ha). reflexivity.
  - intros a Ha. rewrite (curl_veq D QH). rewrite (A a Ha). unfold vmul. rewrite (QE a Ha). reflexivity.
  - rewrite (div_veq D QE). exact G.
  - rewrite (div_veq D QH). exact N.
Qed.

Lemma curl_D0 (v : vec W) : veq W v (vzero W) -> forall a, curl3 W D v a = r0 W.
Proof.
  intros H a. rewrite (curl_veq D H). unfold curl3, rot, vzero. rewrite !(D_zero HW HV).
  destruct a as [|[|a]]; ring.
Qed.

(** The dipole. *)
Lemma dipole_maxwell k J : helmholtz W D k -> constant W D k -> let A := curl3 W D (pot_S W LNone k J) in
  maxwell W D k (r1 W) (r1 W) (fun a => (im W * k) * A a) (curl3 W D A).
Proof.
  intros Hk Ck A.
  assert (CK : constant W D (im W * k)) by (apply (const_mul HW); auto; apply (const_im HV)).
  assert (DA : div3 W D A = r0 W) by (unfold A; apply (div_curl HW HV)).
  constructor.
  - intros a Ha. rewrite (curl_mul HW A a CK). unfold vmul. ring.
  - intros a Ha. rewrite (curl_curl HW HV A Ha), DA, (D_zero HW HV). unfold vmul.
    unfold A at 1. rewrite (lap_rot HW HV J a Hk Ck). fold A.
    transitivity ((k * k) * A a); [unfold A; ring|].
    transitivity (- ((im W * im W) * (k * k * A a))); [|ring]. unfold im. rewrite (mo_i HW). ring.
  - rewrite (div_mul HW A CK), DA. ring.
  - apply (div_curl HW HV).
Qed.

(** Charge and current. *)
Lemma pec_maxwell k J rho : helmholtz W D k -> constant W D k ->
  let A := pot_S W LNone k J in let phi := m_lp W [] LNone k rho in
  let E := (fun a => (im W * k) * A a - D a phi) in let H := curl3 W D A in
  veq W (curl3 W D E) (vmul W (im W * k) H) /\ div3 W D H = r0 W
  /\ (div3 W D A = im W * k * phi -> maxwell W D k (r1 W) (r1 W) E H).
Proof.
  intros Hk Ck A phi E H.
  assert (CK : constant W D (im W * k)) by (apply (const_mul HW); auto; apply (const_im HV)).
  assert (F : veq W (curl3 W D E) (vmul W (im W * k) H)).
  { intros a Ha. unfold E. rewrite (curl_sub HW HV (fun i => (im W * k) * A i) (fun i => D i phi)).
    rewrite (curl_mul HW A a CK). change (fun i => D i phi) with (grad3 W D phi).
    rewrite (curl_grad HW HV). unfold vmul, H. ring. }
  assert (N : div3 W D H = r0 W) by apply (div_curl HW HV).
  split; [exact F|]. split; [exact N|]. intros L.
  constructor; auto.
  - intros a Ha. rewrite (F a Ha). unfold vmul. ring.
  - intros a Ha. unfold H. rewrite (curl_curl HW HV A Ha), L, CK. unfold A at 1, pot_S.
    rewrite (lap_S (J a) Hk). unfold vmul, E. change (m_lp W [] LNone k (J a)) with (A a).
    transitivity (- ((im W * im W) * (k * k * A a)) + im W * k * D a phi).
    + unfold im. rewrite (mo_i HW). ring.
    + ring.
  - unfold E. rewrite (div_sub HW HV (fun i => (im W * k) * A i) (fun i => D i phi)).
    rewrite (div_mul HW A CK), L.
    transitivity (im W * k * (im W * k * phi) - lap W D phi); [reflexivity|].
    unfold phi at 2. rewrite (lap_S rho Hk). fold phi.
    transitivity ((im W * im W) * (k * k * phi) + k * k * phi); [ring|]. unfold im. rewrite (mo_i HW). ring.
Qed.

(** Mueller fields, with arbitrary coefficients of the vector potentials. *)
Definition gen_el (c mu k : W) (J M : vec W) (rho : W) : vec W := fun a =>
  c * pot_S W LNone k J a + mu * pot_rot W LNone k M a - pot_grad W LNone k rho a.

Lemma mueller_maxwell omega eps mu k J M rho_e rho_m :
  helmholtz W D k -> constant W D omega -> constant W D eps -> constant W D mu ->
  k * k = omega * omega * eps * mu ->
  pot_div W k J = im W * omega * m_lp W [] LNone k rho_e ->
  pot_div W k M = im W * omega * m_lp W [] LNone k rho_m ->
  maxwell W D omega eps mu (mueller_el W omega eps mu k LNone J M rho_e)
                           (mueller_mag W omega eps mu k LNone J M rho_m).
Proof.
  intros Hk Co Ce Cm K LJ LM.
  rewrite (@pot_div_div W D k J Hk) in LJ. rewrite (@pot_div_div W D k M Hk) in LM.
  set (SJ := pot_S W LNone k J) in *. set (SM := pot_S W LNone k M) in *.
  set (pe := m_lp W [] LNone k rho_e) in *. set (pm := m_lp W [] LNone k rho_m) in *.
  set (c := im W * omega * mu * eps).
  assert (Cio : constant W D (im W * omega)) by (apply (const_mul HW); auto; apply (const_im HV)).
  assert (Cc : constant W D c) by (unfold c; repeat apply (const_mul HW); auto; apply (const_im HV)).
  assert (Cc' : constant W D (- c)) by (apply (const_opp HW HV); auto).
  apply maxwell_veq with
    (E' := fun a => (c * SJ a + mu * curl3 W D SM a) - grad3 W D pe a)
    (H' := fun a => ((- c) * SM a + eps * curl3 W D SJ a) + grad3 W D pm a).
  { intros a Ha. unfold mueller_el. rewrite (pot_rot_curl M a Hk), (pot_grad_grad rho_e a Hk). reflexivity. }
  { intros a Ha. unfold mueller_mag. rewrite (pot_rot_curl J a Hk), (pot_grad_grad rho_m a Hk). reflexivity. }
  assert (I2 : im W * im W = - r1 W) by apply (mo_i HW).
  constructor.
  - intros a Ha.
    rewrite (curl_sub HW HV (fun i => c * SJ i + mu * curl3 W D SM i) (grad3 W D pe)).
    rewrite (curl_add HW HV (fun i => c * SJ i) (fun i => mu * curl3 W D SM i)).
    rewrite (curl_mul HW SJ a Cc), (curl_mul HW (curl3 W D SM) a Cm), (curl_grad HW HV).
    rewrite (curl_curl HW HV SM Ha), LM, Cio.
    unfold SM at 1, pot_S. rewrite (lap_S (M a) Hk), K. change (m_lp W [] LNone k (M a)) with (SM a).
    unfold vmul, c, grad3.
    transitivity (im W * omega * mu * eps * curl3 W D SJ a + mu * (im W * omega * D a pm)
       - (im W * im W) * (mu * (omega * omega * eps * mu * SM a))); [rewrite I2; ring | ring].
  - intros a Ha.
    rewrite (curl_add HW HV (fun i => (- c) * SM i + eps * curl3 W D SJ i) (grad3 W D pm)).
    rewrite (curl_add HW HV (fun i => (- c) * SM i) (fun i => eps * curl3 W D SJ i)).
    rewrite (curl_mul HW SM a Cc'), (curl_mul HW (curl3 W D SJ) a Ce), (curl_grad HW HV).
    rewrite (curl_curl HW HV SJ Ha), LJ, Cio.
    unfold SJ at 1, pot_S. rewrite (lap_S (J a) Hk), K. change (m_lp W [] LNone k (J a)) with (SJ a).
    unfold vmul, c, grad3.
    transitivity ((- (im W * omega * mu * eps)) * curl3 W D SM a + eps * (im W * omega * D a pe)
       - (im W * im W) * (eps * (omega * omega * eps * mu * SJ a))); [rewrite I2; ring | ring].
  - rewrite (div_sub HW HV (fun i => c * SJ i + mu * curl3 W D SM i) (grad3 W D pe)).
    rewrite (div_add HW HV (fun i => c * SJ i) (fun i => mu * curl3 W D SM i)).
    rewrite (div_mul HW SJ Cc), (div_mul HW (curl3 W D SM) Cm), (div_curl HW HV), LJ.
    change (div3 W D (grad3 W D pe)) with (lap W D pe). unfold pe at 2. rewrite (lap_S rho_e Hk), K. fold pe.
    unfold c. transitivity ((im W * im W) * (omega * omega * eps * mu * pe) + omega * omega * eps * mu * pe);
      [ring | rewrite I2; ring].
  - rewrite (div_add HW HV (fun i => (- c) * SM i + eps * curl3 W D SJ i) (grad3 W D pm)).
    rewrite (div_add HW HV (fun i => (- c) * SM i) (fun i => eps * curl3 W D SJ i)).
    rewrite (div_mul HW SM Cc'), (div_mul HW (curl3 W D SJ) Ce), (div_curl HW HV), LM.
    change (div3 W D (grad3 W D pm)) with (lap W D pm). unfold pm at 2. rewrite (lap_S rho_m Hk), K. fold pm.
    unfold c. transitivity (- ((im W * im W) * (omega * omega * eps * mu * pm)) - omega * omega * eps * mu * pm);
      [ring | rewrite I2; ring].
Qed.

(** Plane waves: [w] is the exponential, [n] the unit direction, [k] the wave number. *)
Lemma wave_curl (n amp : vec W) k w (E : vec W) :
  (forall m, m < 3 -> D m w = im W * (n m * k) * w) ->
  (forall a, constant W D (amp a)) -> veq W E (fun a => amp a * w) ->
  veq W (curl3 W D E) (fun a => (im W * k) * cross3 W n E a)
  /\ div3 W D E = (im W * k) * dot3 W n E.
Proof.
  intros Hw Ca HE. split.
  - intros a Ha. rewrite (curl_veq D HE), (cross_veq n HE).
    unfold curl3, rot. rewrite !Ca, !Hw by lia.
    destruct (lt3 Ha) as [->|[->| ->]]; cbn [cross3]; ring.
  - rewrite (div_veq D HE), (dot_veq n HE). unfold div3. rewrite !Ca, !Hw by lia. unfold dot3. ring.
Qed.
Lemma double_cross_n (n v : vec W) : dot3 W n n = r1 W -> dot3 W n v = r0 W ->
  veq W (cross3 W n (cross3 W n v)) (fun a => - v a).
Proof.
  intros U N.
  assert (G : forall a, a < 3 -> cross3 W n (cross3 W n v) a = n a * dot3 W n v - dot3 W n n * v a).
  { intros a Ha. destruct (lt3 Ha) as [->|[->| ->]]; cbn [cross3]; unfold dot3; ring. }
  intros a Ha. rewrite G, N, U by auto. ring.
Qed.
End P.
