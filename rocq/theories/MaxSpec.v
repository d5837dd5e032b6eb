(** Vocabulary for C85, C86: what the expressions of MaxModel.v mean, vector calculus, and
    Maxwell's equations for time-harmonic fields (time dependency exp(-i omega t)). *)
From Verif Require Import Base MatModel PdeModel PdeSpec MaxModel.
Unset Implicit Arguments.
Open Scope string_scope.
Open Scope list_scope.
Open Scope nat_scope.

(** A world: a commutative ring of fields with meanings for everything an expression mentions.
    [m_lp tds l k f]: the derivatives [tds] of the single layer potential of [f] with wave number
    [k], off the surface or as a limit on it. *)
Record mworld := mk_mworld {
  mR :> rops;
  m_var : string -> mR;
  m_num : num -> mR;
  m_sqrt : mR -> mR;
  m_exp : mR -> mR;
  m_node : nat -> mR;
  m_normal : nat -> mR;
  m_basis : nat -> nat -> mR;
  m_lp : list nat -> lim -> mR -> mR -> mR }.

Record mworld_ok (W : mworld) : Prop := {
  mo_ring : ring_theory (r0 W) (r1 W) (radd W) (rmul W) (rsub W) (ropp W) eq;
  mo_int : forall z, m_num W (NInt z) = of_Z W z;
  mo_half : radd W (m_num W (NRat 1 2)) (m_num W (NRat 1 2)) = r1 W;
  mo_i : rmul W (m_num W NI) (m_num W NI) = ropp W (r1 W) }.

Fixpoint mev (W : mworld) (e : mx) : W :=
  match e with
  | MVar x => m_var W x
  | MNum c => m_num W c
  | MAdd a b => radd W (mev W a) (mev W b)
  | MSub a b => rsub W (mev W a) (mev W b)
  | MMul a b => rmul W (mev W a) (mev W b)
  | MDiv a b => rmul W (mev W a) (rinv W (mev W b))
  | MCse a => mev W a
  | MSqrt a => m_sqrt W (mev W a)
  | MExp a => m_exp W (mev W a)
  | MNode i => m_node W i
  | MNormal _ i => m_normal W i
  | MBasis _ j i => m_basis W j i
  | MLp tds l k a => m_lp W tds l (mev W k) (mev W a)
  end.

(** Component [a] of an array of expressions. *)
Definition mat_ (W : mworld) (v : list mx) (a : nat) : W := mev W (nth a v (mint 0)).

Section Calculus.
Variable W : mworld.
Local Notation "x + y" := (radd W x y). Local Notation "x * y" := (rmul W x y).
Local Notation "x - y" := (rsub W x y). Local Notation "- x" := (ropp W x).

Definition vec := nat -> mR W.
Definition veq (u v : vec) : Prop := forall a, (a < 3)%nat -> u a = v a.
Definition vplus (u v : vec) : vec := fun a => u a + v a.
Definition vminus (u v : vec) : vec := fun a => u a - v a.
Definition vmul (c : W) (u : vec) : vec := fun a => c * u a.
Definition vzero : vec := fun _ => r0 W.
Definition dot3 (u v : vec) : W := (u 0%nat * v 0%nat + u 1%nat * v 1%nat) + u 2%nat * v 2%nat.
Definition cross3 (u v : vec) : vec := fun a =>
  match a with
  | 0%nat => u 1%nat * v 2%nat - u 2%nat * v 1%nat
  | 1%nat => u 2%nat * v 0%nat - u 0%nat * v 2%nat
  | _ => u 0%nat * v 1%nat - u 1%nat * v 0%nat
  end.
(** [d m n] is the derivative of component [n] along axis [m]. *)
Definition rot (d : nat -> nat -> W) : vec := fun a =>
  match a with
  | 0%nat => d 1%nat 2%nat - d 2%nat 1%nat
  | 1%nat => d 2%nat 0%nat - d 0%nat 2%nat
  | _ => d 0%nat 1%nat - d 1%nat 0%nat
  end.

Definition im : W := m_num W NI.
Definition nrm : vec := m_normal W.

(** ** In the volume: derivations [D m] of fields, constants, Maxwell's equations. *)
Variable D : nat -> W -> W.
Definition constant (c : W) : Prop := forall m f, D m (c * f) = c * D m f.
Definition curl3 (u : vec) : vec := rot (fun m n => D m (u n)).
Definition div3 (u : vec) : W := (D 0%nat (u 0%nat) + D 1%nat (u 1%nat)) + D 2%nat (u 2%nat).
Definition grad3 (f : W) : vec := fun a => D a f.

Record volume : Prop := {
  vo_add : forall m f g, D m (f + g) = D m f + D m g;
  vo_comm : forall m n f, D m (D n f) = D n (D m f);
  vo_num : forall c, constant (m_num W c) }.
(** The potentials away from the surface: derivatives are derivatives, and the Helmholtz equation. *)
Record helmholtz (k : W) : Prop := {
  he_der : forall m tds f, m_lp W (m :: tds) LNone k f = D m (m_lp W tds LNone k f);
  he_pde : forall f, let u := m_lp W [] LNone k f in
    (D 0%nat (D 0%nat u) + D 1%nat (D 1%nat u)) + D 2%nat (D 2%nat u) = - (k * k * u) }.

(** Time-harmonic Maxwell's equations in a medium. *)
Record maxwell (omega eps mu : W) (E H : vec) : Prop := {
  mx_faraday : veq (curl3 E) (vmul (im * omega * mu) H);
  mx_ampere : veq (curl3 H) (vmul (- (im * omega * eps)) E);
  mx_gauss : div3 E = r0 W;
  mx_nomono : div3 H = r0 W }.

(** ** On the surface: the frame of basis and normal, and the limits of the single layer. *)
Record frame : Prop := {
  fr_unit : dot3 nrm nrm = r1 W;
  fr_orth : forall j, (j < 2)%nat -> dot3 (m_basis W j) nrm = r0 W;
  fr_complete : forall a b, (a < 3)%nat -> (b < 3)%nat ->
    (m_basis W 0 a * m_basis W 0 b + m_basis W 1 a * m_basis W 1 b) + nrm a * nrm b
    = if Nat.eqb a b then r1 W else r0 W }.
(** The single layer is continuous; only the normal derivative jumps, by minus the density. *)
Record jumps (k : W) : Prop := {
  ju_cont : forall s f, (s = 1 \/ s = -1)%Z -> m_lp W [] (LSide s) k f = m_lp W [] LAvg k f;
  ju_grad : forall s a f, (s = 1 \/ s = -1)%Z -> (a < 3)%nat ->
    m_lp W [a] (LSide s) k f = m_lp W [a] LAvg k f - of_Z W s * m_num W (NRat 1 2) * (nrm a * f) }.

(** The tangential vector with components [t] in the basis. *)
Definition tangential (t : nat -> W) : vec := fun a => m_basis W 0 a * t 0%nat + m_basis W 1 a * t 1%nat.
(** Single layer of a vector density, its rotation, and the gradient of the single layer. *)
Definition pot_S (l : lim) (k : W) (J : vec) : vec := fun a => m_lp W [] l k (J a).
Definition pot_rot (l : lim) (k : W) (J : vec) : vec := rot (fun m n => m_lp W [m] l k (J n)).
Definition pot_grad (l : lim) (k : W) (f : W) : vec := fun a => m_lp W [a] l k f.
Definition pot_div (k : W) (J : vec) : W :=
  (m_lp W [0%nat] LNone k (J 0%nat) + m_lp W [1%nat] LNone k (J 1%nat)) + m_lp W [2%nat] LNone k (J 2%nat).

(** The fields of the Mueller representation in a medium (eps, mu) with wave number [k]. *)
Definition mueller_el (omega eps mu k : W) (l : lim) (J M : vec) (rho_e : W) : vec := fun a =>
  (im * omega * mu * eps) * pot_S l k J a + mu * pot_rot l k M a - pot_grad l k rho_e a.
Definition mueller_mag (omega eps mu k : W) (l : lim) (J M : vec) (rho_m : W) : vec := fun a =>
  - (im * omega * mu * eps) * pot_S l k M a + eps * pot_rot l k J a + pot_grad l k rho_m a.
End Calculus.
Arguments mo_ring {W}. Arguments mo_int {W}. Arguments mo_half {W}. Arguments mo_i {W}.
Arguments vo_add {W D}. Arguments vo_comm {W D}. Arguments vo_num {W D}.
Arguments he_der {W D k}. Arguments he_pde {W D k}.
Arguments fr_unit {W}. Arguments fr_orth {W}. Arguments fr_complete {W}.
Arguments ju_cont {W k}. Arguments ju_grad {W k}.
