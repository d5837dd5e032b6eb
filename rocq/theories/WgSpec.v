(** Vocabulary for C125-C128: what the expressions of WgModel.v mean, and guided modes of an
    infinite waveguide: fields with the dependency exp(i ne z - i t) on z and time, in units in
    which the wave number of the vacuum is one. *)
From Verif Require Import Base MatModel PdeModel PdeSpec WgModel.
Unset Implicit Arguments.
Open Scope string_scope.
Open Scope list_scope.
Open Scope nat_scope.

(** A world: a commutative ring of fields with meanings for everything an expression mentions.
    [w_lp dir tds l k f]: the target derivatives [tds] of the layer potential of [f] with wave
    number [k] (single layer, or with a source derivative in the direction [dir]), off the
    curve ([LNone]) or as a limit on it. *)
Record wworld := mk_wworld {
  wR :> rops;
  w_var : string -> wR;
  w_unk : string -> nat -> wR;
  w_num : num -> wR;
  w_half : wR -> wR;
  w_ifneg : wR -> wR -> wR -> wR;
  w_tan : dofd -> nat -> wR;
  w_nor : dofd -> nat -> wR;
  w_jac : nat -> wR;
  w_sqw : nat -> wR;
  w_lp : option (wR * wR) -> list nat -> lim -> wR -> wR -> wR }.

Record wworld_ok (W : wworld) : Prop := {
  wo_ring : ring_theory (r0 W) (r1 W) (radd W) (rmul W) (rsub W) (ropp W) eq;
  wo_int : forall z, w_num W (NInt z) = of_Z W z;
  wo_half : radd W (w_num W (NRat 1 2)) (w_num W (NRat 1 2)) = r1 W;
  wo_two : rmul W (of_Z W 2) (rinv W (of_Z W 2)) = r1 W;
  wo_i : rmul W (w_num W NI) (w_num W NI) = ropp W (r1 W);
  wo_root : forall x, rmul W (w_half W x) (w_half W x) = x;
  wo_if : forall c a b, w_ifneg W c a b = a \/ w_ifneg W c a b = b }.

Fixpoint wev (W : wworld) (e : wx) : W :=
  match e with
  | WVar x => w_var W x
  | WUnk x i => w_unk W x i
  | WNum c => w_num W c
  | WAdd a b => radd W (wev W a) (wev W b)
  | WSub a b => rsub W (wev W a) (wev W b)
  | WMul a b => rmul W (wev W a) (wev W b)
  | WDiv a b => rmul W (wev W a) (rinv W (wev W b))
  | WNeg a => ropp W (wev W a)
  | WCse a => wev W a
  | WHalfPow a => w_half W (wev W a)
  | WIfImagNeg c a b => w_ifneg W (wev W c) (wev W a) (wev W b)
  | WTan d i => w_tan W d i
  | WNor d i => w_nor W d i
  | WJacW adim => w_jac W adim
  | WSqrtW adim => w_sqw W adim
  | WLp dir tds l k a =>
      w_lp W (match dir with Some (u, v) => Some (wev W u, wev W v) | None => None end) tds l (wev W k) (wev W a)
  end.

(** Entry [i] of an array of expressions. *)
Definition wat (W : wworld) (v : list wx) (i : nat) : W := wev W (nth i v (wint 0)).

Section Modes.
Variable W : wworld.
Local Notation "x + y" := (radd W x y). Local Notation "x * y" := (rmul W x y).
Local Notation "x - y" := (rsub W x y). Local Notation "- x" := (ropp W x).

Definition im : W := w_num W NI.
Definition half : W := w_num W (NRat 1 2).

(** The potentials of the paper, with tangent [t] of the curve and its normal [nrm]. *)
Record curve := mk_curve { c_tan : nat -> W; c_nor : nat -> W }.
(** The normal is the tangent turned clockwise: exterior for a curve run through
    counterclockwise. *)
Definition oriented (c : curve) : Prop :=
  c_nor c 0 = c_tan c 1 /\ c_nor c 1 = - c_tan c 0.

Definition pS (tds : list nat) (l : lim) (K f : W) : W := w_lp W None tds l K f.
Definition pT (c : curve) (tds : list nat) (l : lim) (K f : W) : W :=
  w_lp W (Some (c_tan c 0, c_tan c 1)) tds l K f.
Definition pD (c : curve) (tds : list nat) (l : lim) (K f : W) : W :=
  w_lp W (Some (c_nor c 0, c_nor c 1)) tds l K f.

(** The four densities: electric and magnetic current, tangential to the curve and along z. *)
Record currents := mk_currents { jt : W; jz : W; mt : W; mz : W }.

(** The fields of Lai and Jiang in a domain with refractive index [n], wave number [K]:
    component 0 and 1 (in the plane) and 2 (along z), off the curve or as a limit on it. *)
Definition el (c : curve) (ne n K : W) (l : lim) (u : currents) : nat -> W := fun a =>
  match a with
  | 0 => im * pT c [0] l K (jt u) + ne * pS [0] l K (jz u) - im * (n * n) * pS [] l K (c_tan c 0 * jt u)
         - pS [1] l K (mz u) + im * ne * pS [] l K (c_tan c 1 * mt u)
  | 1 => im * pT c [1] l K (jt u) + ne * pS [1] l K (jz u) - im * (n * n) * pS [] l K (c_tan c 1 * jt u)
         + pS [0] l K (mz u) - im * ne * pS [] l K (c_tan c 0 * mt u)
  | _ => - (ne * pT c [] l K (jt u)) - im * (n * n - ne * ne) * pS [] l K (jz u) + pD c [] l K (mt u)
  end.
Definition mag (c : curve) (ne n K : W) (l : lim) (u : currents) : nat -> W := fun a =>
  match a with
  | 0 => - (im * pT c [0] l K (mt u)) - ne * pS [0] l K (mz u) + im * (n * n) * pS [] l K (c_tan c 0 * mt u)
         - n * n * pS [1] l K (jz u) + im * ne * (n * n) * pS [] l K (c_tan c 1 * jt u)
  | 1 => - (im * pT c [1] l K (mt u)) - ne * pS [1] l K (mz u) + im * (n * n) * pS [] l K (c_tan c 1 * mt u)
         + n * n * pS [0] l K (jz u) - im * ne * (n * n) * pS [] l K (c_tan c 0 * jt u)
  | _ => ne * pT c [] l K (mt u) + im * (n * n - ne * ne) * pS [] l K (mz u) + n * n * pD c [] l K (jt u)
  end.
(** The component along the tangent of the curve. *)
Definition along (c : curve) (u : nat -> W) : W := c_tan c 0 * u 0 + c_tan c 1 * u 1.

(** ** Off the curve: derivations [D 0], [D 1] of fields, constants, Maxwell's equations. *)
Variable D : nat -> W -> W.
Definition constant (k : W) : Prop := forall m f, D m (k * f) = k * D m f.
Record volume : Prop := {
  vo_add : forall m f g, D m (f + g) = D m f + D m g;
  vo_comm : forall m n f, D m (D n f) = D n (D m f);
  vo_i : constant im }.
(** The potentials off the curve: target derivatives are derivatives, the single layer is
    linear and solves the Helmholtz equation, and a source derivative of the kernel is minus its
    target derivative. *)
Record helmholtz (K : W) : Prop := {
  he_der : forall dir m tds f, w_lp W dir (m :: tds) LNone K f = D m (w_lp W dir tds LNone K f);
  he_neg : forall f, pS [] LNone K (- f) = - pS [] LNone K f;
  he_pde : forall f, let u := pS [] LNone K f in D 0 (D 0 u) + D 1 (D 1 u) = - (K * K * u);
  he_src : forall v0 v1 f, w_lp W (Some (v0, v1)) [] LNone K f
    = - (D 0 (pS [] LNone K (v0 * f)) + D 1 (pS [] LNone K (v1 * f))) }.

(** The derivative along z multiplies by [i ne]. *)
Definition D3 (ne : W) (m : nat) (f : W) : W := match m with 2 => im * ne * f | _ => D m f end.
Definition rot3 (ne : W) (u : nat -> W) : nat -> W := fun a =>
  match a with
  | 0 => D3 ne 1 (u 2) - D3 ne 2 (u 1)
  | 1 => D3 ne 2 (u 0) - D3 ne 0 (u 2)
  | _ => D3 ne 0 (u 1) - D3 ne 1 (u 0)
  end.
Definition div3 (ne : W) (u : nat -> W) : W := D3 ne 0 (u 0) + D3 ne 1 (u 1) + D3 ne 2 (u 2).
(** Maxwell's equations for a guided mode in a medium with refractive index [n]. *)
Record maxwell (ne n : W) (E H : nat -> W) : Prop := {
  mx_faraday : forall a, (a < 3)%nat -> rot3 ne E a = im * H a;
  mx_ampere : forall a, (a < 3)%nat -> rot3 ne H a = - (im * (n * n) * E a);
  mx_gauss : div3 ne E = r0 W;
  mx_nomono : div3 ne H = r0 W }.

(** ** On the curve: limits of the potentials, from the side of the normal (1) and the other. *)
Record jumps (c : curve) (K : W) : Prop := {
  ju_S : forall f, pS [] (LSide (-1)) K f = pS [] (LSide 1) K f;
  ju_T : forall f, pT c [] (LSide (-1)) K f = pT c [] (LSide 1) K f;
  ju_St : forall f, along c (fun a => pS [a] (LSide (-1)) K f) = along c (fun a => pS [a] (LSide 1) K f);
  ju_Tt : forall f, along c (fun a => pT c [a] (LSide (-1)) K f) = along c (fun a => pT c [a] (LSide 1) K f);
  ju_D : forall s f, (s = 1 \/ s = -1)%Z -> pD c [] (LSide s) K f = pD c [] LAvg K f + of_Z W s * half * f;
  ju_Sn : forall s f, (s = 1 \/ s = -1)%Z ->
    c_nor c 0 * pS [0] (LSide s) K f + c_nor c 1 * pS [1] (LSide s) K f
    = c_nor c 0 * pS [0] LAvg K f + c_nor c 1 * pS [1] LAvg K f - of_Z W s * half * f;
  ju_neg : forall l f, pS [] l K (- f) = - pS [] l K f }.

(** The expression's curve: the interface [wh], which also is the default geometry. *)
Definition curve_of (wh : nat) : curve := mk_curve (w_tan W (DGeo wh)) (w_nor W (DGeo wh)).
Definition default_geometry (wh : nat) : Prop :=
  forall a, w_tan W DNone a = w_tan W (DGeo wh) a /\ w_nor W DNone a = w_nor W (DGeo wh) a.

(** The difference of a field's limits: outside minus inside. *)
Definition jump (f : lim -> W) (g : lim -> W) : W := f (LSide 1) - g (LSide (-1)).
(** The currents in an array of unknowns: the code's names "jz", "jt", "mz", "mt", in this
    order, hold what its formulas use as jt, jz, mt, mz. *)
Definition currents_of (u : list wx) : currents := mk_currents (wat W u 0) (wat W u 1) (wat W u 2) (wat W u 3).
End Modes.
Arguments jt {W}. Arguments jz {W}. Arguments mt {W}. Arguments mz {W}.
Arguments c_tan {W}. Arguments c_nor {W}.
