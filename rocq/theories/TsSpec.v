(** What the target-specific expansions mean: truncated Taylor expansions of the kernel about
    the expansion center, along the segment from the center to the target. *)
From Coq Require Import Reals List.
From Coquelicot Require Import Coquelicot.
From Verif Require Import Base TsModel.
Set Implicit Arguments.
Open Scope R_scope.

(** Euclidean distance in space. *)
Definition eucl (p q : tri R) : R :=
  sqrt ((co 0 p - co 0 q) ^ 2 + (co 1 p - co 1 q) ^ 2 + (co 2 p - co 2 q) ^ 2).
(** The point c + tau (t - c). *)
Definition on_segment (c t : tri R) (tau : R) : tri R :=
  tab (fun m => co m c + tau * (co m t - co m c)).
(** The expansion of order [p] about [c], evaluated at [t], of [f]: the Taylor polynomial of
    degree [p], at tau = 1, of tau -> f (c + tau (t - c)). *)
Definition qbx_expansion (f : tri R -> R) (p : nat) (c t : tri R) : R :=
  sum_n (fun n => Derive_n (fun tau => f (on_segment c t tau)) n 0 / INR (fact n)) p.
(** The Laplace kernel in three dimensions, without its factor 1/(4 pi). *)
Definition laplace_kernel (s t : tri R) : R := / eucl s t.
(** The potential at [t] of a unit charge at [s], from the expansion of order [p] about [c]. *)
Definition laplace_qbx (p : nat) (c s t : tri R) : R := qbx_expansion (laplace_kernel s) p c t.

(** The point [p] with coordinate [m] replaced by [u]: used for partial derivatives. *)
Definition set_co (m : nat) (u : R) (p : tri R) : tri R :=
  tab (fun i => if Nat.eqb i m then u else co i p).
(** [d] is the partial derivative of [f] in coordinate [m] at [p]. *)
Definition partial_at (f : tri R -> R) (m : nat) (p : tri R) (d : R) : Prop :=
  is_derive (fun u => f (set_co m u p)) (co m p) d.

(** The Legendre polynomial of degree [n]: Taylor coefficient of the generating function. *)
Definition legendre (n : nat) (x : R) : R :=
  Derive_n (fun t => / sqrt (1 - 2 * x * t + t * t)) n 0 / INR (fact n).

(** ** Helmholtz *)

(** [d] is the derivative at [x] of the complex-valued function [f] of a real variable. *)
Definition cderiv (f : R -> C) (x : R) (d : C) : Prop :=
  is_derive (fun u : R => fst (f u)) x (fst d) /\ is_derive (fun u : R => snd (f u)) x (snd d).

(** [f n r] is the n-th member, at z = k r, of a family of spherical Bessel functions:
    f_n'(z) = (n / z) f_n(z) - f_{n+1}(z), so that d/dr f_n(k r) = k f_n'(k r). *)
Definition sph_derivative (k : C) (f : nat -> R -> C) (n : nat) (r : R) : C :=
  (RtoC (INR n) / (k * RtoC r) * f n r - f (S n) r)%C.
Definition sph_family (k : C) (f : nat -> R -> C) : Prop :=
  forall n r, 0 < r -> cderiv (f n) r (k * sph_derivative k f n r)%C.
(** Spherical Hankel functions of the first kind: the family with h_0(z) = e^(iz) / (iz). *)
Definition sph_hankel (k : C) (h : nat -> R -> C) : Prop :=
  sph_family k h /\ forall r, 0 < r -> h O r = (cexp (Ci * (k * RtoC r)) / (Ci * (k * RtoC r)))%C.
(** Spherical Bessel functions of the first kind: the family with j_0(z) = sin(z) / z. *)
Definition csin (z : C) : C := ((cexp (Ci * z) - cexp (- (Ci * z))) / (2 * Ci))%C.
Definition sph_bessel (k : C) (j : nat -> R -> C) : Prop :=
  sph_family k j /\ forall r, 0 < r -> j O r = (csin (k * RtoC r) / (k * RtoC r))%C.

(** What is assumed of jfuns3d_ (helmholtz_utils.c 89-117): for the orders up to [nterms], the
    Bessel functions at z = k r divided by scale^n and, on request, their derivatives divided by
    scale^n. *)
Definition jfuns_contract (k : C) (j : nat -> R -> C) (jfuns : nat -> C -> R -> bool -> option (list C * list C)) : Prop :=
  forall nterms r scale ifder fjs fjder, 0 < r -> 0 < scale ->
  jfuns nterms (k * RtoC r)%C scale ifder = Some (fjs, fjder) ->
  (forall n, (n <= nterms)%nat -> nth_error fjs n = Some (j n r / RtoC (scale ^ n))%C) /\
  (ifder = true -> forall n, (n <= nterms)%nat -> nth_error fjder n = Some (sph_derivative k j n r / RtoC (scale ^ n))%C).

(** The expansion of impl.pyx 471-477 (and 544-550):
    i k sum_{n=0}^{p} (2n+1) j_n(k|t-c|) h_n(k|s-c|) P_n(cos angle(t-c, s-c)). *)
Definition csum (f : nat -> C) (p : nat) : C :=
  (sum_n (fun n => fst (f n)) p, sum_n (fun n => snd (f n)) p).
Definition cos_between (s c t : tri R) : R :=
  ((co 0 t - co 0 c) * (co 0 s - co 0 c) + (co 1 t - co 1 c) * (co 1 s - co 1 c)
   + (co 2 t - co 2 c) * (co 2 s - co 2 c)) / (eucl t c * eucl s c).
Definition helmholtz_qbx (k : C) (j h : nat -> R -> C) (p : nat) (c s t : tri R) : C :=
  (Ci * k * csum (fun n => RtoC (2 * INR n + 1) * j n (eucl t c) * h n (eucl s c)
                          * RtoC (legendre n (cos_between s c t)))%C p)%C.
(** Partial derivatives of complex-valued functions. *)
Definition cpartial_at (f : tri R -> C) (m : nat) (p : tri R) (d : C) : Prop :=
  cderiv (fun u => f (set_co m u p)) (co m p) d.
