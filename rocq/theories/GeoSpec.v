(** Specification for the geometry primitives: a world gives the parametrization's
    node coordinates, the numerical reference derivative and the quadrature; [gev]
    is the value of an expression at a node, in exact real arithmetic.  The rest is
    textbook vocabulary for curves in the plane and surfaces in space. *)
From Coq Require Import Reals.
From Verif Require Import Base DofModel GeoModel.
Set Implicit Arguments.
Open Scope R_scope.

Record world := mk_world {
  w_n : dofdesc -> nat;                                   (* number of nodes *)
  w_coord : dofdesc -> nat -> nat -> R;                   (* axis, node *)
  w_der : dofdesc -> list (Z * Z) -> (nat -> R) -> nat -> R;
  w_qw : dofdesc -> nat -> R;
  w_var : string -> nat -> R;                             (* user variables *)
  w_interp : dofdesc -> dofdesc -> (nat -> R) -> nat -> R;
  w_elsum : dofdesc -> (nat -> R) -> nat -> R;
  w_shape : dofdesc -> shape
}.

Fixpoint sumR (n : nat) (f : nat -> R) : R :=
  match n with 0%nat => 0 | S m => sumR m f + f m end.
Fixpoint maxR (n : nat) (f : nat -> R) : R :=
  match n with 0%nat => f 0%nat | S m => Rmax (maxR m f) (f n) end.
Fixpoint minR (n : nat) (f : nat -> R) : R :=
  match n with 0%nat => f 0%nat | S m => Rmin (minR m f) (f n) end.

Definition shape_eqb (a b : shape) : bool :=
  match a, b with Simplex, Simplex | Hypercube, Hypercube | OtherShape, OtherShape => true | _, _ => false end.

Section Ev.
Variable W : world.

Definition omax (a b : option nat) : option nat := match a with Some _ => a | None => b end.
(** Number of entries of the value; None is a scalar. *)
Fixpoint gn (e : ge) : option nat :=
  match e with
  | GQ _ _ | GNodeSum _ | GNodeMax _ | GNodeMin _ | GErr => None
  | GVar _ => None
  | GCoord _ d | GDer _ _ d | GQw d | GOnes d | GElSum _ d => Some (w_n W d)
  | GAdd a b | GSub a b | GMul a b | GDiv a b | GIfShape _ _ a b => omax (gn a) (gn b)
  | GPow a _ | GPow32 a | GSqrt a | GAbs a | GCse _ _ a => gn a
  | GMax l => match l with [] => None | a :: _ => gn a end
  | GInterp _ t _ => Some (w_n W t)
  | GIntl d _ _ => Some (2 * w_n W d)%nat
  end.
Definition glen (e : ge) : nat := match gn e with None => 1%nat | Some n => n end.

(** The value at node [k]. *)
Fixpoint gev (e : ge) (k : nat) : R :=
  match e with
  | GQ n d => IZR n / IZR (Zpos d)
  | GVar s => w_var W s k
  | GCoord a d => w_coord W d a k
  | GDer ax a d => w_der W d ax (gev a) k
  | GQw d => w_qw W d k
  | GOnes _ => 1
  | GAdd a b => gev a k + gev b k
  | GSub a b => gev a k - gev b k
  | GMul a b => gev a k * gev b k
  | GDiv a b => gev a k / gev b k
  | GPow a n => gev a k ^ n
  | GPow32 a => Rpower (gev a k) (3 / 2)
  | GSqrt a => sqrt (gev a k)
  | GAbs a => Rabs (gev a k)
  | GMax l => match map (fun a => gev a k) l with [] => 0 | x :: r => fold_left Rmax r x end
  | GNodeSum a => sumR (glen a) (gev a)
  | GNodeMax a => maxR (glen a - 1) (gev a)
  | GNodeMin a => minR (glen a - 1) (gev a)
  | GElSum a d => w_elsum W d (gev a) k
  | GInterp f t a => w_interp W f t (gev a) k
  | GIntl _ a b => if Nat.even k then gev a (k / 2)%nat else gev b (k / 2)%nat
  | GIfShape s d a b => if shape_eqb s (w_shape W d) then gev a k else gev b k
  | GErr => 0
  | GCse _ _ a => gev a k
  end.

(** Evaluation reaches an [ErrorExpression] (a RuntimeError). *)
Fixpoint graises (e : ge) : bool :=
  match e with
  | GErr => true
  | GIfShape s d a b => if shape_eqb s (w_shape W d) then graises a else graises b
  | GDer _ a _ | GPow a _ | GPow32 a | GSqrt a | GAbs a | GNodeSum a | GNodeMax a | GNodeMin a
  | GElSum a _ | GInterp _ _ a | GCse _ _ a => graises a
  | GAdd a b | GSub a b | GMul a b | GDiv a b | GIntl _ a b => graises a || graises b
  | GMax l => existsb graises l
  | _ => false
  end.

(** The Jacobian of the parametrization: component [a] of the tangent vector
    belonging to reference axis [j], at node [k]. *)
Definition tangent (d : dofdesc) (k j a : nat) : R :=
  w_der W d [(Z.of_nat j, 1%Z)] (w_coord W d a) k.
(** Second derivatives of the parametrization along axes [(i, p)]. *)
Definition second (d : dofdesc) (ax : list (Z * Z)) (k a : nat) : R :=
  w_der W d ax (w_coord W d a) k.
End Ev.

(** Vectors are functions of the component. *)
Definition dot (n : nat) (u v : nat -> R) : R := sumR n (fun a => u a * v a).
Definition vat (W : world) (v : list ge) (k a : nat) : R := gev W (nth a v (gz 0)) k.

(** The Gram matrix of the tangent vectors, textbook [g_ij]. *)
Definition gram (W : world) (adim : nat) (d : dofdesc) (k i j : nat) : R :=
  dot adim (tangent W d k i) (tangent W d k j).
(** Its determinant for one or two tangent vectors. *)
Definition gram_det (W : world) (adim dim : nat) (d : dofdesc) (k : nat) : R :=
  match dim with
  | 1%nat => gram W adim d k 0 0
  | _ => gram W adim d k 0 0 * gram W adim d k 1 1 - gram W adim d k 0 1 * gram W adim d k 1 0
  end.

Definition det2 (u v : nat -> R) : R := u 0%nat * v 1%nat - u 1%nat * v 0%nat.
Definition det3 (u v w : nat -> R) : R :=
  u 0%nat * (v 1%nat * w 2%nat - v 2%nat * w 1%nat)
  - u 1%nat * (v 0%nat * w 2%nat - v 2%nat * w 0%nat)
  + u 2%nat * (v 0%nat * w 1%nat - v 1%nat * w 0%nat).

(** The codimension-one cases: curves in the plane and surfaces in space. *)
Definition hypersurface (adim dim : nat) : Prop := (adim = 2 /\ dim = 1)%nat \/ (adim = 3 /\ dim = 2)%nat.
(** The oriented volume spanned by a vector and the tangents. *)
Definition volume (adim : nat) (W : world) (d : dofdesc) (k : nat) (n : nat -> R) : R :=
  match adim with
  | 2%nat => det2 n (tangent W d k 0)
  | _ => det3 n (tangent W d k 0) (tangent W d k 1)
  end.
(** [dim] is given as [dim] or left out. *)
Definition dim_is (adim : nat) (o : option nat) (dim : nat) : Prop :=
  o = Some dim \/ (o = None /\ dim = (adim - 1)%nat).

(** Second derivatives of the parametrization as the code takes them: for curves
    the first derivative is differentiated again, for surfaces one operator of
    order two is applied. *)
Definition hess (W : world) (adim : nat) (d : dofdesc) (k i j a : nat) : R :=
  match adim with
  | 2%nat => w_der W d [(0, 1)]%Z (fun k' => tangent W d k' 0 a) k
  | _ => second W d (match i, j with 0%nat, 0%nat => [(0, 2)]%Z | 1%nat, 1%nat => [(1, 2)]%Z
                     | _, _ => [(0, 1); (1, 1)]%Z end) k a
  end.
(** [b] is an inverse of the Gram matrix. *)
Definition gram_inverse (W : world) (adim dim : nat) (d : dofdesc) (k : nat) (b : nat -> nat -> R) : Prop :=
  forall i l, (i < dim)%nat -> (l < dim)%nat ->
    sumR dim (fun j => b i j * gram W adim d k j l) = if Nat.eqb i l then 1 else 0.
(** The trace of the second fundamental form over the first, for the unit normal [n]. *)
Definition trace_II (W : world) (adim dim : nat) (d : dofdesc) (k : nat) (b : nat -> nat -> R) (n : nat -> R) : R :=
  sumR dim (fun i => sumR dim (fun j => b i j * dot adim (hess W adim d k i j) n)).

(** Matrices with [n] rows and [m] columns. *)
Definition is_mat (n m : nat) (M : list (list ge)) : Prop :=
  length M = n /\ forall r, In r M -> length r = m.
Definition mat (W : world) (M : list (list ge)) (k i j : nat) : R := gev W (gat M i j) k.

(** [s] is the operator norm of the linear map [A] from R^m to R^n: an upper bound
    for the stretching that some unit vector attains. *)
Definition op_norm (m n : nat) (A : (nat -> R) -> nat -> R) (s : R) : Prop :=
  0 <= s
  /\ (forall v, dot n (A v) (A v) <= s * s * dot m v v)
  /\ exists v, dot m v v = 1 /\ dot n (A v) (A v) = s * s.

(** The affine map's linear part from the equilateral to the bi-unit reference
    simplex (modepy); its columns are half the edge vectors' images. *)
Definition equi (dim : nat) (v : nat -> R) (j : nat) : R :=
  match dim, j with
  | 2%nat, 0%nat => v 0%nat - v 1%nat / sqrt 3
  | 2%nat, 1%nat => 2 / sqrt 3 * v 1%nat
  | _, _ => v j
  end.
(** The Jacobian applied to a vector of the reference space, times the side length
    2 of the reference elements. *)
Definition jac2 (W : world) (dim : nat) (d : dofdesc) (k : nat) (v : nat -> R) (a : nat) : R :=
  2 * sumR dim (fun j => tangent W d k j a * v j).

(** No nontrivial combination of the first [dim] vectors vanishes. *)
Definition independent (adim dim : nat) (T : nat -> nat -> R) : Prop :=
  forall x, (forall a, (a < adim)%nat -> sumR dim (fun l => x l * T l a) = 0) -> forall l, (l < dim)%nat -> x l = 0.
(** [u] is a combination of the vectors [T 0], ..., [T (p-1)]. *)
Definition in_span (adim p : nat) (T : nat -> nat -> R) (u : nat -> R) : Prop :=
  exists c, forall a, (a < adim)%nat -> u a = sumR p (fun l => c l * T l a).
Definition orthonormal (adim dim : nat) (t : nat -> nat -> R) : Prop :=
  forall i j, (i < dim)%nat -> (j < dim)%nat -> dot adim (t i) (t j) = if Nat.eqb i j then 1 else 0.

(** The second fundamental form with respect to a normal [n], and the principal
    curvatures: the generalized eigenvalues of the second form with respect to the
    first. *)
Definition II (W : world) (d : dofdesc) (k : nat) (n : nat -> R) (i j : nat) : R := dot 3 (hess W 3 d k i j) n.
Definition principal (W : world) (d : dofdesc) (k : nat) (n : nat -> R) (x : R) : Prop :=
  (II W d k n 0 0 - x * gram W 3 d k 0 0) * (II W d k n 1 1 - x * gram W 3 d k 1 1)
  - (II W d k n 0 1 - x * gram W 3 d k 0 1) * (II W d k n 1 0 - x * gram W 3 d k 1 0) = 0.

(** [n] is the exterior unit normal: of length one, orthogonal to the tangents, and
    together with them positively oriented. *)
Definition unit_normal (W : world) (adim dim : nat) (d : dofdesc) (k : nat) (n : nat -> R) : Prop :=
  dot adim n n = 1
  /\ (forall j, (j < dim)%nat -> dot adim n (tangent W d k j) = 0)
  /\ 0 < volume adim W d k n.

(** The largest stretch of the reference-to-global map (from the element with sides
    of length 2 and equilateral corners, for simplices). *)
Definition is_stretch (W : world) (adim dim : nat) (d : dofdesc) (k : nat) (s : R) : Prop :=
  match w_shape W d with
  | Simplex => op_norm dim adim (fun v => jac2 W dim d k (equi dim v)) s
  | _ => op_norm dim adim (jac2 W dim d k) s
  end.

(** The corners of the bi-unit reference triangle, and the linear part [P] of the
    affine map that carries corner [i] to corner [s i]. *)
Definition tri_vertex (i c : nat) : R :=
  match i, c with 1%nat, 0%nat => 1 | 2%nat, 1%nat => 1 | _, _ => -1 end.
Definition renumbers (s : nat -> nat) (P : nat -> nat -> R) : Prop :=
  (forall i, (i < 3)%nat -> (s i < 3)%nat)
  /\ (forall i j, (i < 3)%nat -> (j < 3)%nat -> s i = s j -> i = j)
  /\ forall i c, (i < 3)%nat -> (c < 2)%nat ->
       sumR 2 (fun j => P c j * (tri_vertex i j - tri_vertex 0 j)) = tri_vertex (s i) c - tri_vertex (s 0%nat) c.

(** The surface quadrature of a nodal function. *)
Definition quadrature (W : world) (adim dim : nat) (d : dofdesc) (f : nat -> R) : R :=
  sumR (w_n W d) (fun k => sqrt (gram_det W adim dim d k) * w_qw W d k * f k).
