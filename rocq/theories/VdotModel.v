(** Model of the default inner product of gmres.
    /repo/pytential/linalg/gmres.py lines 84-108 ([structured_vdot]); used by
    [gmres] unless an inner product is given (lines 382-393, with the array context
    found in the operator, the right-hand side and the initial guess, if any). *)
From Coq Require Import Reals.
From Coquelicot Require Import Complex.
From Verif Require Import Base.
Set Implicit Arguments.

(** The values gmres works with.  A number of some type (its type a number here),
    a numpy array of numbers, an array of the array context (both with their
    entries flattened, in exact arithmetic), a numpy object array, another array
    container (a DOFArray, ...) of some class. *)
Inductive value :=
| VNum (ty : nat) (z : C)
| VHost (zs : list C)
| VDev (zs : list C)
| VObj (es : list value)
| VCont (cls : nat) (es : list value).

(** [type(x)] (line 90): numpy arrays of numbers and of objects have the same type. *)
Inductive pytype := TNum (ty : nat) | TNdarray | TDev | TCont (cls : nat).
Definition type_of (v : value) : pytype :=
  match v with
  | VNum ty _ => TNum ty
  | VHost _ | VObj _ => TNdarray
  | VDev _ => TDev
  | VCont c _ => TCont c
  end.
Definition pytype_eqb (a b : pytype) : bool :=
  match a, b with
  | TNum i, TNum j | TCont i, TCont j => Nat.eqb i j
  | TNdarray, TNdarray | TDev, TDev => true
  | _, _ => false
  end.

(** [numpy.vdot] and its array context counterpart on flattened arrays of the
    same size: conjugates the first argument. *)
Fixpoint vdot_list (xs ys : list C) : result C :=
  match xs, ys with
  | [], [] => Ok (RtoC 0)
  | x :: xs', y :: ys' =>
      do s <- vdot_list xs' ys'; Ok (Cplus (Cmult (Cconj x) y) s)
  | _, _ => Err ValueError
  end.

(** [array_context.np.vdot] (lines 101-103; arraycontext, not in the repository):
    recurses through containers of equal classes and sizes and adds up; what is
    not an array of the array context is refused. *)
Fixpoint actx_vdot (x y : value) {struct x} : result C :=
  match x, y with
  | VDev xs, VDev ys => vdot_list xs ys
  | VObj xs, VObj ys =>
      (fix go (xs ys : list value) : result C :=
         match xs, ys with
         | [], [] => Ok (RtoC 0)
         | x :: xs', y :: ys' =>
             do a <- actx_vdot x y; do s <- go xs' ys'; Ok (Cplus a s)
         | _, _ => Err ValueError
         end) xs ys
  | VCont c xs, VCont d ys =>
      if Nat.eqb c d then
      (fix go (xs ys : list value) : result C :=
         match xs, ys with
         | [], [] => Ok (RtoC 0)
         | x :: xs', y :: ys' =>
             do a <- actx_vdot x y; do s <- go xs' ys'; Ok (Cplus a s)
         | _, _ => Err ValueError
         end) xs ys
      else Err TypeError
  | _, _ => Err TypeError
  end.

Section Vdot.
(** What [numpy.vdot] makes of an array of numbers and an object array (line 97:
    only the first argument's dtype is looked at). *)
Variable mixed : list C -> list value -> result C.

(** gmres.py:84-108; [actx]: whether an array context was given.  Lines 104-106
    (turning a zero-dimensional array into a scalar) change nothing here. *)
Definition structured_vdot (actx : bool) (x y : value) : result C :=
  if negb (pytype_eqb (type_of x) (type_of y)) then Err TypeError
  else
    match x, y with
    | VNum _ a, VNum _ b => Ok (Cmult (Cconj a) b)
    | VHost xs, VHost ys => vdot_list xs ys
    | VHost xs, VObj ys => mixed xs ys
    | _, _ => if negb actx then Err ValueError else actx_vdot x y
    end.
End Vdot.

(** gmres.py:322-344 ([ResidualPrinter()], no inner product given: [structured_vdot]
    with its default [array_context=None]): what a call with a residual makes
    the product of; the printed line is not modelled. *)
Definition residual_printer_product (mixed : list C -> list value -> result C) (resid : value) : result C :=
  structured_vdot mixed false resid resid.

(** The vector arithmetic of the values (operators [+], [-], [*] with a scalar):
    entry by entry.  Defined for values of the same layout. *)
Fixpoint map2 {A B D : Type} (f : A -> B -> D) (l : list A) (l' : list B) : list D :=
  match l, l' with a :: r, b :: r' => f a b :: map2 f r r' | _, _ => [] end.
Fixpoint vmap2 (f : C -> C -> C) (x y : value) {struct x} : value :=
  match x, y with
  | VNum t a, VNum _ b => VNum t (f a b)
  | VHost a, VHost b => VHost (map2 f a b)
  | VDev a, VDev b => VDev (map2 f a b)
  | VObj a, VObj b => VObj ((fix go a b := match a, b with x :: a', y :: b' => vmap2 f x y :: go a' b' | _, _ => [] end) a b)
  | VCont c a, VCont _ b => VCont c ((fix go a b := match a, b with x :: a', y :: b' => vmap2 f x y :: go a' b' | _, _ => [] end) a b)
  | _, _ => x
  end.
