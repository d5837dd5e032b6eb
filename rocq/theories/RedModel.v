(** Model of the evaluation of pointwise operations, reductions and discretization properties:
    /repo/pytential/symbolic/execution.py:134-141 (min/max), 155-234 (reductions), 236-256
    (ones, coordinates), 268-271 (weights), 346-387 (errors, functions);
    /repo/pytential/symbolic/primitives.py:1640-1653, 1730-1748 (integral, area, mean) and
    /repo/pytential/__init__.py:73-146 (integral, norm).

    Numbers are exact complex numbers together with a flag telling whether their Python/numpy
    type is complex. A DOF array is a list of groups, a group a list of elements, an element
    the list of the values at its nodes. Object arrays appear as values of variables and as the
    result of a whole evaluation; arithmetic on them is not modelled. The area element is a
    leaf here (its expression is modelled in GeoModel.v), common subexpressions and the memoized
    bound operators are transparent (CacheModel.v). *)
From Coq Require Import Reals.
From Coquelicot Require Import Coquelicot.
From Verif Require Import Base DofModel.
Set Implicit Arguments.
Open Scope string_scope. Open Scope list_scope. Open Scope nat_scope.

Notation group := (list (list C)).
Record arr := Arr { cplx : bool; groups : list group }.
Inductive val := VNum (cplx : bool) (c : C) | VArr (a : arr) | VObj (l : list val).

(** A discretization: coordinates of the nodes, quadrature weights and area elements. *)
Record discr := Discr { d_nodes : list arr; d_weights : arr; d_area : arr }.

(** ** numpy *)

(** Elementwise operation along an axis, with broadcasting of axes of length one. *)
Fixpoint zipM {A B D : Type} (f : A -> B -> result D) (l : list A) (m : list B) : result (list D) :=
  match l, m with
  | [], [] => Ok []
  | a :: l', b :: m' => do d <- f a b; do ds <- zipM f l' m'; Ok (d :: ds)
  | _, _ => Err ValueError
  end.
Definition bcast {A B D : Type} (f : A -> B -> result D) (l : list A) (m : list B) : result (list D) :=
  if length l =? length m then zipM f l m
  else match l, m with
       | [a], _ => mapM (f a) m
       | _, [b] => mapM (fun a => f a b) l
       | _, _ => Err ValueError
       end.
(** A binary operation on numbers and DOF arrays; arrays have to have as many groups. *)
Definition vbin (f : C -> C -> C) (a b : val) : result val :=
  match a, b with
  | VNum s x, VNum t y => Ok (VNum (s || t) (f x y))
  | VNum s x, VArr v => Ok (VArr (Arr (s || cplx v) (map (map (map (f x))) (groups v))))
  | VArr u, VNum t y => Ok (VArr (Arr (cplx u || t) (map (map (map (fun x => f x y))) (groups u))))
  | VArr u, VArr v =>
      do g <- zipM (bcast (bcast (fun x y => Ok (f x y)))) (groups u) (groups v);
      Ok (VArr (Arr (cplx u || cplx v) g))
  | VObj _, _ | _, VObj _ => Err TypeError
  end.
(** Elementwise maximum and minimum; ordering is for real numbers. *)
Definition is_real (v : val) : bool :=
  match v with VNum s _ => negb s | VArr u => negb (cplx u) | VObj _ => false end.
Definition on_re (f : R -> R -> R) (x y : C) : C := RtoC (f (fst x) (fst y)).
Definition vminmax (f : R -> R -> R) (a b : val) : result val :=
  if is_real a && is_real b then vbin (on_re f) a b else Err TypeError.

(** ** Expressions *)

Inductive fn := FAbs | FReal | FImag | FConj.
Inductive red := RSum | RMin | RMax.
Inductive ex :=
| XNum (cplx : bool) (c : C)
| XVar (x : string)
| XComp (x : string) (i : nat)             (* subscript *)
| XSum (l : list ex)
| XProd (l : list ex)
| XQuot (a b : ex)
| XPow (a : ex) (k : nat)
| XCall (f : fn) (a : ex)
| XMax (l : list ex)
| XMin (l : list ex)
| XNode (r : red) (a : ex)                 (* NodeSum, NodeMin, NodeMax *)
| XElt (r : red) (a : ex) (dd : dofdesc)   (* ElementwiseSum, ... *)
| XOnes (dd : dofdesc)
| XCoord (axis : nat) (dd : dofdesc)
| XWeight (dd : dofdesc)
| XArea (dd : dofdesc)
| XError.

Definition cpow (c : C) : nat -> C := fix go k := match k with 0 => RtoC 1 | Datatypes.S k => Cmult c (go k) end.
Definition fn_apply (f : fn) (c : C) : C :=
  match f with
  | FAbs => RtoC (Cmod c) | FReal => RtoC (fst c) | FImag => RtoC (snd c) | FConj => Cconj c
  end.
Definition fn_cplx (f : fn) (b : bool) : bool := match f with FConj => b | _ => false end.
Definition vmap (f : C -> C) (g : bool -> bool) (v : val) : result val :=
  match v with
  | VNum s x => Ok (VNum (g s) (f x))
  | VArr u => Ok (VArr (Arr (g (cplx u)) (map (map (map f)) (groups u))))
  | VObj _ => Err TypeError
  end.

(** Reductions of a list of values: sums exist always, extrema for nonempty lists of real
    numbers. *)
Definition csum (l : list C) : C := fold_right Cplus (RtoC 0) l.
Fixpoint rext (f : R -> R -> R) (x : R) (l : list R) : R := match l with [] => x | y :: l' => rext f (f x y) l' end.
Definition reduce (r : red) (cplx : bool) (l : list C) : result C :=
  match r, l with
  | RSum, _ => Ok (csum l)
  | _, [] => Err ValueError
  | RMin, x :: l' => if cplx then Err TypeError else Ok (RtoC (rext Rmin (fst x) (map fst l')))
  | RMax, x :: l' => if cplx then Err TypeError else Ok (RtoC (rext Rmax (fst x) (map fst l')))
  end.
(** execution.py:155-173: the device reduces every group, and then the groups' results. *)
Definition node_reduce (r : red) (v : val) : result val :=
  match v with
  | VArr u =>
      do gs <- mapM (fun g => reduce r (cplx u) (concat g)) (groups u);
      do x <- reduce r (cplx u) gs;
      Ok (VNum (cplx u) x)
  | _ => Err AssertionError
  end.
(** execution.py:175-234: the kernels, element by element ([ndofs] is the width of the row). *)
Definition elt_node_kernel (r : red) (b : bool) (row : list C) : result (list C) :=
  do x <- reduce r b row; Ok (repeat x (length row)).
Definition elt_element_kernel (r : red) (b : bool) (row : list C) : result (list C) :=
  do x <- reduce r b row; Ok [x].
Definition elt_reduce (r : red) (g : gran) (v : val) : result val :=
  match g with
  | CENTER => Err ValueError
  | _ =>
    match v with
    | VArr u =>
        let knl := match g with NODE => elt_node_kernel | _ => elt_element_kernel end in
        do gs <- mapM (mapM (knl r (cplx u))) (groups u);
        Ok (VArr (Arr (cplx u) gs))
    | _ => Err TypeError
    end
  end.

(** Python's max and min of numbers (pymbolic's evaluation of Max and Min). *)
Fixpoint nums (l : list val) : result (list R) :=
  match l with
  | [] => Ok []
  | VNum false x :: l' => do ys <- nums l'; Ok (fst x :: ys)
  | _ => Err TypeError
  end.
Definition is_arr (v : val) : bool := match v with VArr _ => true | _ => false end.
Fixpoint foldM1 (f : val -> val -> result val) (a : val) (l : list val) : result val :=
  match l with [] => Ok a | b :: l' => do c <- f a b; foldM1 f c l' end.
(** execution.py:134-141 *)
Definition map_minmax (f : R -> R -> R) (vs : list val) : result val :=
  if existsb is_arr vs
  then match vs with [] => Err TypeError | v :: vs' => foldM1 (vminmax f) v vs' end
  else do xs <- nums vs;
       match xs with [] => Err ValueError | x :: xs' => Ok (VNum false (RtoC (rext f x xs'))) end.

Section Eval.
(** The discretization of a geometry and stage (CollModel.v); values of the variables. *)
Variable discr_of : option geom -> option stage -> result discr.
Variable ctx : string -> option val.

Fixpoint ev (e : ex) : result val :=
  match e with
  | XNum b c => Ok (VNum b c)
  | XVar x => match ctx x with Some v => Ok v | None => Err UnknownVariable end
  | XComp x i =>
      match ctx x with
      | Some (VObj l) => match nth_error l i with Some v => Ok v | None => Err IndexError end
      | Some _ => Err TypeError
      | None => Err UnknownVariable
      end
  | XSum l => do vs <- mapM ev l; foldM1 (vbin Cplus) (VNum false (RtoC 0)) vs
  | XProd l => do vs <- mapM ev l; foldM1 (vbin Cmult) (VNum false (RtoC 1)) vs
  | XQuot a b => do u <- ev a; do v <- ev b; vbin Cdiv u v
  | XPow a k => do u <- ev a; vmap (fun c => cpow c k) (fun b => b) u
  | XCall f a => do u <- ev a; vmap (fn_apply f) (fn_cplx f) u         (* 375-387 *)
  | XMax l => do vs <- mapM ev l; map_minmax Rmax vs
  | XMin l => do vs <- mapM ev l; map_minmax Rmin vs
  | XNode r a => do u <- ev a; node_reduce r u
  | XElt r a dd => do u <- ev a; elt_reduce r (granularity dd) u
  | XOnes dd =>                                                        (* 245-249 *)
      do d <- discr_of (geometry dd) (discr_stage dd);
      match d_nodes d with
      | [] => Err IndexError
      | u :: _ => Ok (VArr (Arr (cplx u) (map (map (map (fun _ => RtoC 1))) (groups u))))
      end
  | XCoord axis dd =>                                                  (* 251-256 *)
      do d <- discr_of (geometry dd) (discr_stage dd);
      match nth_error (d_nodes d) axis with Some u => Ok (VArr u) | None => Err IndexError end
  | XWeight dd => do d <- discr_of (geometry dd) (discr_stage dd); Ok (VArr (d_weights d))   (* 268-271 *)
  | XArea dd => do d <- discr_of (geometry dd) (discr_stage dd); Ok (VArr (d_area d))
  | XError => Err RuntimeError                                          (* 346-347 *)
  end.
End Eval.

(** ** Integrals and norms *)

(** primitives.py:1640-1653 *)
Definition x_integral (dd : dofdesc) (e : ex) : ex := XNode RSum (XProd [XArea dd; XWeight dd; e]).
(** primitives.py:1730-1739, 1741-1748 *)
Definition x_area (dd : dofdesc) : ex := x_integral dd (XOnes dd).
Definition x_mean (dd : dofdesc) (e : ex) : ex := XQuot (x_integral dd e) (x_area dd).

(** as_dofdesc(None) *)
Definition dd0 : dofdesc := DD None None NODE.
(** Evaluating bind(discr, e) with one variable: every descriptor is resolved to the only discretization. *)
Definition evaluate (d : discr) (name : string) (x : val) (e : ex) : result val :=
  ev (fun _ _ => Ok d) (fun y => if String.eqb y name then Some x else None) e.

(** __init__.py:73-82 *)
Definition integral (d : discr) (x : val) : result val := evaluate d "integrand" x (x_integral dd0 (XVar "integrand")).

(** np.dot of symbolic vectors *)
Definition x_dot (conj_first : list (ex * ex)) : ex := XSum (map (fun p => XProd [XCall FConj (fst p); snd p]) conj_first).
Definition components (name : string) (n : nat) : list ex := map (XComp name) (seq 0 n).
(** 86-96 *)
Definition norm2_integrand (n : option nat) : ex :=
  match n with
  | Some n => let v := components "integrand" n in XCall FReal (x_dot (combine v v))
  | None => XPow (XCall FAbs (XVar "integrand")) 2
  end.
(** [v ** (1/2)]; complex roots are not modelled. *)
Definition vsqrt (v : val) : result val :=
  match v with
  | VNum false x => Ok (VNum false (RtoC (sqrt (fst x))))
  | _ => Err NotImplementedError
  end.

Inductive order := P2 | PInf | POther.
(** 112-146 (multivectors are given as their components). *)
Definition norm (d : discr) (x : val) (p : order) : result val :=
  let num_components := match x with VObj l => Some (length l) | _ => None end in
  match p with
  | P2 => do v <- evaluate d "integrand" x (x_integral dd0 (norm2_integrand num_components)); vsqrt v
  | PInf =>
      match num_components with
      | None => evaluate d "arg" x (XNode RMax (XCall FAbs (XVar "arg")))
      | Some n =>
          do vs <- mapM (fun e => evaluate d "arg" x (XNode RMax (XCall FAbs e))) (components "arg" n);
          do xs <- nums vs;
          match xs with [] => Err ValueError | y :: ys => Ok (VNum false (RtoC (rext Rmax y ys))) end
      end
  | POther => Err ValueError
  end.
