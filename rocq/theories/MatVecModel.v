(** Model of the scipy-like operator, of the evaluation of iterative inverses and of the choice
    of an array context (/repo/pytential/symbolic/execution.py lines 272-293, 474-589, 704-745,
    808-857). *)
From Verif Require Import Base DofModel CollModel.
Set Implicit Arguments.
Open Scope nat_scope.

(** A discretization as far as its arrays are concerned: number of elements and of unit nodes
    of every group. *)
Definition dshape := list (nat * nat).
Definition shape_ndofs (sh : dshape) : nat := fold_right (fun g n => fst g * snd g + n) 0 sh.

Section Op.
Variable R : Type.   (* entries *)
Variable zero : R.

(** Run time values: DOF arrays (one array of elements by unit nodes per group), flat device
    arrays, flat numpy arrays, one-dimensional object arrays, the result record of an iterative
    solver, anything else (such as numbers). *)
Inductive val :=
| VDof (gs : list (list (list R)))
| VFlat (l : list R)
| VHost (l : list R)
| VObj (l : list val)
| VSolver (solution : val)
| VOther.

(** arraycontext.flatten: the entries of nested containers one after the other.  Leaves that are
    not device arrays are refused; scalars are not modelled. *)
Fixpoint flat_entries (v : val) : result (list R) :=
  match v with
  | VDof gs => Ok (concat (concat gs))
  | VFlat l => Ok l
  | VObj l => do xs <- (fix go (l : list val) : result (list (list R)) :=
                          match l with [] => Ok [] | v :: l' => do x <- flat_entries v; do xs <- go l'; Ok (x :: xs) end) l;
              Ok (concat xs)
  | VHost _ | VSolver _ | VOther => Err TypeError
  end.

(** One group: [nel] elements of [nu] entries each, and the rest. *)
Fixpoint take_group (nel nu : nat) (l : list R) : list (list R) * list R :=
  match nel with
  | 0 => ([], l)
  | S n => let (g, r) := take_group n nu (skipn nu l) in (firstn nu l :: g, r)
  end.
Fixpoint take_groups (sh : dshape) (l : list R) : list (list (list R)) * list R :=
  match sh with
  | [] => ([], l)
  | (nel, nu) :: sh' => let (g, r) := take_group nel nu l in
                        let (gs, r') := take_groups sh' r in (g :: gs, r')
  end.
(** arraycontext.unflatten for a DOF array template (strict=False): sizes have to agree. *)
Definition unflatten_dof (sh : dshape) (l : list R) : result val :=
  if length l =? shape_ndofs sh then Ok (VDof (fst (take_groups sh l))) else Err ValueError.

(** Slices of a one-dimensional array, and assignment to one (pyopencl refuses other sizes). *)
Definition slice (A : Type) (l : list A) (a b : nat) : list A := firstn (b - a) (skipn a l).
Definition assign_slice (l : list R) (a b : nat) (x : list R) : result (list R) :=
  if length x =? b - a then Ok (firstn a l ++ x ++ skipn b l) else Err ValueError.

(** execution.py 474-492. [o_discrs]: None for a scalar component. *)
Record matvecop := MVO {
  o_arg : string;
  o_total : nat;
  o_discrs : list (option dshape);
  o_spans : list (nat * nat);
  o_extra : list (string * val) }.
(** 494-496 *)
Definition op_shape (op : matvecop) : nat * nat := (o_total op, o_total op).
(** 498-500 *)
Definition uses_obj_array (op : matvecop) : bool := 1 <? length (o_discrs op).

(** Iteration over a value: an object array's entries, a DOF array's groups; flat arrays yield
    no arrays. *)
Definition iterate (v : val) : result (list val) :=
  match v with
  | VObj l => Ok l
  | VDof gs => Ok (map (fun g => VDof [g]) gs)
  | VHost l => Ok (map (fun _ => VOther) l)
  | VFlat _ | VSolver _ | VOther => Err TypeError
  end.

(** 502-513: zip is strict, so different lengths raise once the shorter one ends. *)
Fixpoint flatten_into (comps : list val) (spans : list (nat * nat)) (res : list R) : result (list R) :=
  match comps, spans with
  | [], [] => Ok res
  | v :: comps', (a, b) :: spans' =>
    do x <- flat_entries v;
    do res' <- assign_slice res a b x;
    flatten_into comps' spans' res'
  | _, _ => Err ValueError
  end.
Definition op_flatten (op : matvecop) (v : val) : result (list R) :=
  do comps <- if uses_obj_array op then iterate v else Ok [v];
  flatten_into comps (o_spans op) (repeat zero (o_total op)).

(** 515-536 *)
Fixpoint unflatten_comps (discrs : list (option dshape)) (spans : list (nat * nat)) (l : list R) : result (list val) :=
  match discrs, spans with
  | [], [] => Ok []
  | d :: discrs', (a, b) :: spans' =>
    do c <- match d with
            | Some sh => unflatten_dof sh (slice l a b)
            | None => Ok (VFlat (slice l a b))
            end;
    do cs <- unflatten_comps discrs' spans' l;
    Ok (c :: cs)
  | _, _ => Err ValueError
  end.
Definition op_unflatten (op : matvecop) (l : list R) : result val :=
  do cs <- unflatten_comps (o_discrs op) (o_spans op) l;
  if uses_obj_array op then Ok (VObj cs)
  else match cs with c :: _ => Ok c | [] => Err IndexError end.

(** 538-569.  [apply]: evaluation of the bound expression in a dictionary of arguments. *)
Definition matvec (apply : list (string * val) -> result val) (op : matvecop) (x : val) : result val :=
  let call v := apply (dset String.eqb (o_extra op) (o_arg op) v) in
  match x with
  | VDof _ | VObj _ => call x
  | VFlat l =>
    if negb (length l =? o_total op) then Err AssertionError else
    do u <- op_unflatten op l;
    do r <- call u;
    do f <- op_flatten op r;
    Ok (VFlat f)
  | VHost l =>
    if negb (length l =? o_total op) then Err AssertionError else
    do u <- op_unflatten op l;
    do r <- call u;
    do f <- op_flatten op r;
    Ok (VHost f)
  | VSolver _ | VOther => Err ValueError
  end.

(** ** scipy_op *)

(** The argument [domains]: None, one value, or a list or tuple. *)
Inductive domains_arg := DomNone | DomOne (x : dd_like) | DomSeq (l : list dd_like).
(** 572-588 *)
Definition prepare_domains (nresults : nat) (d : domains_arg) (default : dofdesc) : result (list dofdesc) :=
  match d with
  | DomNone => do x <- as_dofdesc (LDesc default); Ok (repeat x nresults)
  | DomOne y => do x <- as_dofdesc y; Ok (repeat x nresults)
  | DomSeq l => if length l =? nresults then mapM as_dofdesc l else Err AssertionError
  end.

(** 831-847; the branch for a domain that is None is unreachable, as [_prepare_domains] returns
    descriptors only. *)
Fixpoint layout (get_discr : gid -> option stage -> result dshape) (doms : list dofdesc) (total : nat)
    : result (list (option dshape) * list (nat * nat) * nat) :=
  match doms with
  | [] => Ok ([], [], total)
  | d :: doms' =>
    do sh <- get_discr (geometry d) (discr_stage d);
    let size := shape_ndofs sh in
    do r <- layout get_discr doms' (total + size);
    let '(ds, se, t) := r in
    Ok (Some sh :: ds, (total, total + size) :: se, t)
  end.
(** 808-857.  [result_len]: the length of the result if it is an object array. *)
Definition scipy_op (get_discr : gid -> option stage -> result dshape) (auto_target : dofdesc)
    (result_len : option nat) (arg : string) (domains : domains_arg) (extra : list (string * val)) : result matvecop :=
  let nresults := match result_len with Some n => n | None => 1 end in
  do doms <- prepare_domains nresults domains auto_target;
  do r <- layout get_discr doms 0;
  let '(ds, se, t) := r in
  Ok (MVO arg t ds se extra).

(** 272-293 (map_inverse) without the cache of bound operators.  The third positional argument
    of scipy_op is the dtype, so the expression's descriptor is not used for the domains.
    [gmres]: the solver of linalg/gmres.py on operator and right-hand side. *)
Definition map_inverse (get_discr : gid -> option stage -> result dshape) (auto_target : dofdesc)
    (apply : list (string * val) -> result val) (gmres : (val -> result val) -> val -> result val)
    (result_len : option nat) (variable_name : string) (extra : list (string * val)) (rhs : val) : result val :=
  do op <- scipy_op get_discr auto_target result_len variable_name DomNone extra;
  do sol <- gmres (matvec apply op) rhs;
  Ok (VSolver sol).

End Op.
Arguments VOther {R}.

(** ** Array contexts *)

(** Array contexts: PyOpenCL ones, numbered up to equality, and others. *)
Inductive actx := Pyopencl (n : nat) | OtherContext (n : nat).
Definition actx_eqb (a b : actx) : bool :=
  match a, b with
  | Pyopencl n, Pyopencl m => n =? m
  | OtherContext n, OtherContext m => n =? m
  | _, _ => false
  end.
(** Arguments of an expression: a DOF array with its context (None if frozen), an object array,
    anything else. *)
Inductive aval := ADof (c : option actx) | AObj (l : list aval) | AOther.
(** 719-729 *)
Fixpoint look_for_array_contexts (v : aval) : list actx :=
  match v with
  | ADof (Some c) => [c]
  | ADof None => []
  | AObj l => flat_map look_for_array_contexts l
  | AOther => []
  end.
(** 704-745.  [supplied]: None, a PyOpenCL context or another object. *)
Definition find_array_context (args : list (string * aval)) (supplied : option actx) : result actx :=
  do pre <- match supplied with
            | None => Ok []
            | Some (Pyopencl n) => Ok [Pyopencl n]
            | Some (OtherContext _) => Err TypeError
            end;
  let found := pre ++ flat_map (fun kv => look_for_array_contexts (snd kv)) args in
  match found with
  | [] => Err TypeError
  | c :: cs => if forallb (actx_eqb c) cs
               then match c with Pyopencl _ => Ok c | OtherContext _ => Err TypeError end
               else Err ValueError
  end.
