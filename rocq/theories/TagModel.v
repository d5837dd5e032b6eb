(** The constructor of [Interpolation] and the location taggers that call it: SymModel.v lets
    the taggers keep every interpolation; this is what they do exactly.
    /repo/pytential/symbolic/primitives.py, mappers.py, execution.py. *)
From Verif Require Import Base DofModel SymModel.
Set Implicit Arguments.

(** primitives.py 1469-1489 ([Interpolation.__new__]) and the dataclass [__init__] that Python
    calls with the same arguments if (and only if) [__new__] returned an instance of the class:
    if the descriptors are equal, [__new__] returns the operand; when that operand is itself an
    [Interpolation], [__init__] then overwrites its fields, and it becomes its own operand.
    Every mapper that visits this object recurses without end (RecursionError: [OutOfFuel]), so
    the model raises here.  The deprecated array operands are left out: the taggers pass
    arithmetic operands only ([rec_arith]). *)
Definition new_interpolation (f t : dofdesc) (e : sexpr) : result sexpr :=
  if dd_eqb f t then
    match e with Node (HInterp _ _) _ => Err OutOfFuel | _ => Ok e end
  else Ok (Node (HInterp f t) [e]).

(** mappers.py 391-529: a node whose children have been tagged. *)
Definition tag_node (ds dt : dofdesc) (h : head) (cs : list sexpr) : result sexpr :=
  match tag_head ds dt h, cs with
  | HInterp f t, [c] => new_interpolation f t c
  | h', _ => Ok (Node h' cs)
  end.

(** mappers.py 391-529 ([LocationTagger]). *)
Fixpoint loc_tag_exact (ds dt : dofdesc) (e : sexpr) : result sexpr :=
  let 'Node h cs := e in
  do cs' <- mapM (loc_tag_exact ds dt) cs; tag_node ds dt h cs'.

(** mappers.py 532-557 ([ToTargetTagger]). *)
Fixpoint to_target_tag_exact (ds dt : dofdesc) (e : sexpr) : result sexpr :=
  match e with
  | Node (HIntG g) cs =>
      do cs' <- mapM (loc_tag_exact ds ds) cs; tag_node ds dt (HIntG g) cs'
  | Node h cs => do cs' <- mapM (to_target_tag_exact ds dt) cs; tag_node ds dt h cs'
  end.

(** execution.py 626-663 ([_prepare_expr]), with the exact tagger. *)
Definition prepare_expr_exact (ps : places) (ds dt : dofdesc) (e : sexpr) : result sexpr :=
  do e1 <- to_target_tag_exact ds dt e;
  do e2 <- preprocess_all ps e1;
  interp ps STAGE2 e2.
