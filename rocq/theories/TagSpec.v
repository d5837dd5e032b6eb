(** What dropping interpolations between equal descriptors means. *)
From Verif Require Import Base DofModel SymModel SymSpec.
Set Implicit Arguments.

(** An expression without its interpolations from a descriptor to the same descriptor. *)
Fixpoint drop_trivial (e : sexpr) : sexpr :=
  let 'Node h cs := e in
  match h, map drop_trivial cs with
  | HInterp f t, [c] => if dd_eqb f t then c else Node h [c]
  | _, cs' => Node h cs'
  end.

(** [s] occurs somewhere in [e]. *)
Definition occurs (e s : sexpr) : Prop := exists p, at_path e p = Some s.

(** Interpolating to where the operand already lives changes nothing. *)
Definition trivial_interpolation_is_identity (V : Type) (I : head -> list V -> V) : Prop :=
  forall d v, I (HInterp d d) [v] = v.

(** Every interpolation has one operand (the model's nodes have lists of operands). *)
Definition arity_ok (e : sexpr) : Prop := forall f t cs, occurs e (Node (HInterp f t) cs) -> exists c, cs = [c].

(** An interpolation from a descriptor to itself is applied directly to another interpolation,
    which is not of this kind. *)
Definition stacked (e : sexpr) : Prop :=
  exists d f t cs, f <> t /\ occurs e (Node (HInterp d d) [Node (HInterp f t) cs]).

(** No interpolation goes from a descriptor to the same descriptor. *)
Definition all_proper (e : sexpr) : Prop := forall f t cs, occurs e (Node (HInterp f t) cs) -> f <> t.
