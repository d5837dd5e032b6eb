(** Specification vocabulary for what the graph says about the result. *)
From Verif Require Import Base SchedModel CompModel DotModel DotSpec.
Set Implicit Arguments.

(** What statement [a] computes is used, directly or through other statements,
    by statement [b] (or [a] is [b]). *)
Inductive feeds (stmts : list stmt) : nat -> nat -> Prop :=
| feeds_refl : forall a, feeds stmts a a
| feeds_step : forall a b c n d, assigns stmts a n -> reads stmts b d -> dname d = n ->
    feeds stmts b c -> feeds stmts a c.

(** The expression is the variable [n] (a name of the user's or one assigned by the compiler). *)
Definition is_variable (e : expr) (n : string) : Prop := e = Var n \/ e = NIR n.
