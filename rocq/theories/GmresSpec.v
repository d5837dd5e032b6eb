(** Vocabulary for the GMRES properties: vector spaces, linear operators and (for the
    last part) real inner products.  Independent of the solver. *)
From Verif Require Import Base GmresModel.
Set Implicit Arguments.

(** The laws of a vector space that the proofs use. *)
Record vspace (V K : Type) (vo : vops V K) := VSpace {
  vzero : V;
  vopp : V -> V;
  add_assoc : forall u v w, vadd vo u (vadd vo v w) = vadd vo (vadd vo u v) w;
  add_comm : forall u v, vadd vo u v = vadd vo v u;
  add_zero : forall u, vadd vo u vzero = u;
  add_opp : forall u, vadd vo u (vopp u) = vzero;
  sub_def : forall u v, vsub vo u v = vadd vo u (vopp v);
  scale_add : forall c u v, vscale vo c (vadd vo u v) = vadd vo (vscale vo c u) (vscale vo c v);
  scale_zero : forall u, vscale vo (kzero vo) u = vzero }.

(** [A] is linear. *)
Definition linear (V K : Type) (vo : vops V K) (A : V -> V) : Prop :=
  (forall u v, A (vadd vo u v) = vadd vo (A u) (A v)) /\
  (forall c u, A (vscale vo c u) = vscale vo c (A u)).

(** The initial guess the documentation promises: a zero array by default. *)
Definition initial_guess (V K : Type) (vo : vops V K) (vs : vspace vo) (x0 : option V) : V :=
  match x0 with Some x => x | None => vzero vs end.

(** What a residual history [h] (oldest first) means for the iteration, read off the
    documentation and error states alone: [None] = go on. *)
Section History.
Variables (N : Type) (no : nops N) (a : gargs N) (norm_b : N).

(** The last residual is small enough. *)
Definition converged (nr : N) : bool :=
  nltb no nr (nmul no (a_tol a) norm_b) || niszero no nr.
(** The residual grew by more than 25 percent in one step. *)
Definition grew (prev nr : N) : bool := nltb no (nmul no (n125 no) prev) nr.
(** The residual did not decrease by the factor [no_progress_factor] against the entry
    [stall_iterations] places from the end of the history (the current one included). *)
Definition no_progress (h : list N) (nr : N) : bool :=
  (0 <? a_stall a) && (a_stall a <? length h) &&
  match nth_error (rev h) (a_stall a - 1) with
  | Some old => nltb no (ndiv no old (a_npf a)) nr
  | None => false
  end.

Definition classify (h : list N) : option gstate :=
  match rev h with
  | [] => None
  | nr :: rest =>
      if converged nr then Some GSuccess else
      match rest with
      | [] => None
      | prev :: _ =>
          if a_mono a && grew prev nr then Some GNonMonotonic
          else if no_progress h nr then Some GStalled else None
      end
  end.

(** The iteration went on after every earlier residual check. *)
Definition went_on (h : list N) : Prop :=
  forall n, n < length h -> classify (firstn n h) = None.
End History.
