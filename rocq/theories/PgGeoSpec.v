(** Vocabulary for C70. *)
From Coq Require Import Reals.
From Verif Require Import Base IndexModel PgModel PgSpec PgGeoModel.
Set Implicit Arguments.
Open Scope R_scope.

Definition greatest (l : list R) (m : R) : Prop := In m l /\ forall y, In y l -> y <= m.
Definition least (l : list R) (m : R) : Prop := In m l /\ forall y, In y l -> m <= y.
(** The mean of numbers, and the middle of their range. *)
Definition mean (l : list R) (c : R) : Prop := INR (length l) * c = fold_right Rplus 0 l.
Definition middle (l : list R) (c : R) : Prop := exists hi lo, greatest l hi /\ least l lo /\ hi - c = c - lo.
(** The center of points in [ndim] dimensions, as documented for norm_type. *)
Definition is_center (nt : norm_type) (ndim : nat) (pts : list point) (c : point) : Prop :=
  length c = ndim /\
  forall k, (k < ndim)%nat ->
    match nt with
    | L2 => mean (map (fun p => nth k p 0) pts) (nth k c 0)
    | Linf => middle (map (fun p => nth k p 0) pts) (nth k c 0)
    end.
(** Points of the closed ball. *)
Definition in_ball (c : point) (r : R) (x : point) : Prop := dist c x <= r.
(** Reference points on the unit sphere. *)
Definition on_unit_sphere (ndim : nat) (p : point) : Prop := length p = ndim /\ dist (repeat 0 ndim) p = 1.
(** The [i]-th ball of a result. *)
Record ball_of (i : Z) (res : list point * list R * list R * (list (option point) * indexlist))
    (c : point) (cr r : R) : Prop := {
  bo_c : PgSpec.entry (fst (fst (fst res))) i c;
  bo_cr : PgSpec.entry (snd (fst (fst res))) i cr;
  bo_r : PgSpec.entry (snd (fst res)) i r }.
