(** Vocabulary for C12. *)
From Verif Require Import Base MullerModel.
From Coq Require Export Field_theory.
Set Implicit Arguments.

(** IEEE: NaN spreads through subtraction and division and compares false. *)
Definition nan_poisons (C M : Type) (o : cops C M) : Prop :=
  forall z, cnan o z = true ->
  mlt o (cabs o z) (m14 o) = false /\
  forall z' t, mlt o (cabs o (cdiv o (csub o z z') z)) t = false.

(** The stopping criterion of the method: relative change below tol, absolute change when the
    new iterate is (almost) zero. *)
Definition close_enough (C M : Type) (o : cops C M) (tol : M) (old new : C) : Prop :=
  (mlt o (cabs o new) (m14 o) = true /\ mlt o (cabs o (csub o new old)) tol = true) \/
  (mlt o (cabs o new) (m14 o) = false /\ mlt o (cabs o (cdiv o (csub o new old) new)) tol = true).

(** A field (for exact arithmetic). *)
Definition is_field (C M : Type) (o : cops C M) : Prop :=
  field_theory (c0 o) (c1 o) (cadd o) (cmul o) (csub o) (copp o) (cdiv o) (fun x => cdiv o (c1 o) x) eq.

(** The product of the distances (z - r). *)
Definition root_product (C M : Type) (o : cops C M) (roots : list C) (z : C) : C :=
  fold_right (fun r acc => cmul o (csub o z r) acc) (c1 o) roots.

(** A quadratic polynomial. *)
Definition quadratic (C M : Type) (o : cops C M) (a b c z : C) : C :=
  cadd o (cadd o (cmul o a (cmul o z z)) (cmul o b z)) c.
