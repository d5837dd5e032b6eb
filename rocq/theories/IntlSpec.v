(** Vocabulary for C41 and C74. *)
From Coq Require Import Permutation.
From Verif Require Import Base DofModel MatModel IntlModel.
Set Implicit Arguments.

(** Every statement instance is executed once, in any order, whatever the memory held. *)
Definition any_order (T : Type) (sched : nat -> sub T -> list stmt * memory T) : Prop :=
  forall g s, Permutation (fst (sched g s)) (domain (nel s) (nunit s)).

(** Two arrays have the shapes and dtypes of [groups], a list of (dtype, elements, unit DOFs). *)
Definition shape_of {T : Type} (s : sub T) : nat * nat * nat := (dtype s, nel s, nunit s).
Definition on (T : Type) (groups : list (nat * nat * nat)) (a : list (sub T)) : Prop := map shape_of a = groups.
Definition elements (groups : list (nat * nat * nat)) : list nat := map (fun g => snd (fst g)) groups.

(** The entries of [z] alternate between those of [x] and [y]. *)
Definition alternates {A : Type} (x y z : list A) : Prop :=
  length z = 2 * length x /\ length y = length x /\
  forall i, i < length x ->
    nth_error z (2 * i) = nth_error x i /\ nth_error z (2 * i + 1) = nth_error y i.
