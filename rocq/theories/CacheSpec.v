(** Vocabulary of the cache properties. *)
From Verif Require Import Base CacheModel.
Set Implicit Arguments.

Fixpoint free_vars (e : cexpr) : list string :=
  match e with
  | CVar n => [n]
  | Const _ => []
  | COp _ cs => flat_map free_vars cs
  | Cse c _ _ => free_vars c
  end.

(** Long-lived common subexpressions do not depend on the arguments. *)
Fixpoint closed_cses (e : cexpr) : Prop :=
  match e with
  | CVar _ | Const _ => True
  | COp _ cs => (fix all (l : list cexpr) : Prop :=
                   match l with [] => True | x :: l' => closed_cses x /\ all l' end) cs
  | Cse c _ sc => closed_cses c /\ (sc <> ScEval -> free_vars c = [])
  end.

(** All cached entries of [w] are still there, unchanged, in [w']. *)
Definition entries_kept (V : Type) (w w' : world V) : Prop :=
  (forall b k v, In (k, v) (w_e w b) -> In (k, v) (w_e w' b)) /\
  (forall k v, In (k, v) (w_d w) -> In (k, v) (w_d w')).

(** No cache holds two entries for one key (no value was computed twice). *)
Definition one_entry_per_key (V : Type) (w : world V) : Prop :=
  (forall b, NoDup (map fst (w_e w b))) /\ NoDup (map fst (w_d w)).

(** All common subexpressions have scope EVALUATION. *)
Fixpoint only_evaluation_scope (e : cexpr) : Prop :=
  match e with
  | CVar _ | Const _ => True
  | COp _ cs => (fix all (l : list cexpr) : Prop :=
                   match l with [] => True | x :: l' => only_evaluation_scope x /\ all l' end) cs
  | Cse c _ sc => only_evaluation_scope c /\ sc = ScEval
  end.
