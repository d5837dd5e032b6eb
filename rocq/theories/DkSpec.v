(** Specification vocabulary for DkProps.v: results without device-specific encodings. *)
From Verif Require Import Base RefineModel AssocModel FmmModel.
Set Implicit Arguments.
Open Scope list_scope. Open Scope nat_scope.

Definition rmap (A B : Type) (f : A -> B) (r : result A) : result B := match r with Ok x => Ok (f x) | Err e => Err e end.
(** A named result whose entries are all well-formed contributions. *)
Definition with_somes (x : string * list (list contr)) : string * list (list (option contr)) := (fst x, map (map (@Some contr)) (snd x)).
