(** Vocabulary for the construction of layer potentials. *)
From Verif Require Import Base CtorModel.
Set Implicit Arguments.

Definition valid_limit (l : limarg) : Prop :=
  l = LimNone \/ l = LimStr "avg" \/ exists z, l = LimInt z /\ In z [-2; -1; 1; 2]%Z.

Definition one_base_kernel (tk : kernel) (sks : list kernel) : Prop :=
  forall k, In k sks -> k_base k = k_base tk.

(** [n] is an argument of one of the kernels. *)
Definition required (tk : kernel) (sks : list kernel) (n : string) : Prop :=
  exists k, (k = tk \/ In k sks) /\ (In n (k_args k) \/ In n (k_source_args k)).

(** The value an argument gets from pairs of which the last one counts. *)
Fixpoint last_value (D : Type) (l : list (string * D)) (n : string) : option D :=
  match l with
  | [] => None
  | (m, v) :: l' => match last_value l' n with
                    | Some w => Some w
                    | None => if String.eqb m n then Some v else None
                    end
  end.
Definition given (D : Type) (ka : kargs_like D) : list (string * D) :=
  match ka with KNone => [] | KTuple l => l | KMap l => l end.
