(** What a scipy-like operator has to deliver. *)
From Verif Require Import Base DofModel CollModel MatVecModel.
Set Implicit Arguments.
Open Scope nat_scope.

(** Size of a component: one for a scalar. *)
Definition comp_size (d : option dshape) : nat :=
  match d with None => 1 | Some sh => list_sum (map (fun g => fst g * snd g) sh) end.
Definition sizes_before (ds : list (option dshape)) (i : nat) : nat := list_sum (map comp_size (firstn i ds)).

(** The descriptors the argument [domains] stands for, given [n] result components. *)
Inductive domains_denote (n : nat) (auto : dofdesc) : domains_arg -> list dofdesc -> Prop :=
| DD_none : domains_denote n auto DomNone (repeat auto n)
| DD_one x d : as_dofdesc x = Ok d -> domains_denote n auto (DomOne x) (repeat d n)
| DD_seq l dds : length l = n -> Forall2 (fun x d => as_dofdesc x = Ok d) l dds -> domains_denote n auto (DomSeq l) dds.

Section S.
Variable R : Type.

(** Components occupy consecutive slices that cover everything. *)
Definition op_ok (op : matvecop R) : Prop :=
  o_discrs op <> [] /\ length (o_spans op) = length (o_discrs op) /\ o_total op = sizes_before (o_discrs op) (length (o_discrs op))
  /\ forall i, i < length (o_discrs op) ->
       nth_error (o_spans op) i = Some (sizes_before (o_discrs op) i, sizes_before (o_discrs op) (S i)).

(** A value of the shape of a component, and its entries in order. *)
Definition fits_comp (d : option dshape) (v : val R) (xs : list R) : Prop :=
  match d, v with
  | None, VFlat l => length l = 1 /\ xs = l
  | Some sh, VDof gs => Forall2 (fun s g => length g = fst s /\ Forall (fun e => length e = snd s) g) sh gs
                        /\ xs = concat (concat gs)
  | _, _ => False
  end.
(** A value of the shape of the operator's argument, and its entries by component. *)
Definition fits (op : matvecop R) (v : val R) (xss : list (list R)) : Prop :=
  match o_discrs op, xss with
  | [d], [xs] => fits_comp d v xs
  | [d], _ => False
  | ds, _ => exists l, v = VObj l /\ length l = length ds /\ length xss = length ds
               /\ forall i d c xs, nth_error ds i = Some d -> nth_error l i = Some c -> nth_error xss i = Some xs -> fits_comp d c xs
  end.
End S.
