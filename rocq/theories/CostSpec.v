(** What the cost models are to deliver: costs per target box, center by center. *)
From Coq Require Import QArith.
From Verif Require Import Base RefineModel AssocModel FmmModel MatModel CostModel.
Set Implicit Arguments.
Open Scope nat_scope.

Section Spec.
Variable R : rops.
Variable T : ftree.
Variable V : ftrav.
Variable level : nat -> nat.
Variable nc : nat.
Variable ttc : list Z.

(** The sum of [f x] over the list. *)
Definition lsum (A : Type) (l : list A) (f : A -> R) : R := fold_right (fun x s => radd R (f x) s) (r0 R) l.

(** The user targets that are evaluated from center [c]. *)
Definition served (c : nat) : list nat :=
  filter (fun u => (nth u ttc 0 =? Z.of_nat c)%Z) (seq nc (ft_ntgt T - nc)).
(** The centers in target box number [k] from which at least one target is evaluated. *)
Definition centers_in (k : nat) : list nat :=
  filter (fun c => negb (length (served c) =? 0) && in_box T (nth k (tr_target_boxes V) 0) (nth c (ft_sorted T) 0)) (seq 0 nc).

Definition spec_form (cost : R) (ndirect : list nat) (k : nat) : R :=
  lsum (centers_in k) (fun _ => rmul R (rnat R (nth k ndirect 0)) cost).
Definition spec_m2q (cost : list R) (k : nat) : R :=
  lsum (centers_in k) (fun _ =>
    lsum (seq 0 (length (tr_smaller V))) (fun l =>
      let lev := nth l (tr_smaller V) ([], fun _ => []) in
      lsum (seq 0 (length (fst lev))) (fun m =>
        if nth m (fst lev) 0 =? k then rmul R (rnat R (length (snd lev m))) (rnth R cost l) else r0 R))).
Definition spec_l2q (cost : list R) (k : nat) : R :=
  lsum (centers_in k) (fun _ => rnth R cost (level (nth k (tr_target_boxes V) 0))).
Definition spec_eval (cost : R) (k : nat) : R :=
  lsum (centers_in k) (fun c => rmul R (rnat R (length (served c))) cost).
Definition spec_eval_ts (cost : R) (ndirect : list nat) (k : nat) : R :=
  lsum (centers_in k) (fun c => rmul R (rnat R (length (served c) * nth k ndirect 0)) cost).

(** An array with one entry per target box. *)
Definition per_box (a : list R) (spec : nat -> R) : Prop :=
  length a = length (tr_target_boxes V) /\ forall k, k < length (tr_target_boxes V) -> rnth R a k = spec k.

(** An implementation of the stages that delivers these costs, [ndirect] being the numbers of
    direct sources of the target boxes. *)
Definition backend_ok (B : backend R) : Prop :=
  (forall cost nd, length nd = length (tr_target_boxes V) -> per_box (p_form B cost nd) (spec_form cost nd))
  /\ (forall cost, per_box (p_m2q B cost) (spec_m2q cost))
  /\ (forall cost, per_box (p_l2q B cost) (spec_l2q cost))
  /\ (forall cost, per_box (p_eval B cost) (spec_eval cost))
  /\ (forall cost nd, length nd = length (tr_target_boxes V) -> per_box (p_eval_ts B cost nd) (spec_eval_ts cost nd)).
End Spec.

(** The stage names the QBX part of the model reports. *)
Definition qbx_stages : list string :=
  ["form_global_qbx_locals"; "translate_box_multipoles_to_qbx_local"; "translate_box_local_to_qbx_local";
   "eval_qbx_expansions"; "eval_target_specific_qbx_locals"]%string.
(** The sum of the values of a dictionary, and of an array. *)
Definition dict_total (R : rops) (d : list (string * R)) : R := lsum R d snd.
Definition array_total (R : rops) (a : list R) : R := lsum R a (fun x => x).

(** The measurements relevant for kernels [k]: the (modeled, measured) pairs of all statements
    of all cases whose source kernels are the set [k], in order. *)
Definition same_set (a b : list nat) : Prop := forall x, In x a <-> In x b.
Definition samples (M : Type) (models reals : list (list (cstmt * M))) (k : list nat) : list (option M * M) :=
  flat_map (fun mr =>
      map (fun sr => (match find (fun e => cstmt_eqb (fst sr) (fst e)) (fst mr) with Some e => Some (snd e) | None => None end, snd sr))
        (filter (fun sr => fset_eqb k (cs_source_kernels (fst sr))) (snd mr)))
    (combine models reals).
