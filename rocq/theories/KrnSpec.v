(** boxtree's contract for the arrays the device kernels read. *)
From Coq Require Import QArith Permutation.
From Verif Require Import Base RefineModel AssocModel FmmModel FmmSpec FmlModel FmlSpec KrnModel.
Set Implicit Arguments.
Open Scope nat_scope.

(** Array pair [a] describes the particles of box [b]: a range of numbers. *)
Definition describes (a : boxes) (b : nat) (particles : list nat) : Prop :=
  exists s n, nth_error (bx_starts a) b = Some s /\ nth_error (bx_counts a) b = Some n /\ particles = seq s n.
(** In addition to [fmm_ok] and [levels_ok]: sources and targets of the boxes are ranges, list 1
    consists of boxes and sources exist. *)
Record arrays_ok (T : ftree) (V : ftrav) (bs bt : boxes) : Prop := {
  ao_src : forall b, b < ft_nboxes T -> describes bs b (ft_box_src T b);
  ao_tgt : forall b, b < ft_nboxes T -> describes bt b (ft_box_tgt T b);
  ao_src_range : forall b j, b < ft_nboxes T -> In j (ft_box_src T b) -> j < ft_nsrc T;
  ao_near : forall k b, k < length (tr_target_boxes V) -> In b (tr_near V k) -> b < ft_nboxes T }.
