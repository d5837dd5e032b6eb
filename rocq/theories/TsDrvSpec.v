(** What the target-specific driver has to compute. *)
From Coq Require Import Reals List.
From Coquelicot Require Import Coquelicot.
From Verif Require Import Base TsModel TsSpec TsDrvModel.
Import ListNotations.
Set Implicit Arguments.
Open Scope R_scope.

(** The partial derivative of [f] in coordinate [m] at [p]. *)
Definition cpartial (f : tri R -> C) (m : nat) (p : tri R) : C :=
  (Derive (fun u => fst (f (set_co m u p))) (co m p), Derive (fun u => snd (f (set_co m u p))) (co m p)).
(** Sum of a list of complex numbers. *)
Fixpoint total (l : list C) : C := match l with [] => RtoC 0 | x :: l => (x + total l)%C end.

(** The sources of a list of boxes: the box's range of indices, in order. *)
Definition box_range (a : args) (b : nat) : list nat :=
  seq (nth b (box_source_starts a) 0%nat) (nth b (box_source_counts a) 0%nat).
(** Row [i] of a CSR list. *)
Definition csr_row (starts lists : list nat) (i : nat) : list nat :=
  firstn (nth (S i) starts 0%nat - nth i starts 0%nat) (skipn (nth i starts 0%nat) lists).
(** The sources near a center, and the targets associated with it. *)
Definition sources_near (a : args) (ctr : nat) : list nat :=
  concat (map (box_range a) (csr_row (sb_starts a) (sb_lists a) (nth ctr (qbx_center_to_target_box a) 0%nat))).
Definition targets_of (a : args) (ctr : nat) : list nat := csr_row (ctt_starts a) (ctt_lists a) ctr.

(** Target [tgt] is served by center [ctr]. *)
Definition serves (a : args) (ctr tgt : nat) : Prop := In ctr (qbx_centers a) /\ In tgt (targets_of a ctr).

(** The potential at target [tgt] of the sources near [ctr], for the (expanded) kernel
    [K source target], with all the charges and dipoles that are switched on. *)
Definition potential (a : args) (K : tri R -> tri R -> C) (ctr tgt : nat) : C :=
  let t := pt_at (targets a) tgt in
  total (map (fun src =>
    let s := pt_at (sources a) src in
    ((if ifcharge a then num_at (charge a) src * K s t else RtoC 0)
     + (if ifdipole a
        then num_at (dipstr a) src *
             (RtoC (co 0 (dip_at (dipvec a) src)) * cpartial (fun s => K s t) 0 s
              + RtoC (co 1 (dip_at (dipvec a) src)) * cpartial (fun s => K s t) 1 s
              + RtoC (co 2 (dip_at (dipvec a) src)) * cpartial (fun s => K s t) 2 s)
        else RtoC 0))%C) (sources_near a ctr)).
(** Its gradient at the target, for charges. *)
Definition gradient (a : args) (K : tri R -> tri R -> C) (ctr tgt : nat) : tri C :=
  let t := pt_at (targets a) tgt in
  tab (fun m => total (map (fun src =>
    if ifcharge a then (num_at (charge a) src * cpartial (K (pt_at (sources a) src)) m t)%C else RtoC 0) (sources_near a ctr))).

(** The index arrays stay within their arrays: what the unchecked accesses rely on. *)
Definition indices_ok (a : args) : Prop :=
  forall ctr, In ctr (qbx_centers a) ->
    (ctr < length (centers a))%nat /\
    (S ctr < length (ctt_starts a))%nat /\ (nth (S ctr) (ctt_starts a) 0 <= length (ctt_lists a))%nat /\
    (ctr < length (qbx_center_to_target_box a))%nat /\
    (let b := nth ctr (qbx_center_to_target_box a) 0%nat in
     (S b < length (sb_starts a))%nat /\ (nth (S b) (sb_starts a) 0 <= length (sb_lists a))%nat) /\
    (forall t, In t (targets_of a ctr) -> (t < length (targets a))%nat) /\
    (forall s, In s (sources_near a ctr) -> (s < length (sources a))%nat).
(** No target is served by two centers. *)
Definition one_center (a : args) : Prop :=
  forall c c' t, serves a c t -> serves a c' t -> c = c'.
