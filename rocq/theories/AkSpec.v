(** The contract of the tree's boxes: they are numbered below [nb], the guiding box of a point
    is one of them, and area queries visit only existing boxes. *)
From Coq Require Import QArith Permutation.
From Verif Require Import Base RefineModel RefineSpec AssocModel AssocSpec KrnModel AkModel.
Set Implicit Arguments.
Open Scope nat_scope.

Definition boxes_ok (D : device) (nb : nat) (T : btree) : Prop :=
  (forall x, bt_box_of T x < nb) /\ (forall c r b, In b (dv_visit D T c r) -> b < nb).

(** The refiner's view of trees agrees with the tree builder's: particles are the nodes and
    the centers of the discretization, box lists and visits those of the tree. *)
Definition tree1_of (D : device) (E : RefineModel.env) (tol : Q) (T : btree) (d : discr) : tree :=
  Tree (box_sources (qtree1 T d)) (AssocModel.box_centers (qtree1 T d))
    (fun c => dv_visit D T (e_center E d c) ((1 - tol) * e_radius E d (c / 2))%Q).
Definition tree2_of (D : device) (E : RefineModel.env) (T : btree) (d1 d2 q : discr) : tree :=
  Tree (box_sources (qtree2 T d1 q)) (AssocModel.box_centers (qtree2 T d1 q))
    (fun s => dv_visit D T (e_node E q s) (e_danger E d2 (bsearch (element_to_source_starts q) s))).

(** What the refiner's device checks rely on: distances are those of the device, and the tree
    built from the nodes of [dq] and the centers of [d1] meets the contracts of the tree
    builder and of its queries. *)
Definition device_tree_ok (D : device) (near : pt -> pt -> Q) (nb : btree -> nat) (E : RefineModel.env) (d1 dq : discr) (T : btree) : Prop :=
  let P := particles (nodes E dq) (ctrs E d1) [] in
  tree_ok P T /\ queries_ok D near P T /\ boxes_ok D (nb T) T.
Record device_ok (D : device) (near : pt -> pt -> Q) (E : RefineModel.env) : Prop := {
  do_dist : e_dist E = dv_dist D;
  do_near : forall x y, (near x y <= dv_dist D x y)%Q }.
