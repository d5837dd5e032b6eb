(** What target association has to achieve, in terms of points and distances. *)
From Coq Require Import QArith Permutation.
From Verif Require Import Base RefineModel RefineSpec AssocModel.
Set Implicit Arguments.
Open Scope nat_scope.

Definition nth_pt (l : list pt) (i : nat) : pt := nth i l [].

(** The contract of the tree builder for user particles [P]: coordinates are a permutation
    of the particles, with the two index arrays describing it; leaf boxes hold the particles
    lying in them. *)
Record tree_ok (P : list pt) (T : btree) : Prop := {
  to_sorted : forall u, u < length P -> bt_sorted T u < length P /\ bt_user T (bt_sorted T u) = u;
  to_user : forall j, j < length P -> bt_user T j < length P /\ bt_sorted T (bt_user T j) = j;
  to_coords : forall u, u < length P -> bt_coords T (bt_sorted T u) = nth_pt P u;
  to_leaf : forall b j, In j (bt_leaf T b) <-> j < length P /\ bt_box_of T (bt_coords T j) = b }.

(** The contract of the two queries: the search distance of a target's box reaches the
    centers of all balls containing the target, and an area query visits the boxes of all
    particles within its radius (in some norm [near]). *)
Record queries_ok (D : device) (near : pt -> pt -> Q) (P : list pt) (T : btree) : Prop := {
  qo_invader : forall balls x r j, In (x, r) balls -> j < length P ->
     (dv_dist D (bt_coords T j) x <= r)%Q ->
     (near (bt_center T (bt_box_of T (bt_coords T j))) x
       <= dv_invader D T balls (bt_box_of T (bt_coords T j)))%Q;
  qo_visit : forall c r j, j < length P -> (near c (bt_coords T j) <= r)%Q ->
     In (bt_box_of T (bt_coords T j)) (dv_visit D T c r) }.

(** ** The association *)
Section Spec.
Variable dist : pt -> pt -> Q.
Variables sources centers targets : list pt.
Variables tunnel radius : nat -> Q.     (* by source node *)
Variable tol : Q.
Variable flag : nat -> Z.               (* requested side by target *)

(** Target [i] is close to a source. *)
Definition close (i : nat) : Prop :=
  exists s, s < length sources /\ (dist (nth_pt sources s) (nth_pt targets i) <= tunnel s)%Q.
(** Centers of a node alternate: even ones lie on side -1, odd ones on side +1. *)
Definition side_of (c : nat) : Z := if Nat.even c then (-1)%Z else 1%Z.
Definition allowed (i c : nat) : Prop := (0 <= side_of c * flag i)%Z.
Definition reach (c : nat) : Q := (radius (c / 2)%nat * (1 + tol))%Q.
Definition admissible (i c : nat) : Prop :=
  c < length centers /\ allowed i c /\ (dist (nth_pt targets i) (nth_pt centers c) <= reach c)%Q.
Definition rel_dist (i c : nat) : Q := (dist (nth_pt targets i) (nth_pt centers c) / reach c)%Q.
(** [c] has minimal relative distance among the admissible centers of its side. *)
Definition side_best (i c : nat) : Prop :=
  admissible i c /\ forall c', admissible i c' -> side_of c' = side_of c -> (rel_dist i c <= rel_dist i c')%Q.
(** ... and is not farther than the best center of the other side. *)
Definition chosen (i c : nat) : Prop :=
  side_best i c
  /\ ((exists c', admissible i c' /\ side_of c' <> side_of c) ->
      exists c', side_best i c' /\ side_of c' <> side_of c
        /\ (dist (nth_pt targets i) (nth_pt centers c) <= dist (nth_pt targets i) (nth_pt centers c'))%Q).
(** Close, but no center will do. *)
Definition failing (i : nat) : Prop := close i /\ forall c, ~ admissible i c.
End Spec.

(** The side requests, target by target. *)
Definition request_of (targets : list (list pt * sides)) : list Z :=
  flat_map (fun t => match snd t with SOne z => repeat z (length (fst t)) | SArr a => a end) targets.
Definition sides_fit (targets : list (list pt * sides)) : Prop :=
  Forall (fun t => match snd t with SOne _ => True | SArr a => length a = length (fst t) end) targets.
