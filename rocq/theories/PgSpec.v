(** Vocabulary for C37, C38, C70: what is assumed of boxtree, and what the results mean. *)
From Verif Require Import Base IndexModel PgModel.
From Coq Require Export Permutation.
Set Implicit Arguments.
Open Scope Z_scope.

(** [v] is entry [i] of [l] (no wrapping of negative numbers). *)
Definition entry (A : Type) (l : list A) (i : Z) (v : A) : Prop :=
  0 <= i /\ nth_error l (Z.to_nat i) = Some v.

(** Tree position [k] belongs to box [b]. *)
Definition in_box (P : Type) (t : ptree P) (b k : Z) : Prop :=
  exists s c, entry (box_source_starts t) b s /\ entry (box_source_counts_cumul t) b c /\ s <= k < s + c.
Definition is_leaf (P : Type) (t : ptree P) (b : Z) : Prop := entry (has_child t) b false.

(** A tree of the points [pts]: tree order is a permutation of the user's order; the leaves'
    ranges lie inside the source array, are disjoint and cover it. *)
Record tree_of (P : Type) (pts : list P) (t : ptree P) : Prop := {
  to_perm : Permutation (user_source_ids t) (zrange (zlen pts));
  to_pts : forall k u, entry (user_source_ids t) k u ->
             exists p, entry (tree_sources t) k p /\ entry pts u p;
  to_box : forall b, is_leaf t b -> exists s c, entry (box_source_starts t) b s /\
             entry (box_source_counts_cumul t) b c /\ 0 <= s /\ 0 <= c /\ s + c <= zlen pts;
  to_disjoint : forall b b' k, is_leaf t b -> is_leaf t b' -> in_box t b k -> in_box t b' k -> b = b';
  to_cover : forall k, 0 <= k < zlen pts -> exists b, is_leaf t b /\ in_box t b k }.

(** The slice of the query that lists the leaves of ball [i]. *)
Definition near (q : aquery) (i : Z) (l : list Z) : Prop :=
  exists a b, entry (near_starts q) i a /\ entry (near_starts q) (i + 1) b /\
    0 <= a <= b /\ b <= zlen (near_lists q) /\
    l = firstn (Z.to_nat (b - a)) (skipn (Z.to_nat a) (near_lists q)).

(** An area query that covers the balls: every listed box is a leaf, none twice, and the leaf of
    every point in the ball is listed. *)
Definition covers (P D : Type) (dist : P -> P -> D) (le : D -> D -> Prop) (t : ptree P)
    (centers : list P) (radii : list D) (q : aquery) : Prop :=
  length radii = length centers /\
  forall i c r, entry centers i c -> entry radii i r ->
  exists l, near q i l /\ NoDup l /\ (forall b, In b l -> is_leaf t b) /\
    forall b k p, is_leaf t b -> in_box t b k -> entry (tree_sources t) k p -> le (dist p c) r -> In b l.

(** What is assumed of the floating-point entries of np.linspace(0, n, k + 1) rounded down: they
    start at 0, never decrease and do not exceed n ([exact_point] meets this). *)
Record good_points (point : Z -> Z) (n k : Z) : Prop := {
  gp_zero : point 0 = 0;
  gp_mono : forall i, 0 <= i -> i + 1 < k -> point i <= point (i + 1);
  gp_stop : point (k - 1) <= n }.
