(** Vocabulary for C13, C14, C15. *)
From Verif Require Import Base IndexModel.
From Coq Require Export Permutation Sorted.
Set Implicit Arguments.
Open Scope Z_scope.

(** Prefix sums of sizes: entry i is the sum of the first i sizes. *)
Definition prefix_sums (sizes st : list Z) : Prop :=
  length st = S (length sizes) /\
  forall i, (i <= length sizes)%nat -> nth_error st i = Some (fold_right Z.add 0 (firstn i sizes)).

(** Starts that describe a partition of [0, n). *)
Definition proper_starts (st : list Z) (n : Z) : Prop :=
  nth_error st 0 = Some 0 /\ nth_error st (length st - 1) = Some n /\
  (forall i a b, nth_error st i = Some a -> nth_error st (S i) = Some b -> a <= b).

(** The index list of the given clusters. *)
Definition of_clusters (cs : list (list Z)) (il : indexlist) : Prop :=
  make_index_list cs = Ok il.

(** All (target, source) pairs of a block, row by row. *)
Definition block_pairs (c : list Z * list Z) : list (Z * Z) := list_prod (fst c) (snd c).
(** The block A[targets, sources] as a list of rows. *)
Definition block {A : Type} (x : Z -> Z -> A) (c : list Z * list Z) : list (list A) :=
  map (fun t => map (x t) (snd c)) (fst c).

(** Rows of equally long arrays: row i consists of the i-th entries. *)
Definition are_rows {T : Type} (arys rows : list (list T)) : Prop :=
  (forall a, In a arys -> length a = length rows) /\
  (forall i r, nth_error rows i = Some r -> length r = length arys /\
     forall j a, nth_error arys j = Some a -> nth_error r j = nth_error a i).
