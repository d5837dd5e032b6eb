(** Vocabulary for C39, C72, C73. *)
From Verif Require Import Base IndexModel IndexSpec MatModel SkModel.
From Coq Require Export Permutation.
Set Implicit Arguments.
Open Scope nat_scope.

Section SkSpec.
Variable R : rops.
Definition delta (a b : nat) : R := if a =? b then r1 R else r0 R.

(** [sk] lists the entries of [cl] at pairwise different positions [ps]. *)
Definition sub_selection (cl : list Z) (ps : list nat) (sk : list Z) : Prop :=
  NoDup ps /\ map (nth_error cl) ps = map Some sk.

(** The skeleton of one cluster with [tcl] targets and [scl] sources: subsets of k >= 1 of the
    points, an n x k matrix L and a k x m matrix R which are the identity on the skeleton. *)
Definition cluster_skeleton (tcl scl : list Z) (tp sp : list nat) (tsk ssk : list Z) (L Rm : mat R) : Prop :=
  sub_selection tcl tp tsk /\ sub_selection scl sp ssk /\
  1 <= length tp /\ length sp = length tp /\
  mr L = length tcl /\ mc L = length tp /\ mr Rm = length sp /\ mc Rm = length scl /\
  (forall a b, a < length tp -> b < length tp -> el L (nth a tp 0) b = delta a b) /\
  (forall a b, a < length sp -> b < length sp -> el Rm a (nth b sp 0) = delta a b).

(** What scipy documents about (idx, proj): [idx] permutes the columns and proj is
    k x (n - k). *)
Definition id_shape (A : mat R) (k : Z) (idx : list nat) (proj : mat R) : Prop :=
  Permutation idx (seq 0 (mc A)) /\ Z.of_nat (mr proj) = k /\ mr proj + mc proj = mc A.
(** A[:, idx[:k]] @ proj = A[:, idx[k:]]: the decomposition is exact. *)
Definition id_exact (A : mat R) (idx : list nat) (proj : mat R) : Prop :=
  forall i j, i < mr A -> j < mc proj ->
  el A i (nth (mr proj + j) idx 0) =
  rsum R (mr proj) (fun l => rmul R (el A i (nth l idx 0)) (el proj l j)).

Section Oracle.
Variable E : Type.
Variable sli_eps : mat R -> E -> result (Z * list nat * mat R).
Variable sli_rank : mat R -> Z -> result (list nat * mat R).
Definition oracle_shape : Prop :=
  (forall A e k idx proj, sli_eps A e = Ok (k, idx, proj) -> id_shape A k idx proj) /\
  (forall A k idx proj, sli_rank A k = Ok (idx, proj) -> id_shape A k idx proj).
End Oracle.

(** The matrix that is decomposed for cluster i: interactions with proxies and neighbors. *)
Definition tgt_interaction (r : eval_result R) (i : Z) (M : mat R) : Prop :=
  exists p n O, er_get r i = Ok (p, n) /\ hstack p n = Ok O /\ all_finite R O = true /\ M = numbers R O.
Definition src_interaction (r : eval_result R) (i : Z) (M : mat R) : Prop :=
  exists p n O, er_get r i = Ok (p, n) /\ vstack p n = Ok O /\ all_finite R O = true /\ M = numbers R O.

(** Sum over a product of matrices, entrywise equality. *)
Definition sum_prod (n : nat) (f g : nat -> R) : R := rsum R n (fun l => rmul R (f l) (g l)).
Definition meq (a b : mat R) : Prop :=
  mr a = mr b /\ mc a = mc b /\ forall i j, i < mr a -> j < mc a -> el a i j = el b i j.

(** The choice made for one cluster: positions and indices of skeleton targets and sources. *)
Record choice := Ch { c_tp : list nat; c_tsk : list Z; c_sp : list nat; c_ssk : list Z }.

(** [sk] is a skeletonization of the matrix blocks given by the target clusters [tcs] and the
    source clusters [scs], choosing [vs]. *)
Definition is_skeleton (tcs scs : list (list Z)) (sk : skel_result R) (vs : list choice) : Prop :=
  of_clusters tcs (targets (sk_index sk)) /\ of_clusters scs (sources (sk_index sk)) /\
  of_clusters (map c_tsk vs) (targets (sk_skel sk)) /\ of_clusters (map c_ssk vs) (sources (sk_skel sk)) /\
  length scs = length tcs /\ length vs = length tcs /\
  length (sk_L sk) = length tcs /\ length (sk_R sk) = length tcs /\
  forall i tcl scl v L Rm, nth_error tcs i = Some tcl -> nth_error scs i = Some scl ->
    nth_error vs i = Some v -> nth_error (sk_L sk) i = Some L -> nth_error (sk_R sk) i = Some Rm ->
    cluster_skeleton tcl scl (c_tp v) (c_sp v) (c_tsk v) (c_ssk v) L Rm.

(** Entry (a, b) of L @ A[tsk, scl], of A[tcl, ssk] @ R and of L @ A[tsk, ssk] @ R. *)
Definition LT (A : Z -> Z -> R) (L : mat R) (tsk scl : list Z) (a b : nat) : R :=
  sum_prod (length tsk) (el L a) (fun l => A (nth l tsk 0%Z) (nth b scl 0%Z)).
Definition SRm (A : Z -> Z -> R) (Rm : mat R) (tcl ssk : list Z) (a b : nat) : R :=
  sum_prod (length ssk) (fun l => A (nth a tcl 0%Z) (nth l ssk 0%Z)) (fun l => el Rm l b).
Definition LSR (A : Z -> Z -> R) (L Rm : mat R) (tsk ssk : list Z) (a b : nat) : R :=
  sum_prod (length ssk) (LT A L tsk ssk a) (fun l => el Rm l b).

(** A flat array is the concatenation of [bs]: block i has one entry for every pair of the
    i-th clusters, [ps] being the (targets, sources) clusters. *)
Definition flat_blocks (ps : list (list Z * list Z)) {T : Type} (bs : list (list T)) : Prop :=
  map zlen bs = map (fun c => (zlen (fst c) * zlen (snd c))%Z) ps.
(** The mean of the weights of the points in [cl]; there is none for no points. *)
Definition mean_of (waa : list R) (cl : list Z) : option R :=
  match cl with
  | [] => None
  | _ => Some (rmul R (rsum R (length cl) (fun l => nth (Z.to_nat (nth l cl 0%Z)) waa (r0 R))) (rinv R (of_nat R (length cl))))
  end.
(** Block i times number i; what is not finite stays so. *)
Definition wblocks (bs : list (list (option R))) (ws : list (option R)) : list (list (option R)) :=
  map (fun bw => map (fun x => match x, snd bw with Some a, Some b => Some (rmul R a b) | _, _ => None end) (fst bw))
      (combine bs ws).

(** A norm of matrices: depends on the entries only. *)
Definition extensional {V : Type} (norm : mat R -> V) : Prop := forall a b, meq a b -> norm a = norm b.

(** What a decomposition of [A] gave: rank, permutation, coefficients. *)
Section Oracle2.
Variable E : Type.
Variable sli_eps : mat R -> E -> result (Z * list nat * mat R).
Variable sli_rank : mat R -> Z -> result (list nat * mat R).
Definition decomposes (rank : option Z) (eps : option E) (A : mat R) (k : Z) (idx : list nat) (proj : mat R) : Prop :=
  match rank, eps with
  | None, Some e => sli_eps A e = Ok (k, idx, proj)
  | Some k0, None => k0 = k /\ sli_rank A k0 = Ok (idx, proj)
  | _, _ => False
  end.
End Oracle2.
End SkSpec.
