(** Contracts of boxtree's tree and traversal, and what the QBX FMM has to deliver. *)
From Coq Require Import QArith Permutation.
From Verif Require Import Base RefineModel RefineSpec AssocModel AssocSpec FmmModel.
Set Implicit Arguments.
Open Scope nat_scope.

(** Sources reaching target box number [k] through the lists 1, 3, and 2 and 4 of the box and
    its ancestors. *)
Definition sources_near (T : ftree) (V : ftrav) (k : nat) : list nat :=
  flat_map (ft_box_src T) (tr_near V k).
Definition sources_smaller (T : ftree) (V : ftrav) (k : nat) : list nat :=
  flat_map (fun lev : list nat * (nat -> list nat) =>
      flat_map (fun m => if nth m (fst lev) 0 =? k then flat_map (ft_subtree T) (snd lev m) else [])
        (seq 0 (length (fst lev)))) (tr_smaller V).
Definition sources_far (T : ftree) (V : ftrav) (b : nat) : list nat :=
  flat_map (fun a => flat_map (ft_subtree T) (tr_sib V a) ++ flat_map (ft_box_src T) (tr_bigger V a)) (ft_chain T b).

(** boxtree's contract. *)
Record fmm_ok (T : ftree) (V : ftrav) : Prop := {
  fo_sorted : Permutation (ft_sorted T) (seq 0 (ft_ntgt T));
  fo_tgt_pt : forall u, u < ft_ntgt T -> ft_tgt_pt T (nth u (ft_sorted T) 0) = u;
  fo_user_src : Permutation (ft_user_src T) (seq 0 (ft_nsrc T));
  fo_src_pt : forall j, j < ft_nsrc T -> ft_src_pt T j = nth j (ft_user_src T) 0;
  (* every target lies in exactly one box, which is a target box *)
  fo_box_tgt : forall b i, b < ft_nboxes T -> In i (ft_box_tgt T b) -> i < ft_ntgt T;
  fo_in_one_box : forall i, i < ft_ntgt T -> exists b, b < ft_nboxes T /\ In b (tr_target_boxes V) /\ In i (ft_box_tgt T b)
      /\ forall b', b' < ft_nboxes T -> In i (ft_box_tgt T b') -> b' = b;
  fo_target_boxes : NoDup (tr_target_boxes V) /\ forall b, In b (tr_target_boxes V) -> b < ft_nboxes T;
  (* every box is on exactly one level *)
  fo_levels : forall b, b < ft_nboxes T ->
      length (filter (fun l => (fst l <=? b) && (b <? fst l + snd l)) (ft_levels T)) = 1;
  (* compressed list 3 *)
  fo_smaller : forall lev, In lev (tr_smaller V) ->
      NoDup (fst lev) /\ forall k, In k (fst lev) -> k < length (tr_target_boxes V);
  (* the interaction lists reach every source exactly once *)
  fo_cover : forall k, k < length (tr_target_boxes V) ->
      Permutation (sources_near T V k ++ sources_smaller T V k ++ sources_far T V (nth k (tr_target_boxes V) 0))
        (seq 0 (ft_nsrc T)) }.

(** An admissible association: nothing for the centers themselves, else a center or none. *)
Definition ttc_ok (ncenters n : nat) (ttc : list Z) : Prop :=
  length ttc = n /\ ncenters <= n
  /\ (forall u, u < ncenters -> nth u ttc 0%Z = (-1)%Z)
  /\ (forall u, ncenters <= u -> u < n -> nth u ttc 0%Z = (-1)%Z \/ exists c, c < ncenters /\ nth u ttc 0%Z = Z.of_nat c).

(** The full potential at user target [u]: every source once, with its own strength, all by the
    same route. *)
Definition full_potential (knl : nat) (sw : list nat) (nsrc : nat) (r : route) (u : nat) : list contr :=
  map (fun s => Contr knl (nth s sw 0) s r u) (seq 0 nsrc).
Definition route_of (z : Z) : route := if (z =? -1)%Z then Point else Via (Z.to_nat z).

(** ** Executors *)

(** Everything the association relies on: its contracts (AssocSpec) and positive radii. *)
Record source_ok (q : qsource) (near : pt -> pt -> Q) : Prop := {
  so_tree : forall x, tree_ok (particles (q_src q) (q_ctr q) [x]) (q_tree q x);
  so_queries : forall x, queries_ok (q_dev q) near (particles (q_src q) (q_ctr q) [x]) (q_tree q x);
  so_sym : forall x y, (dv_dist (q_dev q) x y == dv_dist (q_dev q) y x)%Q;
  so_reach : forall c, (0 < reach (q_radius q) (q_tol q) c)%Q;
  so_discr : proper (q_discr q) /\ ndofs (q_discr q) = length (q_src q);
  so_order : forall n, Permutation (q_order q n) (seq 0 n) }.
(** boxtree's contract for tree and traversal of target points [x]. *)
Definition fmm_at (q : qsource) (x : list pt) : Prop :=
  fmm_ok (fst (q_fmm q x)) (snd (q_fmm q x)) /\ ft_ntgt (fst (q_fmm q x)) = length x /\ ft_nsrc (fst (q_fmm q x)) = q_nquad q.

(** The points the tree is to be built for: the centers, then the points of every distinct pair
    of target and limit, once each. *)
Definition gathered_points (q : qsource) (points : nat -> result (list pt)) (outs : list output) (P : list pt) : Prop :=
  exists ks xs, NoDup ks /\ (forall k, In k ks <-> exists o, In o outs /\ (o_tgt o, o_limit o) = k)
    /\ Forall2 (fun k x => points (fst k) = Ok x) ks xs /\ P = q_ctr q ++ concat xs.
(** Requested side of a qbx_forced_limit. *)
Definition limit_side (l : option Z) : Z := match l with None => 0%Z | Some z => z end.

(** Single points. *)
Definition close_pt (q : qsource) (p : pt) : Prop := close (dv_dist (q_dev q)) (q_src q) [p] (q_tunnel q) 0.
Definition chosen_pt (q : qsource) (z : Z) (p : pt) (c : nat) : Prop :=
  chosen (dv_dist (q_dev q)) (q_ctr q) [p] (q_radius q) (q_tol q) (fun _ => z) 0 c.
Definition failing_pt (q : qsource) (z : Z) (p : pt) : Prop :=
  failing (dv_dist (q_dev q)) (q_src q) (q_ctr q) [p] (q_tunnel q) (q_radius q) (q_tol q) (fun _ => z) 0.

(** How point [p], for which side [z] is requested, is to be evaluated. *)
Definition route_ok (q : qsource) (z : Z) (p : pt) (r : route) : Prop :=
  match r with
  | Point => ~ close_pt q p
  | Via c => close_pt q p /\ chosen_pt q z p c
  | Own _ _ => False
  end.
(** [v] is the full potential (kernel [knl], all quadrature nodes, each with its own strength)
    at [p], by an admissible route; [P] is the list of points target numbers refer to. *)
Definition value_ok (q : qsource) (P : list pt) (knl : nat) (z : Z) (p : pt) (v : list contr) : Prop :=
  exists u r, u < length P /\ nth_pt P u = p /\ route_ok q z p r
    /\ Permutation v (full_potential knl (seq 0 (q_nquad q)) (q_nquad q) r u).
