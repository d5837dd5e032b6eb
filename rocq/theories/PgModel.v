(** Model of pytential/linalg/proxy.py: partition_by_nodes (87-158), the numbering of proxy
    points in ProxyGeneratorBase.__call__ (473-544) and gather_cluster_neighbor_points
    (692-822).  Points, distances and radii are of abstract types here (PgGeoModel.v has the
    geometry over the reals); boxtree's tree and area query are given as data. *)
From Verif Require Import Base IndexModel.
Set Implicit Arguments.
Open Scope Z_scope.

(** The fields of a boxtree tree (converted to numpy) that are read: for every box whether it
    has children (the flag HAS_SOURCE_OR_TARGET_CHILD_BOXES), where its sources start in tree
    order and how many there are in it and its descendants; the user's numbers of the sources
    in tree order; the sources in tree order. *)
Record ptree (P : Type) := PT {
  has_child : list bool;
  box_source_starts : list Z;
  box_source_counts_cumul : list Z;
  user_source_ids : list Z;
  tree_sources : list P }.

(** proxy.py:135-137, [(tree.box_flags & HAS_SOURCE_OR_TARGET_CHILD_BOXES == 0).nonzero()]. *)
Definition leaf_boxes (flags : list bool) : list Z :=
  filter (fun b => negb (nth (Z.to_nat b) flags true)) (zrange (zlen flags)).

(** proxy.py:121-145 and 158, tree_kind given: one cluster per leaf box. *)
Definition partition_tree (P : Type) (t : ptree P) : result indexlist :=
  do clusters <- mapM (fun ibox =>
      do box_start <- pyget (box_source_starts t) ibox;
      do count <- pyget (box_source_counts_cumul t) ibox;
      let box_end := box_start + count in
      Ok (pyslice (user_source_ids t) box_start box_end)) (leaf_boxes (has_child t));
  make_index_list clusters.

(** np.arange(start, stop, step) for integers; step 0 raises ZeroDivisionError. *)
Definition arange (start stop step : Z) : result (list Z) :=
  if step =? 0 then Err ZeroDivisionError
  else Ok (map (fun k => start + k * step) (zrange ((stop - start + step - Z.sgn step) / step))).

(** np.linspace(0, stop, num, dtype=np.int64): entries [k * (stop / (num - 1))] computed in
    floating point and rounded down, the last entry is overwritten by stop.  [point k] is the
    k-th entry before the overwriting.  [num] is at least 3 here. *)
Definition linspace (point : Z -> Z) (stop num : Z) : list Z :=
  map point (zrange (num - 1)) ++ [stop].
(** The entries in exact arithmetic. *)
Definition exact_point (stop num k : Z) : Z := k * stop / (num - 1).

(** proxy.py:104-105: the default of max_particles_in_box is 32 (83). *)
Definition default_max_particles : Z := 32.
Definition max_particles (m : option Z) : Z :=
  match m with Some m => m | None => default_max_particles end.

(** proxy.py:146-158, tree_kind None.  [point] as in [linspace], a function of the number of
    entries. *)
Definition partition_plain (point : Z -> Z -> Z -> Z) (ambient_dim dim ndofs : Z) (m : option Z)
  : result indexlist :=
  if negb (ambient_dim =? 2) && (dim =? 1) then Err ValueError else
  if max_particles m =? 0 then Err ZeroDivisionError else
  let nclusters := Z.max (ndofs / max_particles m) 2 in
  do indices <- arange 0 ndofs 1;
  let starts := linspace (point ndofs (nclusters + 1)) ndofs (nclusters + 1) in
  do e <- pyget starts (-1);
  if e =? ndofs then make_index_list_starts indices starts else Err AssertionError.

(** Assignment to a slice of columns, [a[:, lo:hi] = cols]; a length mismatch raises (the
    broadcasting of a single column is not modelled). *)
Definition set_slice (T : Type) (l : list T) (lo hi : Z) (vals : list T) : result (list T) :=
  if zlen (pyslice l lo hi) =? zlen vals then
    Ok (firstn (Z.to_nat (clip (zlen l) lo)) l ++ vals ++ skipn (Z.to_nat (clip (zlen l) lo) + length vals) l)
  else Err ValueError.

(** proxy.py:512-527: [place i p] is [radii[i] * p + centers[:, i]]; the array of proxies is a
    list of columns, None where it is uninitialised (np.empty). *)
Section Proxies.
Variables (P Q : Type) (place : Z -> P -> Q) (ref_points : list P).
Definition nproxy : Z := zlen ref_points.
Fixpoint proxy_loop (is : list Z) (base : Z) (proxies : list (option Q)) : result (list (option Q)) :=
  match is with
  | [] => Ok proxies
  | i :: is' =>
      let points := map (fun p => Some (place i p)) ref_points in
      do proxies' <- set_slice proxies base (base + nproxy) points;
      proxy_loop is' (base + nproxy) proxies'
  end.
(** ... and 531-544 the index list of the proxies. *)
Definition generate_proxies (dof_index : indexlist) : result (list (option Q) * indexlist) :=
  let total := nproxy * nclusters dof_index in
  do proxies <- proxy_loop (zrange (nclusters dof_index)) 0 (repeat None (Z.to_nat total));
  do pxyindices <- arange 0 total 1;
  do pxystarts <- arange 0 (total + 1) nproxy;
  do pxyindex <- make_index_list_starts pxyindices pxystarts;
  Ok (proxies, pxyindex).
End Proxies.

(** gather_cluster_neighbor_points. *)
Section Gather.
Variables (P D : Type).
(** [la.norm(node - center)]. *)
Variable dist : P -> P -> D.
(** [norm - eps <= radius] (797, 802). *)
Variable within : D -> D -> bool.

(** proxy.py:733-757, the picker kernel: [targets[i] = nodes[tgtindex.indices[i]]]. *)
Definition pick (nodes : list P) (tgtindex : indexlist) : result (list P) :=
  mapM (pyget nodes) (indices tgtindex).

(** The area query (boxtree, 774): for each ball the leaves that it touches. *)
Record aquery := AQ { near_starts : list Z; near_lists : list Z }.

(** One round of the loop, proxy.py:783-810. *)
Definition gather_cluster (tgtindex : indexlist) (centers : list P) (radii : list D)
    (tree : ptree P) (query : aquery) (icluster : Z) : result (list Z) :=
  do istart <- pyget (near_starts query) icluster;
  do iend <- pyget (near_starts query) (icluster + 1);
  let iboxes := pyslice (near_lists query) istart iend in
  if iend - istart <=? 0 then Ok [] else
  do ranges <- mapM (fun b => do s <- pyget (box_source_starts tree) b;
                             do c <- pyget (box_source_counts_cumul tree) b;
                             arange s (s + c) 1) iboxes;
  let isources := concat ranges in
  do nodes <- mapM (pyget (tree_sources tree)) isources;
  do isources <- mapM (pyget (user_source_ids tree)) isources;
  do center <- pyget centers icluster;
  do radius <- pyget radii icluster;
  do lo <- pyget (starts tgtindex) icluster;
  do hi <- pyget (starts tgtindex) (icluster + 1);
  let mask := fun ns : P * Z =>
    within (dist (fst ns) center) radius && ((snd ns <? lo) || (hi <=? snd ns)) in
  mapM (pyget (indices tgtindex)) (map snd (filter mask (combine nodes isources))).

(** proxy.py:707-716 and the loop; the tree is built on the picked points (773), the area
    query uses the proxy balls. *)
Definition gather_neighbors (build_tree : list P -> ptree P)
    (area_query : ptree P -> list P -> list D -> aquery)
    (nodes : list P) (srcindex : indexlist) (centers : list P) (radii : list D)
    (tgtindex : option indexlist) : result indexlist :=
  let tgtindex := match tgtindex with Some t => t | None => srcindex end in
  if negb (nclusters tgtindex =? nclusters srcindex) then Err ValueError else
  do targets <- pick nodes tgtindex;
  let tree := build_tree targets in
  let query := area_query tree centers radii in
  do nbrindices <- mapM (gather_cluster tgtindex centers radii tree query)
                        (zrange (nclusters srcindex));
  make_index_list nbrindices.
End Gather.
