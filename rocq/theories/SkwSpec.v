(** Vocabulary for C108, C109. *)
From Verif Require Import Base DofModel SymModel ProxyModel IndexModel IndexSpec MatModel PgModel PgSpec SkModel SkSpec SkwModel.
Set Implicit Arguments.
Open Scope string_scope. Open Scope list_scope. Open Scope nat_scope.

(** The elements of a list at all positions but [j]. *)
Definition without (j : nat) (l : list string) : list string :=
  map (fun k => nth k l "") (filter (fun k => negb (k =? j)) (seq 0 (length l))).

Section SkwSpec.
Variable R : rops.
Variables (P D : Type).
(** A builder serves a request: for every pair of cluster lists it returns the entries
    [e target source] of the blocks (i, i), block by block and row by row. *)
Definition serves (run : what P -> tscl -> result (list (option R))) (w : what P) (e : Z -> Z -> option R) : Prop :=
  forall tcs scs t s, of_clusters tcs t -> of_clusters scs s -> length tcs = length scs ->
  run w (TS t s) = Ok (concat (map (fun c => concat (block e c)) (combine tcs scs))).

(** [ncl] are the neighbors of cluster [cl] with the given ball: the points of the other clusters
    inside of the ball, each once. *)
Definition neighbors_in (dist : P -> P -> D) (within : D -> D -> bool) (nodes : list P)
    (all cl : list Z) (center : P) (radius : D) (ncl : list Z) : Prop :=
  NoDup ncl /\
  forall z, In z ncl <-> In z all /\ ~ In z cl /\ exists pt, entry nodes z pt /\ within (dist pt center) radius = true.

(** The proxies [pts] of all clusters: those of cluster [c], on the given ball, have the numbers
    [c * nproxy], ..., [c * nproxy + nproxy - 1]. *)
Definition proxies_on (put : P -> D -> P -> P) (ref : list P) (c : nat) (center : P) (radius : D) (pts : list (option P)) : Prop :=
  forall q r, nth_error ref q = Some r -> nth_error pts (c * length ref + q) = Some (Some (put center radius r)).

(** What is assumed of the geometry of clusters [cs] with index list [il] on the nodes [nodes]:
    centers and radii of the balls exist, the tree and the area query are right, the indices are
    different and in range. *)
Definition cluster_geometry (balls : dofdesc -> list P -> indexlist -> result (list P * list D))
    (dist : P -> P -> D) (within : D -> D -> bool)
    (build_tree : list P -> ptree P) (area_query : ptree P -> list P -> list D -> aquery)
    (dd : dofdesc) (nodes : list P) (cs : list (list Z)) (il : indexlist) (centers : list P) (radii : list D) : Prop :=
  of_clusters cs il /\ NoDup (concat cs) /\ (forall x, In x (concat cs) -> (0 <= x < zlen nodes)%Z) /\
  balls dd nodes il = Ok (centers, radii) /\ length centers = length cs /\ length radii = length cs /\
  (forall pts, covers dist (fun d r => within d r = true) (build_tree pts) centers radii
                      (area_query (build_tree pts) centers radii)).
End SkwSpec.
