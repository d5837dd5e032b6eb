(** Model of the QBX FMM's bookkeeping: /repo/pytential/qbx/geometry.py (QBXFMMGeometryData),
    /repo/pytential/qbx/fmm.py, /repo/pytential/qbx/interactions.py and the two executors of
    /repo/pytential/qbx/__init__.py (exec_compute_potential_insn_fmm and _direct).

    Potentials are formal sums of contributions, one per source, labelled by the strength and
    the source point that entered, the route (directly, through an expansion center), the
    target point and the target kernel.  Expansions are formal sums of (strength, source).
    Truncation of expansions is not modelled: a translated expansion stands for the same
    sources. *)
From Coq Require Import QArith.
From Verif Require Import Base RefineModel AssocModel.
Set Implicit Arguments.
Open Scope nat_scope.

(** Array primitives: [a[i] = v], [a[start:start+len(vs)] = vs], [a[ixs] = vs]. *)
Fixpoint set_nth (A : Type) (a : list A) (i : nat) (v : A) : list A :=
  match a, i with
  | [], _ => []
  | _ :: a', 0 => v :: a'
  | x :: a', S i' => x :: set_nth a' i' v
  end.
Definition write_slice (A : Type) (a : list A) (start : nat) (vs : list A) : list A :=
  firstn start a ++ vs ++ skipn (start + length vs) a.
Definition scatter (A : Type) (a : list A) (ixs : list nat) (vs : list A) : list A :=
  fold_left (fun a '(i, v) => set_nth a i v) (combine ixs vs) a.

(** ** Targets *)

(** compiler.py 194-214 (PotentialOutput). Target names are numbers. *)
Record output := Out { o_name : string; o_knl : nat; o_tgt : nat; o_limit : option Z }.
Definition key_eqb (a b : nat * option Z) : bool :=
  (fst a =? fst b) && match snd a, snd b with
    | None, None => true | Some x, Some y => (x =? y)%Z | _, _ => false end.
Definition lookup_key (d : list ((nat * option Z) * nat)) (k : nat * option Z) : option nat :=
  match find (fun e => key_eqb (fst e) k) d with Some e => Some (snd e) | None => None end.
(** qbx/__init__.py 661-692 (get_target_discrs_and_qbx_sides); [points] stands for
    [places.get_target_or_discretization] and the flattened nodes. *)
Fixpoint gather_targets (points : nat -> result (list pt)) (outs : list output)
    (d : list ((nat * option Z) * nat)) (ts : list (list pt * Z))
    : result (list ((nat * option Z) * nat) * list (list pt * Z)) :=
  match outs with
  | [] => Ok (d, ts)
  | o :: outs' =>
    match lookup_key d (o_tgt o, o_limit o) with
    | Some _ => gather_targets points outs' d ts
    | None =>
      do x <- points (o_tgt o);
      gather_targets points outs' (d ++ [((o_tgt o, o_limit o), length ts)])
        (ts ++ [(x, match o_limit o with None => 0%Z | Some z => z end)])
    end
  end.

(** geometry.py 510-519: the loop computing target_discr_starts and ntargets. *)
Fixpoint discr_starts (n : nat) (ts : list (list pt * Z)) : list nat :=
  match ts with [] => [n] | (x, _) :: ts' => n :: discr_starts (n + length x) ts' end.
Definition ntargets (ncenters : nat) (ts : list (list pt * Z)) : nat :=
  last (discr_starts ncenters ts) 0.
(** geometry.py 521-534: zeros, then the copy kernels (one for the centers, one per target
    discretization). *)
Definition target_points (centers : list pt) (ts : list (list pt * Z)) : list pt :=
  fold_left (fun a '(start, (x, _)) => write_slice a start x)
    (combine (discr_starts (length centers) ts) ts)
    (write_slice (repeat [] (ntargets (length centers) ts)) 0 centers).
(** geometry.py 541-556. *)
Definition side_preferences (ncenters : nat) (ts : list (list pt * Z)) : list Z :=
  fold_left (fun a '(start, (x, side)) => write_slice a start (repeat side (length x)))
    (combine (discr_starts ncenters ts) ts)
    (repeat 0%Z (ntargets ncenters ts)).

(** geometry.py 796-838 (user_target_to_center); NO_QBX_NEEDED is -1.  The association is run
    on all targets at once. *)
Definition z_of (c : option nat) : Z := match c with Some c => Z.of_nat c | None => (-1)%Z end.
Definition user_ttc (ncenters : nat) (assoc : list (option nat)) : list Z :=
  repeat (-1)%Z ncenters ++ map z_of assoc.

(** ** Incidence lists *)

(** geometry.py 257-277 (pick_used_centers kernel), 763-775. *)
Definition center_is_used (ncenters : nat) (ttc : list Z) : list bool :=
  fold_left (fun a c => if (0 <=? c)%Z then set_nth a (Z.to_nat c) true else a)
    (skipn ncenters ttc) (repeat false ncenters).
(** geometry.py 754-793 (global_qbx_centers, with copy_if; global_qbx_flags is 1 throughout). *)
Definition global_centers (ncenters : nat) (ttc : list Z) : list nat :=
  filter (fun c => nth c (center_is_used ncenters ttc) false) (seq 0 ncenters).

(** boxtree's Tree and FMMTraversalInfo as far as used (fields in tree order).  [ft_src_pt] and
    [ft_tgt_pt] are the coordinates stored in the tree: user numbers of the points. *)
Record ftree := FT {
  ft_nsrc : nat;
  ft_ntgt : nat;
  ft_src_pt : nat -> nat;
  ft_tgt_pt : nat -> nat;
  ft_user_src : list nat;             (* user_source_ids *)
  ft_sorted : list nat;               (* sorted_target_ids *)
  ft_nboxes : nat;
  ft_box_src : nat -> list nat;       (* sources of the box, not of its children *)
  ft_box_tgt : nat -> list nat;
  ft_levels : list (nat * nat);       (* first box and number of boxes of each level *)
  ft_subtree : nat -> list nat;       (* sources of the box and its descendants *)
  ft_chain : nat -> list nat }.       (* the box and its ancestors *)
Record ftrav := TR {
  tr_target_boxes : list nat;
  tr_near : nat -> list nat;          (* list 1, by target box number *)
  tr_sib : nat -> list nat;           (* list 2, by box *)
  tr_smaller : list (list nat * (nat -> list nat)); (* list 3, per source level: nonempty_indices, lists *)
  tr_bigger : nat -> list nat }.      (* list 4, by box *)

(** geometry.py 850-852: tree_ttc. *)
Definition tree_ttc (T : ftree) (ttc : list Z) : list Z := scatter (repeat 0%Z (length ttc)) (ft_sorted T) ttc.
(** geometry.py 230-254 (filter_center_and_target_ids): pairs (center, tree target). *)
Definition filtered_pairs (tt : list Z) : list (nat * nat) :=
  map (fun '(c, i) => (Z.to_nat c, i)) (filter (fun p => (0 <=? fst p)%Z) (combine tt (seq 0 (length tt)))).
(** geometry.py 841-873 (center_to_tree_targets) with pyopencl's KeyValueSorter: the values of
    key [c]. *)
Definition center_targets (T : ftree) (ttc : list Z) (c : nat) : list nat :=
  map snd (filter (fun p => fst p =? c) (filtered_pairs (tree_ttc T ttc))).

(** geometry.py 876-899 (non_qbx_box_target_lists): flags in user order; then boxtree's
    filter_target_lists_in_tree_order: tree positions of the flagged targets (this is
    unfiltered_from_filtered_target_indices). *)
Definition non_qbx_flags (ncenters : nat) (ttc : list Z) : list bool :=
  write_slice (map (fun c => (c =? -1)%Z) ttc) 0 (repeat false ncenters).
Definition non_qbx_targets (T : ftree) (ncenters : nat) (ttc : list Z) : list nat :=
  let flags := scatter (repeat false (length ttc)) (ft_sorted T) (non_qbx_flags ncenters ttc) in
  filter (fun i => nth i flags false) (seq 0 (length ttc)).

(** geometry.py 173-215 and 644-700 (qbx_center_to_target_box). *)
Definition user_target_from_tree_target (T : ftree) : list nat :=
  scatter (repeat 0 (length (ft_sorted T))) (ft_sorted T) (seq 0 (length (ft_sorted T))).
Definition box_to_target_box (T : ftree) (V : ftrav) : list nat :=
  scatter (repeat 0 (ft_nboxes T)) (tr_target_boxes V) (seq 0 (length (tr_target_boxes V))).
Definition center_to_target_box (T : ftree) (V : ftrav) (ncenters : nat) : list nat :=
  fold_left (fun a b =>
      fold_left (fun a i =>
          let u := nth i (user_target_from_tree_target T) 0 in
          if u <? ncenters then set_nth a u (nth b (box_to_target_box T V) 0) else a) (ft_box_tgt T b) a)
    (seq 0 (ft_nboxes T)) (repeat 0 ncenters).
(** geometry.py 703-730 (qbx_center_to_target_box_source_level); None stands for -1. *)
Definition center_to_list3 (T : ftree) (V : ftrav) (ncenters : nat) (lev : list nat * (nat -> list nat)) : list (option nat) :=
  let tb := scatter (repeat None (length (tr_target_boxes V))) (fst lev) (map Some (seq 0 (length (fst lev)))) in
  map (fun k => nth k tb None) (center_to_target_box T V ncenters).

(** ** The FMM *)

Inductive route := Point | Via (center : nat) | Own (node : nat) (side : Z).
Record contr := Contr { c_knl : nat; c_strength : nat; c_source : nat; c_route : route; c_target : nat }.
Notation expn := (list (nat * nat)) (only parsing).
Definition eval (k : nat) (e : expn) (r : route) (t : nat) : list contr :=
  map (fun '(w, s) => Contr k w s r t) e.

Section Fmm.
Variable T : ftree.
Variable V : ftrav.
Variable ncenters : nat.
Variable ttc : list Z.
Variable w : list nat.     (* strengths, in tree order *)

Definition part (j : nat) : nat * nat := (nth j w 0, ft_src_pt T j).
Definition box_parts (b : nat) : expn := map part (ft_box_src T b).
(** boxtree/sumpy: form_multipoles and coarsen_multipoles. *)
Definition mpole (b : nat) : expn := map part (ft_subtree T b).
(** boxtree/sumpy: multipole_to_local ("list 2") and form_locals ("list 4"). *)
Definition local2 (b : nat) : expn := flat_map mpole (tr_sib V b).
Definition local4 (b : nat) : expn := flat_map box_parts (tr_bigger V b).
(** boxtree/sumpy: refine_locals applied to their sum (fmm.py 472-523). *)
Definition locals (b : nat) : expn := flat_map (fun a => local2 a ++ local4 a) (ft_chain T b).

Definition in_box (b i : nat) : bool := existsb (Nat.eqb i) (ft_box_tgt T b).
(** boxtree/sumpy: evaluation of [source k] (k: target box number) at the filtered targets of
    the target boxes, with box_target_list_kwargs of fmm.py 217-225. *)
Definition eval_at_targets (knl : nat) (source : nat -> expn) : list (list contr) :=
  map (fun i => flat_map (fun k => if in_box (nth k (tr_target_boxes V) 0) i
                                   then eval knl (source k) Point (ft_tgt_pt T i) else [])
                  (seq 0 (length (tr_target_boxes V))))
    (non_qbx_targets T ncenters ttc).
(** eval_direct ("list 1"), eval_multipoles ("list 3"), eval_locals. *)
Definition near_parts (k : nat) : expn := flat_map box_parts (tr_near V k).
Definition smaller_parts (k : nat) : expn :=
  flat_map (fun lev : list nat * (nat -> list nat) =>
      flat_map (fun m => if nth m (fst lev) 0 =? k then flat_map mpole (snd lev m) else [])
        (seq 0 (length (fst lev)))) (tr_smaller V).
Definition add_arrays (a b : list (list contr)) : list (list contr) :=
  map (fun '(x, y) => x ++ y) (combine a b).
(** fmm.py 461-466, 487-493, 529-535. *)
Definition non_qbx_potentials (knl : nat) : list (list contr) :=
  add_arrays (add_arrays (eval_at_targets knl near_parts) (eval_at_targets knl smaller_parts))
    (eval_at_targets knl (fun k => locals (nth k (tr_target_boxes V) 0))).

(** fmm.py 232-265 with interactions.py 40-167 (P2QBXL): only global centers. *)
Definition form_global_qbx_locals : list expn :=
  fold_left (fun a c =>
      set_nth a c (flat_map box_parts (tr_near V (nth c (center_to_target_box T V ncenters) 0))))
    (global_centers ncenters ttc) (repeat [] ncenters).
(** fmm.py 268-312 with interactions.py 174-294 (M2QBXL): all centers, level by level. *)
Definition m2qbxl : list expn :=
  fold_left (fun a lev =>
      map (fun '(e, m) => match m with
                          | Some m => e ++ flat_map mpole (snd lev m)
                          | None => e end)
        (combine a (center_to_list3 T V ncenters lev)))
    (tr_smaller V) (repeat [] ncenters).
(** fmm.py 315-356 with interactions.py 301-412 (L2QBXL): all centers, level by level. *)
Definition l2qbxl : list expn :=
  fold_left (fun a '(start, n) =>
      map (fun '(e, k) => let b := nth k (tr_target_boxes V) 0 in
                          if (start <=? b) && (b <? start + n) then e ++ locals b else e)
        (combine a (center_to_target_box T V ncenters)))
    (ft_levels T) (repeat [] ncenters).
(** fmm.py 546-557: the sum of the three. *)
Definition qbx_expansions : list expn :=
  map (fun '((x, y), z) => (x ++ y) ++ z) (combine (combine form_global_qbx_locals m2qbxl) l2qbxl).
(** fmm.py 359-389 with interactions.py 419-532 (QBXL2P). *)
Definition eval_qbx_expansions (knl : nat) : list (list contr) :=
  fold_left (fun a c =>
      fold_left (fun a i => set_nth a i (eval knl (nth c qbx_expansions []) (Via c) (ft_tgt_pt T i)))
        (center_targets T ttc c) a)
    (global_centers ncenters ttc) (repeat [] (ft_ntgt T)).

(** fmm.py 569-588: combine and reorder. *)
Definition reorder_potentials (knl : nat) : list (list contr) :=
  let all := scatter (repeat [] (ft_ntgt T)) (non_qbx_targets T ncenters ttc) (non_qbx_potentials knl) in
  let all := add_arrays all (eval_qbx_expansions knl) in
  map (fun i => nth i all []) (ft_sorted T).
End Fmm.

(** fmm.py 414-594 (drive_fmm) for strengths [sw] in user order (fmm.py 199-200, 436-437:
    reorder_sources), one array per target kernel. *)
Definition drive_fmm (T : ftree) (V : ftrav) (ncenters : nat) (ttc : list Z) (sw : list nat) (nknl : nat)
    : list (list (list contr)) :=
  let w := map (fun u => nth u sw 0) (ft_user_src T) in
  map (reorder_potentials T V ncenters ttc w) (seq 0 nknl).

(** ** Executors *)

(** A QBX source with its stage-1 nodes [q_src], centers, radii and tunnels; the association's
    device, tree builder and tolerance; [q_ftree] builds the FMM tree and traversal of given
    targets ([q_nquad] quadrature nodes). *)
Record qsource := QS {
  q_src : list pt;
  q_ctr : list pt;
  q_discr : discr;
  q_tunnel : nat -> Q;
  q_radius : nat -> Q;
  q_tol : Q;
  q_dev : device;
  q_order : nat -> list nat;
  q_tree : list pt -> btree;
  q_nquad : nat;
  q_fmm : list pt -> ftree * ftrav }.

(** geometry.py 803-832. *)
Definition associate_all (q : qsource) (ts : list (list pt * Z)) : assoc_outcome :=
  let nc := length (q_ctr q) in
  let pts := skipn nc (target_points (q_ctr q) ts) in
  associate (q_dev q) (q_order q (length pts)) (q_discr q) (q_src q) (q_ctr q)
    [(pts, SArr (skipn nc (side_preferences nc ts)))] (q_tree q pts) (q_tunnel q) (q_radius q) (q_tol q).

Definition slice (A : Type) (l : list A) (a b : nat) : list A := firstn (b - a) (skipn a l).

(** qbx/__init__.py 694-793 (exec_compute_potential_insn_fmm), without the geometry data
    inspector.  Failed associations surface as their exception. *)
Definition exec_fmm (q : qsource) (points : nat -> result (list pt)) (nknl : nat) (outs : list output)
    : result (list (string * list (list contr))) :=
  do r <- gather_targets points outs [] [];
  let '(numbers, ts) := r in
  match associate_all q ts with
  | Raised e => Err e
  | Failed _ _ => Err TargetAssociationFailed
  | Associated a =>
    let nc := length (q_ctr q) in
    let ttc := user_ttc nc a in
    let '(T, V) := q_fmm q (target_points (q_ctr q) ts) in
    if existsb (fun c => (c =? -2)%Z) ttc then Err RuntimeError else
    let pots := drive_fmm T V nc ttc (seq 0 (q_nquad q)) nknl in
    mapM (fun o =>
        match lookup_key numbers (o_tgt o, o_limit o) with
        | None => Err KeyError
        | Some n =>
          let starts := discr_starts nc ts in
          match nth_error pots (o_knl o) with
          | None => Err IndexError
          | Some p => Ok (o_name o, slice p (nth n starts 0) (nth (n + 1) starts 0))
          end
        end) outs
  end.

(** *** Direct evaluation *)

(** A defaultdict of lists, in insertion order. *)
Definition group := list ((nat * option Z) * list (nat * output)).
Fixpoint add_to (g : group) (k : nat * option Z) (x : nat * output) : group :=
  match g with
  | [] => [(k, [x])]
  | (k', l) :: g' => if key_eqb k' k then (k', l ++ [x]) :: g' else (k', l) :: add_to g' k x
  end.
(** qbx/__init__.py 914-945: partition of the outputs; [self] tells whether a target name is
    the source's discretization (or the same at another stage). *)
Fixpoint partition_outputs (self : nat -> bool) (outs : list (nat * output)) (gs go : group) : result (group * group) :=
  match outs with
  | [] => Ok (gs, go)
  | (i, o) :: outs' =>
    if self (o_tgt o)
    then match o_limit o with
         | None => Err AssertionError
         | Some z => if (0 <? Z.abs z)%Z
                     then partition_outputs self outs' (add_to gs (o_tgt o, o_limit o) (i, o)) go
                     else Err AssertionError
         end
    else partition_outputs self outs' gs
           (add_to go (o_tgt o, Some (match o_limit o with None => 0%Z | Some z => z end)) (i, o))
  end.

Definition all_sources (n : nat) : expn := map (fun s => (s, s)) (seq 0 n).
(** qbx/__init__.py 958-967: sumpy's LayerPotential, target [t] from its own center. *)
Definition self_potential (nq : nat) (side : Z) (x : list pt) (knl : nat) : list (list contr) :=
  map (fun t => eval knl (all_sources nq) (Own t side) t) (seq 0 (length x)).
(** 1001-1005: sumpy's P2P. *)
Definition p2p (nq : nat) (x : list pt) (knl : nat) : list (list contr) :=
  map (fun t => eval knl (all_sources nq) Point t) (seq 0 (length x)).
(** 850-864: get_qbx_target_numberer. *)
Definition qbx_tgt_numbers (tt : list Z) : list nat :=
  map snd (filter (fun p => (0 <=? fst p)%Z) (combine tt (seq 0 (length tt)))).
(** 1045-1056 with qbx/direct.py 41-128: overwrite the entries of the targets with centers. *)
Definition apply_on_subset (nq : nat) (tt : list Z) (knl : nat) (res : list (list contr)) : list (list contr) :=
  fold_left (fun a i => set_nth a i (eval knl (all_sources nq) (Via (Z.to_nat (nth i tt (-1)%Z))) i))
    (qbx_tgt_numbers tt) res.

Definition put_results (A : Type) (res : list (option A)) (l : list (nat * A)) : list (option A) :=
  fold_left (fun r '(i, v) => set_nth r i (Some v)) l res.

Definition named (nknl : nat) (pot : nat -> list (list contr)) (io : nat * output) : result (nat * (string * list (list contr))) :=
  let '(i, o) := io in
  if o_knl o <? nknl then Ok (i, (o_name o, pot (o_knl o))) else Err IndexError.

(** 952-983 *)
Definition exec_self (nq nknl : nat) (points : nat -> result (list pt))
    (g : (nat * option Z) * list (nat * output)) : result (list (nat * (string * list (list contr)))) :=
  let '((t, l), os) := g in
  do x <- points t;
  mapM (named nknl (self_potential nq (match l with Some z => z | None => 0%Z end) x)) os.
(** 985-1066 *)
Definition exec_other (q : qsource) (nknl : nat) (points : nat -> result (list pt))
    (g : (nat * option Z) * list (nat * output)) : result (list (nat * (string * list (list contr)))) :=
  let '((t, l), os) := g in
  let lim := match l with Some z => z | None => 0%Z end in
  do x <- points t;
  match associate_all q [(x, lim)] with
  | Raised e => Err e
  | Failed _ _ => Err TargetAssociationFailed
  | Associated a =>
    let tt := skipn (length (q_ctr q)) (user_ttc (length (q_ctr q)) a) in
    if (Z.abs lim =? 1)%Z && (length (qbx_tgt_numbers tt) <? length x) then Err RuntimeError else
    mapM (named nknl (fun k => apply_on_subset (q_nquad q) tt k (p2p (q_nquad q) x k))) os
  end.
(** qbx/__init__.py 866-1068 (exec_compute_potential_insn_direct). *)
Definition exec_direct (q : qsource) (self : nat -> bool) (points : nat -> result (list pt)) (nknl : nat)
    (outs : list output) : result (list (option (string * list (list contr)))) :=
  do gs <- partition_outputs self (combine (seq 0 (length outs)) outs) [] [];
  do r1 <- mapM (exec_self (q_nquad q) nknl points) (fst gs);
  do r2 <- mapM (exec_other q nknl points) (snd gs);
  Ok (put_results (put_results (repeat None (length outs)) (concat r1)) (concat r2)).
