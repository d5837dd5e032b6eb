(** Model of the tree with QBX metadata (/repo/pytential/qbx/utils.py lines 51-78 and
    288-454) and of target association (/repo/pytential/qbx/target_assoc.py lines
    150-956). *)
From Coq Require Import QArith.
From Verif Require Import Base RefineModel.
Set Implicit Arguments.
Open Scope nat_scope.

(** boxtree's Tree as delivered by the tree builder: particle coordinates in tree order,
    [sorted_target_ids] (user number to tree position), [user_source_ids] (tree position to
    user number), the tree positions in each leaf box, box centers, and the leaf box of a
    point ([find_guiding_box] with radius 0). *)
Record btree := BT {
  bt_coords : nat -> pt;
  bt_sorted : nat -> nat;
  bt_user : nat -> nat;
  bt_leaf : nat -> list nat;
  bt_center : nat -> pt;
  bt_box_of : pt -> nat }.

(** The device: the distance used by the kernels, boxtree's space invader query (balls to a
    search distance per box) and area query (leaf boxes near a point). *)
Record device := Dev {
  dv_dist : pt -> pt -> Q;
  dv_invader : btree -> list (pt * Q) -> nat -> Q;
  dv_visit : btree -> pt -> Q -> list nat }.

(** utils.py 372-398: the user numbers of the particles of leaf box [b] with flag set (user
    numbers [lo] to [lo + n]), then the fixup [-lo].  [filter_target_lists_in_user_order]
    lists user numbers. *)
Definition box_class (T : btree) (lo n b : nat) : list nat :=
  map (fun u => u - lo) (filter (fun u => (lo <=? u) && (u <? lo + n)) (map (bt_user T) (bt_leaf T b))).

(** TreeWithQBXMetadata: counts and slices (utils.py 340-358); sources first, then centers,
    then targets. *)
Record qtree := QT { qt : btree; q_nsrc : nat; q_nctr : nat; q_ntgt : nat }.
Definition src_start (q : qtree) : nat := 0.
Definition ctr_start (q : qtree) : nat := q_nsrc q.
Definition tgt_start (q : qtree) : nat := q_nsrc q + q_nctr q.
Definition box_sources (q : qtree) (b : nat) : list nat := box_class (qt q) (src_start q) (q_nsrc q) b.
Definition box_centers (q : qtree) (b : nat) : list nat := box_class (qt q) (ctr_start q) (q_nctr q) b.
Definition box_targets (q : qtree) (b : nat) : list nat := box_class (qt q) (tgt_start q) (q_ntgt q) b.

(** utils.py 51-66: INDEX_FOR_*_PARTICLE, SIDE_FOR_CENTER_PARTICLE. *)
Definition source_pt (q : qtree) (s : nat) : pt := bt_coords (qt q) (bt_sorted (qt q) (src_start q + s)).
Definition center_pt (q : qtree) (c : nat) : pt := bt_coords (qt q) (bt_sorted (qt q) (ctr_start q + c)).
Definition target_pt (q : qtree) (i : nat) : pt := bt_coords (qt q) (bt_sorted (qt q) (tgt_start q + i)).
Definition center_side (c : nat) : Z := (2 * (Z.of_nat c mod 2) - 1)%Z.

(** utils.py 329-338: the particles given to the tree builder. *)
Definition particles (sources centers : list pt) (targets : list (list pt)) : list pt :=
  sources ++ centers ++ concat targets.
(** utils.py 340-358 (with 347-348: the assertion for stage-1 trees). *)
Definition build_tree (sources centers : list pt) (targets : list (list pt)) (T : btree) : result qtree :=
  if 2 * length sources =? length centers
  then Ok (QT T (length sources) (length centers) (list_sum (map (@length pt) targets)))
  else Err AssertionError.

(** The boxes an area query around target [i] visits: target_assoc.py 205-213, 264-272, 393-401. *)
Definition visited (D : device) (q : qtree) (search : nat -> Q) (i : nat) : list nat :=
  let b := bt_box_of (qt q) (target_pt q i) in
  dv_visit D (qt q) (bt_center (qt q) b) (search b).

(** target_assoc.py 562-563: the points for the space invader query in mark_targets. *)
Definition invader_sources (q : qtree) (tunnel : nat -> Q) : list (pt * Q) :=
  map (fun s => (bt_coords (qt q) (bt_sorted (qt q) (src_start q + s)), tunnel s)) (seq 0 (q_nsrc q)).

(** target_assoc.py 185-232 and 534-635 (mark_targets): whether target [i] gets the status
    MARKED_QBX_CENTER_PENDING.  Work item [i] writes only entry [i]. *)
Definition marked (D : device) (q : qtree) (tunnel : nat -> Q) (i : nat) : bool :=
  existsb (fun b =>
      existsb (fun s => Qle_bool (dv_dist D (source_pt q s) (target_pt q i)) (tunnel s)) (box_sources q b))
    (visited D q (dv_invader D (qt q) (invader_sources q tunnel)) i).

(** The center finder's state for one target: the best center so far on each side (relative
    distance, distance, center); None stands for the initial (infinity, infinity, -1). *)
Definition best := option (Q * Q * nat).
Record fstate := FS { f_plus : best; f_minus : best; f_center : option nat }.

Definition improves (r : Q) (b : best) : bool :=
  match b with None => true | Some (r', _, _) => negb (Qle_bool r' r) end.
(** target_assoc.py 278-346: the loop body for one center; [flag] is the target's side
    request, [radius] the expansion radii by center with tolerance. *)
Definition consider (D : device) (q : qtree) (radius : nat -> Q) (flag : Z) (i : nat) (st : fstate) (c : nat) : fstate :=
  if (center_side c * flag <? 0)%Z then st else
  let d := dv_dist D (target_pt q i) (center_pt q c) in
  let r := (d / radius c)%Q in
  if negb (Qle_bool r 1) then st else
  if (0 <? center_side c)%Z
  then (if improves r (f_plus st) then FS (Some (r, d, c)) (f_minus st) (f_center st) else st)
  else (if improves r (f_minus st) then FS (f_plus st) (Some (r, d, c)) (f_center st) else st).

(** target_assoc.py 349-363: bind to the nearer of the two winners. *)
Definition closer (a b : best) : bool :=
  match a, b with
  | Some (_, d, _), Some (_, d', _) => negb (Qle_bool d' d)
  | Some _, None => true
  | None, _ => false
  end.
Definition winner (b : best) : option nat := match b with Some (_, _, c) => Some c | None => None end.
Definition decide_center (st : fstate) : fstate :=
  FS (f_plus st) (f_minus st) (if closer (f_plus st) (f_minus st) then winner (f_plus st) else winner (f_minus st)).
Definition leaf_step (D : device) (q : qtree) (radius : nat -> Q) (flag : Z) (i : nat) (st : fstate) (b : nat) : fstate :=
  decide_center (fold_left (consider D q radius flag i) (box_centers q b) st).

(** target_assoc.py 662-680: the points for the query in find_centers. *)
Definition invader_centers (q : qtree) (radius : nat -> Q) : list (pt * Q) :=
  map (fun c => (bt_coords (qt q) (bt_sorted (qt q) (ctr_start q + c)), radius c)) (seq 0 (q_nctr q)).
(** target_assoc.py 235-367 and 637-748 (find_centers) for a marked target. *)
Definition find_center (D : device) (q : qtree) (radius : nat -> Q) (flag : Z) (i : nat) : fstate :=
  fold_left (leaf_step D q radius flag i)
    (visited D q (dv_invader D (qt q) (invader_centers q radius)) i) (FS None None None).
Definition found (st : fstate) : bool :=
  match f_plus st, f_minus st with None, None => false | _, _ => true end.

(** target_assoc.py 776-777: mark_elements_for_refinement indexes the tree-order
    coordinates with [user_source_ids]. *)
Definition invader_refine (q : qtree) (tunnel : nat -> Q) : list (pt * Q) :=
  map (fun s => (bt_coords (qt q) (bt_user (qt q) (src_start q + s)), tunnel s)) (seq 0 (q_nsrc q)).
(** target_assoc.py 370-426: the elements flagged on behalf of pending target [i]. *)
Definition elements_near (D : device) (q : qtree) (d : discr) (tunnel : nat -> Q) (i : nat) : list nat :=
  flat_map (fun b =>
      flat_map (fun s => if Qle_bool (dv_dist D (target_pt q i) (source_pt q s)) (tunnel s)
                         then [bsearch (element_to_source_starts d) s] else []) (box_sources q b))
    (visited D q (dv_invader D (qt q) (invader_refine q tunnel)) i).

(** The requested sides of one target discretization: a scalar or an array. *)
Inductive sides := SOne (z : Z) | SArr (l : list Z).
(** target_assoc.py 827-843 (make_target_flags). *)
Fixpoint target_flags (l : list (nat * sides)) : result (list Z) :=
  match l with
  | [] => Ok []
  | (n, s) :: l' =>
    do f <- match s with
            | SOne z => Ok (repeat z n)
            | SArr a => if length a =? n then Ok a else Err AssertionError
            end;
    do fs <- target_flags l';
    Ok (f ++ fs)
  end.

(** Outcomes: the association, QBXTargetAssociationFailedError with its two attributes, or
    another exception. *)
Inductive assoc_outcome :=
| Associated (a : list (option nat))
| Failed (refine_flags failed_target_flags : list bool)
| Raised (e : exn).

(** target_assoc.py 853-952 (associate_targets_to_qbx_centers).  [order] is the order in
    which the work items of the last kernel run; [radius] is by node, interleaved with
    itself (664-673); [d] is the stage-1 discretization. *)
Definition associate (D : device) (order : list nat) (d : discr) (sources centers : list pt)
    (targets : list (list pt * sides)) (T : btree) (tunnel radius : nat -> Q) (tol : Q) : assoc_outcome :=
  match build_tree sources centers (map fst targets) T with
  | Err e => Raised e
  | Ok q =>
    let n := q_ntgt q in
    let pending := map (marked D q tunnel) (seq 0 n) in
    if negb (existsb (fun x => x) pending) then Associated (repeat None n) else
    match target_flags (map (fun t => (length (fst t), snd t)) targets) with
    | Err e => Raised e
    | Ok flags =>
      let rad := fun c => (radius (c / 2)%nat * (1 + tol))%Q in
      let sts := map (fun i => if nth i pending false then find_center D q rad (nth i flags 0%Z) i
                               else FS None None None) (seq 0 n) in
      let failed := map (fun '(p, st) => p && negb (found st)) (combine pending sts) in
      if existsb (fun x => x) failed then
        let hits := flat_map (fun i => if nth i failed false then elements_near D q d tunnel i else []) order in
        let fl := fold_left set_flag hits (repeat false (nelements d)) in
        match hits with
        | [] => Raised AssertionError
        | _ => Failed fl failed
        end
      else Associated (map f_center sts)
    end
  end.
