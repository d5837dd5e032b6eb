(** Model of the device kernels of target association (/repo/pytential/qbx/target_assoc.py
    185-426) and of the mesh refiner (/repo/pytential/qbx/refinement.py 155-262 and 323-346),
    and of their callers, on the machine of KrnModel.v: work items are distributed over workers
    in any way and their elementary steps interleave arbitrarily.

    The area query template of boxtree is a loop over the leaf boxes the query visits.  C's
    [break] is a private variable that switches off the rest of the loop, [continue] an
    enclosing conditional.  Arrays of one length that every work item uses at its own index
    are one array of records.  The output flag (found_...) is cell 0 of the array, before the
    flags or statuses proper. *)
From Coq Require Import QArith Permutation.
From Verif Require Import Base RefineModel AssocModel KrnModel.
Set Implicit Arguments.
Open Scope string_scope. Open Scope list_scope. Open Scope nat_scope.

(** target_assoc.py 152-159: target_status_enum. *)
Definition UNMARKED : Z := 0.
Definition PENDING : Z := 1.
Definition FOUND : Z := 2.

Section Ak.
Variable junk : nat.
Notation num := (num junk).
Notation int := (int junk).
Definition rat (p : env) (x : string) : Q := match p x with VRat q => q | _ => Z.of_nat junk # 1 end.
(** A floating-point number that may be infinite (None). *)
Definition xrat (p : env) (x : string) : option Q := match p x with VRat q => Some q | VInf => None | _ => Some (Z.of_nat junk # 1) end.
Definition ptv (p : env) (x : string) : pt := match p x with VPt v => v | _ => [] end.
Definition rat_at (l : list Q) (i : nat) : value := match nth_error l i with Some q => VRat q | None => VJunk end.
Definition pt_at (l : list pt) (i : nat) : value := match nth_error l i with Some x => VPt x | None => VJunk end.
Definition of_xrat (o : option Q) : value := match o with Some q => VRat q | None => VInf end.
(** [<] on such numbers. *)
Definition xlt (a b : option Q) : bool :=
  match a, b with Some a, Some b => negb (Qle_bool b a) | Some _, None => true | None, _ => false end.

(** utils.py 55-76: INDEX_FOR_*_PARTICLE and load_particle. *)
Definition load_particle (sorted_target_ids : list nat) (particles : list pt) (offset i : nat) : value :=
  match nth_error sorted_target_ids (offset + i) with Some j => pt_at particles j | None => VJunk end.

(** boxtree's AreaQueryElementwiseTemplate: [ball] sets ball_center and ball_radius, [leaf] is
    leaf_found_op.  [visit] is the query. *)
Definition area_query (R : Type) (visit : pt -> Q -> list nat) (ball leaf : cmd R) : cmd R :=
  Block [ball;
    For "ileaf" (fun _ => 0) (fun p => length (visit (ptv p "ball_center") (rat p "ball_radius"))) (Block [
      Let "leaf_box_id" (fun p => num_at (visit (ptv p "ball_center") (rat p "ball_radius")) (num p "ileaf"));
      leaf])].

(** target_assoc.py 204-213, 263-272, 392-401: ball_center_and_radius_expr.  [box_of] is
    find_guiding_box with radius 0. *)
Definition guiding_ball (R : Type) (box_of : pt -> nat) (box_centers : list pt) (target_offset : nat)
    (sorted_target_ids : list nat) (box_to_search_dist : list Q) (particles : list pt) : cmd R :=
  Block [
    Let "tgt_coords" (fun p => load_particle sorted_target_ids particles target_offset (num p "i"));
    Let "my_box" (fun p => VNum (box_of (ptv p "tgt_coords")));
    Let "ball_center" (fun p => pt_at box_centers (num p "my_box"));
    Let "ball_radius" (fun p => rat_at box_to_search_dist (num p "my_box"))].

Section Assoc.
Variable dist : pt -> pt -> Q.
Variable visit : pt -> Q -> list nat.
Variable box_of : pt -> nat.
Variable box_centers : list pt.

(** target_assoc.py 185-232 (QBX_TARGET_MARKER).  Cell 0 is found_target_close_to_element, cell
    [1 + i] is target_status[i]. *)
Definition mark_knl (box_to_source_starts box_to_source_lists : list nat) (source_offset target_offset : nat)
    (sorted_target_ids : list nat) (tunnel_radius_by_source box_to_search_dist : list Q) (particles : list pt) : kernel Z :=
  Kernel "i" (area_query visit
    (guiding_ball Z box_of box_centers target_offset sorted_target_ids box_to_search_dist particles)
    (Block [
      Let "start" (fun p => num_at box_to_source_starts (num p "leaf_box_id"));
      Let "stop" (fun p => num_at box_to_source_starts (num p "leaf_box_id" + 1));
      For "source_idx" (fun p => num p "start") (fun p => num p "stop") (Block [
        Let "source" (fun p => num_at box_to_source_lists (num p "source_idx"));
        Let "source_coords" (fun p => load_particle sorted_target_ids particles source_offset (num p "source"));
        Let "radius" (fun p => rat_at tunnel_radius_by_source (num p "source"));
        If (fun p => Qle_bool (dist (ptv p "source_coords") (ptv p "tgt_coords")) (rat p "radius")) (Block [
          Store (fun p => 1 + num p "i") (fun _ _ => PENDING);
          Store (fun _ => 0) (fun _ old => Z.lor old 1)])])])) false.

(** The arrays of the center finder at one target. *)
Record fcell := FCell {
  fc_status : Z; fc_center : Z; fc_plus : Z; fc_minus : Z;
  fc_dplus : option Q; fc_dminus : option Q; fc_rplus : option Q; fc_rminus : option Q }.
Definition with_status (z : Z) (c : fcell) := FCell z (fc_center c) (fc_plus c) (fc_minus c) (fc_dplus c) (fc_dminus c) (fc_rplus c) (fc_rminus c).
Definition with_center (z : Z) (c : fcell) := FCell (fc_status c) z (fc_plus c) (fc_minus c) (fc_dplus c) (fc_dminus c) (fc_rplus c) (fc_rminus c).
Definition with_plus (z : Z) (c : fcell) := FCell (fc_status c) (fc_center c) z (fc_minus c) (fc_dplus c) (fc_dminus c) (fc_rplus c) (fc_rminus c).
Definition with_minus (z : Z) (c : fcell) := FCell (fc_status c) (fc_center c) (fc_plus c) z (fc_dplus c) (fc_dminus c) (fc_rplus c) (fc_rminus c).
Definition with_dplus (x : Q) (c : fcell) := FCell (fc_status c) (fc_center c) (fc_plus c) (fc_minus c) (Some x) (fc_dminus c) (fc_rplus c) (fc_rminus c).
Definition with_dminus (x : Q) (c : fcell) := FCell (fc_status c) (fc_center c) (fc_plus c) (fc_minus c) (fc_dplus c) (Some x) (fc_rplus c) (fc_rminus c).
Definition with_rplus (x : Q) (c : fcell) := FCell (fc_status c) (fc_center c) (fc_plus c) (fc_minus c) (fc_dplus c) (fc_dminus c) (Some x) (fc_rminus c).
Definition with_rminus (x : Q) (c : fcell) := FCell (fc_status c) (fc_center c) (fc_plus c) (fc_minus c) (fc_dplus c) (fc_dminus c) (fc_rplus c) (Some x).
Definition cell_get (f : fcell -> value) (o : option fcell) : value := match o with Some c => f c | None => VJunk end.

(** target_assoc.py 235-367 (QBX_CENTER_FINDER). *)
Definition find_knl (box_to_center_starts box_to_center_lists : list nat) (center_offset target_offset : nat)
    (sorted_target_ids : list nat) (expansion_radii_by_center_with_tolerance box_to_search_dist : list Q)
    (target_flags : list Z) (particles : list pt) : kernel fcell :=
  let me := fun p => num p "i" in
  Kernel "i" (area_query visit
    (guiding_ball fcell box_of box_centers target_offset sorted_target_ids box_to_search_dist particles)
    (Block [
      Load "status" me (cell_get (fun c => VInt (fc_status c)));
      If (fun p => (int p "status" =? PENDING)%Z || (int p "status" =? FOUND)%Z) (Block [
        Let "start" (fun p => num_at box_to_center_starts (num p "leaf_box_id"));
        Let "stop" (fun p => num_at box_to_center_starts (num p "leaf_box_id" + 1));
        For "center_idx" (fun p => num p "start") (fun p => num p "stop") (Block [
          Let "center" (fun p => num_at box_to_center_lists (num p "center_idx"));
          Let "center_side" (fun p => VInt (2 * (Z.of_nat (num p "center") mod 2) - 1)%Z);
          Let "flag" (fun p => int_at target_flags (num p "i"));
          If (fun p => negb (int p "center_side" * int p "flag" <? 0)%Z) (Block [
            Let "center_coords" (fun p => load_particle sorted_target_ids particles center_offset (num p "center"));
            Let "my_dist_to_center" (fun p => VRat (dist (ptv p "tgt_coords") (ptv p "center_coords")));
            Let "radius" (fun p => rat_at expansion_radii_by_center_with_tolerance (num p "center"));
            Let "my_rel_dist_to_center" (fun p => VRat (rat p "my_dist_to_center" / rat p "radius")%Q);
            If (fun p => Qle_bool (rat p "my_rel_dist_to_center") 1) (Block [
              If (fun p => (0 <? int p "center_side")%Z) (Block [
                Load "min" me (cell_get (fun c => of_xrat (fc_rplus c)));
                If (fun p => xlt (Some (rat p "my_rel_dist_to_center")) (xrat p "min")) (Block [
                  Store me (fun _ => with_status FOUND);
                  Store me (fun p => with_rplus (rat p "my_rel_dist_to_center"));
                  Store me (fun p => with_dplus (rat p "my_dist_to_center"));
                  Store me (fun p => with_plus (Z.of_nat (num p "center")))])]);
              If (fun p => negb (0 <? int p "center_side")%Z) (Block [
                Load "min" me (cell_get (fun c => of_xrat (fc_rminus c)));
                If (fun p => xlt (Some (rat p "my_rel_dist_to_center")) (xrat p "min")) (Block [
                  Store me (fun _ => with_status FOUND);
                  Store me (fun p => with_rminus (rat p "my_rel_dist_to_center"));
                  Store me (fun p => with_dminus (rat p "my_dist_to_center"));
                  Store me (fun p => with_minus (Z.of_nat (num p "center")))])])])])]);
        Load "dplus" me (cell_get (fun c => of_xrat (fc_dplus c)));
        Load "dminus" me (cell_get (fun c => of_xrat (fc_dminus c)));
        Let "plus_closer" (fun p => VNum (if xlt (xrat p "dplus") (xrat p "dminus") then 1 else 0));
        If (fun p => num p "plus_closer" =? 1) (Block [
          Load "winner" me (cell_get (fun c => VInt (fc_plus c)));
          Store me (fun p => with_center (int p "winner"))]);
        If (fun p => negb (num p "plus_closer" =? 1)) (Block [
          Load "winner" me (cell_get (fun c => VInt (fc_minus c)));
          Store me (fun p => with_center (int p "winner"))])])])) false.

(** target_assoc.py 370-426 (QBX_FAILED_TARGET_ASSOCIATION_REFINER).  Cell 0 is
    found_element_to_refine, cell [1 + e] is refine_flags[e]. *)
Definition refine_knl (box_to_source_starts box_to_source_lists element_to_source_starts : list nat) (source_offset target_offset : nat)
    (sorted_target_ids : list nat) (tunnel_radius_by_source : list Q) (target_status : list Z) (box_to_search_dist : list Q)
    (particles : list pt) : kernel bool :=
  Kernel "i" (area_query visit
    (guiding_ball bool box_of box_centers target_offset sorted_target_ids box_to_search_dist particles)
    (Block [
      Let "start" (fun p => num_at box_to_source_starts (num p "leaf_box_id"));
      Let "stop" (fun p => num_at box_to_source_starts (num p "leaf_box_id" + 1));
      For "source_idx" (fun p => num p "start") (fun p => num p "stop") (Block [
        Let "source" (fun p => num_at box_to_source_lists (num p "source_idx"));
        Let "source_coords" (fun p => load_particle sorted_target_ids particles source_offset (num p "source"));
        Let "radius" (fun p => rat_at tunnel_radius_by_source (num p "source"));
        Let "status" (fun p => int_at target_status (num p "i"));
        If (fun p => Qle_bool (dist (ptv p "tgt_coords") (ptv p "source_coords")) (rat p "radius") && (int p "status" =? PENDING)%Z) (Block [
          Let "element" (fun p => VNum (bsearch element_to_source_starts (num p "source")));
          Store (fun p => 1 + num p "element") (fun _ old => old || true);
          Store (fun _ => 0) (fun _ old => old || true)])])])) false.
End Assoc.

Section Refine.
Variable dist : pt -> pt -> Q.
Variable visit : pt -> Q -> list nat.

(** refinement.py 155-207 (EXPANSION_DISK_UNDISTURBED_BY_SOURCES_CHECKER); cell 0 is
    found_element_to_refine, cell [1 + e] is element_refine_flags[e]. *)
Definition disks_knl (box_to_source_starts box_to_source_lists element_to_center_starts : list nat) (source_offset center_offset : nat)
    (sorted_target_ids : list nat) (center_danger_zone_radii : list Q) (expansion_disturbance_tolerance : Q)
    (particles : list pt) : kernel bool :=
  Kernel "i" (area_query visit
    (Block [
      Let "icenter" (fun p => p "i");
      Let "ball_center" (fun p => load_particle sorted_target_ids particles center_offset (num p "icenter"));
      Let "zone" (fun p => rat_at center_danger_zone_radii (num p "icenter"));
      Let "ball_radius" (fun p => VRat ((1 - expansion_disturbance_tolerance) * rat p "zone")%Q)])
    (Block [
      Let "start" (fun p => num_at box_to_source_starts (num p "leaf_box_id"));
      Let "stop" (fun p => num_at box_to_source_starts (num p "leaf_box_id" + 1));
      Let "broken" (fun _ => VNum 0);
      For "source_idx" (fun p => num p "start") (fun p => num p "stop") (
        If (fun p => num p "broken" =? 0) (Block [
          Let "source" (fun p => num_at box_to_source_lists (num p "source_idx"));
          Let "center_element" (fun p => VNum (bsearch element_to_center_starts (num p "icenter")));
          Let "source_coords" (fun p => load_particle sorted_target_ids particles source_offset (num p "source"));
          Let "zone" (fun p => rat_at center_danger_zone_radii (num p "icenter"));
          If (fun p => Qle_bool (dist (ptv p "ball_center") (ptv p "source_coords")) ((1 - expansion_disturbance_tolerance) * rat p "zone")%Q) (Block [
            Store (fun p => 1 + num p "center_element") (fun _ old => old || true);
            Store (fun _ => 0) (fun _ old => old || true);
            Let "broken" (fun _ => VNum 1)])]))])) false.

(** refinement.py 210-262 (SUFFICIENT_SOURCE_QUADRATURE_RESOLUTION_CHECKER). *)
Definition quad_knl (box_to_center_starts box_to_center_lists element_to_source_starts : list nat) (source_offset center_offset : nat)
    (sorted_target_ids : list nat) (source_danger_zone_radii_by_element : list Q) (particles : list pt) : kernel bool :=
  Kernel "i" (area_query visit
    (Block [
      Let "current_element" (fun p => VNum (bsearch element_to_source_starts (num p "i")));
      Let "ball_center" (fun p => load_particle sorted_target_ids particles source_offset (num p "i"));
      Let "ball_radius" (fun p => rat_at source_danger_zone_radii_by_element (num p "current_element"))])
    (Block [
      Let "start" (fun p => num_at box_to_center_starts (num p "leaf_box_id"));
      Let "stop" (fun p => num_at box_to_center_starts (num p "leaf_box_id" + 1));
      Let "broken" (fun _ => VNum 0);
      For "center_idx" (fun p => num p "start") (fun p => num p "stop") (
        If (fun p => num p "broken" =? 0) (Block [
          Let "center" (fun p => num_at box_to_center_lists (num p "center_idx"));
          Let "center_coords" (fun p => load_particle sorted_target_ids particles center_offset (num p "center"));
          Let "zone" (fun p => rat_at source_danger_zone_radii_by_element (num p "current_element"));
          If (fun p => Qle_bool (dist (ptv p "ball_center") (ptv p "center_coords")) (rat p "zone")) (Block [
            Store (fun p => 1 + num p "current_element") (fun _ old => old || true);
            Store (fun _ => 0) (fun _ old => old || true);
            Let "broken" (fun _ => VNum 1)])]))])) false.
End Refine.

(** refinement.py 296-320 (element_prop_threshold_checker); cell 0 is refine_flags_updated. *)
Definition threshold_knl (element_property : list Q) (threshold : Q) : kernel bool :=
  Kernel "ielement" (Block [
    Let "property" (fun p => rat_at element_property (num p "ielement"));
    If (fun p => negb (Qle_bool (rat p "property") threshold)) (Block [
      Store (fun p => 1 + num p "ielement") (fun _ _ => true);
      Store (fun _ => 0) (fun _ _ => true)])]) false.

(** ** Target association *)

(** The arrays of a tree with [nb] boxes. *)
Definition box_rows (nb : nat) (f : nat -> list nat) : list (list nat) := map f (seq 0 nb).
Definition nparticles (q : qtree) : nat := q_nsrc q + q_nctr q + q_ntgt q.
Definition sorted_ids (q : qtree) : list nat := map (bt_sorted (qt q)) (seq 0 (nparticles q)).
Definition coords (q : qtree) : list pt := map (bt_coords (qt q)) (seq 0 (nparticles q)).
Definition tree_box_centers (nb : nat) (q : qtree) : list pt := map (bt_center (qt q)) (seq 0 nb).

Section Callers.
Variable D : device.
Variable nb : nat.
Variable q : qtree.
Definition source_rows : list (list nat) := box_rows nb (box_sources q).
Definition center_rows : list (list nat) := box_rows nb (AssocModel.box_centers q).
(** target_assoc.py 534-635 (mark_targets): outcomes with the marks in [st]. *)
Definition dev_mark (tunnel : nat -> Q) (st : list Z) : Prop :=
  launch (mark_knl (dv_dist D) (dv_visit D (qt q)) (bt_box_of (qt q)) (tree_box_centers nb q)
            (csr_starts source_rows) (csr_lists source_rows) (src_start q) (tgt_start q) (sorted_ids q)
            (map tunnel (seq 0 (q_nsrc q))) (map (dv_invader D (qt q) (invader_sources q tunnel)) (seq 0 nb)) (coords q))
    (q_ntgt q) (0%Z :: repeat UNMARKED (q_ntgt q)) st.
(** target_assoc.py 637-748 (find_centers). *)
Definition dev_find (radius : nat -> Q) (flags : list Z) (status : list Z) (cs : list fcell) : Prop :=
  launch (find_knl (dv_dist D) (dv_visit D (qt q)) (bt_box_of (qt q)) (tree_box_centers nb q)
            (csr_starts center_rows) (csr_lists center_rows) (ctr_start q) (tgt_start q) (sorted_ids q)
            (map radius (seq 0 (q_nctr q))) (map (dv_invader D (qt q) (invader_centers q radius)) (seq 0 nb)) flags (coords q))
    (q_ntgt q) (map (fun s => FCell s (-1) (-1) (-1) None None None None) status) cs.
(** target_assoc.py 750-825 (mark_elements_for_refinement). *)
Definition dev_refine (d : discr) (tunnel : nat -> Q) (status : list Z) (fl : list bool) : Prop :=
  launch (refine_knl (dv_dist D) (dv_visit D (qt q)) (bt_box_of (qt q)) (tree_box_centers nb q)
            (csr_starts source_rows) (csr_lists source_rows) (element_to_source_starts d) (src_start q) (tgt_start q) (sorted_ids q)
            (map tunnel (seq 0 (q_nsrc q))) status (map (dv_invader D (qt q) (invader_refine q tunnel)) (seq 0 nb)) (coords q))
    (q_ntgt q) (false :: repeat false (nelements d)) fl.
End Callers.

Definition decode_center (z : Z) : option nat := if (z <? 0)%Z then None else Some (Z.to_nat z).
(** target_assoc.py 853-952 (associate_targets_to_qbx_centers): the possible outcomes. *)
Definition dev_associate (D : device) (nb : nat) (d : discr) (sources centers : list pt)
    (targets : list (list pt * sides)) (T : btree) (tunnel radius : nat -> Q) (tol : Q) (out : assoc_outcome) : Prop :=
  match build_tree sources centers (map fst targets) T with
  | Err e => out = Raised e
  | Ok q =>
    exists st, dev_mark D nb q tunnel st /\
    if negb (nth 0 st 0%Z =? 1)%Z then out = Associated (repeat None (q_ntgt q)) else
    match target_flags (map (fun t => (length (fst t), snd t)) targets) with
    | Err e => out = Raised e
    | Ok flags =>
      exists cs, dev_find D nb q (fun c => (radius (c / 2)%nat * (1 + tol))%Q) flags (tl st) cs /\
      let not_found := map (fun c => (fc_status c =? PENDING)%Z) cs in
      if existsb (fun x => x) not_found then
        exists fl, dev_refine D nb q d tunnel (map fc_status cs) fl /\
        out = if hd false fl then Failed (tl fl) not_found else Raised AssertionError
      else out = Associated (map (fun c => decode_center (fc_center c)) cs)
    end
  end.

(** ** The refiner *)
Notation renv := RefineModel.env.
Section Refiner.
Variable D : device.
Variable nb : btree -> nat.
Variable E : renv.
(** What build_tree_with_qbx_metadata makes of a stage-1 discretization (utils.py 288-454,
    no targets) and of a quad-stage-2 discretization with the centers of stage 1. *)
Definition nodes (d : discr) : list pt := map (e_node E d) (seq 0 (ndofs d)).
Definition ctrs (d : discr) : list pt := map (e_center E d) (seq 0 (2 * ndofs d)).
Definition qtree1 (T : btree) (d : discr) : qtree := QT T (ndofs d) (2 * ndofs d) 0.
Definition qtree2 (T : btree) (d1 q : discr) : qtree := QT T (ndofs q) (2 * ndofs d1) 0.
(** refinement.py 367-436 *)
Definition dev_disks (T : btree) (d : discr) (tol : Q) (flags r : list bool) (found : bool) : Prop :=
  let q := qtree1 T d in
  launch (disks_knl (dv_dist D) (dv_visit D T) (csr_starts (source_rows (nb T) q)) (csr_lists (source_rows (nb T) q))
            (element_to_center_starts d) (src_start q) (ctr_start q) (sorted_ids q)
            (map (fun c => e_radius E d (c / 2)) (seq 0 (2 * ndofs d))) tol (coords q))
    (q_nctr q) (false :: flags) (found :: r).
(** refinement.py 438-501 *)
Definition dev_quad (T : btree) (d1 d2 quad : discr) (flags r : list bool) (found : bool) : Prop :=
  let q := qtree2 T d1 quad in
  launch (quad_knl (dv_dist D) (dv_visit D T) (csr_starts (center_rows (nb T) q)) (csr_lists (center_rows (nb T) q))
            (element_to_source_starts quad) (src_start q) (ctr_start q) (sorted_ids q)
            (map (e_danger E d2) (seq 0 (nelements d2))) (coords q))
    (q_nsrc q) (false :: flags) (found :: r).
(** refinement.py 503-528 *)
Definition dev_threshold (n : nat) (prop : nat -> Q) (threshold : Q) (flags r : list bool) (found : bool) : Prop :=
  launch (threshold_knl (map prop (seq 0 n)) threshold) n (false :: flags) (found :: r).

(** refinement.py 702-764 *)
Definition dev_stage1_checks (tree_of : discr -> btree) (k : crit1) (d : discr) (r : list bool) (violated : bool) : Prop :=
  exists f1 v1 f2 v2,
    match k_length k with
    | Some th => dev_threshold (nelements d) (e_quad_res E d) th (empty_flags d) f1 v1
    | None => f1 = empty_flags d /\ v1 = false end /\
    match k_curv k with
    | Some th => dev_threshold (nelements d) (e_curvature E d) th f1 f2 v2
    | None => f2 = f1 /\ v2 = false end /\
    if v1 || v2 then r = f2 /\ violated = true
    else dev_disks (tree_of d) d (k_tol k) f2 r violated.
(** refinement.py 829-850 *)
Definition dev_stage2_checks (tree_of : discr -> discr -> btree) (l : lpot) (d1 : discr) (clk : nat) (d2 : discr) (r : list bool) (violated : bool) : Prop :=
  dev_quad (tree_of d1 (make_quad E l clk d2)) d1 d2 (make_quad E l clk d2) (empty_flags d2) r violated.

(** refinement.py 692-786 and 820-869: as [refine_loop], with the checks on the device. *)
Fixpoint dev_loop (mode : rmode) (checks : nat -> discr -> list bool -> bool -> Prop) (fuel clk : nat) (d : discr) (out : result outcome) : Prop :=
  match fuel with
  | 0 => out = Ok (Out d [] true clk)
  | S fuel' =>
    exists flags violated, checks clk d flags violated /\
    if violated then
      match mode with
      | ERROR_ON_REFINEMENT => out = Err RefinementNeeded
      | _ => match e_refine E clk d flags with
             | Err e => out = Err e
             | Ok d' => exists r, dev_loop mode checks fuel' (S clk) d' r /\
                 out = match r with
                       | Err e => Err e
                       | Ok o => Ok (Out (o_discr o) (RefConn d d' flags :: o_links o) (o_warn o) (o_clk o))
                       end
             end
      end
    else out = Ok (Out d [] false clk)
  end.
(** refinement.py 667-794 *)
Definition dev_stage1 (tree_of : discr -> btree) (l : lpot) (k : crit1) (maxiter clk : nat) (d : discr) (out : result staged) : Prop :=
  match l_mode l with
  | NO_REFINEMENT => out = Ok (d, IdConn d, false, clk)
  | m => exists r, dev_loop m (fun _ x => dev_stage1_checks tree_of k x) maxiter clk d r /\
      out = match r with Err e => Err e | Ok o => Ok (o_discr o, Chained d (o_links o), o_warn o, o_clk o) end
  end.
(** refinement.py 797-884 *)
Definition dev_stage2 (tree_of : discr -> discr -> btree) (l : lpot) (rounds maxiter clk : nat) (d1 : discr) (out : result staged) : Prop :=
  match l_mode l with
  | NO_REFINEMENT => out = Ok (d1, IdConn d1, false, clk)
  | m => exists r, dev_loop m (fun c x => dev_stage2_checks tree_of l d1 c x) maxiter clk d1 r /\
      match r with
      | Err e => out = Err e
      | Ok o => out = match uniform_rounds E rounds (o_clk o) (o_discr o) with
                      | Err e => Err e
                      | Ok u => Ok (o_discr u, Chained d1 (o_links o ++ o_links u), o_warn o, o_clk u)
                      end
      end
  end.
End Refiner.
End Ak.
