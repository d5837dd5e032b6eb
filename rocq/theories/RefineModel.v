(** Model of the QBX mesh refiner.
    /repo/pytential/qbx/refinement.py lines 107-1078, and the element bookkeeping of
    /repo/pytential/qbx/utils.py lines 288-454 (build_tree_with_qbx_metadata). *)
From Verif Require Import Base.
From Coq Require Import QArith.
Set Implicit Arguments.
Open Scope nat_scope.

(** A [meshmode] discretization: its identity and, for each element group, the number of
    elements and of unit DOFs.  Coordinates and element properties are functions of the
    discretization (see [env]). *)
Record discr := Discr { d_id : nat; d_groups : list (nat * nat) }.

Definition nelements (d : discr) : nat := list_sum (map fst (d_groups d)).
Definition ndofs (d : discr) : nat := list_sum (map (fun g => fst g * snd g) (d_groups d)).

(** Connections: [IdentityDiscretizationConnection], one refinement round (with the flags
    passed to the refiner), [make_same_mesh_connection], [ChainedDiscretizationConnection]. *)
Inductive conn :=
| IdConn (d : discr)
| RefConn (from to : discr) (flags : list bool)
| SameMesh (from to : discr)
| Chained (from : discr) (links : list conn).

Definition conn_from (c : conn) : discr :=
  match c with IdConn d => d | RefConn f _ _ | SameMesh f _ => f | Chained f _ => f end.
Fixpoint conn_to (c : conn) : discr :=
  match c with
  | IdConn d => d
  | RefConn _ t _ | SameMesh _ t => t
  | Chained f links => last (map conn_to links) f
  end.

(** refinement.py 110-143: QBXRefinementMode. *)
Inductive rmode := REFINE | NO_REFINEMENT | ERROR_ON_REFINEMENT.

(** QBXLayerPotentialSource as far as the refiner uses it; [l_fine_nu g] is the number of
    unit DOFs of the fine quadrature on group [g]. *)
Record lpot := Lpot { l_mode : rmode; l_density : discr; l_fine_nu : nat -> nat }.

(** A tree with QBX metadata: sources and centers of each box, and the boxes that the area
    query visits for a ball (numbered as the kernel's work items). *)
Record tree := Tree { t_sources : nat -> list nat; t_centers : nat -> list nat; t_visit : nat -> list nat }.

Definition pt := list Q.

(** Everything the refiner is given by the geometry, the tree builder and the mesh refiner.
    [e_refine] gets the number of earlier refiner calls, so its results may change over
    time; [e_order] is the order in which a device runs [n] work items. *)
Record env := Env {
  e_dist : pt -> pt -> Q;
  e_node : discr -> nat -> pt;            (* nodes *)
  e_center : discr -> nat -> pt;          (* interleaved expansion centers *)
  e_radius : discr -> nat -> Q;           (* expansion radius of each node *)
  e_quad_res : discr -> nat -> Q;         (* elementwise maximal quadrature resolution *)
  e_curvature : discr -> nat -> Q;        (* elementwise maximal scaled curvature *)
  e_danger : discr -> nat -> Q;           (* elementwise maximal danger zone radius *)
  e_tree1 : discr -> tree;
  e_tree2 : discr -> discr -> tree;
  e_refine : nat -> discr -> list bool -> result discr;
  e_quad_id : nat -> nat;
  e_order : nat -> list nat }.

(** qbx/utils.py 404-418: [qbx_element_to_source_starts] (np.arange per group, then the
    total number of sources in the last entry). *)
Fixpoint group_starts (base : nat) (gs : list (nat * nat)) : list nat :=
  match gs with
  | [] => [base]
  | (nel, nu) :: gs' => map (fun k => base + k * nu) (seq 0 nel) ++ group_starts (base + nel * nu) gs'
  end.
Definition element_to_source_starts (d : discr) : list nat := group_starts 0 (d_groups d).
(** qbx/utils.py 420-424. *)
Definition element_to_center_starts (d : discr) : list nat :=
  map (fun s => 2 * s) (element_to_source_starts d).

(** boxtree's InlineBinarySearch: the largest index whose entry is at most [v]. *)
Definition bsearch (l : list nat) (v : nat) : nat :=
  match find (fun i => nth i l 0 <=? v) (rev (seq 0 (length l))) with
  | Some i => i
  | None => 0
  end.

Definition set_flag (flags : list bool) (i : nat) : list bool :=
  firstn i flags ++ match skipn i flags with [] => [] | _ :: r => true :: r end.

(** A device kernel: every work item may set one flag (atomically) and the found mark. *)
Definition run_kernel (order : list nat) (hit : nat -> option nat) (flags : list bool) : list bool * bool :=
  fold_left (fun '(fl, found) i =>
               match hit i with Some e => (set_flag fl e, true) | None => (fl, found) end)
            order (flags, false).

(** refinement.py 296-320 and 503-528: [check_element_prop_threshold]. *)
Definition check_prop (E : env) (n : nat) (prop : nat -> Q) (threshold : Q) (flags : list bool) : list bool * bool :=
  run_kernel (e_order E n)
    (fun i => if Qle_bool (prop i) threshold then None else Some i) flags.

(** refinement.py 155-207 and 367-436: [check_expansion_disks_undisturbed_by_sources].
    Interleaving the radii with themselves gives center [c] the radius of node [c/2]. *)
Definition check_disks (E : env) (d : discr) (t : tree) (tol : Q) (flags : list bool) : list bool * bool :=
  run_kernel (e_order E (2 * ndofs d))
    (fun c =>
       let r := ((1 - tol) * e_radius E d (c / 2))%Q in
       if existsb (fun b =>
            existsb (fun s => Qle_bool (e_dist E (e_center E d c) (e_node E d s)) r) (t_sources t b))
          (t_visit t c)
       then Some (bsearch (element_to_center_starts d) c) else None) flags.

(** refinement.py 210-262 and 438-501: [check_sufficient_source_quadrature_resolution];
    [q] is the quad-stage-2 discretization the tree was built with. *)
Definition check_quad (E : env) (d1 d2 q : discr) (t : tree) (flags : list bool) : list bool * bool :=
  run_kernel (e_order E (ndofs q))
    (fun s =>
       let e := bsearch (element_to_source_starts q) s in
       let r := e_danger E d2 e in
       if existsb (fun b =>
            existsb (fun c => Qle_bool (e_dist E (e_node E q s) (e_center E d1 c)) r) (t_centers t b))
          (t_visit t s)
       then Some e else None) flags.

(** refinement.py 558-567: [make_empty_refine_flags]. *)
Definition empty_flags (d : discr) : list bool := repeat false (nelements d).

(** refinement.py 635-640: [_make_quad_stage2_discr] (same mesh, fine quadrature). *)
Definition make_quad (E : env) (l : lpot) (clk : nat) (d : discr) : discr :=
  Discr (e_quad_id E clk)
    (map (fun '(g, (nel, _)) => (nel, l_fine_nu l g)) (combine (seq 0 (length (d_groups d))) (d_groups d))).

(** A loop's outcome: last discretization, connections of all rounds, whether
    RefinerNotConvergedWarning was issued, and the number of refiner calls so far. *)
Record outcome := Out { o_discr : discr; o_links : list conn; o_warn : bool; o_clk : nat }.

(** The optional criteria of stage 1. *)
Record crit1 := Crit1 { k_length : option Q; k_curv : option Q; k_tol : Q }.

(** refinement.py 702-764: the checks of one stage-1 round; returns flags and whether any
    criterion was violated. *)
Definition stage1_checks (E : env) (k : crit1) (d : discr) : list bool * bool :=
  let f0 := empty_flags d in
  let '(f1, v1) := match k_length k with
                   | Some th => check_prop E (nelements d) (e_quad_res E d) th f0
                   | None => (f0, false) end in
  let '(f2, v2) := match k_curv k with
                   | Some th => check_prop E (nelements d) (e_curvature E d) th f1
                   | None => (f1, false) end in
  if v1 || v2 then (f2, true)
  else check_disks E d (e_tree1 E d) (k_tol k) f2.

(** The refinement loops of both stages: refinement.py 692-786 and 820-869.  [fuel] is
    [maxiter - (niter - 1)] (a negative maxiter behaves like 0). *)
Fixpoint refine_loop (E : env) (mode : rmode) (checks : nat -> discr -> list bool * bool)
    (fuel clk : nat) (d : discr) : result outcome :=
  match fuel with
  | 0 => Ok (Out d [] true clk)
  | S fuel' =>
    let '(flags, violated) := checks clk d in
    if violated then
      match mode with
      | ERROR_ON_REFINEMENT => Err RefinementNeeded
      | _ =>
        do d' <- e_refine E clk d flags;
        do o <- refine_loop E mode checks fuel' (S clk) d';
        Ok (Out (o_discr o) (RefConn d d' flags :: o_links o) (o_warn o) (o_clk o))
      end
    else Ok (Out d [] false clk)
  end.

(** What a stage returns: discretization, connection, warning issued, clock. *)
Definition staged := (discr * conn * bool * nat)%type.

(** refinement.py 667-794: [_refine_qbx_stage1]. *)
Definition refine_stage1 (E : env) (l : lpot) (k : crit1) (maxiter clk : nat) (d : discr) : result staged :=
  match l_mode l with
  | NO_REFINEMENT => Ok (d, IdConn d, false, clk)
  | m =>
    do o <- refine_loop E m (fun _ x => stage1_checks E k x) maxiter clk d;
    Ok (o_discr o, Chained d (o_links o), o_warn o, o_clk o)
  end.

(** refinement.py 871-878: the forced uniform rounds. *)
Fixpoint uniform_rounds (E : env) (n clk : nat) (d : discr) : result outcome :=
  match n with
  | 0 => Ok (Out d [] false clk)
  | S n' =>
    let flags := repeat true (nelements d) in
    do d' <- e_refine E clk d flags;
    do o <- uniform_rounds E n' (S clk) d';
    Ok (Out (o_discr o) (RefConn d d' flags :: o_links o) false (o_clk o))
  end.

(** refinement.py 829-850: the check of one stage-2 round, on a tree of the temporary
    collection's quad-stage-2 discretization. *)
Definition stage2_checks (E : env) (l : lpot) (d1 : discr) (clk : nat) (d2 : discr) : list bool * bool :=
  check_quad E d1 d2 (make_quad E l clk d2) (e_tree2 E d1 (make_quad E l clk d2)) (empty_flags d2).

(** refinement.py 797-884: [_refine_qbx_stage2]. *)
Definition refine_stage2 (E : env) (l : lpot) (rounds maxiter clk : nat) (d1 : discr) : result staged :=
  match l_mode l with
  | NO_REFINEMENT => Ok (d1, IdConn d1, false, clk)
  | m =>
    do o <- refine_loop E m (stage2_checks E l d1) maxiter clk d1;
    do u <- uniform_rounds E rounds (o_clk o) (o_discr o);
    Ok (o_discr u, Chained d1 (o_links o ++ o_links u), o_warn o, o_clk u)
  end.

(** refinement.py 887-893: [_refine_qbx_quad_stage2]. *)
Definition refine_quad (E : env) (l : lpot) (clk : nat) (d2 : discr) : staged :=
  let q := make_quad E l clk d2 in (q, SameMesh d2 q, false, S clk).
