(** Model of the device kernels of the sumpy backend: /repo/pytential/qbx/interactions.py
    (P2QBXLFromCSR, M2QBXL, L2QBXL, QBXL2P), of the index kernels of
    /repo/pytential/qbx/geometry.py (qbx_center_to_target_box_lookup, pick_used_centers), and of
    their callers in /repo/pytential/qbx/fmm.py.

    A kernel is a program of a small imperative language with private variables and one global
    array; the work items are distributed over workers in any way, and the workers' elementary
    steps interleave arbitrarily.  Private variables have arbitrary contents at the start.
    Kernels that are launched on the same queue run one after the other.

    Trees, traversals and contributions are those of FmmModel.v, expansions with their center,
    scaling factor and order ("frames") those of FmlModel.v.  The coefficients of an expansion
    are one cell of the array.  There is one density. *)
From Coq Require Import QArith Permutation.
From Verif Require Import Base RefineModel AssocModel FmmModel FmlModel.
Set Implicit Arguments.
Open Scope string_scope. Open Scope list_scope. Open Scope nat_scope.

(** ** The machine *)

(** Values of private variables; [VJunk] is what a read out of bounds yields. *)
Inductive value :=
| VNum (n : nat) | VInt (z : Z) | VPlace (p : place) | VScale (s : scale)
| VExpn (e : list term) | VPots (l : list (list (option contr)))
| VRat (q : Q) | VInf | VPt (x : list Q) | VJunk.
Notation env := (string -> value).
Definition assign_var (p : env) (x : string) (v : value) : env := fun y => if String.eqb y x then v else p y.

Section Machine.
Variable R : Type.     (* a cell of the global array *)
(** Loopy's instructions: assignment to a private variable, read and write of a cell (which may
    replace a part of it), sequence, loop over [lo <= x < hi], conditional. *)
Inductive cmd :=
| Skip
| Let (x : string) (e : env -> value)
| Load (x : string) (a : env -> nat) (e : option R -> value)
| Store (a : env -> nat) (f : env -> R -> R)
| Seq (c1 c2 : cmd)
| For (x : string) (lo hi : env -> nat) (c : cmd)
| If (t : env -> bool) (c : cmd).
Definition write_cell (m : list R) (i : nat) (f : R -> R) : list R :=
  match nth_error m i with Some v => set_nth m i (f v) | None => m end.
Definition iteration (x : string) (c : cmd) (k : nat) : cmd := Seq (Let x (fun _ => VNum k)) c.
(** One step of a worker with program stack [k], private variables [p], global array [m]. *)
Definition step1 (c : cmd) (k : list cmd) (p : env) (m : list R) : list cmd * env * list R :=
  match c with
  | Skip => (k, p, m)
  | Let x e => (k, assign_var p x (e p), m)
  | Load x a e => (k, assign_var p x (e (nth_error m (a p))), m)
  | Store a f => (k, p, write_cell m (a p) (f p))
  | Seq c1 c2 => (c1 :: c2 :: k, p, m)
  | For x lo hi c => (map (iteration x c) (seq (lo p) (hi p - lo p)) ++ k, p, m)
  | If t c => (if t p then c :: k else k, p, m)
  end.
Record mstate := MS { todo : list (list cmd); envs : list env; mem : list R }.
Definition step (st : mstate) (tid : nat) : mstate :=
  match nth_error (todo st) tid, nth_error (envs st) tid with
  | Some (c :: k), Some p =>
      let '(k', p', m') := step1 c k p (mem st) in
      MS (set_nth (todo st) tid k') (set_nth (envs st) tid p') m'
  | _, _ => st
  end.
Definition run (st : mstate) (schedule : list nat) : mstate := fold_left step schedule st.
Definition finished (st : mstate) : Prop := Forall (fun k => k = []) (todo st).
(** A kernel: the parallel loop variable, the body and whether the kernel assumes that there is
    a work item at all. *)
Record kernel := Kernel { k_iname : string; k_body : cmd; k_assume : bool }.
Definition initial (K : kernel) (assign : list (list nat)) (es : list env) (m : list R) : mstate :=
  MS (map (map (iteration (k_iname K) (k_body K))) assign) es m.
(** The contents that a launch with [n] work items may leave in the array: [assign] tells, for
    every worker, the work items it executes, in order; [es] are the initial private variables.
    A launch that violates the assumption may do anything. *)
Inductive launch (K : kernel) (n : nat) (m : list R) : list R -> Prop :=
| Launched assign es schedule :
    Permutation (concat assign) (seq 0 n) -> length es = length assign ->
    finished (run (initial K assign es m) schedule) ->
    launch K n m (mem (run (initial K assign es m) schedule))
| Unassumed m' : n = 0 -> k_assume K = true -> launch K n m m'.
End Machine.
Arguments Skip {R}.
Arguments Let {R} _ _.
Arguments If {R} _ _.
Fixpoint Block (R : Type) (l : list (cmd R)) : cmd R := match l with [] => Skip | c :: l => Seq c (Block l) end.

(** ** Arrays *)

(** CSR lists. *)
Definition csr_starts (rows : list (list nat)) : list nat := cumsum 0 (map (@length nat) rows).
Definition csr_lists (rows : list (list nat)) : list nat := concat rows.
(** boxtree's representation: particles of box [b] are those from [starts b], [counts b] many. *)
Record boxes := Boxes { bx_starts : list nat; bx_counts : list nat }.

Section Krn.
Variable junk : nat.     (* a number read out of bounds or from a variable of another type *)
Definition num (p : env) (x : string) : nat := match p x with VNum n => n | _ => junk end.
Definition int (p : env) (x : string) : Z := match p x with VInt z => z | _ => Z.of_nat junk end.
Definition pla (p : env) (x : string) : place := match p x with VPlace v => v | _ => AtBox junk end.
Definition sca (p : env) (x : string) : scale := match p x with VScale s => s | _ => LevelScale junk end.
Definition exn_ (p : env) (x : string) : list term := match p x with VExpn e => e | _ => [None] end.
Definition pots (p : env) (x : string) : list (list (option contr)) := match p x with VPots l => l | _ => [] end.
Definition num_at (l : list nat) (i : nat) : value := match nth_error l i with Some n => VNum n | None => VJunk end.
Definition int_at (l : list Z) (i : nat) : value := match nth_error l i with Some z => VInt z | None => VJunk end.
Definition expn_at (l : list (list term)) (i : nat) : value := match nth_error l i with Some e => VExpn e | None => VJunk end.

(** interactions.py 40-167 (P2QBXLFromCSR); the arguments are the kernel's.  [src_pt] are the
    sources' coordinates; p2e adds the term of one source. *)
Definition p2qbxl (order : order) (src_pt : list nat) (strengths : list nat) (global_qbx_centers qbx_center_to_target_box : list nat)
    (qbx_centers : list place) (qbx_expansion_radii : list scale)
    (source_box_starts source_box_lists : list nat) (bs : boxes) : kernel (list term) :=
  Kernel "itgt_center" (Block [
    Let "tgt_icenter" (fun p => num_at global_qbx_centers (num p "itgt_center"));
    Let "center" (fun p => match nth_error qbx_centers (num p "tgt_icenter") with Some c => VPlace c | None => VJunk end);
    Let "rscale" (fun p => match nth_error qbx_expansion_radii (num p "tgt_icenter") with Some s => VScale s | None => VJunk end);
    Let "itgt_box" (fun p => num_at qbx_center_to_target_box (num p "tgt_icenter"));
    Let "isrc_box_start" (fun p => num_at source_box_starts (num p "itgt_box"));
    Let "isrc_box_stop" (fun p => num_at source_box_starts (num p "itgt_box" + 1));
    Let "coeffs" (fun _ => VExpn []);
    For "isrc_box" (fun p => num p "isrc_box_start") (fun p => num p "isrc_box_stop") (Block [
      Let "src_ibox" (fun p => num_at source_box_lists (num p "isrc_box"));
      Let "isrc_start" (fun p => num_at (bx_starts bs) (num p "src_ibox"));
      Let "count" (fun p => num_at (bx_counts bs) (num p "src_ibox"));
      Let "isrc_end" (fun p => VNum (num p "isrc_start" + num p "count"));
      For "isrc" (fun p => num p "isrc_start") (fun p => num p "isrc_end") (Block [
        Let "source" (fun p => num_at src_pt (num p "isrc"));
        Let "strength" (fun p => num_at strengths (num p "isrc"));
        Let "coeffs" (fun p => VExpn (exn_ p "coeffs" ++
            [Some ((num p "strength", num p "source"), Frame (pla p "center") (sca p "rscale") order)]))])]);
    Store (fun p => num p "tgt_icenter") (fun p _ => exn_ p "coeffs")]) true.

(** interactions.py 174-294 (M2QBXL), for source and target expansions of the given orders;
    sumpy's translation is [translate] (simul_reduce: the sum over the source boxes). *)
Definition m2qbxl_knl (src_order tgt_order : order) (qbx_center_to_target_box_source_level : list Z)
    (centers : list place) (src_rscale : scale) (src_box_starts src_box_lists : list nat)
    (qbx_centers : list place) (qbx_expansion_radii : list scale)
    (src_base_ibox : nat) (src_expansions : Z -> list term) : kernel (list term) :=
  Kernel "icenter" (Block [
    Let "icontaining_tgt_box" (fun p => int_at qbx_center_to_target_box_source_level (num p "icenter"));
    If (fun p => negb (int p "icontaining_tgt_box" =? -1)%Z) (Block [
      Let "tgt_center" (fun p => match nth_error qbx_centers (num p "icenter") with Some c => VPlace c | None => VJunk end);
      Let "tgt_rscale" (fun p => match nth_error qbx_expansion_radii (num p "icenter") with Some s => VScale s | None => VJunk end);
      Let "isrc_start" (fun p => num_at src_box_starts (Z.to_nat (int p "icontaining_tgt_box")));
      Let "isrc_stop" (fun p => num_at src_box_starts (Z.to_nat (int p "icontaining_tgt_box" + 1)));
      Let "sum" (fun _ => VExpn []);
      For "isrc_box" (fun p => num p "isrc_start") (fun p => num p "isrc_stop") (Block [
        Let "src_ibox" (fun p => num_at src_box_lists (num p "isrc_box"));
        Let "src_center" (fun p => match nth_error centers (num p "src_ibox") with Some c => VPlace c | None => VJunk end);
        Let "src_coeff" (fun p => VExpn (src_expansions (Z.of_nat (num p "src_ibox") - Z.of_nat src_base_ibox)%Z));
        Let "coeff" (fun p => VExpn (translate (Frame (pla p "src_center") src_rscale src_order)
                                       (Frame (pla p "tgt_center") (sca p "tgt_rscale") tgt_order) (exn_ p "src_coeff")));
        Let "sum" (fun p => VExpn (exn_ p "sum" ++ exn_ p "coeff"))]);
      Load "old" (fun p => num p "icenter") (fun o => match o with Some e => VExpn e | None => VJunk end);
      Store (fun p => num p "icenter") (fun p _ => exn_ p "old" ++ exn_ p "sum")])]) true.

(** interactions.py 301-412 (L2QBXL). *)
Definition l2qbxl_knl (src_order tgt_order : order) (qbx_center_to_target_box target_boxes : list nat)
    (target_base_ibox nboxes : nat) (centers : list place) (src_rscale : scale)
    (qbx_centers : list place) (qbx_expansion_radii : list scale)
    (expansions : Z -> list term) : kernel (list term) :=
  Kernel "icenter" (Block [
    Let "isrc_box" (fun p => num_at qbx_center_to_target_box (num p "icenter"));
    Let "src_ibox" (fun p => num_at target_boxes (num p "isrc_box"));
    If (fun p => (target_base_ibox <=? num p "src_ibox") && (num p "src_ibox" <? target_base_ibox + nboxes)) (Block [
      Let "tgt_center" (fun p => match nth_error qbx_centers (num p "icenter") with Some c => VPlace c | None => VJunk end);
      Let "src_center" (fun p => match nth_error centers (num p "src_ibox") with Some c => VPlace c | None => VJunk end);
      Let "tgt_rscale" (fun p => match nth_error qbx_expansion_radii (num p "icenter") with Some s => VScale s | None => VJunk end);
      Let "src_coeff" (fun p => VExpn (expansions (Z.of_nat (num p "src_ibox") - Z.of_nat target_base_ibox)%Z));
      Let "coeff" (fun p => VExpn (translate (Frame (pla p "src_center") src_rscale src_order)
                                     (Frame (pla p "tgt_center") (sca p "tgt_rscale") tgt_order) (exn_ p "src_coeff")));
      Load "old" (fun p => num p "icenter") (fun o => match o with Some e => VExpn e | None => VJunk end);
      Store (fun p => num p "icenter") (fun p _ => exn_ p "old" ++ exn_ p "coeff")])]) true.

(** interactions.py 419-532 (QBXL2P); a cell of [result] holds the values of the [nresults]
    kernels at one target.  The kernels' scaling factors are not modelled. *)
Definition via (c : place) : route := match c with AtCenter c => Via c | AtBox _ => Point end.
Definition qbxl2p (nresults : nat) (global_qbx_centers : list nat) (center_to_targets_starts center_to_targets_lists : list nat)
    (qbx_centers : list place) (qbx_expansion_radii : list scale) (qbx_expansions : list (list term)) (tgt_pt : list nat)
    : kernel (list (list (option contr))) :=
  Kernel "iglobal_center" (Block [
    Let "src_icenter" (fun p => num_at global_qbx_centers (num p "iglobal_center"));
    Let "icenter_tgt_start" (fun p => num_at center_to_targets_starts (num p "src_icenter"));
    Let "icenter_tgt_end" (fun p => num_at center_to_targets_starts (num p "src_icenter" + 1));
    Let "center" (fun p => match nth_error qbx_centers (num p "src_icenter") with Some c => VPlace c | None => VJunk end);
    Let "rscale" (fun p => match nth_error qbx_expansion_radii (num p "src_icenter") with Some s => VScale s | None => VJunk end);
    For "icenter_tgt" (fun p => num p "icenter_tgt_start") (fun p => num p "icenter_tgt_end") (Block [
      Let "itgt" (fun p => num_at center_to_targets_lists (num p "icenter_tgt"));
      Let "coeffs" (fun p => expn_at qbx_expansions (num p "src_icenter"));
      Let "tgt" (fun p => num_at tgt_pt (num p "itgt"));
      Let "result_temp" (fun p => VPots (map (fun k =>
          taeval k (pla p "center") (sca p "rscale") (exn_ p "coeffs") (via (pla p "center")) (num p "tgt")) (seq 0 nresults)));
      For "iknl" (fun _ => 0) (fun _ => nresults)
        (Store (fun p => num p "itgt") (fun p row => set_nth row (num p "iknl") (nth (num p "iknl") (pots p "result_temp") [None])))])]) true.

(** geometry.py 173-215 (qbx_center_to_target_box_lookup); the cells are box numbers. *)
Definition box_lookup (nc : nat) (bt : boxes) (box_to_target_box user_target_from_tree_target : list nat) : kernel nat :=
  Kernel "ibox" (Block [
    Let "b_t_start" (fun p => num_at (bx_starts bt) (num p "ibox"));
    Let "ntargets" (fun p => num_at (bx_counts bt) (num p "ibox"));
    For "itarget_tree" (fun p => num p "b_t_start") (fun p => num p "b_t_start" + num p "ntargets") (Block [
      Let "itarget_user" (fun p => num_at user_target_from_tree_target (num p "itarget_tree"));
      If (fun p => num p "itarget_user" <? nc)
        (Store (fun p => num p "itarget_user") (fun p _ => match nth_error box_to_target_box (num p "ibox") with Some k => k | None => junk end))])]) false.

(** geometry.py 257-277 (pick_used_centers); center_is_used as booleans. *)
Definition pick_used (target_to_center : list Z) : kernel bool :=
  Kernel "i" (Block [
    Let "center" (fun p => int_at target_to_center (num p "i"));
    If (fun p => (0 <=? int p "center")%Z) (Store (fun p => Z.to_nat (int p "center")) (fun _ _ => true))]) false.

(** ** The callers *)
Section Callers.
Variable T : ftree.
Variable V : ftrav.
Variable ncenters : nat.
Variable ttc : list Z.
Variable w : list nat.     (* strengths, in tree order *)
Variable bs bt : boxes.     (* box_source_starts and counts, box_target_starts and counts *)
Variable nknl : nat.

(** geometry.py 642-700 and 752-793: the index arrays that a run of the kernels may leave; the
    flags of global_qbx_flags (732-750) are all set. *)
Definition dev_center_to_target_box (a : list nat) : Prop :=
  launch (box_lookup ncenters bt (box_to_target_box T V) (user_target_from_tree_target T)) (ft_nboxes T) (repeat 0 ncenters) a.
Definition dev_global_centers (a : list nat) : Prop :=
  exists used, launch (pick_used (skipn ncenters ttc)) (length (skipn ncenters ttc)) (repeat false ncenters) used
    /\ a = filter (fun c => nth c used false) (seq 0 ncenters).

Variable ctb : list nat.    (* qbx_center_to_target_box *)
Variable gc : list nat.     (* global_qbx_centers *)

(** The arrays the kernels read: coordinates of centers and boxes, radii, coordinates of sources
    and targets, interaction lists as CSR lists. *)
Definition flat_centers : list place := map AtCenter (seq 0 ncenters).
Definition flat_expansion_radii : list scale := map Radius (seq 0 ncenters).
Definition box_centers : list place := map AtBox (seq 0 (ft_nboxes T)).
Definition src_points : list nat := map (ft_src_pt T) (seq 0 (ft_nsrc T)).
Definition tgt_points : list nat := map (ft_tgt_pt T) (seq 0 (ft_ntgt T)).
Definition near_rows : list (list nat) := map (tr_near V) (seq 0 (length (tr_target_boxes V))).
Definition ctt_rows : list (list nat) := map (center_targets T ttc) (seq 0 ncenters).
(** geometry.py 703-730 (qbx_center_to_target_box_source_level). *)
Definition center_to_source_level (lev : list nat * (nat -> list nat)) : list Z :=
  let tb := scatter (repeat (-1)%Z (length (tr_target_boxes V))) (fst lev) (map Z.of_nat (seq 0 (length (fst lev)))) in
  map (fun k => nth k tb (-1)%Z) ctb.
Definition level_rows (lev : list nat * (nat -> list nat)) : list (list nat) := map (snd lev) (seq 0 (length (fst lev))).

(** fmm.py 191-195: qbx_local_expansion_zeros. *)
Definition expansion_zeros : list (list term) := repeat [] ncenters.
(** fmm.py 232-265 (form_global_qbx_locals) *)
Definition dev_form (r : list (list term)) : Prop :=
  if length gc =? 0 then r = expansion_zeros else
  launch (p2qbxl QbxOrder src_points w gc ctb flat_centers flat_expansion_radii
            (csr_starts near_rows) (csr_lists near_rows) bs)
    (length gc) expansion_zeros r.
(** A loop of launches on the same array. *)
Inductive launches (A : Type) (R : Type) (f : A -> list R -> list R -> Prop) : list A -> list R -> list R -> Prop :=
| LDone m : launches f [] m m
| LNext x xs m m' m'' : f x m m' -> launches f xs m' m'' -> launches f (x :: xs) m m''.
(** fmm.py 268-312 (translate_box_multipoles_to_qbx_local) *)
Definition m2q_level (x : nat * (list nat * (nat -> list nat))) : list (list term) -> list (list term) -> Prop :=
  let '(l, ssn) := x in
  launch (m2qbxl_knl (LevelOrder l) QbxOrder (center_to_source_level ssn) box_centers (LevelScale l)
            (csr_starts (level_rows ssn)) (csr_lists (level_rows ssn)) flat_centers flat_expansion_radii
            (fst (level_range T l)) (view T (box_mpole T w) l)) ncenters.
Definition dev_m2q (r : list (list term)) : Prop :=
  if ncenters =? 0 then r = expansion_zeros else
  launches m2q_level (combine (seq 0 (length (tr_smaller V))) (tr_smaller V)) expansion_zeros r.
(** fmm.py 315-356 (translate_box_local_to_qbx_local) *)
Definition l2q_level (l : nat) : list (list term) -> list (list term) -> Prop :=
  launch (l2qbxl_knl (LevelOrder l) QbxOrder ctb (tr_target_boxes V)
            (fst (level_range T l)) (snd (level_range T l)) box_centers (LevelScale l)
            flat_centers flat_expansion_radii (view T (box_local T V w) l)) ncenters.
Definition dev_l2q (r : list (list term)) : Prop :=
  if ncenters =? 0 then r = expansion_zeros else
  launches l2q_level (seq 0 (length (ft_levels T))) expansion_zeros r.
(** fmm.py 359-389 (eval_qbx_expansions) *)
Definition dev_eval (exps : list (list term)) (r : list (list (list (option contr)))) : Prop :=
  let pot := repeat (repeat [] nknl) (ft_ntgt T) in
  if length gc =? 0 then r = pot else
  launch (qbxl2p nknl gc (csr_starts ctt_rows) (csr_lists ctt_rows) flat_centers flat_expansion_radii exps tgt_points)
    (length gc) pot r.
(** fmm.py 569-588 (combine and reorder), for one kernel. *)
Definition dev_reorder (q : list (list (list (option contr)))) (k : nat) : list (list (option contr)) :=
  let all := scatter (repeat [] (ft_ntgt T)) (non_qbx_targets T ncenters ttc)
               (map (map (@Some contr)) (non_qbx_potentials T V ncenters ttc w k)) in
  let all := add_pots all (map (fun row => nth k row [None]) q) in
  map (fun i => nth i all []) (ft_sorted T).
(** fmm.py 540-588 *)
Definition dev_potentials (out : list (list (list (option contr)))) : Prop :=
  exists f m l q, dev_form f /\ dev_m2q m /\ dev_l2q l /\ dev_eval (add_exps (add_exps f m) l) q
    /\ out = map (dev_reorder q) (seq 0 nknl).
End Callers.

(** fmm.py 414-594 (drive_fmm) with the sumpy wrangler, on the device: the potentials that a
    call may return. *)
Definition drive_dev (T : ftree) (V : ftrav) (ncenters : nat) (ttc : list Z) (bs bt : boxes) (sw : list nat) (nknl : nat)
    (out : list (list (list (option contr)))) : Prop :=
  exists ctb gc, dev_center_to_target_box T V ncenters bt ctb /\ dev_global_centers ncenters ttc gc
    /\ dev_potentials T V ncenters ttc (map (fun u => nth u sw 0) (ft_user_src T)) bs nknl ctb gc out.
End Krn.
