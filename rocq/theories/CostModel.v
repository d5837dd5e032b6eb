(** Model of the QBX cost models (/repo/pytential/qbx/cost.py), on top of the incidence lists of
    FmmModel, and of the mapper that gathers costs (/repo/pytential/symbolic/execution.py
    409-466, 775-808, /repo/pytential/qbx/__init__.py 563-599).

    Costs are elements of an arbitrary ring; counts are natural numbers (no overflow). *)
From Coq Require Import QArith.
From Verif Require Import Base RefineModel AssocModel CollModel FmmModel MatModel.
Set Implicit Arguments.
Open Scope nat_scope.

Section Cost.
Variable R : rops.

(** A count as a cost, and the sum of an array. *)
Fixpoint rnat (n : nat) : R := match n with 0 => r0 R | S n' => radd R (r1 R) (rnat n') end.
Definition asum (a : list R) : R := fold_left (radd R) a (r0 R).
(** [a[i] += v]. *)
Definition add_at (a : list R) (i : nat) (v : R) : list R := set_nth a i (radd R (nth i a (r0 R)) v).
Definition rnth (a : list R) (i : nat) : R := nth i a (r0 R).

Section Geometry.
Variable T : ftree.
Variable V : ftrav.
Variable level : nat -> nat.       (* tree.box_levels *)
Variable nc : nat.                 (* geo_data.ncenters *)
Variable ttc : list Z.             (* geo_data.user_target_to_center() *)
Let ntb := length (tr_target_boxes V).

(** cost.py 805-807, 818-820: differences of center_to_tree_targets().starts. *)
Definition target_weights : list nat := map (fun c => length (center_targets T ttc c)) (seq 0 nc).

(** ** QBXCostModel *)

(** cost.py 666-718 (get_nqbx_centers_per_tgt_box) with the kernels of 593-664. *)
Definition center_weight (weights : option (list nat)) : list nat :=
  let a := fold_left (fun a i => set_nth a i 1)
             (map (fun c => nth c (ft_sorted T) 0) (global_centers nc ttc)) (repeat 0 (ft_ntgt T)) in
  match weights with
  | None => a
  | Some ws =>
    let ixs := firstn nc (ft_sorted T) in
    scatter a ixs (map (fun '(i, w) => nth i a 0 * w) (combine ixs ws))
  end.
Definition nqbx_centers_per_tgt_box (weights : option (list nat)) : list nat :=
  map (fun b => fold_left (fun s i => s + nth i (center_weight weights) 0) (ft_box_tgt T b) 0) (tr_target_boxes V).

(** 720-727 *)
Definition vec_form_qbxl (cost : R) (ndirect : list nat) : list R :=
  map (fun '(n, d) => rmul R (rnat (n * d)) cost) (combine (nqbx_centers_per_tgt_box None) ndirect).
(** 729-791: one kernel launch per source level, which adds to the entries of its nonempty
    boxes.  Cost arrays have an entry for every source level (cost.py 297-304), so that
    indexing them never fails. *)
Definition vec_m2qbxl_level (n : list nat) (lev : list nat * (nat -> list nat)) (cost : R) (a : list R) : list R :=
  fold_left (fun a i =>
      let k := nth i (fst lev) 0 in
      add_at a k (rmul R (rnat (nth k n 0 * length (snd lev i))) cost))
    (seq 0 (length (fst lev))) a.
Definition vec_m2qbxl (cost : list R) : list R :=
  fold_left (fun a '(l, lev) => vec_m2qbxl_level (nqbx_centers_per_tgt_box None) lev (rnth cost l) a)
    (combine (seq 0 (length (tr_smaller V))) (tr_smaller V)) (repeat (r0 R) ntb).
(** 793-802 *)
Definition vec_l2qbxl (cost : list R) : list R :=
  map (fun '(n, b) => rmul R (rnat n) (rnth cost (level b))) (combine (nqbx_centers_per_tgt_box None) (tr_target_boxes V)).
(** 804-813 *)
Definition vec_eval_qbxl (cost : R) : list R :=
  map (fun n => rmul R (rnat n) cost) (nqbx_centers_per_tgt_box (Some target_weights)).
(** 815-828 *)
Definition vec_eval_ts_qbxl (cost : R) (ndirect : list nat) : list R :=
  map (fun '(n, d) => rmul R (rnat (n * d)) cost) (combine (nqbx_centers_per_tgt_box (Some target_weights)) ndirect).

(** ** _PythonQBXCostModel *)

Definition ctb (c : nat) : nat := nth c (center_to_target_box T V nc) 0.
(** 850-862 *)
Definition py_form_qbxl (cost : R) (ndirect : list nat) : list R :=
  map (fun x => rmul R x cost)
    (fold_left (fun a c => add_at a (ctb c) (rnat (nth (ctb c) ndirect 0))) (global_centers nc ttc) (repeat (r0 R) ntb)).
(** 864-879 *)
Definition py_eval_ts_qbxl (cost : R) (ndirect : list nat) : list R :=
  map (fun x => rmul R x cost)
    (fold_left (fun a c => add_at a (ctb c) (rnat (nth (ctb c) ndirect 0 * nth c target_weights 0)))
       (global_centers nc ttc) (repeat (r0 R) ntb)).
(** 881-911 *)
Definition py_m2qbxl (cost : list R) : list R :=
  fold_left (fun a '(l, lev) =>
      fold_left (fun a c =>
          match nth c (center_to_list3 T V nc lev) None with
          | None => a
          | Some i => add_at a (ctb c) (rmul R (rnat (length (snd lev i))) (rnth cost l))
          end) (global_centers nc ttc) a)
    (combine (seq 0 (length (tr_smaller V))) (tr_smaller V)) (repeat (r0 R) ntb).
(** 913-927 *)
Definition py_l2qbxl (cost : list R) : list R :=
  fold_left (fun a c => add_at a (ctb c) (rnth cost (level (nth (ctb c) (tr_target_boxes V) 0))))
    (global_centers nc ttc) (repeat (r0 R) ntb).
(** 929-943 *)
Definition py_eval_qbxl (cost : R) : list R :=
  map (fun x => rmul R x cost)
    (fold_left (fun a c => add_at a (ctb c) (rnat (nth c target_weights 0))) (global_centers nc ttc) (repeat (r0 R) ntb)).

(** ** The interface common to both *)

(** The process_* methods of one implementation. *)
Record backend := Backend {
  p_form : R -> list nat -> list R;
  p_m2q : list R -> list R;
  p_l2q : list R -> list R;
  p_eval : R -> list R;
  p_eval_ts : R -> list nat -> list R }.
Definition vec_backend : backend := Backend vec_form_qbxl vec_m2qbxl vec_l2qbxl vec_eval_qbxl vec_eval_ts_qbxl.
Definition py_backend : backend := Backend py_form_qbxl py_m2qbxl py_l2qbxl py_eval_qbxl py_eval_ts_qbxl.

(** cost.py 119-148 (QBXTranslationCostModel): [e2e] is boxtree's e2e_cost, [rsqrt x] is
    [x ** (1/2)]. *)
Variable e2e : R -> R -> R.
Variable rsqrt : R -> R.
Record xlat := Xlat { x_ncoeffs_qbx : R; x_ncoeffs_fmm : list R }.
(** 154-190: the two factories, [pde] for make_pde_aware_translation_cost_model.  The symbols
    p_qbx and p_fmm_lev{i} are evaluated at once (the context binds them, see 360-365,
    437-442). *)
Definition make_xlat (pde : bool) (dim : nat) (p_qbx : R) (p_fmm : list R) : xlat :=
  let e := if pde then dim - 1 else dim in
  Xlat (rpow R (radd R p_qbx (r1 R)) e) (map (fun p => rpow R (radd R p (r1 R)) e) p_fmm).

(** pymbolic's evaluate of a parameter. *)
Definition param (ps : list (string * R)) (x : string) : result R :=
  match dget String.eqb ps x with Some v => Ok v | None => Err UnknownVariable end.
Record factors := Factors { k_p2qbxl : R; k_m2qbxl : list R; k_l2qbxl : list R; k_qbxl2p : R; k_p2p_tsqbx : R }.
(** 278-319 (qbx_cost_factors_for_kernels_from_model), QBX part. *)
Definition cost_factors (x : xlat) (nlevels : nat) (ps : list (string * R)) : result factors :=
  do p2q <- (do c <- param ps "c_p2qbxl"; Ok (rmul R c (x_ncoeffs_qbx x)));
  do m2q <- mapM (fun l => do c <- param ps "c_m2qbxl"; Ok (rmul R c (e2e (rnth (x_ncoeffs_fmm x) l) (x_ncoeffs_qbx x)))) (seq 0 nlevels);
  do l2q <- mapM (fun l => do c <- param ps "c_l2qbxl"; Ok (rmul R c (e2e (rnth (x_ncoeffs_fmm x) l) (x_ncoeffs_qbx x)))) (seq 0 nlevels);
  do q2p <- (do c <- param ps "c_qbxl2p"; Ok (rmul R c (x_ncoeffs_qbx x)));
  do ts <- (do c <- param ps "c_p2p_tsqbx"; Ok (rmul R c (rsqrt (x_ncoeffs_qbx x))));
  Ok (Factors p2q m2q l2q q2p ts).

(** 338-413 (qbx_cost_per_box); [base] is boxtree's cost_per_box of the same calibration
    parameters.  [a[ixs] += vs] on distinct indices. *)
Definition add_at_all (a : list R) (ixs : list nat) (vs : list R) : list R :=
  scatter a ixs (map (fun '(i, v) => radd R (rnth a i) v) (combine ixs vs)).
Definition qbx_cost_per_box (B : backend) (use_ts : bool) (x : xlat) (nlevels : nat) (ndirect : list nat)
    (ps : list (string * R)) (base : result (list R)) : result (list R) :=
  do k <- cost_factors x nlevels ps;
  do res <- base;
  let tb := tr_target_boxes V in
  let res := add_at_all res tb (if use_ts then p_eval_ts B (k_p2p_tsqbx k) ndirect else p_form B (k_p2qbxl k) ndirect) in
  let res := add_at_all res tb (p_m2q B (k_m2qbxl k)) in
  let res := add_at_all res tb (p_l2q B (k_l2qbxl k)) in
  Ok (add_at_all res tb (p_eval B (k_qbxl2p k))).

(** 415-497 (qbx_cost_per_stage); [base] is boxtree's cost_per_stage. *)
Definition qbx_cost_per_stage (B : backend) (use_ts : bool) (x : xlat) (nlevels : nat) (ndirect : list nat)
    (ps : list (string * R)) (base : result (list (string * R))) : result (list (string * R)) :=
  do k <- cost_factors x nlevels ps;
  do res <- base;
  let put d s v := dset String.eqb d s (asum v) in
  let res := if use_ts then put res "eval_target_specific_qbx_locals"%string (p_eval_ts B (k_p2p_tsqbx k) ndirect)
             else put res "form_global_qbx_locals"%string (p_form B (k_p2qbxl k) ndirect) in
  let res := put res "translate_box_multipoles_to_qbx_local"%string (p_m2q B (k_m2qbxl k)) in
  let res := put res "translate_box_local_to_qbx_local"%string (p_l2q B (k_l2qbxl k)) in
  Ok (put res "eval_qbx_expansions"%string (p_eval B (k_qbxl2p k))).
End Geometry.

(** 499-511: get_unit_calibration_params, QBX part, on top of boxtree's. *)
Definition unit_params (base : list (string * R)) : list (string * R) :=
  dupdate String.eqb base
    [("c_p2qbxl", r1 R); ("c_p2p_tsqbx", r1 R); ("c_qbxl2p", r1 R); ("c_m2qbxl", r1 R); ("c_l2qbxl", r1 R)]%string.
(** 513-519: _QBX_STAGE_TO_CALIBRATION_PARAMETER. *)
Definition stage_to_param : list (string * string) :=
  [("form_global_qbx_locals", "c_p2qbxl");
   ("translate_box_multipoles_to_qbx_local", "c_m2qbxl");
   ("translate_box_local_to_qbx_local", "c_l2qbxl");
   ("eval_qbx_expansions", "c_qbxl2p");
   ("eval_target_specific_qbx_locals", "c_p2p_tsqbx")]%string.
End Cost.

(** ** Kernel-specific calibration *)

(** Layer potential statements as far as used here; kernels are numbers. *)
Record cstmt := CStmt { cs_id : nat; cs_source_kernels : list nat; cs_target_kernels : list nat }.
Definition cstmt_eqb (a b : cstmt) : bool := cs_id a =? cs_id b.
(** Equality of frozensets. *)
Definition fset_eqb (a b : list nat) : bool :=
  forallb (fun x => existsb (Nat.eqb x) b) a && forallb (fun x => existsb (Nat.eqb x) a) b.

Section Calib.
Variables M P : Type.                 (* modeled/measured costs of a statement; parameters *)
(** cost.py 547-566: grouping. *)
Definition group_case (g : list (list nat * (list M * list M))) (model real : list (cstmt * M))
    : result (list (list nat * (list M * list M))) :=
  fold_left (fun acc sr =>
      do g <- acc;
      let '(s, r) := sr in
      match dget cstmt_eqb model s with
      | None => Err AssertionError
      | Some m =>
        let k := cs_source_kernels s in
        let '(ms, rs) := match dget fset_eqb g k with Some x => x | None => ([], []) end in
        Ok (dset fset_eqb g k (ms ++ [m], rs ++ [r]))
      end) real (Ok g).
Fixpoint group_cases (g : list (list nat * (list M * list M))) (models reals : list (list (cstmt * M)))
    : result (list (list nat * (list M * list M))) :=
  match models, reals with
  | m :: models', r :: reals' => do g <- group_case g m r; group_cases g models' reals'
  | _, _ => Ok g
  end.
(** 532-576 (estimate_kernel_specific_calibration_params); [est] is
    estimate_calibration_params. *)
Definition estimate (est : list M -> list M -> P) (models reals : list (list (cstmt * M)))
    : result (list (list nat * P)) :=
  if length models =? length reals
  then do g <- group_cases [] models reals;
       Ok (map (fun '(k, (ms, rs)) => (k, est ms rs)) g)
  else Err AssertionError.

(** ** execution.py 409-466 (CostModelMapper) *)

Inductive calib := ConstantOne | PerKernel (d : list (list nat * P)).
Record cost_state := CState { modeled_cost : list (cstmt * M); metadata : list (cstmt * M) }.
(** qbx/__init__.py 563-599: [direct] when fmm_level_to_order is False; the driver returns
    zeros and touches nothing else. *)
Definition cost_model_insn (direct : bool) : result unit :=
  if direct then Err NotImplementedError else Ok tt.
(** execution.py 444-463; [unit] are the unit calibration parameters. *)
Definition exec_cost_insn (cal : calib) (unit : P) (direct : bool) (st : cost_state) (s : cstmt) : result cost_state :=
  do ps <- match cal with
           | ConstantOne => Ok unit
           | PerKernel d => match dget fset_eqb d (cs_target_kernels s) with Some p => Ok p | None => Err KeyError end
           end;
  do _ <- cost_model_insn direct;
  match dget cstmt_eqb (modeled_cost st) s with
  | Some _ => Err AssertionError
  | None => Ok st
  end.
(** 775-808 (cost_per_stage, cost_per_box) on the layer potential statements of the code, in
    execution order, each with whether its source evaluates directly. *)
Definition run_cost (cal : calib) (unit : P) (code : list (cstmt * bool)) : result (list (cstmt * M) * list (cstmt * M)) :=
  do st <- fold_left (fun acc sd => do st <- acc; exec_cost_insn cal unit (snd sd) st (fst sd)) code (Ok (CState [] []));
  Ok (modeled_cost st, metadata st).
End Calib.
