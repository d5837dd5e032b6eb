(** Model of further device kernels, on the machine of KrnModel.v, and of their callers: the
    counting kernels of the cost model (/repo/pytential/qbx/cost.py 591-791), the target numberer
    (/repo/pytential/qbx/__init__.py 850-864) and the kernel for targets with centers
    (/repo/pytential/qbx/direct.py 41-128) of direct evaluation; and of the executors of layer
    potentials (/repo/pytential/qbx/__init__.py 694-793, 866-1068) with all kernels of this
    repository on the device.

    Kernels of sumpy (P2P, LayerPotential) and of boxtree are not modelled here: their results
    are those of FmmModel.v. *)
From Coq Require Import QArith Qcanon Permutation.
From Verif Require Import Base RefineModel AssocModel FmmModel FmlModel MatModel CostModel KrnModel AkModel.
Set Implicit Arguments.
Open Scope string_scope. Open Scope list_scope. Open Scope nat_scope.

(** The cost of a box is a floating point number on the device; here a rational in lowest terms. *)
Definition QcR : rops := mk_rops (Q2Qc 0) (Q2Qc 1) Qcplus Qcmult Qcminus Qcopp Qcinv Qc_eq_bool.

Section Dk.
Variable junk : nat.     (* a number read out of bounds or from a variable of another type *)
Notation Num := (num junk).

(** ** The cost model *)

(** cost.py 591-622 (fill_array_with_index). *)
Definition fill_knl (index : list nat) (val : nat) : kernel nat :=
  Kernel "i" (Block [
    Let "index_i" (fun p => num_at index (Num p "i"));
    Store (fun p => Num p "index_i") (fun _ _ => val)]) false.
(** cost.py 624-664 (count_global_qbx_centers); [bt] are box_target_starts and
    box_target_counts_nonchild. *)
Definition count_knl (global_qbx_center_weight target_boxes : list nat) (bt : boxes) : kernel nat :=
  Kernel "i" (Block [
    Let "global_box_id" (fun p => num_at target_boxes (Num p "i"));
    Let "start" (fun p => num_at (bx_starts bt) (Num p "global_box_id"));
    Let "count" (fun p => num_at (bx_counts bt) (Num p "global_box_id"));
    Let "end" (fun p => VNum (Num p "start" + Num p "count"));
    Let "nqbx_centers" (fun _ => VNum 0);
    For "iparticle" (fun p => Num p "start") (fun p => Num p "end") (Block [
      Let "weight" (fun p => num_at global_qbx_center_weight (Num p "iparticle"));
      Let "nqbx_centers" (fun p => VNum (Num p "nqbx_centers" + Num p "weight"))]);
    Store (fun p => Num p "i") (fun p _ => Num p "nqbx_centers")]) false.
(** cost.py 729-767 (process_m2qbxl): [+=] reads the cell, then writes it. *)
Definition m2qbxl_cost_knl (idx_to_itgt_box nqbx_centers_itgt_box ssn_starts : list nat) (m2qbxl_cost : Qc) : kernel Qc :=
  Kernel "i" (Block [
    Let "itgt_box" (fun p => num_at idx_to_itgt_box (Num p "i"));
    Let "nqbx_centers" (fun p => num_at nqbx_centers_itgt_box (Num p "itgt_box"));
    Let "ssn_stop" (fun p => num_at ssn_starts (Num p "i" + 1));
    Let "ssn_start" (fun p => num_at ssn_starts (Num p "i"));
    Let "nlist3_boxes" (fun p => VNum (Num p "ssn_stop" - Num p "ssn_start"));
    Load "old" (fun p => Num p "itgt_box") (fun o => match o with Some q => VRat (this q) | None => VJunk end);
    Store (fun p => Num p "itgt_box") (fun p _ =>
      Qcplus (Q2Qc (match p "old" with VRat q => q | _ => inject_Z (Z.of_nat junk) end))
             (Qcmult (rnat QcR (Num p "nqbx_centers" * Num p "nlist3_boxes")) m2qbxl_cost))]) false.

Section Costs.
Variable T : ftree.
Variable V : ftrav.
Variable level : nat -> nat.       (* tree.box_levels *)
Variable nc : nat.                 (* geo_data.ncenters *)
Variable ttc : list Z.             (* geo_data.user_target_to_center() *)
Variable bt : boxes.
Let ntb := length (tr_target_boxes V).

(** cost.py 666-718 (get_nqbx_centers_per_tgt_box): the arrays a call may return.  The product
    with the weights (697-699) is an array operation. *)
Definition dev_nqbx (weights : option (list nat)) (a : list nat) : Prop :=
  exists gc filled, dev_global_centers junk nc ttc gc
    /\ launch (fill_knl (map (fun c => nth c (ft_sorted T) 0) gc) 1) (length gc) (repeat 0 (ft_ntgt T)) filled
    /\ let weight := match weights with
                     | None => filled
                     | Some ws => let ixs := firstn nc (ft_sorted T) in
                                  scatter filled ixs (map (fun '(i, w) => nth i filled 0 * w) (combine ixs ws))
                     end in
       launch (count_knl weight (tr_target_boxes V) bt) ntb (repeat 0 ntb) a.
(** 720-727 *)
Definition dev_form_cost (cost : QcR) (ndirect : list nat) (r : list QcR) : Prop :=
  exists n, dev_nqbx None n /\ r = map (fun '(n, d) => rmul QcR (rnat QcR (n * d)) cost) (combine n ndirect).
(** 769-791: one launch per source level. *)
Definition dev_m2q_cost (cost : list QcR) (r : list QcR) : Prop :=
  exists n, dev_nqbx None n /\
    launches (fun (x : nat * (list nat * (nat -> list nat))) => let '(l, ssn) := x in
        launch (m2qbxl_cost_knl (fst ssn) n (csr_starts (level_rows ssn)) (rnth QcR cost l)) (length (fst ssn)))
      (combine (seq 0 (length (tr_smaller V))) (tr_smaller V)) (repeat (r0 QcR) ntb) r.
(** 793-802 *)
Definition dev_l2q_cost (cost : list QcR) (r : list QcR) : Prop :=
  exists n, dev_nqbx None n /\ r = map (fun '(n, b) => rmul QcR (rnat QcR n) (rnth QcR cost (level b))) (combine n (tr_target_boxes V)).
(** 804-813 *)
Definition dev_eval_cost (cost : QcR) (r : list QcR) : Prop :=
  exists n, dev_nqbx (Some (target_weights T nc ttc)) n /\ r = map (fun n => rmul QcR (rnat QcR n) cost) n.
(** 815-828 *)
Definition dev_eval_ts_cost (cost : QcR) (ndirect : list nat) (r : list QcR) : Prop :=
  exists n, dev_nqbx (Some (target_weights T nc ttc)) n /\ r = map (fun '(n, d) => rmul QcR (rnat QcR (n * d)) cost) (combine n ndirect).
(** cost.py 572-828 (QBXCostModel): [B] answers every call as some run of the kernels may. *)
Definition device_backend (B : backend QcR) : Prop :=
  (forall cost nd, dev_form_cost cost nd (p_form B cost nd))
  /\ (forall cost, dev_m2q_cost cost (p_m2q B cost))
  /\ (forall cost, dev_l2q_cost cost (p_l2q B cost))
  /\ (forall cost, dev_eval_cost cost (p_eval B cost))
  /\ (forall cost nd, dev_eval_ts_cost cost nd (p_eval_ts B cost nd)).
End Costs.

(** ** Direct evaluation *)

(** qbx/__init__.py 850-864 (get_qbx_target_numberer): pyopencl's scan provides [item] and
    [prev_item], the sums up to and before entry [i]; the output statements run in any order.
    Cell 0 is the counter, the other cells the array. *)
Definition nonneg (l : list Z) : nat := length (filter (fun z => (0 <=? z)%Z) l).
Definition numberer_knl (tgt_to_qbx_center : list Z) : kernel nat :=
  Kernel "i" (Block [
    Let "item" (fun p => VNum (nonneg (firstn (Num p "i" + 1) tgt_to_qbx_center)));
    Let "prev_item" (fun p => VNum (nonneg (firstn (Num p "i") tgt_to_qbx_center)));
    If (fun p => negb (Num p "item" =? Num p "prev_item")) (Store (fun p => 1 + (Num p "item" - 1)) (fun p _ => Num p "i"));
    If (fun p => Num p "i" + 1 =? length tgt_to_qbx_center) (Store (fun _ => 0) (fun p _ => Num p "item"))]) false.

(** The value of one source at one target through an expansion (direct.py 92-107): center and
    scaling factor have to belong together. *)
Definition pair_result (label : nat) (center : place) (rscale : scale) (strength source target : nat) : option contr :=
  match center, rscale with
  | AtCenter c, Radius c' => if c =? c' then Some (Contr label strength source (Via c) target) else None
  | _, _ => None
  end.
(** direct.py 41-128.  A cell of the array holds the values of the [nresults] kernels at one
    target.  [icenter] and [itgt] do not depend on [isrc]. *)
Definition subset_knl (nresults : nat) (sources strengths targets : list nat) (center : list place) (expansion_radii : list scale)
    (qbx_tgt_numbers qbx_center_numbers : list nat) : kernel (list (list (option contr))) :=
  Kernel "itgt_local" (Block [
    Let "icenter" (fun p => num_at qbx_center_numbers (Num p "itgt_local"));
    Let "itgt" (fun p => num_at qbx_tgt_numbers (Num p "itgt_local"));
    Let "sum" (fun _ => VPots (repeat [] nresults));
    For "isrc" (fun _ => 0) (fun _ => length sources) (Block [
      Let "center" (fun p => match nth_error center (Num p "icenter") with Some c => VPlace c | None => VJunk end);
      Let "source" (fun p => num_at sources (Num p "isrc"));
      Let "target" (fun p => num_at targets (Num p "itgt"));
      Let "rscale" (fun p => match nth_error expansion_radii (Num p "icenter") with Some s => VScale s | None => VJunk end);
      Let "strength" (fun p => num_at strengths (Num p "isrc"));
      Let "sum" (fun p => VPots (map (fun k => nth k (pots p "sum") [None] ++
          [pair_result k (pla junk p "center") (sca junk p "rscale") (Num p "strength") (Num p "source") (Num p "target")])
          (seq 0 nresults)))]);
    For "iknl" (fun _ => 0) (fun _ => nresults)
      (Store (fun p => Num p "itgt") (fun p row => set_nth row (Num p "iknl") (nth (Num p "iknl") (pots p "sum") [None])))]) true.

(** Python's for loop over calls whose outcomes depend on the device. *)
Fixpoint mapR (A B : Type) (f : A -> result B -> Prop) (l : list A) (out : result (list B)) : Prop :=
  match l with
  | [] => out = Ok []
  | x :: l' => exists r, f x r /\
      match r with
      | Err e => out = Err e
      | Ok y => exists rs, mapR f l' rs /\ out = match rs with Err e => Err e | Ok ys => Ok (y :: ys) end
      end
  end.

Section Exec.
Variable q : qsource.
Variable nb : list pt -> nat.                    (* boxes of the association's tree *)
Variable bxs : list pt -> boxes * boxes.         (* source and target ranges of the FMM tree's boxes *)
Variable points : nat -> result (list pt).
Variable nknl : nat.
Notation nc := (length (q_ctr q)).
Notation pots_at x := (list (list (option contr))) (only parsing).

(** geometry.py 803-832 with the kernels of target_assoc.py. *)
Definition dev_associate_all (ts : list (list pt * Z)) (out : assoc_outcome) : Prop :=
  let pts := skipn nc (target_points (q_ctr q) ts) in
  dev_associate junk (q_dev q) (nb pts) (q_discr q) (q_src q) (q_ctr q)
    [(pts, SArr (skipn nc (side_preferences nc ts)))] (q_tree q pts) (q_tunnel q) (q_radius q) (q_tol q) out.

(** qbx/__init__.py 1022-1031: count and numbers. *)
Definition dev_numbers (tt : list Z) (count : nat) (numbers : list nat) : Prop :=
  exists m, launch (numberer_knl tt) (length tt) (repeat 0 (1 + length tt)) m
    /\ count = nth 0 m 0 /\ numbers = firstn count (tl m).
(** 1001-1056: the values at all targets of a group, one row per target.  Without sources the
    kernel's assumption is violated. *)
Definition p2p_rows (x : list pt) : list (list (list (option contr))) :=
  map (fun t => map (fun k => map (@Some contr) (nth t (p2p (q_nquad q) x k) [])) (seq 0 nknl)) (seq 0 (length x)).
Definition dev_subset (tt : list Z) (x : list pt) (numbers : list nat) (rows : list (list (list (option contr)))) : Prop :=
  let center_numbers := map (fun i => Z.to_nat (nth i tt (-1)%Z)) numbers in
  if length numbers =? 0 then rows = p2p_rows x else
  if q_nquad q =? 0 then True else
  launch (subset_knl nknl (seq 0 (q_nquad q)) (seq 0 (q_nquad q)) (seq 0 (length x)) (flat_centers nc) (flat_expansion_radii nc)
            numbers center_numbers) (length numbers) (p2p_rows x) rows.
Definition dev_named (rows : list (list (list (option contr)))) (io : nat * output) : result (nat * (string * list (list (option contr)))) :=
  let '(i, o) := io in
  if o_knl o <? nknl then Ok (i, (o_name o, map (fun row => nth (o_knl o) row [None]) rows)) else Err IndexError.
(** 985-1066 *)
Definition dev_other (g : (nat * option Z) * list (nat * output)) (out : result (list (nat * (string * list (list (option contr)))))) : Prop :=
  let '((t, l), os) := g in
  let lim := match l with Some z => z | None => 0%Z end in
  match points t with
  | Err e => out = Err e
  | Ok x => exists a, dev_associate_all [(x, lim)] a /\
    match a with
    | Raised e => out = Err e
    | Failed _ _ => out = Err TargetAssociationFailed
    | Associated a =>
      let tt := skipn nc (user_ttc nc a) in
      exists count numbers, dev_numbers tt count numbers /\
      if (Z.abs lim =? 1)%Z && (count <? length x) then out = Err RuntimeError else
      exists rows, dev_subset tt x numbers rows /\ out = mapM (dev_named rows) os
    end
  end.
(** 952-983: sumpy's kernel. *)
Definition some_rows (p : list (list contr)) : list (list (option contr)) := map (map (@Some contr)) p.
Definition dev_self (g : (nat * option Z) * list (nat * output)) : result (list (nat * (string * list (list (option contr))))) :=
  do l <- exec_self (q_nquad q) nknl points g;
  Ok (map (fun '(i, (name, p)) => (i, (name, some_rows p))) l).
(** 866-1068 (exec_compute_potential_insn_direct): what it may return or raise. *)
Definition dev_exec_direct (self : nat -> bool) (outs : list output) (out : result (list (option (string * list (list (option contr)))))) : Prop :=
  match partition_outputs self (combine (seq 0 (length outs)) outs) [] [] with
  | Err e => out = Err e
  | Ok gs =>
    match mapM dev_self (fst gs) with
    | Err e => out = Err e
    | Ok r1 => exists r2, mapR dev_other (snd gs) r2 /\
        out = match r2 with
              | Err e => Err e
              | Ok r2 => Ok (put_results (put_results (repeat None (length outs)) (concat r1)) (concat r2))
              end
    end
  end.

(** 694-793 (exec_compute_potential_insn_fmm) with the kernels of interactions.py, geometry.py
    and target_assoc.py. *)
Definition dev_exec_fmm (outs : list output) (out : result (list (string * list (list (option contr))))) : Prop :=
  match gather_targets points outs [] [] with
  | Err e => out = Err e
  | Ok (numbers, ts) => exists a, dev_associate_all ts a /\
    match a with
    | Raised e => out = Err e
    | Failed _ _ => out = Err TargetAssociationFailed
    | Associated a =>
      let ttc := user_ttc nc a in
      let P := target_points (q_ctr q) ts in
      let '(T, V) := q_fmm q P in
      if existsb (fun c => (c =? -2)%Z) ttc then out = Err RuntimeError else
      exists pots, drive_dev junk T V nc ttc (fst (bxs P)) (snd (bxs P)) (seq 0 (q_nquad q)) nknl pots /\
      out = mapM (fun o =>
        match lookup_key numbers (o_tgt o, o_limit o) with
        | None => Err KeyError
        | Some n =>
          let starts := discr_starts nc ts in
          match nth_error pots (o_knl o) with
          | None => Err IndexError
          | Some p => Ok (o_name o, slice p (nth n starts 0) (nth (n + 1) starts 0))
          end
        end) outs
    end
  end.
End Exec.
End Dk.
