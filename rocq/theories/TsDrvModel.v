(** Model of eval_target_specific_qbx_locals (/repo/pytential/qbx/target_specific/impl.pyx
    566-785): argument processing, the parallel loop over the QBX centers and its thread-local
    buffers.

    Every thread executes its iterations as a sequence of elementary steps; the steps of
    different threads interleave arbitrarily.  A value that is not finite (or undefined
    behaviour) in the evaluation for a target becomes the value of that target. *)
From Coq Require Import Reals List.
From Coquelicot Require Import Coquelicot.
From Verif Require Import Base TsModel.
Import ListNotations.
Set Implicit Arguments.
Open Scope R_scope.

(** 641-658: which evaluators run. *)
Record flags := Flags { laplace_s : bool; laplace_sp : bool; laplace_d : bool;
                        helmholtz_s : bool; helmholtz_sp : bool; helmholtz_d : bool }.
Definition any_flag (f : flags) : bool :=
  laplace_s f || laplace_sp f || laplace_d f || helmholtz_s f || helmholtz_sp f || helmholtz_d f.
Definition helm_flag (f : flags) : bool := helmholtz_s f || helmholtz_sp f || helmholtz_d f.

(** The arguments (566-586). CSR lists are pairs of arrays. *)
Record args := Args {
  ifpot : bool; ifgrad : bool; ifcharge : bool; ifdipole : bool; order : nat;
  sources : list (tri R); targets : list (tri R); centers : list (tri R);
  qbx_centers : list nat; qbx_center_to_target_box : list nat;
  ctt_starts : list nat; ctt_lists : list nat;
  sb_starts : list nat; sb_lists : list nat;
  box_source_starts : list nat; box_source_counts : list nat;
  helmholtz_k : C;
  charge : option (list C); dipstr : option (list C); dipvec : option (list (tri R)) }.

Definition origin : tri R := T3 0 0 0.
Definition Ceq_dec (a b : C) : {a = b} + {a <> b}.
Proof.
  destruct a as [a1 a2], b as [b1 b2].
  destruct (Req_EM_T a1 b1) as [->|H]; [destruct (Req_EM_T a2 b2) as [->|H]|].
  - left; reflexivity.
  - right. intros E. apply H. congruence.
  - right. intros E. apply H. congruence.
Defined.

Definition pt_at (a : list (tri R)) (i : nat) : tri R := nth i a origin.
Definition num_at (a : option (list C)) (i : nat) : C :=
  match a with Some a => nth i a (RtoC 0) | None => RtoC 0 end.
Definition dip_at (a : option (list (tri R))) (i : nat) : tri R :=
  match a with Some a => nth i a origin | None => origin end.

(** 641-658 *)
Definition make_flags (a : args) : flags :=
  if Ceq_dec (helmholtz_k a) (RtoC 0)
  then Flags (ifpot a && ifcharge a) (ifgrad a && ifcharge a) (ifpot a && ifdipole a) false false false
  else Flags false false false (ifpot a && ifcharge a) (ifgrad a && ifcharge a) (ifpot a && ifdipole a).

(** One row of the thread-local buffers (675-682), and the private variables [result],
    [jscale]. *)
Record row := Row {
  r_source : tri R; r_target : tri R; r_center : tri R; r_dipole : tri R;
  r_grad : fr (tri C); r_j : fr (list C * list C * R); r_result : fr C }.

(** Elementary steps. *)
Inductive op :=
| SetCenter (ctr : nat)        (* 694-702 *)
| SetTarget (tgt : nat)        (* 705-711 *)
| Precompute                   (* 713-718 *)
| SetSource (src : nat)        (* 730-733 *)
| Accumulate (src : nat)       (* 738-776 *)
| Store (tgt : nat).           (* 780-785 *)

Section Drv.
Variable junk : nat -> R.
Variable cjunk : nat -> C.
Variable jfuns : nat -> C -> R -> bool -> option (list C * list C).
Variable a : args.
Let fl := make_flags a.
Let k := helmholtz_k a.
Let p := order a.

(** The potential and the gradient at a target. *)
Definition cell : Type := (fr C * fr (tri C))%type.
Definition fplus (x y : fr C) : fr C := dof u <- x; dof v <- y; Fin (u + v)%C.

(** The program of iteration [ictr] (694-785). *)
Definition source_ops (src : nat) : list op := [SetSource src; Accumulate src].
Definition box_sources (b : nat) : list nat := seq (nth b (box_source_starts a) 0%nat) (nth b (box_source_counts a) 0%nat).
Definition csr (starts lists : list nat) (i : nat) : list nat :=
  map (fun q => nth q lists 0%nat)
    (seq (nth i starts 0%nat) (nth (i + 1) starts 0%nat - nth i starts 0%nat)).
Definition near_sources (ctr : nat) : list nat :=
  flat_map box_sources (csr (sb_starts a) (sb_lists a) (nth ctr (qbx_center_to_target_box a) 0%nat)).
Definition target_ops (ctr tgt : nat) : list op :=
  SetTarget tgt :: (if helm_flag fl then [Precompute] else [])
  ++ flat_map source_ops (near_sources ctr) ++ [Store tgt].
Definition center_ops (ctr : nat) : list op :=
  SetCenter ctr :: flat_map (target_ops ctr) (csr (ctt_starts a) (ctt_lists a) ctr).

Definition accumulate (r : row) (src : nat) : row :=
  let ch := num_at (charge a) src in
  let ds := num_at (dipstr a) src in
  let res := r_result r in
  let g := r_grad r in
  let res := if laplace_s fl
             then fplus res (ts_laplace_s (r_source r) (r_center r) (r_target r) ch p) else res in
  let g := if laplace_sp fl
           then dof g <- g; ts_laplace_sp junk g (r_source r) (r_center r) (r_target r) ch p else g in
  let res := if laplace_d fl
             then fplus res (ts_laplace_d junk (r_source r) (r_center r) (r_target r) (r_dipole r) ds p) else res in
  let res := if helmholtz_s fl
             then fplus res (dof jj <- r_j r; let '(js, jd, jscale) := jj in
                             ts_helmholtz_s junk cjunk (r_source r) (r_center r) (r_target r) ch p k js jscale)
             else res in
  let g := if helmholtz_sp fl
           then dof g <- g; dof jj <- r_j r; let '(js, jd, jscale) := jj in
                ts_helmholtz_sp junk cjunk g (r_source r) (r_center r) (r_target r) ch p k js jd jscale
           else g in
  let res := if helmholtz_d fl
             then fplus res (dof jj <- r_j r; let '(js, jd, jscale) := jj in
                             ts_helmholtz_d junk cjunk (r_source r) (r_center r) (r_target r) (r_dipole r) ds p k js jscale)
             else res in
  Row (r_source r) (r_target r) (r_center r) (r_dipole r) g (r_j r) res.

(** The effect of a step on the thread's row, and what it writes. *)
Definition local (r : row) (o : op) : row :=
  match o with
  | SetCenter ctr => Row (r_source r) (r_target r) (pt_at (centers a) ctr) (r_dipole r) (r_grad r) (r_j r) (r_result r)
  | SetTarget tgt =>
      Row (r_source r) (pt_at (targets a) tgt) (r_center r) (r_dipole r)
        (if ifgrad a then Fin (T3 (RtoC 0) (RtoC 0) (RtoC 0)) else r_grad r) (r_j r) (Fin (RtoC 0))
  | Precompute =>
      Row (r_source r) (r_target r) (r_center r) (r_dipole r) (r_grad r)
        (ts_helmholtz_precompute jfuns (r_center r) (r_target r) p (ifgrad a) k) (r_result r)
  | SetSource src =>
      Row (pt_at (sources a) src) (r_target r) (r_center r)
        (if ifdipole a then dip_at (dipvec a) src else r_dipole r) (r_grad r) (r_j r) (r_result r)
  | Accumulate src => accumulate r src
  | Store _ => r
  end.
Definition store (r : row) (o : op) (out : list cell) : list cell :=
  match o with
  | Store tgt =>
      let '(pot, grad) := nth tgt out (Fin (RtoC 0), Fin (T3 (RtoC 0) (RtoC 0) (RtoC 0))) in
      upd out tgt (if ifpot a then r_result r else pot, if ifgrad a then r_grad r else grad)
  | _ => out
  end.

(** The state: what every thread still has to do, the rows (indexed by thread number), the
    output arrays. *)
Record state := State { todo : list (list op); rows : list row; out : list cell }.
(** Thread [tid] executes its next step. *)
Definition step (st : state) (tid : nat) : state :=
  match nth_error (todo st) tid, nth_error (rows st) tid with
  | Some (o :: os), Some r =>
      State (upd (todo st) tid os) (upd (rows st) tid (local r o)) (store r o (out st))
  | _, _ => st
  end.
Definition run (st : state) (schedule : list nat) : state := fold_left step schedule st.
Definition finished (st : state) : Prop := Forall (fun os => os = []) (todo st).

(** 690-692: prange over the indices into qbx_centers; [owner ictr] is the thread that OpenMP
    gives iteration [ictr] to. *)
Definition thread_program (owner : nat -> nat) (tid : nat) : list op :=
  flat_map (fun ictr => if (owner ictr =? tid)%nat then center_ops (nth ictr (qbx_centers a) 0%nat) else [])
    (seq 0 (length (qbx_centers a))).
Definition initial (owner : nat -> nat) (rs : list row) (out0 : list cell) : state :=
  State (map (thread_program owner) (seq 0 (length rs))) rs out0.

(** 566-785: the outcome of a call: an exception, or the states at which the parallel loop may
    start (one per number of threads [length rs] and initial contents of the buffers), or
    nothing to do. *)
Inductive call := Raise (e : exn) | Return | Loop.
Definition start_call : call :=
  if ifcharge a && (match charge a with None => true | _ => false end) then Raise ValueError else
  if ifdipole a && (match dipstr a with None => true | _ => false end) then Raise ValueError else
  if ifdipole a && (match dipvec a with None => true | _ => false end) then Raise ValueError else
  if ifdipole a && ifgrad a then Raise ValueError else
  if negb (any_flag fl) then Return else
  if (length (qbx_centers a) =? 0)%nat then Return else Loop.
(** The outputs that a call may leave, starting from [out0]. *)
Inductive outcome (out0 : list cell) : list cell -> Prop :=
| Nothing : start_call = Return -> outcome out0 out0
| Done owner rs schedule :
    start_call = Loop ->
    (forall ictr, (ictr < length (qbx_centers a))%nat -> (owner ictr < length rs)%nat) ->
    finished (run (initial owner rs out0) schedule) ->
    outcome out0 (out (run (initial owner rs out0) schedule)).
End Drv.
