(** Model of the scheduler and of the code executor.
    /repo/pytential/symbolic/compiler.py lines 437-526 and
    /repo/pytential/symbolic/execution.py lines 672-697. *)
From Verif Require Import Base.
Set Implicit Arguments.

(** A dependency returned by [Statement.get_dependencies]: a variable name and
    whether it is a [NamedIntermediateResult] (compiler temporary) or a plain
    user variable.  compiler.py 139-152, 255-267; primitives.py 538-540. *)
Record dep := Dep { dname : string; dnamed : bool }.

(** compiler.py 78-108 ([Statement]).  [sid] stands for the Python object
    identity ([__hash__] returns [id(self)], [eq=False]: lines 78, 115, 184-186, 318-320).
    [sdeps] is what [get_dependencies] returns, [sassignees] what
    [get_assignees] returns; both are sets in Python. *)
Record stmt := Stmt
  { sid : nat; sassignees : list string; sdeps : list dep; sprio : Z }.

Definition dep_names (s : stmt) : list string := map dname (sdeps s).

Definition is_done (done : list nat) (s : stmt) : bool := existsb (Nat.eqb (sid s)) done.

(** compiler.py 446-451: not done, and all dependency names available. *)
Definition ready (avail : list string) (done : list nat) (s : stmt) : bool :=
  negb (is_done done s) && subset (dep_names s) avail.

(** [pytools.argmax2] (line 484): keeps the first element of maximal value. *)
Definition argmax2 (s : stmt) (l : list stmt) : stmt :=
  fold_left (fun cur x => if Z.ltb (sprio cur) (sprio x) then x else cur) l s.

(** compiler.py 456-461. *)
Definition needed_vars (stmts : list stmt) (done : list nat) : list string :=
  flat_map dep_names (filter (fun s => negb (is_done done s)) stmts).

(** compiler.py 437-484 ([_get_next_step]).  [rvars] are the variable names the
    dependency mapper finds in the result expression (lines 464-482).
    [None] models [_NoStatementAvailableError]. *)
Definition get_next_step (stmts : list stmt) (rvars : list string)
    (avail : list string) (done : list nat) : option (stmt * list string) :=
  match filter (ready avail done) stmts with
  | [] => None
  | s :: rest =>
      let discardable := diff (diff avail (needed_vars stmts done)) rvars in
      Some (argmax2 s rest, discardable)
  end.

(** compiler.py 497-502: names of all dependencies that are not
    [NamedIntermediateResult]s. *)
Definition code_inputs (stmts : list stmt) : list string :=
  union [] (map dname (filter (fun d => negb (dnamed d)) (flat_map sdeps stmts))).

(** compiler.py 504-524: the [while True] loop.  One unit of fuel per iteration;
    [None] if the fuel runs out (shown impossible below). *)
Fixpoint schedule_loop (fuel : nat) (stmts : list stmt) (rvars avail : list string)
    (done : list nat) (sched : list (stmt * list string))
    : option (list (stmt * list string)) :=
  match fuel with
  | O => None
  | S fuel' =>
      match get_next_step stmts rvars avail done with
      | None => Some sched
      | Some (s, disc) =>
          schedule_loop fuel' stmts rvars
            (union (diff avail disc) (sassignees s))
            (done ++ [sid s]) (sched ++ [(s, disc)])
      end
  end.

(** compiler.py 487-526 ([_compute_schedule]). *)
Definition compute_schedule (stmts : list stmt) (rvars : list string)
    : option (list string * list (stmt * list string)) :=
  match schedule_loop (S (List.length stmts)) stmts rvars (code_inputs stmts) [] [] with
  | Some sched => Some (code_inputs stmts, sched)
  | None => None
  end.

(** The evaluation context (a Python dict) as a partial map. *)
Section Exec.
Variable V R : Type.
Definition ctx := string -> option V.
Definition upd (c : ctx) (n : string) (v : V) : ctx :=
  fun m => if String.eqb n m then Some v else c m.
Definition rem (c : ctx) (n : string) : ctx :=
  fun m => if String.eqb n m then None else c m.

(** What executing one statement returns: the list of (name, value) pairs
    ([exec_assign] / [exec_compute_potential_insn]); an oracle here. *)
Variable sem : stmt -> ctx -> result (list (string * V)).
(** Evaluation of the result expression (execution.py 696-697). *)
Variable res : ctx -> result R.

(** execution.py 680-681: [for name in discardable_vars: del context[name]]. *)
Fixpoint del_all (c : ctx) (ns : list string) : result ctx :=
  match ns with
  | [] => Ok c
  | n :: ns' => match c n with
                | None => Err KeyError
                | Some _ => del_all (rem c n) ns'
                end
  end.

(** execution.py 688-694: assertion and assignment (no [pre_assign_check]). *)
Fixpoint assign_all (c : ctx) (assignees : list string) (asg : list (string * V))
    : result ctx :=
  match asg with
  | [] => Ok c
  | (n, v) :: asg' =>
      if inb n assignees then assign_all (upd c n v) assignees asg'
      else Err AssertionError
  end.

(** execution.py 679-694: the loop over the schedule. *)
Fixpoint exec_sched (c : ctx) (sched : list (stmt * list string)) : result ctx :=
  match sched with
  | [] => Ok c
  | (s, disc) :: sched' =>
      do c1 <- del_all c disc;
      do asg <- sem s c1;
      do c2 <- assign_all c1 (sassignees s) asg;
      exec_sched c2 sched'
  end.

(** execution.py 672-697 ([execute]).  The final context is returned too, since
    the dictionary is the caller's (execution.py 893, 930). *)
Definition execute (inputs : list string) (sched : list (stmt * list string)) (c : ctx)
    : result (R * ctx) :=
  if forallb (fun n => match c n with Some _ => true | None => false end) inputs
  then do c' <- exec_sched c sched; do r <- res c'; Ok (r, c')
  else Err ValueError.
End Exec.
