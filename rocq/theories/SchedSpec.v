(** Specification vocabulary for the scheduler and executor properties: what a
    correct schedule is, and what the meaning of a program is.  Nothing here
    mentions how schedules are computed. *)
From Verif Require Import Base SchedModel.
Set Implicit Arguments.

(** Names that exist after executing a prefix of a schedule. *)
Fixpoint alive (avail : list string) (pre : list (stmt * list string)) : list string :=
  match pre with
  | [] => avail
  | (s, d) :: pre' => alive (union (diff avail d) (sassignees s)) pre'
  end.

(** Name [n] has been produced (it is an input, or a statement of [pre] assigns
    it), and no later step of [pre] discards it. *)
Definition produced_and_kept (inputs : list string) (pre : list (stmt * list string))
    (n : string) : Prop :=
  exists p1 p2, pre = p1 ++ p2 /\
    ((p1 = [] /\ In n inputs) \/
     (exists p0 s0 d0, p1 = p0 ++ [(s0, d0)] /\ In n (sassignees s0))) /\
    (forall s' d', In (s', d') p2 -> ~ In n d').

(** Statement [s] can run after [pre]: it is not in [pre] and what it reads is there. *)
Definition runnable (inputs : list string) (pre : list (stmt * list string)) (s : stmt) : Prop :=
  ~ In (sid s) (map (fun p => sid (fst p)) pre) /\
  forall n, In n (dep_names s) -> produced_and_kept inputs pre n.

Definition scheduled (sched : list (stmt * list string)) : list stmt := map fst sched.

(** ** What a correct schedule is, stated at every split point *)
Record sched_ok (stmts : list stmt) (rvars inputs : list string)
    (sched : list (stmt * list string)) : Prop := {
  so_step : forall pre s d post, sched = pre ++ (s, d) :: post ->
    In s stmts /\
    ~ In (sid s) (map sid (scheduled pre)) /\
    (forall n, In n (dep_names s) -> In n (alive inputs pre)) /\
    (forall n, In n d <->
       In n (alive inputs pre) /\ ~ In n rvars /\
       (forall s', In s' stmts -> ~ In (sid s') (map sid (scheduled pre)) ->
          ~ In n (dep_names s'))) /\
    NoDup d /\
    (exists l1 l2, stmts = l1 ++ s :: l2 /\
      (forall x, In x l1 -> ~ In (sid x) (map sid (scheduled pre)) ->
         (forall n, In n (dep_names x) -> In n (alive inputs pre)) ->
         (sprio x < sprio s)%Z) /\
      (forall x, In x l2 -> ~ In (sid x) (map sid (scheduled pre)) ->
         (forall n, In n (dep_names x) -> In n (alive inputs pre)) ->
         (sprio x <= sprio s)%Z));
  so_end : forall s, In s stmts -> ~ In (sid s) (map sid (scheduled sched)) ->
    exists n, In n (dep_names s) /\ ~ In n (alive inputs sched) }.

(** The data flow is well-founded: there is a ranking such that every
    compiler-temporary dependency of a statement is an input name or is
    assigned by a statement of lower rank. *)
Definition well_founded_flow (stmts : list stmt) : Prop :=
  exists rank : stmt -> nat, forall s d, In s stmts -> In d (sdeps s) -> dnamed d = true ->
    In (dname d) (code_inputs stmts) \/
    exists s', In s' stmts /\ In (dname d) (sassignees s') /\ (rank s' < rank s)%nat.

Section Meaning.
Variable V R : Type.
Variable sem : stmt -> ctx V -> result (list (string * V)).
Variable res : ctx V -> result R.
Variable rvars : list string.

(** Statement semantics: reads only its declared dependencies, and on success
    assigns exactly its assignees. *)
Definition sem_reads_deps (stmts : list stmt) : Prop := forall s (c c' : ctx V),
  In s stmts ->
  (forall n, In n (dep_names s) -> c n = c' n) -> sem s c = sem s c'.
Definition sem_assigns (stmts : list stmt) : Prop := forall s (c : ctx V) asg,
  In s stmts ->
  sem s c = Ok asg -> NoDup (map fst asg) /\ (forall n, In n (map fst asg) <-> In n (sassignees s)).
Definition res_reads_rvars : Prop := forall c c' : ctx V,
  (forall n, In n rvars -> c n = c' n) -> res c = res c'.

(** Single assignment: no two statements assign the same name and no statement
    assigns an input. *)
Definition single_assignment (stmts : list stmt) (inputs : list string) : Prop :=
  (forall s s' n, In s stmts -> In s' stmts -> In n (sassignees s) -> In n (sassignees s') ->
     sid s = sid s') /\
  (forall s n, In s stmts -> In n (sassignees s) -> ~ In n inputs).

(** A solution of the system of equations given by the program: unassigned names
    keep the caller's value, and every statement's outputs are the values
    computed from the solution itself. *)
Definition solution (stmts : list stmt) (c0 sigma : ctx V) : Prop :=
  (forall n, (forall s, In s stmts -> ~ In n (sassignees s)) -> sigma n = c0 n) /\
  (forall s, In s stmts -> exists asg, sem s sigma = Ok asg /\
     forall n v, In (n, v) asg -> sigma n = Some v).
End Meaning.
