(** Properties C01, C02, C03, C06.  Vocabulary: SchedSpec.v. *)
From Verif Require Import Base SchedModel SchedSpec SchedProofs SchedProofs2.
Set Implicit Arguments.

(** ** C01 *)
(** Scheduling terminates and returns the inputs together with a schedule. *)
Theorem schedule_total : forall stmts rvars,
  NoDup (map sid stmts) ->
  exists sched, compute_schedule stmts rvars = Some (code_inputs stmts, sched).
Proof. exact compute_schedule_terminates. Qed.
Print Assumptions schedule_total.

(** Every scheduled statement is a program statement that has not run before, all
    it reads has been produced and not been freed since (nor just before it), and
    it is the first one of maximal priority among the runnable ones. *)
Theorem schedule_sound : forall stmts rvars inputs sched,
  NoDup (map sid stmts) ->
  compute_schedule stmts rvars = Some (inputs, sched) ->
  forall pre s d post, sched = pre ++ (s, d) :: post ->
    In s stmts /\ runnable inputs pre s /\
    (forall n, In n (dep_names s) -> ~ In n d) /\
    (exists l1 l2, stmts = l1 ++ s :: l2 /\
      (forall x, In x l1 -> runnable inputs pre x -> (sprio x < sprio s)%Z) /\
      (forall x, In x l2 -> runnable inputs pre x -> (sprio x <= sprio s)%Z)).
Proof. exact schedule_sound_l. Qed.
Print Assumptions schedule_sound.

(** Without any assumption on the data flow: scheduling never stops while a
    statement could still run. *)
Theorem schedule_maximal : forall stmts rvars inputs sched,
  NoDup (map sid stmts) ->
  compute_schedule stmts rvars = Some (inputs, sched) ->
  forall s, In s stmts -> ~ runnable inputs sched s.
Proof. exact schedule_maximal_l. Qed.
Print Assumptions schedule_maximal.

Theorem schedule_complete : forall stmts rvars inputs sched,
  NoDup (map sid stmts) -> well_founded_flow stmts ->
  compute_schedule stmts rvars = Some (inputs, sched) ->
  NoDup (scheduled sched) /\ forall s, In s (scheduled sched) <-> In s stmts.
Proof. exact schedule_complete_l. Qed.
Print Assumptions schedule_complete.

(** ** C02 *)
Theorem discards_exact : forall stmts rvars inputs sched,
  NoDup (map sid stmts) ->
  compute_schedule stmts rvars = Some (inputs, sched) ->
  forall pre s d post, sched = pre ++ (s, d) :: post ->
  NoDup d /\
  forall n, In n d <->
    produced_and_kept inputs pre n /\ ~ In n rvars /\
    (forall s', In s' stmts -> ~ In (sid s') (map (fun p => sid (fst p)) pre) ->
       ~ In n (dep_names s')).
Proof. exact discard_exact_l. Qed.
Print Assumptions discards_exact.

(** Neither deleting discarded names nor the assertion on assignees ever raises. *)
Theorem execute_no_keyerror : forall (V R : Type)
  (sem : stmt -> ctx V -> result (list (string * V))) (res : ctx V -> result R) rvars
  stmts inputs sched (c : ctx V),
  NoDup (map sid stmts) ->
  sem_assigns sem stmts ->
  (forall s c, sem s c <> Err KeyError /\ sem s c <> Err AssertionError) ->
  (forall c, res c <> Err KeyError /\ res c <> Err AssertionError) ->
  compute_schedule stmts rvars = Some (inputs, sched) ->
  execute sem res inputs sched c <> Err KeyError /\
  execute sem res inputs sched c <> Err AssertionError.
Proof. exact no_keyerror_l. Qed.
Print Assumptions execute_no_keyerror.

(** ** C03 *)
Theorem execute_computes_solution : forall (V R : Type)
  (sem : stmt -> ctx V -> result (list (string * V))) (res : ctx V -> result R) rvars
  stmts c0 inputs sched,
  sem_reads_deps sem stmts -> sem_assigns sem stmts -> res_reads_rvars res rvars ->
  NoDup (map sid stmts) ->
  well_founded_flow stmts ->
  single_assignment stmts (code_inputs stmts) ->
  compute_schedule stmts rvars = Some (inputs, sched) ->
  forall r,
  (exists c', execute sem res inputs sched c0 = Ok (r, c')) <->
  (forall n, In n inputs -> c0 n <> None) /\
  exists sigma, solution sem stmts c0 sigma /\ res sigma = Ok r.
Proof. exact execute_ok_iff_l. Qed.
Print Assumptions execute_computes_solution.

Theorem program_solution_unique : forall (V : Type)
  (sem : stmt -> ctx V -> result (list (string * V))) stmts c0 s1 s2,
  sem_reads_deps sem stmts -> sem_assigns sem stmts ->
  well_founded_flow stmts ->
  single_assignment stmts (code_inputs stmts) ->
  solution sem stmts c0 s1 -> solution sem stmts c0 s2 -> forall n, s1 n = s2 n.
Proof. exact solution_unique. Qed.
Print Assumptions program_solution_unique.

(** A missing input raises ValueError whatever the statements do: none is run. *)
Theorem missing_input_raises : forall (V R : Type)
  (sem : stmt -> ctx V -> result (list (string * V))) (res : ctx V -> result R)
  inputs sched (c : ctx V),
  (exists n, In n inputs /\ c n = None) ->
  execute sem res inputs sched c = Err ValueError.
Proof. exact missing_input_l. Qed.
Print Assumptions missing_input_raises.

(** The required inputs are exactly the user variables some statement reads. *)
Theorem inputs_exact : forall n stmts,
  In n (code_inputs stmts) <->
  exists s d, In s stmts /\ In d (sdeps s) /\ dnamed d = false /\ dname d = n.
Proof. exact In_inputs. Qed.
Print Assumptions inputs_exact.

(** ** Non-vacuity: a three statement program
    [y <- x + 1; z <- y * w; u <- x + w], result [z + u], of different priorities. *)
Section Ex.
Local Open Scope string_scope.
Definition ex_stmts : list stmt :=
  [ Stmt 0 ["z"] [Dep "y" true; Dep "w" false] 0%Z;
    Stmt 1 ["y"] [Dep "x" false] 5%Z;
    Stmt 2 ["u"] [Dep "x" false; Dep "w" false] 0%Z ].
Definition ex_sem (s : stmt) (c : ctx Z) : result (list (string * Z)) :=
  match sid s with
  | 0 => match c "y", c "w" with Some a, Some b => Ok [("z", (a * b)%Z)] | _, _ => Err UnknownVariable end
  | 1 => match c "x" with Some a => Ok [("y", (a + 1)%Z)] | _ => Err UnknownVariable end
  | _ => match c "x", c "w" with Some a, Some b => Ok [("u", (a + b)%Z)] | _, _ => Err UnknownVariable end
  end.
Definition ex_res (c : ctx Z) : result Z :=
  match c "z", c "u" with Some a, Some b => Ok (a + b)%Z | _, _ => Err UnknownVariable end.
Definition ex_ctx : ctx Z := upd (upd (fun _ => None) "x" 3%Z) "w" 10%Z.

Example ex_schedule :
  option_map (fun p => (fst p, map (fun q => (sid (fst q), snd q)) (snd p)))
    (compute_schedule ex_stmts ["z"; "u"])
  = Some (["w"; "x"], [(1, []); (0, []); (2, ["y"])]).
Proof. vm_compute. reflexivity. Qed.

Example ex_hyps : NoDup (map sid ex_stmts) /\ well_founded_flow ex_stmts /\
  single_assignment ex_stmts (code_inputs ex_stmts) /\
  sem_reads_deps ex_sem ex_stmts /\ sem_assigns ex_sem ex_stmts /\
  res_reads_rvars ex_res ["z"; "u"] /\
  (forall s c, ex_sem s c <> Err KeyError /\ ex_sem s c <> Err AssertionError).
Proof.
  split; [|split; [|split; [|split; [|split; [|split]]]]].
  - simpl. repeat (constructor; [simpl; intuition discriminate|]). constructor.
  - exists (fun s => match sid s with 0 => 1 | _ => 0 end).
    intros s d Hs Hd Hn. simpl in Hs.
    destruct Hs as [<-|[<-|[<-|[]]]]; simpl in Hd.
    + destruct Hd as [<-|[<-|[]]]; [|discriminate Hn]. right.
      exists (Stmt 1 ["y"] [Dep "x" false] 5%Z). simpl. auto 10.
    + destruct Hd as [<-|[]]; discriminate Hn.
    + destruct Hd as [<-|[<-|[]]]; discriminate Hn.
  - split.
    + intros s s' n Hs Hs' Hn Hn'. simpl in Hs, Hs'.
      destruct Hs as [<-|[<-|[<-|[]]]]; destruct Hs' as [<-|[<-|[<-|[]]]];
        simpl in *; destruct Hn as [<-|[]]; destruct Hn' as [Hn'|[]]; auto; discriminate Hn'.
    + intros s n Hs Hn Hi.
      simpl in Hs. destruct Hs as [<-|[<-|[<-|[]]]]; simpl in Hn; destruct Hn as [<-|[]];
        vm_compute in Hi; intuition discriminate.
  - intros s c c' Hs H. simpl in Hs.
    destruct Hs as [<-|[<-|[<-|[]]]]; unfold ex_sem; cbn [sid]; cbn [dep_names map dname sdeps] in H;
      rewrite ?(H "x"), ?(H "y"), ?(H "w"); simpl; auto.
  - intros s c asg Hs H. simpl in Hs.
    destruct Hs as [<-|[<-|[<-|[]]]]; unfold ex_sem in H; cbn [sid] in H;
      repeat match goal with
      | H : context [match c ?x with _ => _ end] |- _ => destruct (c x); try discriminate H
      end; injection H as <-; simpl; (split; [repeat constructor; simpl; tauto|tauto]).
  - intros c c' H. unfold ex_res. rewrite (H "z"), (H "u"); simpl; auto.
  - intros s c. unfold ex_sem. destruct (sid s) as [|[|k]];
      repeat match goal with
      | |- context [match c ?x with _ => _ end] => destruct (c x)
      end; split; discriminate.
Qed.

Example ex_run :
  match compute_schedule ex_stmts ["z"; "u"] with
  | Some (inp, sched) =>
      match execute ex_sem ex_res inp sched ex_ctx with Ok (r, _) => Some r | _ => None end
  | None => None end = Some 53%Z.
Proof. vm_compute. reflexivity. Qed.

(** An ill-founded program: scheduling stops, the statements never run. *)
Example ex_cyclic :
  compute_schedule [ Stmt 0 ["a"] [Dep "b" true] 0%Z; Stmt 1 ["b"] [Dep "a" true] 0%Z ] ["a"]
  = Some ([], []).
Proof. vm_compute. reflexivity. Qed.
End Ex.

(** ** C06 *)
(** The natural statement is false: the dictionary passed to [eval] loses the
    inputs that become dead, so a second evaluation with it raises. *)
Definition reuse_stmts : list stmt :=
  [ Stmt 0 ["y"%string] [Dep "x" false] 0%Z; Stmt 1 ["z"%string] [Dep "y" true] 0%Z ].
Definition reuse_sem (s : stmt) (c : ctx Z) : result (list (string * Z)) :=
  match sid s with
  | 0 => match c "x"%string with Some a => Ok [("y"%string, (a + 1)%Z)] | _ => Err UnknownVariable end
  | _ => match c "y"%string with Some a => Ok [("z"%string, (2 * a)%Z)] | _ => Err UnknownVariable end
  end.
Definition reuse_res (c : ctx Z) : result Z :=
  match c "z"%string with Some v => Ok v | None => Err UnknownVariable end.

Theorem eval_context_reuse_refuted :
  exists (stmts : list stmt) (rvars : list string)
    (sem : stmt -> ctx Z -> result (list (string * Z))) (res : ctx Z -> result Z) inputs sched
    (c c1 : ctx Z) r,
    sem_reads_deps sem stmts /\ sem_assigns sem stmts /\ res_reads_rvars res rvars /\
    single_assignment stmts (code_inputs stmts) /\ well_founded_flow stmts /\
    compute_schedule stmts rvars = Some (inputs, sched) /\
    execute sem res inputs sched c = Ok (r, c1) /\
    execute sem res inputs sched c1 = Err ValueError.
Proof.
  exists reuse_stmts, ["z"%string], reuse_sem, reuse_res, ["x"%string],
    [(Stmt 0 ["y"%string] [Dep "x" false] 0%Z, []);
     (Stmt 1 ["z"%string] [Dep "y" true] 0%Z, ["x"%string])],
    (upd (fun _ => None) "x"%string 3%Z),
    (upd (rem (upd (upd (fun _ => None) "x" 3%Z) "y" 4%Z) "x") "z" 8%Z)%string, 8%Z.
  split; [|split; [|split; [|split; [|split]]]].
  - intros s c c' Hs H. destruct Hs as [<-|[<-|[]]]; unfold reuse_sem; cbn [sid];
      cbn [dep_names map dname sdeps] in H;
      [rewrite (H "x"%string)|rewrite (H "y"%string)]; simpl; auto.
  - intros s c asg Hs H. destruct Hs as [<-|[<-|[]]]; unfold reuse_sem in H; cbn [sid] in H;
      repeat match goal with
      | H : context [match c ?x with _ => _ end] |- _ => destruct (c x); try discriminate H
      end; injection H as <-; simpl; (split; [repeat constructor; simpl; tauto|tauto]).
  - intros c c' H. unfold reuse_res. rewrite (H "z"%string); simpl; auto.
  - split.
    + intros s s' n Hs Hs' Hn Hn'.
      destruct Hs as [<-|[<-|[]]]; destruct Hs' as [<-|[<-|[]]];
        simpl in *; destruct Hn as [<-|[]]; destruct Hn' as [Hn'|[]]; auto; discriminate Hn'.
    + intros s n Hs Hn Hi. destruct Hs as [<-|[<-|[]]]; simpl in Hn; destruct Hn as [<-|[]];
        vm_compute in Hi; intuition discriminate.
  - exists (fun s => sid s). intros s d Hs Hd Hn.
    destruct Hs as [<-|[<-|[]]]; simpl in Hd; destruct Hd as [<-|[]]; [discriminate Hn|].
    right. exists (Stmt 0 ["y"%string] [Dep "x" false] 0%Z). simpl. auto 10.
  - split; [vm_compute; reflexivity|]. split; [vm_compute; reflexivity|].
    vm_compute; reflexivity.
Qed.
Print Assumptions eval_context_reuse_refuted.

(** What does hold: a name that is not a compiler temporary either keeps the
    caller's value or is removed, and it is removed exactly when some step of the
    schedule discards it. *)
Theorem eval_context_effect_partial : forall (V R : Type)
  (sem : stmt -> ctx V -> result (list (string * V))) (res : ctx V -> result R) rvars
  stmts inputs sched (c c' : ctx V) r,
  NoDup (map sid stmts) ->
  sem_assigns sem stmts ->
  compute_schedule stmts rvars = Some (inputs, sched) ->
  execute sem res inputs sched c = Ok (r, c') ->
  forall n, (forall s, In s stmts -> ~ In n (sassignees s)) ->
    c' n = if existsb (fun p => inb n (snd p)) sched then None else c n.
Proof. exact context_effect_l. Qed.
Print Assumptions eval_context_effect_partial.
