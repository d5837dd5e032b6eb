(** Property C130, exactly.  Vocabulary: DotSpec.v, DotSpec2.v. *)
From Verif Require Import Base SchedModel SchedSpec CompModel CompSpec CompProofs3 CompProps DotModel DotSpec DotSpec2 DotProofs DotProps.
From Coq Require Import Permutation.
Set Implicit Arguments.

Section R.
Variable stmts : list stmt.
Hypothesis Hsa : forall j k n, assigns stmts j n -> assigns stmts k n -> j = k.
Hypothesis Hid : NoDup (map sid stmts).
Variable r : expr.
Notation g := (dot stmts r).

Lemma arrow_into_result a : arrow g a NResult <-> exists e, In e (entries r) /\ shown_source stmts e a.
Proof.
  split.
  - intros [l H]. apply in_dot_arrow in H. destruct H as [H|H].
    + apply (@in_stmt_arrows stmts Hid) in H. destruct H as (k & d & E & _). discriminate E.
    + rewrite result_arrows_eq in H. apply in_map_iff in H. destruct H as (e & E & He). injection E as E _.
      exists e. split; [exact He|]. apply (shown_orig Hsa). exact E.
  - intros (e & He & Hs). exists (LExpr e). apply in_dot_arrow. right.
    rewrite result_arrows_eq. apply in_map_iff. exists e. split; [|exact He].
    apply (shown_orig Hsa) in Hs. rewrite Hs. reflexivity.
Qed.

Lemma shown_stmt e k : shown_source stmts e (NStmt k) <-> exists n, is_variable e n /\ assigns stmts k n.
Proof.
  unfold is_variable. split.
  - intros H. destruct e; simpl in H; try discriminate H;
      (destruct H as [(j & E & Ha & _)|[E _]]; [injection E as <-; eauto|discriminate E]).
  - intros (n & [->| ->] & Ha); simpl; left; exists k; (split; [reflexivity|]; split; [exact Ha|]);
      intros j Hj; exact (Hsa Hj Ha).
Qed.

Lemma to_result_iff k : path g (NStmt k) NResult <->
  exists j e n, feeds stmts k j /\ In e (entries r) /\ is_variable e n /\ assigns stmts j n.
Proof.
  split.
  - intros H. remember (NStmt k) as a eqn:Ea. remember NResult as b eqn:Eb. revert k Ea Eb.
    induction H as [a b H|a b c H H1 IH]; intros k -> ->.
    + apply arrow_into_result in H. destruct H as (e & He & Hs). apply shown_stmt in Hs. destruct Hs as (n & Hv & Ha).
      exists k, e, n. split; [apply feeds_refl|]. auto.
    + destruct b as [| |j].
      * destruct H as [l H]. destruct (@no_arrow_into_init stmts Hid _ _ _ H).
      * inversion H1; subst; match goal with H : arrow _ NResult _ |- _ => destruct H as [l' H'] end;
          destruct (@no_arrow_from_result stmts Hsa Hid _ _ _ H').
      * destruct H as [l H]. apply (@arrow_into_stmt stmts Hsa Hid) in H. destruct H as (d & _ & Hr & Hc).
        destruct Hc as [(i & E & Ha & _)|[E _]]; [injection E as <-|discriminate E].
        destruct (IH j eq_refl eq_refl) as (m & e & n & Hf & Hrest).
        exists m, e, n. split; [|exact Hrest]. exact (feeds_step Ha Hr eq_refl Hf).
  - intros (j & e & n & Hf & He & Hv & Ha). induction Hf as [a|a b c n' d Ha' Hr Hd Hf IH].
    + apply path_one. apply arrow_into_result. exists e. split; [exact He|]. apply shown_stmt. eauto.
    + apply path_more with (NStmt b); [|exact (IH Ha)]. exists (LDep d). apply (@arrow_into_stmt stmts Hsa Hid).
      exists d. split; [reflexivity|]. split; [exact Hr|]. left. exists a. split; [reflexivity|].
      rewrite Hd. split; [exact Ha'|]. intros i Hi. exact (Hsa Hi Ha').
Qed.
End R.

(** The graph has a path from a statement to "result" exactly if the statement
    computes something that is used, directly or through other statements, by one
    that assigns a variable which is, as it stands, an entry of the result. *)
Theorem dataflow_path_to_result_iff : forall stmts rvars inputs sched r,
  NoDup (map sid stmts) -> well_founded_flow stmts ->
  single_assignment stmts (code_inputs stmts) ->
  compute_schedule stmts rvars = Some (inputs, sched) ->
  forall k, path (dot_of_code sched r) (NStmt k) NResult <->
    exists j e n, feeds (scheduled sched) k j /\ In e (entries r) /\ is_variable e n /\ assigns (scheduled sched) j n.
Proof.
  intros stmts rvars inputs sched r Hid Hwf Hsa Hs k.
  exact (to_result_iff (@sched_single stmts rvars inputs sched Hid Hwf Hsa Hs) (@sched_ids stmts rvars inputs sched Hid Hwf Hs) r k).
Qed.
Print Assumptions dataflow_path_to_result_iff.

(** So the property holds if every entry of the result is a variable or reads
    none; and it fails for a statement that assigns a variable the result reads
    exactly if neither the variable nor anything computed from the statement is,
    as it stands, an entry of the result. *)
Theorem dataflow_result_complete : forall stmts rvars inputs sched r,
  NoDup (map sid stmts) -> well_founded_flow stmts ->
  single_assignment stmts (code_inputs stmts) ->
  compute_schedule stmts rvars = Some (inputs, sched) ->
  (forall e, In e (entries r) -> (exists n, is_variable e n) \/ fv e = []) ->
  forall k e d, In e (entries r) -> In d (fv e) -> assigns (scheduled sched) k (dname d) ->
  path (dot_of_code sched r) (NStmt k) NResult.
Proof.
  intros stmts rvars inputs sched r Hid Hwf Hsa Hs Hv k e d He Hd Ha.
  apply (@dataflow_path_to_result_iff stmts rvars inputs sched r Hid Hwf Hsa Hs).
  destruct (Hv e He) as [[n Hn]|E]; [|rewrite E in Hd; destruct Hd].
  exists k, e, n. split; [apply feeds_refl|]. split; [exact He|]. split; [exact Hn|].
  destruct Hn as [->| ->]; simpl in Hd; destruct Hd as [<-|[]]; exact Ha.
Qed.
Print Assumptions dataflow_result_complete.

(** Every statement of a compiled code is accounted for: those with no path to
    "result" feed only statements whose variables occur inside of larger
    expressions of the result (or not at all). *)
Theorem dataflow_no_path_means : forall stmts rvars inputs sched r,
  NoDup (map sid stmts) -> well_founded_flow stmts ->
  single_assignment stmts (code_inputs stmts) ->
  compute_schedule stmts rvars = Some (inputs, sched) ->
  forall k, ~ path (dot_of_code sched r) (NStmt k) NResult ->
  forall j n, feeds (scheduled sched) k j -> assigns (scheduled sched) j n ->
    ~ In (Var n) (entries r) /\ ~ In (NIR n) (entries r).
Proof.
  intros stmts rvars inputs sched r Hid Hwf Hsa Hs k Hno j n Hf Ha.
  split; intros H; apply Hno; apply (@dataflow_path_to_result_iff stmts rvars inputs sched r Hid Hwf Hsa Hs).
  - exists j, (Var n), n. unfold is_variable. auto.
  - exists j, (NIR n), n. unfold is_variable. auto.
Qed.
Print Assumptions dataflow_no_path_means.

(** ** Non-vacuity: in the graph of [ex_e] (DotProps.v, [ex_dot]) statement 0
    feeds statement 7, whose variable is the result. *)
Definition ex_sched : option (list (stmt * list string) * expr) :=
  match compile ex_ple ex_kf ex_go ex_e with
  | Ok (code, r) => match compute_schedule (to_stmts code) (map dname (fv r)) with
                    | Some (_, sched) => Some (sched, r) | None => None end
  | Err _ => None end.
Example ex_feeds : match ex_sched with
  | Some (sched, r) => entries r = [NIR "_expr7"]
      /\ (exists n d, In n (nth 0 (map sassignees (scheduled sched)) []) /\ In d (nth 6 (map sdeps (scheduled sched)) []) /\ dname d = n)
      /\ (exists n d, In n (nth 6 (map sassignees (scheduled sched)) []) /\ In d (nth 7 (map sdeps (scheduled sched)) []) /\ dname d = n)
      /\ In "_expr7"%string (nth 7 (map sassignees (scheduled sched)) [])
  | None => False end.
Proof.
  vm_compute. split; [reflexivity|]. split; [|split; [|left; reflexivity]].
  - exists "d"%string. eexists. split; [left; reflexivity|]. split; [right; left; reflexivity|reflexivity].
  - exists "_expr6"%string. eexists. split; [left; reflexivity|]. split; [right; left; reflexivity|reflexivity].
Qed.
