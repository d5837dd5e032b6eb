(** Properties C129, C130.  Vocabulary: DotSpec.v, SchedSpec.v, CompSpec.v. *)
From Verif Require Import Base SchedModel SchedSpec CompModel CompSpec CompProofs3 CompProps DotModel DotSpec DotProofs.
From Coq Require Import Permutation.
Set Implicit Arguments.

(** ** C129 *)
(** One node per statement, in the order of execution, besides "initial" and
    "result"; for every variable a statement reads, exactly one arrow into the
    statement labelled with it, from the statement that assigns the variable or
    from "initial" if none does; and no other arrow into a statement. *)
Theorem dataflow_graph_exact : forall stmts rvars inputs sched r,
  NoDup (map sid stmts) -> well_founded_flow stmts ->
  single_assignment stmts (code_inputs stmts) ->
  compute_schedule stmts rvars = Some (inputs, sched) ->
  let code := scheduled sched in
  let g := dot_of_code sched r in
  nodes_of g = NInit :: NResult :: map NStmt (seq 0 (length stmts)) /\
  Permutation code stmts /\
  (forall k d, reads code k d ->
     exists o, comes_from code (dname d) o /\ drawn_once g (NStmt k) (LDep d) o) /\
  (forall a k l, In (LArrow a (NStmt k) l) g ->
     exists d, l = LDep d /\ reads code k d /\ comes_from code (dname d) a).
Proof.
  intros stmts rvars inputs sched r Hid Hwf Hsa Hs code g.
  pose proof (@sched_single stmts rvars inputs sched Hid Hwf Hsa Hs) as H1. pose proof (@sched_ids stmts rvars inputs sched Hid Hwf Hs) as H2.
  pose proof (@sched_perm stmts rvars inputs sched Hid Hwf Hs) as Hp.
  split; [|split; [exact Hp|split]].
  - subst g. unfold dot_of_code. rewrite nodes_ok by assumption. rewrite (Permutation_length Hp). reflexivity.
  - intros k d Hr. eexists. split; [|exact (once_stmt H2 r Hr)]. apply (orig_comes H1). reflexivity.
  - intros a k l H. apply (arrow_into_stmt H1 H2 r a k l). exact H.
Qed.
Print Assumptions dataflow_graph_exact.

(** Arrows follow the order of execution: there is no cycle, nothing leads into
    "initial" and nothing out of "result". *)
Theorem dataflow_graph_acyclic : forall stmts rvars inputs sched r,
  NoDup (map sid stmts) -> well_founded_flow stmts ->
  single_assignment stmts (code_inputs stmts) ->
  compute_schedule stmts rvars = Some (inputs, sched) ->
  let g := dot_of_code sched r in
  (forall a, ~ path g a a) /\
  (forall j k, arrow g (NStmt j) (NStmt k) -> j < k) /\
  (forall a, ~ arrow g a NInit /\ ~ arrow g NResult a).
Proof.
  intros stmts rvars inputs sched r Hid Hwf Hsa Hs g.
  pose proof (@sched_single stmts rvars inputs sched Hid Hwf Hsa Hs) as H1. pose proof (@sched_ids stmts rvars inputs sched Hid Hwf Hs) as H2.
  pose proof (@sched_fwd stmts rvars inputs sched Hid Hwf Hsa Hs) as H3.
  split; [|split].
  - intros a H. apply (path_rank H1 H2 H3) in H. exact (Nat.lt_irrefl _ H).
  - intros j k H. apply (arrow_rank H1 H2 H3) in H. simpl in H. apply Nat.succ_lt_mono. exact H.
  - intros a. split; intros [l H].
    + exact (@no_arrow_into_init _ H2 _ _ _ H).
    + exact (@no_arrow_from_result _ H1 H2 _ _ _ H).
Qed.
Print Assumptions dataflow_graph_acyclic.

(** The variables drawn as coming from "initial" into a statement are exactly
    the required inputs of the code it reads. *)
Theorem dataflow_initial_exact : forall stmts rvars inputs sched r,
  NoDup (map sid stmts) -> well_founded_flow stmts ->
  single_assignment stmts (code_inputs stmts) ->
  compute_schedule stmts rvars = Some (inputs, sched) ->
  forall k d, In (LArrow NInit (NStmt k) (LDep d)) (dot_of_code sched r) <->
    reads (scheduled sched) k d /\ In (dname d) inputs.
Proof.
  intros stmts rvars inputs sched r Hid Hwf Hsa Hs k d.
  pose proof (@sched_single stmts rvars inputs sched Hid Hwf Hsa Hs) as H1. pose proof (@sched_ids stmts rvars inputs sched Hid Hwf Hs) as H2.
  unfold dot_of_code. rewrite (arrow_into_stmt H1 H2 r NInit k (LDep d)). split.
  - intros (d' & E & Hr & Hc). injection E as <-. split; [exact Hr|].
    apply (@comes_init stmts rvars inputs sched Hid Hwf Hsa Hs k d Hr). exact Hc.
  - intros [Hr Hin]. exists d. split; [reflexivity|]. split; [exact Hr|].
    apply (@comes_init stmts rvars inputs sched Hid Hwf Hsa Hs k d Hr). exact Hin.
Qed.
Print Assumptions dataflow_initial_exact.

(** The hypotheses hold for every code the compiler produces. *)
Theorem compiled_codes_have_dataflow : forall ple kfeat gorder,
  (forall l, Permutation (gorder l) l) ->
  forall e, accepted e -> no_capture e -> limits_distinct e ->
  forall code r, compile ple kfeat gorder e = Ok (code, r) ->
  NoDup (map sid (to_stmts code)) /\ well_founded_flow (to_stmts code) /\
  single_assignment (to_stmts code) (code_inputs (to_stmts code)) /\
  exists inputs sched, compute_schedule (to_stmts code) (map dname (fv r)) = Some (inputs, sched).
Proof.
  intros ple kfeat gorder Hg e Ha Hc Hl code r H.
  split; [exact (compiled_ids code)|]. split; [exact (compiled_wf _ _ _ Hg Ha Hc Hl H)|].
  split; [exact (compiled_sa _ _ _ Hg Ha Hc Hl H)|].
  destruct (SchedProofs.compute_schedule_terminates (to_stmts code) (map dname (fv r)) (compiled_ids code)) as [s Hs].
  eauto.
Qed.
Print Assumptions compiled_codes_have_dataflow.

(** ** C130 *)
(** The arrows into "result": one for each entry of the result, in order,
    labelled with it; an entry that is a variable comes from where the variable
    comes from, any other is drawn as coming from "initial". *)
Theorem dataflow_result_partial : forall stmts rvars inputs sched r,
  NoDup (map sid stmts) -> well_founded_flow stmts ->
  single_assignment stmts (code_inputs stmts) ->
  compute_schedule stmts rvars = Some (inputs, sched) ->
  exists os,
  filter (fun l => match l with LArrow _ NResult _ => true | _ => false end) (dot_of_code sched r)
  = map (fun p => LArrow (fst p) NResult (LExpr (snd p))) (combine os (entries r))
  /\ Forall2 (fun o e => shown_source (scheduled sched) e o) os (entries r).
Proof.
  intros stmts rvars inputs sched r Hid Hwf Hsa Hs.
  exact (into_result (@sched_single stmts rvars inputs sched Hid Hwf Hsa Hs) (@sched_ids stmts rvars inputs sched Hid Hwf Hs) r).
Qed.
Print Assumptions dataflow_result_partial.

(** So the graph may say that the result does not depend on any statement: for
    the expression [-S(x)] the result reads the potential the only statement
    computes, but no path leads from that statement to "result". *)
Definition neg_e : expr := Op 1 [pS (LInt 1) (Var "x")].
Theorem dataflow_result_refuted :
  accepted neg_e /\ no_capture neg_e /\ limits_distinct neg_e /\
  exists code r inputs sched,
    compile ex_ple ex_kf ex_go neg_e = Ok (code, r) /\
    compute_schedule (to_stmts code) (map dname (fv r)) = Some (inputs, sched) /\
    (exists n d, In d (fv r) /\ dname d = n /\ comes_from (scheduled sched) n (NStmt 0)) /\
    ~ path (dot_of_code sched r) (NStmt 0) NResult.
Proof.
  assert (Hsub : forall x, sub neg_e x -> In x (subs neg_e)) by (intros; apply subs_sub; assumption).
  split; [|split; [|split]].
  - intros x Hx. apply Hsub in Hx. cbn in Hx.
    repeat (destruct Hx as [<-|Hx]; [simpl; auto; try (split; discriminate); try discriminate|]). destruct Hx.
  - intros x Hx. apply Hsub in Hx. cbn in Hx.
    repeat (destruct Hx as [<-|Hx]; [simpl; auto|]); try destruct Hx;
    intros (p & i & E & [->|[c Hc]]).
    + pose proof (cand_starts None i) as Hs. rewrite <- E in Hs. discriminate Hs.
    + apply Hsub in Hc. cbn in Hc. repeat (destruct Hc as [Hc|Hc]; [discriminate Hc|]). destruct Hc.
  - intros tk ps s t ks tk' ps' s' t' ks' H1 H2. apply Hsub in H2. cbn in H2.
    repeat (destruct H2 as [H2|H2]; [discriminate H2|]). destruct H2.
  - exists [CPot [("_expr0"%string, (0%nat, 0%nat, LInt 1))] [0%nat] [Var "x"] [] 0%nat].
    exists (Op 1 [NIR "_expr0"]). exists ["x"%string].
    eexists. split; [vm_compute; reflexivity|]. split; [vm_compute; reflexivity|]. split.
    + exists "_expr0"%string, (Dep "_expr0" true). split; [left; reflexivity|]. split; [reflexivity|].
      left. exists 0%nat. split; [reflexivity|]. split.
      * eexists. split; [reflexivity|]. left. reflexivity.
      * intros [|j] (s & Hs & _); [reflexivity|]. destruct j; discriminate Hs.
    + intros H. remember (NStmt 0) as a eqn:Ea. remember NResult as b eqn:Eb.
      assert (Hno : forall b, ~ arrow (dot_of_code [(to_stmt 0 (CPot [("_expr0"%string, (0%nat, 0%nat, LInt 1))] [0%nat] [Var "x"] [] 0%nat), @nil string)] (Op 1 [NIR "_expr0"])) (NStmt 0) b).
      { intros b' [l Hl]. cbn in Hl. repeat (destruct Hl as [Hl|Hl]; [discriminate Hl|]). destruct Hl. }
      destruct H as [a b H|a b c H _]; subst; exact (Hno _ H).
Qed.
Print Assumptions dataflow_result_refuted.

(** ** Non-vacuity: the graph of the eight statements of [ex_e] (CompProps.v). *)
Example ex_dot :
  match compile ex_ple ex_kf ex_go ex_e with
  | Ok (code, r) =>
      match compute_schedule (to_stmts code) (map dname (fv r)) with
      | Some (inputs, sched) => Some (inputs, length (dot_of_code sched r),
          flat_map (fun l => match l with LArrow a b (LDep d) => [(a, b, dname d)] | _ => [] end)
            (dot_of_code sched r),
          flat_map (fun l => match l with LArrow a NResult (LExpr e) => [(a, e)] | _ => [] end)
            (dot_of_code sched r))
      | None => None end
  | Err _ => None end
  = Some
    (["x"%string; "y"%string; "w"%string], 24,
     [(NInit, NStmt 0, "x"%string); (NStmt 0, NStmt 1, "d"%string);
      (NStmt 1, NStmt 2, "_expr1"%string);
      (NStmt 1, NStmt 2, "_expr0"%string);
      (NStmt 2, NStmt 3, "_expr2"%string);
      (NStmt 1, NStmt 4, "_expr1"%string);
      (NStmt 3, NStmt 5, "_expr3"%string);
      (NStmt 4, NStmt 5, "_expr4"%string); (NInit, NStmt 6, "y"%string);
      (NStmt 0, NStmt 6, "d"%string); (NInit, NStmt 6, "w"%string);
      (NStmt 5, NStmt 7, "_expr5"%string);
      (NStmt 6, NStmt 7, "_expr6"%string)], [(NStmt 7, NIR "_expr7")]).
Proof. vm_compute. reflexivity. Qed.
