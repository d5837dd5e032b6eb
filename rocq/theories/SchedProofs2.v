(** Consequences of [sched_ok] in the vocabulary of the property theorems. *)
From Verif Require Import Base SchedModel SchedSpec SchedProofs.
Set Implicit Arguments.

Lemma alive_snoc inputs pre s d :
  alive inputs (pre ++ [(s, d)]) = union (diff (alive inputs pre) d) (sassignees s).
Proof. rewrite alive_app. reflexivity. Qed.

Lemma alive_iff inputs pre n : In n (alive inputs pre) <-> produced_and_kept inputs pre n.
Proof.
  induction pre as [|[s d] pre IH] using rev_ind.
  - simpl. split.
    + intros H. exists [], []. split; [reflexivity|]. split; [left; auto|]. intros s' d' [].
    + intros (p1 & p2 & Hp & H & _). symmetry in Hp. apply app_eq_nil in Hp.
      destruct Hp as [-> ->]. destruct H as [[_ H]|(p0 & s0 & d0 & H & _)]; [exact H|].
      symmetry in H. apply app_eq_nil in H. destruct H as [_ H]. discriminate H.
  - rewrite alive_snoc, In_union, In_diff, IH. split.
    + intros [[(p1 & p2 & Hp & H & Hk) Hd]|Ha].
      * exists p1, (p2 ++ [(s, d)]). split; [rewrite Hp, app_assoc; reflexivity|].
        split; [exact H|]. intros s' d' Hin. apply in_app_iff in Hin.
        destruct Hin as [Hin|[Hin|[]]]; [exact (Hk s' d' Hin)|].
        injection Hin as Hs Hd'. subst. exact Hd.
      * exists (pre ++ [(s, d)]), []. split; [rewrite app_nil_r; reflexivity|].
        split; [right; exists pre, s, d; auto|]. intros s' d' [].
    + intros (p1 & p2 & Hp & H & Hk).
      destruct p2 as [|x p2 _] using rev_ind.
      * rewrite app_nil_r in Hp. subst p1.
        destruct H as [[H _]|(p0 & s0 & d0 & H & Hn)].
        -- apply app_eq_nil in H. destruct H as [_ H]. discriminate H.
        -- apply app_inj_tail in H. destruct H as [_ H]. injection H as Hs Hd. subst.
           right. exact Hn.
      * rewrite app_assoc in Hp. apply app_inj_tail in Hp. destruct Hp as [Hp Hx]. subst x.
        left. split.
        -- exists p1, p2. split; [exact Hp|]. split; [exact H|].
           intros s' d' Hin. apply (Hk s' d'). apply in_app_iff. left. exact Hin.
        -- apply (Hk s d). apply in_app_iff. right. left. reflexivity.
Qed.

Lemma map_sid_scheduled pre : map sid (scheduled pre) = map (fun p => sid (fst p)) pre.
Proof. unfold scheduled. rewrite map_map. reflexivity. Qed.

Lemma schedule_sound_l stmts rvars inputs sched :
  NoDup (map sid stmts) ->
  compute_schedule stmts rvars = Some (inputs, sched) ->
  forall pre s d post, sched = pre ++ (s, d) :: post ->
    In s stmts /\ runnable inputs pre s /\
    (forall n, In n (dep_names s) -> ~ In n d) /\
    (exists l1 l2, stmts = l1 ++ s :: l2 /\
      (forall x, In x l1 -> runnable inputs pre x -> (sprio x < sprio s)%Z) /\
      (forall x, In x l2 -> runnable inputs pre x -> (sprio x <= sprio s)%Z)).
Proof.
  intros Hsid Hc pre s d post Hp.
  destruct (compute_schedule_ok _ _ Hsid Hc) as [Hi Hok].
  destruct (so_step Hok pre s d post Hp) as (Hin & Hnew & Hdeps & Hdisc & _ & l1 & l2 & Hl & H1 & H2).
  rewrite map_sid_scheduled in *.
  split; [exact Hin|]. split.
  { split; [exact Hnew|]. intros n Hn. apply alive_iff. apply Hdeps. exact Hn. }
  split.
  { intros n Hn Hd. apply Hdisc in Hd. destruct Hd as (_ & _ & Hd).
    exact (Hd s Hin Hnew Hn). }
  exists l1, l2. split; [exact Hl|]. split; intros x Hx [Hnd Hr].
  - apply H1; auto. intros n Hn. apply alive_iff. apply Hr. exact Hn.
  - apply H2; auto. intros n Hn. apply alive_iff. apply Hr. exact Hn.
Qed.

Lemma schedule_maximal_l stmts rvars inputs sched :
  NoDup (map sid stmts) ->
  compute_schedule stmts rvars = Some (inputs, sched) ->
  forall s, In s stmts -> ~ runnable inputs sched s.
Proof.
  intros Hsid Hc s Hs [Hnd Hr].
  destruct (compute_schedule_ok _ _ Hsid Hc) as [Hi Hok].
  rewrite <- map_sid_scheduled in Hnd.
  destruct (so_end Hok s Hs Hnd) as (n & Hn & Hna). apply Hna. apply alive_iff. apply Hr. exact Hn.
Qed.

Lemma NoDup_map_inv' {A B} (f : A -> B) l : NoDup (map f l) -> NoDup l.
Proof.
  induction l as [|x l IH]; simpl; intros H; [constructor|].
  inversion H as [|y ys Hn Hd]; subst. constructor.
  - intros Hx. apply Hn. apply in_map. exact Hx.
  - apply IH. exact Hd.
Qed.

Lemma schedule_complete_l stmts rvars inputs sched :
  NoDup (map sid stmts) -> well_founded_flow stmts ->
  compute_schedule stmts rvars = Some (inputs, sched) ->
  NoDup (scheduled sched) /\ forall s, In s (scheduled sched) <-> In s stmts.
Proof.
  intros Hsid Hwf Hc.
  destruct (compute_schedule_ok _ _ Hsid Hc) as [Hi Hok]. subst inputs. split.
  - apply (NoDup_map_inv' sid). exact (NoDup_snoc_sched Hok).
  - intros s. split.
    + intros Hs. unfold scheduled in Hs. apply in_map_iff in Hs.
      destruct Hs as [[s' d] [He Hs]]. simpl in He. subst s'.
      apply in_split in Hs. destruct Hs as (pre & post & Hp).
      destruct (so_step Hok pre s d post Hp) as (Hin & _). exact Hin.
    + apply (sched_complete Hsid Hok Hwf).
Qed.

Lemma discard_exact_l stmts rvars inputs sched :
  NoDup (map sid stmts) ->
  compute_schedule stmts rvars = Some (inputs, sched) ->
  forall pre s d post, sched = pre ++ (s, d) :: post ->
  NoDup d /\
  forall n, In n d <->
    produced_and_kept inputs pre n /\ ~ In n rvars /\
    (forall s', In s' stmts -> ~ In (sid s') (map (fun p => sid (fst p)) pre) ->
       ~ In n (dep_names s')).
Proof.
  intros Hsid Hc pre s d post Hp.
  destruct (compute_schedule_ok _ _ Hsid Hc) as [Hi Hok].
  destruct (so_step Hok pre s d post Hp) as (_ & _ & _ & Hdisc & Hnd & _).
  split; [exact Hnd|]. intros n. rewrite Hdisc, alive_iff, map_sid_scheduled. tauto.
Qed.

Section Exec.
Variable V R : Type.
Variable sem : stmt -> ctx V -> result (list (string * V)).
Variable res : ctx V -> result R.
Variable rvars : list string.

Lemma missing_input_l inputs sched (c : ctx V) :
  (exists n, In n inputs /\ c n = None) ->
  execute sem res inputs sched c = Err ValueError.
Proof.
  intros (n & Hn & Hc). unfold execute.
  destruct (forallb _ inputs) eqn:E; [|reflexivity].
  rewrite forallb_forall in E. specialize (E n Hn). simpl in E. rewrite Hc in E. discriminate E.
Qed.

Lemma inputs_present inputs sched (c : ctx V) r c' :
  execute sem res inputs sched c = Ok (r, c') -> forall n, In n inputs -> c n <> None.
Proof.
  unfold execute. destruct (forallb _ inputs) eqn:E; [|discriminate].
  intros _ n Hn Hc. rewrite forallb_forall in E. specialize (E n Hn). simpl in E.
  rewrite Hc in E. discriminate E.
Qed.

Lemma execute_ok_iff_l stmts c0 inputs sched :
  sem_reads_deps sem stmts -> sem_assigns sem stmts -> res_reads_rvars res rvars ->
  NoDup (map sid stmts) ->
  well_founded_flow stmts ->
  single_assignment stmts (code_inputs stmts) ->
  compute_schedule stmts rvars = Some (inputs, sched) ->
  forall r,
  (exists c', execute sem res inputs sched c0 = Ok (r, c')) <->
  (forall n, In n inputs -> c0 n <> None) /\
  exists sigma, solution sem stmts c0 sigma /\ res sigma = Ok r.
Proof.
  intros Hr Ha Hrr Hsid Hwf Hsa Hc r. split.
  - intros [c' He]. pose proof (@inputs_present _ _ _ _ _ He) as Hin. split; [exact Hin|].
    destruct (@execute_gives_solution V R sem res rvars stmts c0 inputs sched r c'
       Hr Ha Hsid Hwf Hsa Hc He) as [sigma Hs].
    exists sigma. split; [exact Hs|].
    pose proof (@execute_solution V R sem res rvars stmts c0 sigma inputs sched
       Hr Ha Hrr Hsid Hwf Hsa Hc Hin Hs) as H. rewrite He in H. exact H.
  - intros [Hin (sigma & Hs & Hres)].
    pose proof (@execute_solution V R sem res rvars stmts c0 sigma inputs sched
       Hr Ha Hrr Hsid Hwf Hsa Hc Hin Hs) as H.
    destruct (execute sem res inputs sched c0) as [[r' c']|e].
    + rewrite Hres in H. injection H as H. subst. exists c'. reflexivity.
    + rewrite Hres in H. discriminate H.
Qed.

Lemma no_keyerror_l stmts inputs sched (c : ctx V) :
  NoDup (map sid stmts) ->
  sem_assigns sem stmts ->
  (forall s c, sem s c <> Err KeyError /\ sem s c <> Err AssertionError) ->
  (forall c, res c <> Err KeyError /\ res c <> Err AssertionError) ->
  compute_schedule stmts rvars = Some (inputs, sched) ->
  execute sem res inputs sched c <> Err KeyError /\
  execute sem res inputs sched c <> Err AssertionError.
Proof.
  intros Hsid Ha Hs Hr Hc.
  destruct (compute_schedule_ok _ _ Hsid Hc) as [Hi Hok].
  unfold execute. destruct (forallb _ inputs) eqn:E; [|split; discriminate].
  assert (Hin : forall n, In n (alive inputs []) -> c n <> None).
  { intros n Hn Hcn. rewrite forallb_forall in E. specialize (E n Hn). simpl in E.
    rewrite Hcn in E. discriminate E. }
  destruct (@exec_no_keyerror V R sem res rvars stmts inputs sched Ha Hs Hok sched [] eq_refl c Hin)
    as [H1 H2].
  destruct (exec_sched sem c sched) as [c'|e]; simpl.
  - destruct (Hr c') as [H3 H4]. destruct (res c') as [r|e]; simpl; split; congruence.
  - split; congruence.
Qed.

(** Effect of an evaluation on the caller's dictionary. *)
Lemma context_effect_l stmts inputs sched (c c' : ctx V) r :
  NoDup (map sid stmts) ->
  sem_assigns sem stmts ->
  compute_schedule stmts rvars = Some (inputs, sched) ->
  execute sem res inputs sched c = Ok (r, c') ->
  forall n, (forall s, In s stmts -> ~ In n (sassignees s)) ->
    c' n = if existsb (fun p => inb n (snd p)) sched then None else c n.
Proof.
  intros Hsid Ha Hc He n Hn.
  destruct (compute_schedule_ok _ _ Hsid Hc) as [Hi Hok].
  unfold execute in He. destruct (forallb _ inputs) eqn:E; [|discriminate He].
  destruct (exec_sched sem c sched) as [c1|e] eqn:Hx; simpl in He; [|discriminate He].
  destruct (res c1) as [r1|e]; simpl in He; [|discriminate He].
  injection He as Hr Hc'. subst.
  destruct (@exec_keys V R sem res rvars stmts _ sched Ha Hok sched [] eq_refl c c' Hx n) as [H1 H2].
  assert (Hno : forall s d, In (s, d) sched -> ~ In n (sassignees s)).
  { intros s d Hsd. apply Hn. apply in_split in Hsd. destruct Hsd as (p & q & Hp).
    destruct (so_step Hok p s d q Hp) as (Hin & _). exact Hin. }
  destruct (existsb _ sched) eqn:Ex.
  - apply H1; [exact Hno|]. apply existsb_exists in Ex. destruct Ex as ([s d] & Hsd & Hd).
    exists s, d. split; [exact Hsd|]. apply inb_In. exact Hd.
  - apply H2; [exact Hno|]. intros s d Hsd Hd.
    assert (existsb (fun p => inb n (snd p)) sched = true) as Ht; [|congruence].
    apply existsb_exists. exists (s, d). split; [exact Hsd|]. apply inb_In. exact Hd.
Qed.
End Exec.
