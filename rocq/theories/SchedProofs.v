(** Proofs about the scheduler and the executor. *)
From Verif Require Import Base SchedModel SchedSpec.
Set Implicit Arguments.


Lemma alive_app avail a b : alive avail (a ++ b) = alive (alive avail a) b.
Proof.
  revert avail. induction a as [|[s d] a IH]; intros avail; simpl; [reflexivity|].
  apply IH.
Qed.

Lemma is_done_In done s : is_done done s = true <-> In (sid s) done.
Proof.
  unfold is_done. rewrite existsb_exists. split.
  - intros [x [Hx He]]. apply Nat.eqb_eq in He. rewrite He. exact Hx.
  - intros H. exists (sid s). split; [exact H|apply Nat.eqb_refl].
Qed.

Lemma is_done_false done s : is_done done s = false <-> ~ In (sid s) done.
Proof.
  rewrite <- is_done_In. destruct (is_done done s); split; intros H; congruence.
Qed.

Lemma ready_spec avail done s :
  ready avail done s = true <->
  ~ In (sid s) done /\ (forall n, In n (dep_names s) -> In n avail).
Proof.
  unfold ready. rewrite andb_true_iff, negb_true_iff, is_done_false, subset_spec. tauto.
Qed.

(** [argmax2] returns the first maximum. *)
Lemma argmax2_spec s l :
  exists a b, s :: l = a ++ argmax2 s l :: b /\
    (forall x, In x a -> (sprio x < sprio (argmax2 s l))%Z) /\
    (forall x, In x b -> (sprio x <= sprio (argmax2 s l))%Z).
Proof.
  unfold argmax2.
  set (f := fun cur x : stmt => if (sprio cur <? sprio x)%Z then x else cur).
  revert s. induction l as [|y l IH] using rev_ind; intros s.
  - exists [], []. simpl. repeat split; intros x [].
  - rewrite fold_left_app. simpl.
    destruct (IH s) as (a & b & Hs & Ha & Hb).
    set (m := fold_left f l s) in *.
    unfold f at 1 2 3. destruct (Z.ltb_spec (sprio m) (sprio y)) as [Hlt|Hge].
    + exists (s :: l), []. split; [reflexivity|]. split.
      * intros x Hx. rewrite Hs in Hx. apply in_app_iff in Hx.
        destruct Hx as [Hx|[Hx|Hx]].
        -- specialize (Ha x Hx). lia.
        -- subst x. exact Hlt.
        -- specialize (Hb x Hx). lia.
      * intros x [].
    + exists a, (b ++ [y]). split.
      * rewrite app_comm_cons, Hs. rewrite <- app_assoc. reflexivity.
      * split; [exact Ha|]. intros x Hx. apply in_app_iff in Hx.
        destruct Hx as [Hx|[Hx|[]]]; [apply Hb; exact Hx|subst; exact Hge].
Qed.

Lemma argmax2_In s l : In (argmax2 s l) (s :: l).
Proof.
  destruct (argmax2_spec s l) as (a & b & H & _ & _). rewrite H.
  apply in_app_iff. right. left. reflexivity.
Qed.

(** ** One step *)
Lemma next_step_spec stmts rvars avail done s d :
  get_next_step stmts rvars avail done = Some (s, d) ->
  In s stmts /\ ready avail done s = true /\
  d = diff (diff avail (needed_vars stmts done)) rvars.
Proof.
  unfold get_next_step.
  destruct (filter (ready avail done) stmts) as [|s0 rest] eqn:Hf; [discriminate|].
  intros H. injection H as Hs Hd. subst d.
  assert (Hin : In s (filter (ready avail done) stmts)).
  { rewrite Hf, <- Hs. apply argmax2_In. }
  apply filter_In in Hin. destruct Hin as [Hin Hr]. auto.
Qed.

Lemma next_step_none stmts rvars avail done :
  get_next_step stmts rvars avail done = None ->
  forall s, In s stmts -> ready avail done s = false.
Proof.
  unfold get_next_step.
  destruct (filter (ready avail done) stmts) as [|s0 rest] eqn:Hf; [|discriminate].
  intros _ s Hs. destruct (ready avail done s) eqn:E; [|reflexivity].
  assert (Hin : In s (filter (ready avail done) stmts)) by (apply filter_In; auto).
  rewrite Hf in Hin. destruct Hin.
Qed.

Lemma filter_app_inv {A} (f : A -> bool) (l a : list A) x b :
  filter f l = a ++ x :: b ->
  exists l1 l2, l = l1 ++ x :: l2 /\ filter f l1 = a /\ filter f l2 = b.
Proof.
  revert a. induction l as [|y l IH]; intros a H; simpl in H.
  - destruct a; discriminate.
  - destruct (f y) eqn:E.
    + destruct a as [|a0 a]; simpl in H; injection H as Hy Hl.
      * subst y. exists [], l. repeat split; auto.
      * destruct (IH a Hl) as (l1 & l2 & H1 & H2 & H3). exists (y :: l1), l2.
        subst. simpl. rewrite E. repeat split; auto.
    + destruct (IH a H) as (l1 & l2 & H1 & H2 & H3). exists (y :: l1), l2.
      subst. simpl. rewrite E. repeat split; auto.
Qed.

(** The chosen statement is the first of maximal priority among the ready ones. *)
Lemma next_step_priority stmts rvars avail done s d :
  get_next_step stmts rvars avail done = Some (s, d) ->
  exists l1 l2, stmts = l1 ++ s :: l2 /\
    (forall x, In x l1 -> ready avail done x = true -> (sprio x < sprio s)%Z) /\
    (forall x, In x l2 -> ready avail done x = true -> (sprio x <= sprio s)%Z).
Proof.
  unfold get_next_step.
  destruct (filter (ready avail done) stmts) as [|s0 rest] eqn:Hf; [discriminate|].
  intros H. injection H as Hs Hd.
  destruct (argmax2_spec s0 rest) as (a & b & Hab & Ha & Hb).
  rewrite Hab in Hf. rewrite Hs in *.
  apply filter_app_inv in Hf. destruct Hf as (l1 & l2 & Hl & H1 & H2).
  exists l1, l2. split; [exact Hl|]. split.
  - intros x Hx Hr. apply Ha. rewrite <- H1. apply filter_In. auto.
  - intros x Hx Hr. apply Hb. rewrite <- H2. apply filter_In. auto.
Qed.

Lemma In_needed n stmts done :
  In n (needed_vars stmts done) <->
  exists s, In s stmts /\ ~ In (sid s) done /\ In n (dep_names s).
Proof.
  unfold needed_vars. rewrite in_flat_map. split.
  - intros [s [Hs Hn]]. apply filter_In in Hs. destruct Hs as [Hs Hd].
    apply negb_true_iff, is_done_false in Hd. exists s. auto.
  - intros [s [Hs [Hd Hn]]]. exists s. split; [|exact Hn].
    apply filter_In. split; [exact Hs|]. apply negb_true_iff, is_done_false. exact Hd.
Qed.

Lemma In_inputs n stmts :
  In n (code_inputs stmts) <->
  exists s d, In s stmts /\ In d (sdeps s) /\ dnamed d = false /\ dname d = n.
Proof.
  unfold code_inputs. rewrite In_union, in_map_iff. split.
  - intros [[]|[d [Hn Hd]]]. apply filter_In in Hd. destruct Hd as [Hd Hb].
    apply in_flat_map in Hd. destruct Hd as [s [Hs Hd]].
    apply negb_true_iff in Hb. exists s, d. auto.
  - intros (s & d & Hs & Hd & Hb & Hn). right. exists d. split; [exact Hn|].
    apply filter_In. split; [|apply negb_true_iff; exact Hb].
    apply in_flat_map. exists s. auto.
Qed.

Lemma NoDup_inputs stmts : NoDup (code_inputs stmts).
Proof. apply NoDup_union. constructor. Qed.


Lemma not_subset_witness l avail :
  subset l avail = false -> exists n, In n l /\ ~ In n avail.
Proof.
  unfold subset. induction l as [|x l IH]; simpl; [discriminate|].
  intros H. apply andb_false_iff in H. destruct H as [H|H].
  - exists x. split; [left; reflexivity|]. apply inb_false. exact H.
  - destruct (IH H) as [n [H1 H2]]. exists n. auto.
Qed.

Lemma loop_invariant stmts rvars inputs :
  NoDup inputs ->
  forall fuel avail done pre sched,
  NoDup (map sid stmts) ->
  avail = alive inputs pre -> done = map sid (scheduled pre) -> NoDup avail ->
  (forall p s d q, pre = p ++ (s, d) :: q ->
    In s stmts /\
    ~ In (sid s) (map sid (scheduled p)) /\
    (forall n, In n (dep_names s) -> In n (alive inputs p)) /\
    (forall n, In n d <->
       In n (alive inputs p) /\ ~ In n rvars /\
       (forall s', In s' stmts -> ~ In (sid s') (map sid (scheduled p)) ->
          ~ In n (dep_names s'))) /\
    NoDup d /\
    (exists l1 l2, stmts = l1 ++ s :: l2 /\
      (forall x, In x l1 -> ~ In (sid x) (map sid (scheduled p)) ->
         (forall n, In n (dep_names x) -> In n (alive inputs p)) ->
         (sprio x < sprio s)%Z) /\
      (forall x, In x l2 -> ~ In (sid x) (map sid (scheduled p)) ->
         (forall n, In n (dep_names x) -> In n (alive inputs p)) ->
         (sprio x <= sprio s)%Z))) ->
  schedule_loop fuel stmts rvars avail done pre = Some sched ->
  sched_ok stmts rvars inputs sched.
Proof.
  intros Hnd fuel. induction fuel as [|fuel IH]; intros avail done pre sched Hsid Hav Hdone Hnda Hpre H;
    simpl in H; [discriminate|].
  destruct (get_next_step stmts rvars avail done) as [[s d]|] eqn:Hstep.
  - apply (IH (union (diff avail d) (sassignees s)) (done ++ [sid s]) (pre ++ [(s, d)]) sched);
      auto.
    + subst. rewrite alive_app. reflexivity.
    + subst. unfold scheduled. rewrite !map_app. reflexivity.
    + apply NoDup_union. apply NoDup_diff. exact Hnda.
    + intros p s' d' q Hp.
      destruct q as [|q0 q] using rev_ind.
      * apply app_inj_tail in Hp. destruct Hp as [Hp He]. injection He as Hs Hd.
        subst p s' d'.
        pose proof (next_step_spec _ _ _ _ Hstep) as (Hin & Hr & Hd).
        pose proof (next_step_priority _ _ _ _ Hstep) as (l1 & l2 & Hl & H1 & H2).
        apply ready_spec in Hr. destruct Hr as [Hnot Hdeps].
        subst avail done.
        split; [exact Hin|]. split; [exact Hnot|]. split; [exact Hdeps|]. split.
        { intros n. rewrite Hd. rewrite !In_diff, In_needed. split.
          - intros [[Ha Hn] Hr]. split; [exact Ha|]. split; [exact Hr|].
            intros s' Hs' Hns' Hdn. apply Hn. exists s'. auto.
          - intros [Ha [Hr Hn]]. split; [|exact Hr]. split; [exact Ha|].
            intros (s' & Hs' & Hns' & Hdn). exact (Hn s' Hs' Hns' Hdn). }
        split.
        { rewrite Hd. apply NoDup_diff, NoDup_diff. exact Hnda. }
        exists l1, l2. split; [exact Hl|]. split.
        -- intros x Hx Hnx Hdx. apply H1; [exact Hx|]. apply ready_spec. auto.
        -- intros x Hx Hnx Hdx. apply H2; [exact Hx|]. apply ready_spec. auto.
      * rewrite app_comm_cons, app_assoc in Hp. apply app_inj_tail in Hp.
        destruct Hp as [Hp _]. exact (Hpre p s' d' q Hp).
  - injection H as H. subst sched. split; [exact Hpre|].
    intros s Hs Hns.
    pose proof (next_step_none _ _ _ _ Hstep s Hs) as Hr.
    unfold ready in Hr. subst done.
    apply andb_false_iff in Hr. destruct Hr as [Hr|Hr].
    + apply negb_false_iff, is_done_In in Hr. contradiction.
    + subst avail. apply not_subset_witness. exact Hr.
Qed.

Lemma loop_terminates stmts rvars :
  NoDup (map sid stmts) ->
  forall fuel avail done pre,
  NoDup done -> incl done (map sid stmts) ->
  (length stmts < fuel + length done)%nat ->
  exists sched, schedule_loop fuel stmts rvars avail done pre = Some sched.
Proof.
  intros Hsid fuel. induction fuel as [|fuel IH]; intros avail done pre Hnd Hincl Hlen.
  - exfalso. pose proof (NoDup_incl_length Hnd Hincl) as H.
    rewrite map_length in H. lia.
  - simpl. destruct (get_next_step stmts rvars avail done) as [[s d]|] eqn:Hstep.
    + pose proof (next_step_spec _ _ _ _ Hstep) as (Hin & Hr & _).
      apply ready_spec in Hr. destruct Hr as [Hnot _].
      apply IH.
      * apply NoDup_snoc; assumption.
      * intros x Hx. apply in_app_iff in Hx. destruct Hx as [Hx|[Hx|[]]]; [auto|].
        subst x. apply in_map. exact Hin.
      * rewrite app_length. simpl. lia.
    + exists pre. reflexivity.
Qed.

Lemma compute_schedule_terminates stmts rvars :
  NoDup (map sid stmts) ->
  exists sched, compute_schedule stmts rvars = Some (code_inputs stmts, sched).
Proof.
  intros Hsid. unfold compute_schedule.
  destruct (@loop_terminates stmts rvars Hsid (S (length stmts)) (code_inputs stmts) [] [])
    as [sched H].
  - constructor.
  - intros x [].
  - simpl. lia.
  - rewrite H. exists sched. reflexivity.
Qed.

Lemma compute_schedule_ok stmts rvars inputs sched :
  NoDup (map sid stmts) ->
  compute_schedule stmts rvars = Some (inputs, sched) ->
  inputs = code_inputs stmts /\ sched_ok stmts rvars inputs sched.
Proof.
  intros Hsid. unfold compute_schedule.
  destruct (schedule_loop _ stmts rvars (code_inputs stmts) [] []) as [sc|] eqn:H;
    [|discriminate].
  intros He. injection He as Hi Hs. subst. split; [reflexivity|].
  apply (@loop_invariant stmts rvars (code_inputs stmts) (NoDup_inputs stmts)
           (S (length stmts)) (code_inputs stmts) [] [] sched); auto.
  - apply NoDup_inputs.
  - intros p s d q Hp. destruct p; discriminate.
Qed.

Lemma NoDup_snoc_sched stmts rvars inputs sched :
  sched_ok stmts rvars inputs sched -> NoDup (map sid (scheduled sched)).
Proof.
  intros [Hstep _].
  assert (Hgen : forall pre post, sched = pre ++ post -> NoDup (map sid (scheduled pre))).
  { intros pre. induction pre as [|[s d] pre IH] using rev_ind; intros post Hp.
    - constructor.
    - unfold scheduled. rewrite !map_app. simpl. apply NoDup_snoc.
      + apply (IH ((s, d) :: post)). rewrite Hp, <- app_assoc. reflexivity.
      + destruct (Hstep pre s d post) as (_ & Hn & _).
        * rewrite Hp, <- app_assoc. reflexivity.
        * exact Hn. }
  apply (Hgen sched []). rewrite app_nil_r. reflexivity.
Qed.

(** ** Liveness *)
Lemma In_alive_from avail pre n :
  In n (alive avail pre) -> In n avail \/ exists s d, In (s, d) pre /\ In n (sassignees s).
Proof.
  revert avail. induction pre as [|[s d] pre IH]; intros avail H; simpl in H; [auto|].
  destruct (IH _ H) as [H'|(s' & d' & Hin & Hn)].
  - apply In_union in H'. destruct H' as [H'|H'].
    + apply In_diff in H'. left. tauto.
    + right. exists s, d. split; [left; reflexivity|exact H'].
  - right. exists s', d'. split; [right; exact Hin|exact Hn].
Qed.

(** A name stays alive while some unscheduled statement needs it. *)
Lemma alive_kept avail pre n :
  (forall s d, In (s, d) pre -> ~ In n d) ->
  In n avail \/ (exists s d, In (s, d) pre /\ In n (sassignees s)) ->
  In n (alive avail pre).
Proof.
  revert avail. induction pre as [|[s d] pre IH]; intros avail Hd H; simpl.
  - destruct H as [H|(s & d & [] & _)]. exact H.
  - apply IH.
    + intros s' d' Hin. apply (Hd s' d'). right. exact Hin.
    + destruct H as [H|(s' & d' & [Hin|Hin] & Hn)].
      * left. apply In_union. left. apply In_diff. split; [exact H|].
        apply (Hd s d). left. reflexivity.
      * injection Hin as -> ->. left. apply In_union. right. exact Hn.
      * right. exists s', d'. auto.
Qed.

Lemma sched_never_discards_needed stmts rvars inputs sched :
  sched_ok stmts rvars inputs sched ->
  forall pre s d post, sched = pre ++ (s, d) :: post ->
  forall n, (In n rvars \/
     exists s', In s' stmts /\ ~ In (sid s') (map sid (scheduled pre)) /\ In n (dep_names s')) ->
  ~ In n d.
Proof.
  intros [Hstep _] pre s d post Hp n Hn Hd.
  destruct (Hstep pre s d post Hp) as (_ & _ & _ & Hdisc & _).
  apply Hdisc in Hd. destruct Hd as (_ & Hr & Hnot).
  destruct Hn as [Hn|(s' & Hs' & Hns & Hdn)]; [exact (Hr Hn)|].
  exact (Hnot s' Hs' Hns Hdn).
Qed.

(** ** Completeness of the schedule *)


Lemma in_sid_inj stmts s s' :
  NoDup (map sid stmts) -> In s stmts -> In s' stmts -> sid s = sid s' -> s = s'.
Proof.
  induction stmts as [|x l IH]; intros Hnd Hs Hs' He; [destruct Hs|].
  simpl in Hnd. inversion Hnd as [|y ys Hnot Hnd']; subst.
  destruct Hs as [Hs|Hs]; destruct Hs' as [Hs'|Hs']; subst; auto.
  - exfalso. apply Hnot. rewrite He. apply in_map. exact Hs'.
  - exfalso. apply Hnot. rewrite <- He. apply in_map. exact Hs.
Qed.

Lemma sched_complete stmts rvars sched :
  NoDup (map sid stmts) ->
  sched_ok stmts rvars (code_inputs stmts) sched ->
  well_founded_flow stmts ->
  forall s, In s stmts -> In s (scheduled sched).
Proof.
  intros Hsid Hok [rank Hrank].
  assert (Hsub : forall s, In s (scheduled sched) -> In s stmts).
  { intros s Hs. unfold scheduled in Hs. apply in_map_iff in Hs.
    destruct Hs as [[s' d] [He Hs]]. simpl in He. subst s'.
    apply in_split in Hs. destruct Hs as (pre & post & Hp).
    destruct Hok as [Hstep _]. destruct (Hstep pre s d post Hp) as (H & _). exact H. }
  assert (Hgen : forall r s, (rank s < r)%nat -> In s stmts ->
            In (sid s) (map sid (scheduled sched))).
  { intros r. induction r as [|r IH]; intros s Hr Hs; [lia|].
    destruct (in_dec Nat.eq_dec (sid s) (map sid (scheduled sched))) as [H|Hns]; [exact H|].
    exfalso.
    destruct (so_end Hok s Hs Hns) as (n & Hn & Hna).
    apply Hna. apply alive_kept.
    - intros s' d Hin. apply in_split in Hin. destruct Hin as (pre & post & Hp).
      apply (sched_never_discards_needed Hok pre s' d post Hp).
      right. exists s. split; [exact Hs|]. split; [|exact Hn].
      intros H. apply Hns. rewrite Hp. unfold scheduled. rewrite !map_app.
      apply in_app_iff. left. exact H.
    - unfold dep_names in Hn. apply in_map_iff in Hn. destruct Hn as [d [Hdn Hd]].
      destruct (dnamed d) eqn:Hnm.
      + destruct (Hrank s d Hs Hd Hnm) as [Hin|(s' & Hs' & Has & Hlt)].
        * left. rewrite <- Hdn. exact Hin.
        * right.
          assert (Hsch : In (sid s') (map sid (scheduled sched))) by (apply IH; [lia|exact Hs']).
          apply in_map_iff in Hsch. destruct Hsch as [s'' [He Hs'']].
          assert (s'' = s').
          { apply (@in_sid_inj stmts); auto. }
          subst s''. unfold scheduled in Hs''. apply in_map_iff in Hs''.
          destruct Hs'' as [[x dd] [Hx Hin]]. simpl in Hx. subst x.
          exists s', dd. split; [exact Hin|]. rewrite <- Hdn. exact Has.
      + left. apply In_inputs. exists s, d. auto. }
  intros s Hs. pose proof (Hgen (S (rank s)) s (Nat.lt_succ_diag_r _) Hs) as H.
  apply in_map_iff in H. destruct H as [s' [He Hs']].
  assert (s' = s) by (apply (@in_sid_inj stmts); auto). subst. exact Hs'.
Qed.

(** ** Execution *)
Section Exec.
Variable V R : Type.
Variable sem : stmt -> ctx V -> result (list (string * V)).
Variable res : ctx V -> result R.
Variable rvars : list string.
Notation sem_reads_deps := (sem_reads_deps sem).
Notation sem_assigns := (sem_assigns sem).
Notation res_reads_rvars := (res_reads_rvars res rvars).
Notation solution := (solution sem).



Lemma upd_same (c : ctx V) n v : upd c n v n = Some v.
Proof. unfold upd. rewrite String.eqb_refl. reflexivity. Qed.
Lemma upd_other (c : ctx V) n v m : n <> m -> upd c n v m = c m.
Proof. intros H. unfold upd. apply String.eqb_neq in H. rewrite H. reflexivity. Qed.
Lemma rem_same (c : ctx V) n : rem c n n = None.
Proof. unfold rem. rewrite String.eqb_refl. reflexivity. Qed.
Lemma rem_other (c : ctx V) n m : n <> m -> rem c n m = c m.
Proof. intros H. unfold rem. apply String.eqb_neq in H. rewrite H. reflexivity. Qed.

Lemma del_all_ok ns : forall c : ctx V, NoDup ns ->
  (forall n, In n ns -> c n <> None) ->
  exists c', del_all c ns = Ok c' /\
    (forall n, In n ns -> c' n = None) /\ (forall n, ~ In n ns -> c' n = c n).
Proof.
  induction ns as [|m ns IH]; intros c Hnd Hin; simpl.
  - exists c. repeat split; auto. intros n [].
  - inversion Hnd as [|x xs Hnot Hnd']; subst.
    destruct (c m) as [v|] eqn:E; [|exfalso; apply (Hin m); [left; reflexivity|exact E]].
    destruct (IH (rem c m) Hnd') as (c' & H1 & H2 & H3).
    + intros n Hn. rewrite rem_other by congruence. apply Hin. right. exact Hn.
    + exists c'. split; [exact H1|]. split.
      * intros n [Hn|Hn]; [|apply H2; exact Hn]. subst n. rewrite H3 by exact Hnot.
        apply rem_same.
      * intros n Hn. rewrite H3 by tauto. apply rem_other. intros He. apply Hn. left. exact He.
Qed.

Lemma assign_all_ok asn asg : forall c : ctx V, NoDup (map fst asg) ->
  (forall n, In n (map fst asg) -> In n asn) ->
  exists c', assign_all c asn asg = Ok c' /\
    (forall n v, In (n, v) asg -> c' n = Some v) /\
    (forall n, ~ In n (map fst asg) -> c' n = c n).
Proof.
  induction asg as [|[m v] asg IH]; intros c Hnd Hin; simpl.
  - exists c. repeat split; auto. intros n v [].
  - simpl in Hnd. inversion Hnd as [|x xs Hnot Hnd']; subst.
    assert (Hm : inb m asn = true) by (apply inb_In, Hin; left; reflexivity).
    rewrite Hm.
    destruct (IH (upd c m v) Hnd') as (c' & H1 & H2 & H3).
    + intros n Hn. apply Hin. right. exact Hn.
    + exists c'. split; [exact H1|]. split.
      * intros n w [Hn|Hn]; [|apply H2; exact Hn]. injection Hn as -> ->.
        rewrite H3 by exact Hnot. apply upd_same.
      * intros n Hn. rewrite H3 by tauto. apply upd_other. intros He. apply Hn. left. exact He.
Qed.

(** Executing a suffix of the schedule from a context that agrees with a solution
    on the live names ends in a context that agrees on the final live names. *)
Lemma exec_forward stmts c0 sigma sched :
  sem_reads_deps stmts -> sem_assigns stmts ->
  sched_ok stmts rvars (code_inputs stmts) sched ->
  solution stmts c0 sigma ->
  forall post pre, sched = pre ++ post ->
  forall c, (forall n, In n (alive (code_inputs stmts) pre) -> c n <> None /\ c n = sigma n) ->
    (forall n, In n rvars -> (forall s, In s stmts -> ~ In n (sassignees s)) -> c n = c0 n) ->
  exists c', exec_sched sem c post = Ok c' /\
    (forall n, In n (alive (code_inputs stmts) sched) -> c' n <> None /\ c' n = sigma n) /\
    (forall n, In n rvars -> (forall s, In s stmts -> ~ In n (sassignees s)) -> c' n = c0 n).
Proof.
  intros Hrd Has Hok [Hsol1 Hsol2] post.
  induction post as [|[s d] post IH]; intros pre Hp c Hc Hcr; simpl.
  - exists c. rewrite app_nil_r in Hp. subst pre. auto.
  - destruct (so_step Hok pre s d post Hp) as (Hin & Hnot & Hdeps & Hdisc & Hndd & _).
    destruct (@del_all_ok d c Hndd) as (c1 & Hdel & _ & Hc1).
    { intros n Hn. apply Hdisc in Hn. apply Hc. tauto. }
    rewrite Hdel. simpl.
    destruct (Hsol2 s Hin) as (asg & Hsem & Hasg).
    assert (Hsem1 : sem s c1 = Ok asg).
    { rewrite <- Hsem. apply Hrd; [exact Hin|]. intros n Hn.
      rewrite Hc1.
      - apply Hc. apply Hdeps. exact Hn.
      - intros Hd. apply Hdisc in Hd. destruct Hd as (_ & _ & Hd).
        exact (Hd s Hin Hnot Hn). }
    rewrite Hsem1. simpl.
    destruct (Has s c1 asg Hin Hsem1) as [Hnda Hdom].
    destruct (@assign_all_ok (sassignees s) asg c1 Hnda) as (c2 & Hasgn & Hc2 & Hc2').
    { intros n Hn. apply Hdom. exact Hn. }
    rewrite Hasgn. simpl.
    apply (IH (pre ++ [(s, d)])).
    + rewrite Hp, <- app_assoc. reflexivity.
    + intros n Hn. rewrite alive_app in Hn. simpl in Hn. apply In_union in Hn.
      destruct (in_dec string_dec n (map fst asg)) as [Hi|Hi].
      * apply in_map_iff in Hi. destruct Hi as [[m v] [He Hi]]. simpl in He. subst m.
        rewrite (Hc2 n v Hi). split; [discriminate|]. symmetry. apply (Hasg n v Hi).
      * destruct Hn as [Hn|Hn].
        -- apply In_diff in Hn. destruct Hn as [Hn Hnd].
           rewrite Hc2', Hc1 by assumption. apply Hc. exact Hn.
        -- exfalso. apply Hi. apply Hdom. exact Hn.
    + intros n Hn Hfree. rewrite Hc2'.
      * rewrite Hc1; [apply Hcr; assumption|]. intros Hd. apply Hdisc in Hd. tauto.
      * intros Hi. apply Hdom in Hi. exact (Hfree s Hin Hi).
Qed.

(** Result variables assigned by the program are alive at the end. *)
Lemma rvars_alive_at_end stmts sched :
  sched_ok stmts rvars (code_inputs stmts) sched ->
  forall n, In n rvars ->
  (exists s, In s (scheduled sched) /\ In n (sassignees s)) ->
  In n (alive (code_inputs stmts) sched).
Proof.
  intros Hok n Hn [s [Hs Has]].
  apply alive_kept.
  - intros s' d' Hin. apply in_split in Hin. destruct Hin as (pre & post & Hp).
    apply (sched_never_discards_needed Hok pre s' d' post Hp). left. exact Hn.
  - right. unfold scheduled in Hs. apply in_map_iff in Hs.
    destruct Hs as [[x d] [He Hin]]. simpl in He. subst x. exists s, d. auto.
Qed.

Lemma execute_solution stmts c0 sigma inputs sched :
  sem_reads_deps stmts -> sem_assigns stmts -> res_reads_rvars ->
  NoDup (map sid stmts) ->
  well_founded_flow stmts ->
  single_assignment stmts (code_inputs stmts) ->
  compute_schedule stmts rvars = Some (inputs, sched) ->
  (forall n, In n inputs -> c0 n <> None) ->
  solution stmts c0 sigma ->
  match execute sem res inputs sched c0 with
  | Ok (r, _) => res sigma = Ok r
  | Err e => res sigma = Err e
  end.
Proof.
  intros Hrd Has Hrr Hsid Hwf [_ Hssa] Hcs Hin Hsol.
  destruct (@compute_schedule_ok stmts rvars inputs sched Hsid Hcs) as [-> Hok].
  unfold execute.
  assert (Hchk : forallb (fun n => match c0 n with Some _ => true | None => false end)
                   (code_inputs stmts) = true).
  { apply forallb_forall. intros n Hn. specialize (Hin n Hn). destruct (c0 n); congruence. }
  rewrite Hchk.
  destruct (@exec_forward stmts c0 sigma sched Hrd Has Hok Hsol sched [] eq_refl c0)
    as (c' & He & Hal & Hfr).
  - intros n Hn. simpl in Hn. split; [apply Hin; exact Hn|].
    symmetry. apply (proj1 Hsol). intros s Hs Hna. exact (Hssa s n Hs Hna Hn).
  - intros n _ _. reflexivity.
  - rewrite He. simpl.
    assert (Hres : res c' = res sigma).
    { apply Hrr. intros n Hn.
      destruct (existsb (fun s => inb n (sassignees s)) stmts) eqn:Ex.
      - apply existsb_exists in Ex. destruct Ex as [s [Hs Hi]]. apply inb_In in Hi.
        apply Hal. apply rvars_alive_at_end; auto. exists s. split; [|exact Hi].
        apply (@sched_complete stmts rvars sched Hsid Hok Hwf). exact Hs.
      - assert (Hfree : forall s, In s stmts -> ~ In n (sassignees s)).
        { intros s Hs Hi. apply inb_In in Hi.
          assert (existsb (fun s => inb n (sassignees s)) stmts = true)
            by (apply existsb_exists; exists s; auto). congruence. }
        rewrite (Hfr n Hn Hfree). symmetry. apply (proj1 Hsol). exact Hfree. }
    rewrite Hres. destruct (res sigma); reflexivity.
Qed.

(** Conversely, a run that gets through all statements yields a solution. *)
Definition merged (c0 : ctx V) (log : list (string * V)) : ctx V :=
  fun n => match find (fun p => String.eqb n (fst p)) log with
           | Some p => Some (snd p) | None => c0 n end.

Lemma merged_in c0 log n v : NoDup (map fst log) -> In (n, v) log -> merged c0 log n = Some v.
Proof.
  intros Hnd Hin. unfold merged. induction log as [|[m w] log IH]; [destruct Hin|].
  simpl. simpl in Hnd. inversion Hnd as [|x xs Hnot Hnd']; subst.
  destruct Hin as [Hin|Hin].
  - injection Hin as -> ->. rewrite String.eqb_refl. reflexivity.
  - destruct (String.eqb n m) eqn:E.
    + apply String.eqb_eq in E. subst m. exfalso. apply Hnot.
      apply in_map_iff. exists (n, v). auto.
    + apply IH; assumption.
Qed.

Lemma merged_out c0 log n : ~ In n (map fst log) -> merged c0 log n = c0 n.
Proof.
  intros Hn. unfold merged. induction log as [|[m w] log IH]; [reflexivity|].
  simpl in *. destruct (String.eqb n m) eqn:E.
  - apply String.eqb_eq in E. subst. tauto.
  - apply IH. tauto.
Qed.

(** The log of all assignments made by executing a schedule. *)
Fixpoint exec_log (c : ctx V) (sched : list (stmt * list string))
    : result (list (stmt * list (string * V))) :=
  match sched with
  | [] => Ok []
  | (s, disc) :: sched' =>
      do c1 <- del_all c disc;
      do asg <- sem s c1;
      do c2 <- assign_all c1 (sassignees s) asg;
      do l <- exec_log c2 sched';
      Ok ((s, asg) :: l)
  end.

Lemma exec_log_of c sched c' : exec_sched sem c sched = Ok c' ->
  exists l, exec_log c sched = Ok l.
Proof.
  revert c. induction sched as [|[s d] sched IH]; intros c H; simpl in *.
  - exists []. reflexivity.
  - destruct (del_all c d) as [c1|e]; simpl in *; [|discriminate].
    destruct (sem s c1) as [asg|e]; simpl in *; [|discriminate].
    destruct (assign_all c1 (sassignees s) asg) as [c2|e]; simpl in *; [|discriminate].
    destruct (IH c2 H) as [l Hl]. rewrite Hl. simpl. eexists. reflexivity.
Qed.

Lemma exec_backward stmts c0 sched :
  sem_reads_deps stmts -> sem_assigns stmts ->
  NoDup (map sid stmts) ->
  single_assignment stmts (code_inputs stmts) ->
  sched_ok stmts rvars (code_inputs stmts) sched ->
  forall post pre c l prelog,
  sched = pre ++ post ->
  map fst prelog = scheduled pre ->
  (forall s asg, In (s, asg) prelog -> NoDup (map fst asg) /\
      (forall n, In n (map fst asg) <-> In n (sassignees s))) ->
  (forall n, In n (alive (code_inputs stmts) pre) ->
     c n = merged c0 (flat_map snd prelog) n) ->
  exec_log c post = Ok l ->
  map fst l = scheduled post /\
  (forall s asg, In (s, asg) l -> NoDup (map fst asg) /\
      (forall n, In n (map fst asg) <-> In n (sassignees s))) /\
  (forall s asg, In (s, asg) l -> sem s (merged c0 (flat_map snd (prelog ++ l))) = Ok asg).
Proof.
  intros Hrd Has Hsid [Hssa1 Hssa2] Hok post.
  induction post as [|[s d] post IH]; intros pre c l prelog Hp Hpl Hpd Hc H; simpl in H.
  - injection H as H. subst l. simpl. repeat split; intros; try contradiction.
  - destruct (so_step Hok pre s d post Hp) as (Hin & Hnot & Hdeps & Hdisc & Hndd & _).
    destruct (del_all c d) as [c1|e] eqn:Hdel; simpl in H; [|discriminate].
    destruct (sem s c1) as [asg|e] eqn:Hsem; simpl in H; [|discriminate].
    destruct (assign_all c1 (sassignees s) asg) as [c2|e] eqn:Hasn; simpl in H; [|discriminate].
    destruct (exec_log c2 post) as [l'|e] eqn:Hl'; simpl in H; [|discriminate].
    injection H as H. subst l.
    destruct (Has s c1 asg Hin Hsem) as [Hnda Hdom].
    (* behaviour of deletion and assignment *)
    assert (Hc1 : forall n, ~ In n d -> c1 n = c n).
    { clear - Hdel. revert c Hdel. induction d as [|m d IHd]; intros c Hdel n Hn; simpl in Hdel.
      - injection Hdel as Hdel. subst. reflexivity.
      - destruct (c m); [|discriminate]. rewrite (IHd _ Hdel) by (simpl in Hn; tauto).
        apply rem_other. intros He. apply Hn. left. exact He. }
    destruct (@assign_all_ok (sassignees s) asg c1 Hnda) as (c2' & Hasgn & Hc2 & Hc2').
    { intros n Hn. apply Hdom. exact Hn. }
    rewrite Hasn in Hasgn. injection Hasgn as <-.
    (* disjointness of the new names from all names logged before *)
    assert (Hfresh : forall n, In n (map fst asg) -> ~ In n (map fst (flat_map snd prelog))).
    { intros n Hn Hm. apply Hdom in Hn. apply in_map_iff in Hm.
      destruct Hm as [[m v] [He Hm]]. simpl in He. subst m.
      apply in_flat_map in Hm. destruct Hm as [[s' asg'] [Hs' Hv]]. simpl in Hv.
      assert (Hn' : In n (sassignees s')).
      { apply (proj2 (Hpd s' asg' Hs')). apply in_map_iff. exists (n, v). auto. }
      assert (Hsch : In s' (scheduled pre)).
      { rewrite <- Hpl. apply in_map_iff. exists (s', asg'). auto. }
      assert (Hs'in : In s' stmts).
      { unfold scheduled in Hsch. apply in_map_iff in Hsch.
        destruct Hsch as [[x dd] [Hx Hi]]. simpl in Hx. subst x.
        apply in_split in Hi. destruct Hi as (p & q & Hpq).
        destruct (so_step Hok p s' dd (q ++ (s, d) :: post)) as (Hi & _); [|exact Hi].
        rewrite Hp, Hpq. rewrite <- app_assoc. reflexivity. }
      apply Hnot. rewrite (Hssa1 s s' n Hin Hs'in Hn Hn').
      apply in_map. exact Hsch. }
    (* apply the induction hypothesis *)
    destruct (IH (pre ++ [(s, d)]) c2 l' (prelog ++ [(s, asg)])) as (H1 & H2 & H3).
    + rewrite Hp, <- app_assoc. reflexivity.
    + unfold scheduled. rewrite !map_app, Hpl. reflexivity.
    + intros s' asg' Hi. apply in_app_iff in Hi. destruct Hi as [Hi|[Hi|[]]].
      * apply Hpd. exact Hi.
      * injection Hi as <- <-. auto.
    + intros n Hn. rewrite alive_app in Hn. simpl in Hn.
      rewrite flat_map_app. simpl. rewrite app_nil_r.
      destruct (in_dec string_dec n (map fst asg)) as [Hi|Hi].
      * pose proof (Hfresh n Hi) as Hf.
        apply in_map_iff in Hi. destruct Hi as [[m v] [He Hi]]. simpl in He. subst m.
        rewrite (Hc2 n v Hi). symmetry. unfold merged.
        assert (Hfind : find (fun p => String.eqb n (fst p)) (flat_map snd prelog ++ asg) = Some (n, v)).
        { clear - Hf Hnda Hi. induction (flat_map snd prelog) as [|[m w] lg IHl].
          - simpl. clear Hf. induction asg as [|[m w] asg IHa]; [destruct Hi|].
            simpl in *. inversion Hnda as [|x xs Hnot Hnd']; subst.
            destruct Hi as [Hi|Hi].
            + injection Hi as -> ->. rewrite String.eqb_refl. reflexivity.
            + destruct (String.eqb n m) eqn:E; [|apply IHa; assumption].
              apply String.eqb_eq in E. subst. exfalso. apply Hnot. apply in_map_iff.
              exists (m, v). auto.
          - simpl in *. destruct (String.eqb n m) eqn:E.
            + apply String.eqb_eq in E. subst. tauto.
            + apply IHl. tauto. }
        rewrite Hfind. reflexivity.
      * assert (Hmg : merged c0 (flat_map snd prelog ++ asg) n = merged c0 (flat_map snd prelog) n).
        { unfold merged. clear - Hi. induction (flat_map snd prelog) as [|[m w] lg IHl]; simpl.
          - induction asg as [|[m w] asg IHa]; [reflexivity|]. simpl in *.
            destruct (String.eqb n m) eqn:E; [apply String.eqb_eq in E; subst; tauto|].
            apply IHa. tauto.
          - destruct (String.eqb n m); [reflexivity|exact IHl]. }
        rewrite Hmg. apply In_union in Hn. destruct Hn as [Hn|Hn].
        -- apply In_diff in Hn. destruct Hn as [Hn Hnd]. rewrite Hc2', Hc1 by assumption.
           apply Hc. exact Hn.
        -- exfalso. apply Hi. apply Hdom. exact Hn.
    + exact Hl'.
    + split; [simpl; f_equal; exact H1|]. split.
      * intros s' asg' [Hi|Hi]; [injection Hi as <- <-; auto|apply H2; exact Hi].
      * assert (Happ : prelog ++ (s, asg) :: l' = (prelog ++ [(s, asg)]) ++ l')
          by (rewrite <- app_assoc; reflexivity).
        rewrite Happ.
        intros s' asg' [Hi|Hi]; [|apply H3; exact Hi].
        injection Hi as <- <-. rewrite <- Hsem. apply Hrd; [exact Hin|]. intros n Hn.
        rewrite Hc1.
        2:{ intros Hd. apply Hdisc in Hd. destruct Hd as (_ & _ & Hd). exact (Hd s Hin Hnot Hn). }
        rewrite (Hc n (Hdeps n Hn)).
        (* later assignments do not touch n: n is assigned, if at all, by an earlier statement *)
        assert (Hlate : ~ In n (map fst (asg ++ flat_map snd l'))).
        { intros Hi. rewrite map_app in Hi. apply in_app_iff in Hi.
          assert (Hex : exists s'' dd, In (s'', dd) ((s, d) :: post) /\ In n (sassignees s'')).
          { destruct Hi as [Hi|Hi].
            - exists s, d. split; [left; reflexivity|]. apply Hdom. exact Hi.
            - apply in_map_iff in Hi. destruct Hi as [[m v] [He Hi]]. simpl in He. subst m.
              apply in_flat_map in Hi. destruct Hi as [[s2 asg2] [Hs2 Hv]]. simpl in Hv.
              assert (Hsch : In s2 (scheduled post)).
              { rewrite <- H1. apply in_map_iff. exists (s2, asg2). auto. }
              unfold scheduled in Hsch. apply in_map_iff in Hsch.
              destruct Hsch as [[x dd] [Hx Hi2]]. simpl in Hx. subst x.
              exists s2, dd. split; [right; exact Hi2|].
              apply (proj2 (H2 s2 asg2 Hs2)). apply in_map_iff. exists (n, v). auto. }
          destruct Hex as (s2 & dd & Hs2 & Hn2).
          apply in_split in Hs2. destruct Hs2 as (p & q & Hpq).
          assert (Hpp : sched = (pre ++ p) ++ (s2, dd) :: q).
          { rewrite Hp, Hpq, <- app_assoc. reflexivity. }
          destruct (so_step Hok (pre ++ p) s2 dd q Hpp) as (Hin2 & Hnot2 & _).
          destruct (In_alive_from _ _ _ (Hdeps n Hn)) as [Ha|(s3 & d3 & Hs3 & Hn3)].
          - exact (Hssa2 s2 n Hin2 Hn2 Ha).
          - assert (Hs3in : In s3 stmts).
            { apply in_split in Hs3. destruct Hs3 as (p3 & q3 & Hpq3).
              destruct (so_step Hok p3 s3 d3 (q3 ++ (s, d) :: post)) as (Hi3 & _); [|exact Hi3].
              rewrite Hp, Hpq3, <- app_assoc. reflexivity. }
            apply Hnot2. rewrite <- (Hssa1 s3 s2 n Hs3in Hin2 Hn3 Hn2).
            unfold scheduled. rewrite !map_app. apply in_app_iff. left.
            change (sid s3) with (sid (fst (s3, d3))). apply in_map, in_map. exact Hs3. }
        rewrite <- app_assoc. simpl. rewrite flat_map_app. simpl.
        unfold merged. clear - Hlate.
        induction (flat_map snd prelog) as [|[m w] lg IHl]; simpl.
        -- induction (asg ++ flat_map snd l') as [|[m w] lg IHl]; [reflexivity|]. simpl in *.
           destruct (String.eqb n m) eqn:E; [apply String.eqb_eq in E; subst; tauto|].
           apply IHl. tauto.
        -- destruct (String.eqb n m); [reflexivity|exact IHl].
Qed.

Lemma flat_log_NoDup (l : list (stmt * list (string * V))) :
  NoDup (map sid (map fst l)) ->
  (forall s asg, In (s, asg) l -> NoDup (map fst asg) /\
      (forall n, In n (map fst asg) <-> In n (sassignees s))) ->
  (forall s s' n, In s (map fst l) -> In s' (map fst l) ->
      In n (sassignees s) -> In n (sassignees s') -> sid s = sid s') ->
  NoDup (map fst (flat_map snd l)).
Proof.
  induction l as [|[s asg] l IH]; intros Hnd Hd Hssa; simpl; [constructor|].
  rewrite map_app. simpl in Hnd. inversion Hnd as [|x xs Hnot Hnd']; subst.
  assert (IH' : NoDup (map fst (flat_map snd l))).
  { apply IH; auto.
    - intros s' asg' Hi. apply Hd. right. exact Hi.
    - intros s1 s2 n H1 H2. apply Hssa; right; assumption. }
  destruct (Hd s asg (or_introl eq_refl)) as [Hnda Hdom].
  assert (Hdisj : forall n, In n (map fst asg) -> ~ In n (map fst (flat_map snd l))).
  { intros n Hn Hm. apply in_map_iff in Hm. destruct Hm as [[m v] [He Hm]]. simpl in He. subst m.
    apply in_flat_map in Hm. destruct Hm as [[s' asg'] [Hs' Hv]]. simpl in Hv.
    apply Hnot.
    rewrite (Hssa s s' n).
    - apply in_map. apply in_map_iff. exists (s', asg'). auto.
    - left. reflexivity.
    - right. apply in_map_iff. exists (s', asg'). auto.
    - apply Hdom. exact Hn.
    - apply (proj2 (Hd s' asg' (or_intror Hs'))). apply in_map_iff. exists (n, v). auto. }
  clear - Hnda IH' Hdisj. induction (map fst asg) as [|a la IHa]; simpl; [exact IH'|].
  inversion Hnda as [|x xs Hnot Hnd']; subst. constructor.
  - rewrite in_app_iff. intros [H|H]; [exact (Hnot H)|].
    apply (Hdisj a); [left; reflexivity|exact H].
  - apply IHa; [exact Hnd'|]. intros n Hn. apply Hdisj. right. exact Hn.
Qed.

Lemma execute_gives_solution stmts c0 inputs sched r c' :
  sem_reads_deps stmts -> sem_assigns stmts ->
  NoDup (map sid stmts) ->
  well_founded_flow stmts ->
  single_assignment stmts (code_inputs stmts) ->
  compute_schedule stmts rvars = Some (inputs, sched) ->
  execute sem res inputs sched c0 = Ok (r, c') ->
  exists sigma, solution stmts c0 sigma.
Proof.
  intros Hrd Has Hsid Hwf Hssa Hcs He.
  destruct (@compute_schedule_ok stmts rvars inputs sched Hsid Hcs) as [-> Hok].
  unfold execute in He.
  destruct (forallb _ _); [|discriminate].
  destruct (exec_sched sem c0 sched) as [cf|e] eqn:Hx; simpl in He; [|discriminate].
  destruct (exec_log_of _ _ Hx) as [l Hl].
  destruct (@exec_backward stmts c0 sched Hrd Has Hsid Hssa Hok sched [] c0 l [] eq_refl eq_refl)
    as (H1 & H2 & H3); auto.
  { intros s asg []. }
  simpl in H3. exists (merged c0 (flat_map snd l)). split.
  - intros n Hn. apply merged_out. intros Hi. apply in_map_iff in Hi.
    destruct Hi as [[m v] [He' Hi]]. simpl in He'. subst m.
    apply in_flat_map in Hi. destruct Hi as [[s asg] [Hs Hv]]. simpl in Hv.
    apply (Hn s).
    + assert (Hsch : In s (scheduled sched)) by (rewrite <- H1; apply in_map_iff; exists (s, asg); auto).
      unfold scheduled in Hsch. apply in_map_iff in Hsch. destruct Hsch as [[x dd] [Hx' Hi2]].
      simpl in Hx'. subst x. apply in_split in Hi2. destruct Hi2 as (p & q & Hpq).
      destruct (so_step Hok p s dd q Hpq) as (Hin & _). exact Hin.
    + apply (proj2 (H2 s asg Hs)). apply in_map_iff. exists (n, v). auto.
  - intros s Hs.
    pose proof (@sched_complete stmts rvars sched Hsid Hok Hwf s Hs) as Hsch. rewrite <- H1 in Hsch.
    apply in_map_iff in Hsch. destruct Hsch as [[x asg] [Hx' Hi]]. simpl in Hx'. subst x.
    exists asg. split; [apply H3; exact Hi|].
    intros n v Hv. apply merged_in.
    + apply flat_log_NoDup.
      * rewrite H1. apply (NoDup_snoc_sched Hok).
      * exact H2.
      * intros s1 s2 m Hs1 Hs2. rewrite H1 in Hs1, Hs2.
        assert (Hsub : forall x, In x (scheduled sched) -> In x stmts).
        { intros y Hy. unfold scheduled in Hy. apply in_map_iff in Hy.
          destruct Hy as [[z dd] [Hz Hi2]]. simpl in Hz. subst z.
          apply in_split in Hi2. destruct Hi2 as (p & q & Hpq).
          destruct (so_step Hok p y dd q Hpq) as (Hin & _). exact Hin. }
        apply (proj1 Hssa); auto.
    + apply in_flat_map. exists (s, asg). auto.
Qed.

(** Solutions are unique on every name the program defines or inherits. *)
Lemma solution_unique stmts c0 s1 s2 :
  sem_reads_deps stmts -> sem_assigns stmts ->
  well_founded_flow stmts ->
  single_assignment stmts (code_inputs stmts) ->
  solution stmts c0 s1 -> solution stmts c0 s2 -> forall n, s1 n = s2 n.
Proof.
  intros Hrd Has [rank Hrank] [_ Hssa2] [Hf1 Hs1] [Hf2 Hs2].
  assert (Hgen : forall k s, (rank s < k)%nat -> In s stmts ->
            forall n, In n (sassignees s) -> s1 n = s2 n).
  { intros k. induction k as [|k IH]; intros s Hk Hs n Hn; [lia|].
    assert (Hdeps : forall m, In m (dep_names s) -> s1 m = s2 m).
    { intros m Hm. unfold dep_names in Hm. apply in_map_iff in Hm.
      destruct Hm as [d [Hd Hm]].
      assert (Hinp : In m (code_inputs stmts) -> s1 m = s2 m).
      { intros Hi. rewrite Hf1, Hf2; [reflexivity| |];
          intros s' Hs' Hi'; exact (Hssa2 s' m Hs' Hi' Hi). }
      destruct (dnamed d) eqn:Hnm.
      - destruct (Hrank s d Hs Hm Hnm) as [Hi|(s' & Hs' & Hi & Hlt)].
        + apply Hinp. rewrite <- Hd. exact Hi.
        + apply (IH s'); [lia|exact Hs'|]. rewrite <- Hd. exact Hi.
      - apply Hinp. apply In_inputs. exists s, d. auto. }
    destruct (Hs1 s Hs) as (a1 & He1 & Ha1). destruct (Hs2 s Hs) as (a2 & He2 & Ha2).
    rewrite (Hrd s s1 s2 Hs Hdeps), He2 in He1. injection He1 as <-.
    destruct (Has s s2 a2 Hs He2) as [_ Hdom]. apply Hdom in Hn.
    apply in_map_iff in Hn. destruct Hn as [[m v] [He Hi]]. simpl in He. subst m.
    rewrite (Ha1 n v Hi), (Ha2 n v Hi). reflexivity. }
  intros n. destruct (existsb (fun s => inb n (sassignees s)) stmts) eqn:Ex.
  - apply existsb_exists in Ex. destruct Ex as [s [Hs Hi]]. apply inb_In in Hi.
    apply (Hgen (S (rank s)) s); auto.
  - assert (Hfree : forall s, In s stmts -> ~ In n (sassignees s)).
    { intros s Hs Hi. apply inb_In in Hi.
      assert (existsb (fun s => inb n (sassignees s)) stmts = true)
        by (apply existsb_exists; exists s; auto). congruence. }
    rewrite Hf1, Hf2 by exact Hfree. reflexivity.
Qed.

(** The executor never raises KeyError by itself, nor AssertionError. *)
Lemma exec_no_keyerror stmts inputs sched :
  sem_assigns stmts ->
  (forall s c, sem s c <> Err KeyError /\ sem s c <> Err AssertionError) ->
  sched_ok stmts rvars inputs sched ->
  forall post pre, sched = pre ++ post ->
  forall c, (forall n, In n (alive inputs pre) -> c n <> None) ->
  exec_sched sem c post <> Err KeyError /\ exec_sched sem c post <> Err AssertionError.
Proof.
  intros Has Hne Hok post. induction post as [|[s d] post IH]; intros pre Hp c Hc; simpl.
  - split; discriminate.
  - destruct (so_step Hok pre s d post Hp) as (Hin & Hnot & Hdeps & Hdisc & Hndd & _).
    destruct (@del_all_ok d c Hndd) as (c1 & Hdel & _ & Hc1).
    { intros n Hn. apply Hdisc in Hn. apply Hc. tauto. }
    rewrite Hdel. simpl. destruct (sem s c1) as [asg|e] eqn:Hsem; simpl.
    + destruct (Has s c1 asg Hin Hsem) as [Hnda Hdom].
      destruct (@assign_all_ok (sassignees s) asg c1 Hnda) as (c2 & Hasgn & Hc2 & Hc2').
      { intros n Hn. apply Hdom. exact Hn. }
      rewrite Hasgn. simpl. apply (IH (pre ++ [(s, d)])).
      * rewrite Hp, <- app_assoc. reflexivity.
      * intros n Hn. rewrite alive_app in Hn. simpl in Hn. apply In_union in Hn.
        destruct (in_dec string_dec n (map fst asg)) as [Hi|Hi].
        -- apply in_map_iff in Hi. destruct Hi as [[m v] [He Hi]]. simpl in He. subst m.
           rewrite (Hc2 n v Hi). discriminate.
        -- destruct Hn as [Hn|Hn].
           ++ apply In_diff in Hn. destruct Hn as [Hn Hnd].
              rewrite Hc2', Hc1 by assumption. apply Hc. exact Hn.
           ++ exfalso. apply Hi. apply Hdom. exact Hn.
    + specialize (Hne s c1). rewrite Hsem in Hne. split; intros He; injection He as ->; tauto.
Qed.

(** What a successful run does to the caller's dictionary. *)
Lemma del_all_inv ns : forall (c c' : ctx V), del_all c ns = Ok c' ->
  (forall n, In n ns -> c' n = None) /\ (forall n, ~ In n ns -> c' n = c n).
Proof.
  induction ns as [|m ns IH]; intros c c' H; simpl in H.
  - injection H as <-. split; [intros n []|auto].
  - destruct (c m); [|discriminate]. destruct (IH _ _ H) as [H1 H2]. split.
    + intros n [Hn|Hn]; [|auto]. subst.
      destruct (in_dec string_dec n ns) as [Hi|Hi]; [auto|]. rewrite H2 by exact Hi. apply rem_same.
    + intros n Hn. rewrite H2 by (simpl in Hn; tauto). apply rem_other.
      intros He. apply Hn. left. exact He.
Qed.

Lemma exec_keys stmts inputs sched :
  sem_assigns stmts ->
  sched_ok stmts rvars inputs sched ->
  forall post pre, sched = pre ++ post ->
  forall c c', exec_sched sem c post = Ok c' ->
  forall n,
    ((forall s d, In (s, d) post -> ~ In n (sassignees s)) ->
     (exists s d, In (s, d) post /\ In n d) -> c' n = None) /\
    ((forall s d, In (s, d) post -> ~ In n (sassignees s)) ->
     (forall s d, In (s, d) post -> ~ In n d) -> c' n = c n).
Proof.
  intros Has Hok post. induction post as [|[s d] post IH]; intros pre Hp c c' H n; simpl in H.
  - injection H as <-. split; [intros _ (s & d & [] & _)|auto].
  - destruct (so_step Hok pre s d post Hp) as (Hin & _).
    destruct (del_all c d) as [c1|e] eqn:Hdel; simpl in H; [|discriminate].
    destruct (sem s c1) as [asg|e] eqn:Hsem; simpl in H; [|discriminate].
    destruct (assign_all c1 (sassignees s) asg) as [c2|e] eqn:Hasn; simpl in H; [|discriminate].
    destruct (Has s c1 asg Hin Hsem) as [Hnda Hdom].
    destruct (@assign_all_ok (sassignees s) asg c1 Hnda) as (c2' & Hasgn & Hc2 & Hc2').
    { intros m Hm. apply Hdom. exact Hm. }
    rewrite Hasn in Hasgn. injection Hasgn as <-.
    destruct (del_all_inv _ _ Hdel) as [Hd1 Hd2].
    destruct (IH (pre ++ [(s, d)])) with (c := c2) (c' := c') (n := n) as [H1 H2]; auto.
    { rewrite Hp, <- app_assoc. reflexivity. }
    assert (Hsub : forall P : stmt -> list string -> Prop,
      (forall s0 d0, In (s0, d0) ((s, d) :: post) -> P s0 d0) ->
      P s d /\ (forall s0 d0, In (s0, d0) post -> P s0 d0)).
    { intros P HP. split; [apply HP; left; reflexivity|]. intros. apply HP. right. assumption. }
    split.
    + intros Ha (s' & d' & Hi & Hn). apply Hsub in Ha. destruct Ha as [Ha0 Ha].
      assert (Hna : ~ In n (map fst asg)) by (intros Hx; apply Ha0, Hdom, Hx).
      destruct Hi as [Hi|Hi].
      * injection Hi as <- <-.
        destruct (in_dec string_dec n (flat_map snd post)) as [Hp'|Hp'].
        -- apply H1; [exact Ha|]. apply in_flat_map in Hp'. destruct Hp' as [[s3 d3] [Hi3 Hn3]].
           exists s3, d3. auto.
        -- rewrite H2; [|exact Ha|].
           ++ rewrite Hc2' by exact Hna. apply Hd1. exact Hn.
           ++ intros s3 d3 Hi3 Hn3. apply Hp'. apply in_flat_map. exists (s3, d3). auto.
      * apply H1; [exact Ha|]. exists s', d'. auto.
    + intros Ha Hd. apply Hsub in Ha. destruct Ha as [Ha0 Ha].
      apply (Hsub (fun _ d => ~ In n d)) in Hd. destruct Hd as [Hd0 Hd].
      assert (Hna : ~ In n (map fst asg)) by (intros Hx; apply Ha0, Hdom, Hx).
      rewrite H2, Hc2', Hd2 by assumption. reflexivity.
Qed.
End Exec.
