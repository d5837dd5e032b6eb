(** From the compiler invariant to scheduled execution. *)
From Verif Require Import Base SchedModel SchedSpec SchedProofs SchedProofs2 CompModel CompSpec CompProofs CompProofs2.
From Coq Require Import Permutation.
Set Implicit Arguments.

Lemma to_stmt_sid i x : sid (to_stmt i x) = i.
Proof. destruct x; reflexivity. Qed.
Lemma to_stmt_asg i x : sassignees (to_stmt i x) = cassg x.
Proof. destruct x; reflexivity. Qed.
Lemma to_stmt_deps i x d : In d (sdeps (to_stmt i x)) -> In d (cfv x).
Proof. destruct x; simpl; [rewrite filter_In; tauto|auto]. Qed.

Lemma combine_seq_In {A} (c : list A) : forall k i x,
  In (i, x) (combine (seq k (length c)) c) <-> exists j, i = k + j /\ nth_error c j = Some x.
Proof.
  induction c as [|y c IH]; intros k i x; simpl.
  - split; [tauto|]. intros (j & _ & H). destruct j; discriminate H.
  - rewrite IH. split.
    + intros [H|(j & -> & H)].
      * injection H as <- <-. exists 0. split; [lia|reflexivity].
      * exists (Datatypes.S j). split; [lia|exact H].
    + intros ([|j] & -> & H).
      * left. simpl in H. injection H as <-. f_equal. lia.
      * right. exists j. split; [lia|exact H].
Qed.

Lemma In_to_stmts c s : In s (to_stmts c) <-> exists i x, nth_error c i = Some x /\ s = to_stmt i x.
Proof.
  unfold to_stmts. rewrite in_map_iff. split.
  - intros ([i x] & <- & H). apply combine_seq_In in H. destruct H as (j & -> & H).
    exists j, x. split; [exact H|reflexivity].
  - intros (i & x & H & ->). exists (i, x). split; [reflexivity|]. apply combine_seq_In. exists i. split; [reflexivity|exact H].
Qed.

Lemma to_stmts_sids c : map sid (to_stmts c) = seq 0 (length c).
Proof.
  unfold to_stmts. rewrite map_map.
  rewrite (map_ext _ fst) by (intros [i x]; apply to_stmt_sid).
  apply combine_fst. apply seq_length.
Qed.

Lemma nth_split' {A} (c : list A) i x : nth_error c i = Some x ->
  exists pre post, c = pre ++ x :: post /\ length pre = i.
Proof. intros H. apply nth_error_split in H. destruct H as (l1 & l2 & H1 & H2). eauto. Qed.

Lemma In_defd_nth c n : In n (defd c) <-> exists i x, nth_error c i = Some x /\ In n (cassg x).
Proof.
  unfold defd. rewrite in_flat_map. split.
  - intros (x & Hx & Hn). apply In_nth_error in Hx. destruct Hx as [i Hi]. eauto.
  - intros (i & x & Hi & Hn). apply nth_error_In in Hi. eauto.
Qed.

Lemma defd_unique c : NoDup (defd c) -> forall i j x y n,
  nth_error c i = Some x -> nth_error c j = Some y -> In n (cassg x) -> In n (cassg y) -> i = j.
Proof.
  induction c as [|z c IH]; intros Hnd i j x y n Hi Hj Hx Hy; [destruct i; discriminate Hi|].
  simpl in Hnd.
  assert (Hc : NoDup (defd c)).
  { clear - Hnd. induction (cassg z) as [|a l IHl]; [exact Hnd|]. simpl in Hnd.
    inversion Hnd; subst. apply IHl. assumption. }
  destruct i as [|i], j as [|j]; simpl in Hi, Hj; [reflexivity| | |].
  - injection Hi as ->. exfalso. apply (NoDup_app_disj _ _ _ Hnd Hx). apply In_defd_nth. eauto.
  - injection Hj as ->. exfalso. apply (NoDup_app_disj _ _ _ Hnd Hy). apply In_defd_nth. eauto.
  - f_equal. exact (IH Hc i j x y n Hi Hj Hx Hy).
Qed.

Lemma NoDup_app_remove_l {A} (l l' : list A) : NoDup (l ++ l') -> NoDup l'.
Proof. induction l as [|x l IH]; simpl; intros H; [exact H|]. inversion H; auto. Qed.
Lemma NoDup_app_remove_r {A} (l l' : list A) : NoDup (l ++ l') -> NoDup l.
Proof.
  induction l as [|x l IH]; simpl; intros H; [constructor|]. inversion H as [|? ? Hx Hl]; subst.
  constructor; [|auto]. intros Hin. apply Hx. apply in_app_iff. left. exact Hin.
Qed.

Section Final.
Variable ple : nat * expr -> nat * expr -> bool.
Variable kfeat : nat -> nat -> nat.
Variable gorder : list expr -> list expr.
Hypothesis gorder_perm : forall l, Permutation (gorder l) l.
Variable root : expr.
Hypothesis Hacc : accepted root.
Hypothesis Hcap : no_capture root.
Hypothesis Hlim : limits_distinct root.
Variable V : Type.
Variable vzero : V.
Variable vlit : nat -> result V.
Variable vadd : V -> V -> result V.
Variable vop : nat -> list V -> result V.
Variable vsub : nat -> V -> result V.
Variable varr : list V -> V.
Variable vpot : nat -> list (nat * V) -> list (string * V) -> limit -> nat -> nat -> result V.
Hypothesis vadd_zero : forall x, vadd vzero x = Ok x.
Hypothesis vpot_perm : forall tk ps ps' ks l s t, Permutation ps ps' ->
  vpot tk ps ks l s t = vpot tk ps' ks l s t.
Variable c0 : ctx V.

Notation ev := (evalx vzero vlit vadd vop vsub varr vpot false).
Notation den := (evalx vzero vlit vadd vop vsub varr vpot true c0).
Notation cexec := (cexec vzero vlit vadd vop vsub varr vpot).
Notation csem := (csem vzero vlit vadd vop vsub varr vpot).
Notation run := (run vzero vlit vadd vop vsub varr vpot).
Notation S := (CompProofs2.S root).

Lemma cexec_ext x (c c' : ctx V) : (forall d, In d (cfv x) -> c (dname d) = c' (dname d)) ->
  cexec x c = cexec x c'.
Proof.
  intros H. destruct x as [n e|outs sks ds ks src]; simpl in *.
  - rewrite (eval_ext vzero vlit vadd vop vsub varr vpot false c c' e H). reflexivity.
  - rewrite (mapM_ext (ev c) (ev c') ds).
    2:{ intros e He. apply eval_ext. intros d Hd. apply H. apply in_app_iff. left. apply in_flat_map. eauto. }
    rewrite !mapM_pairs. rewrite (mapM_ext (ev c) (ev c') (map snd ks)); [reflexivity|].
    intros e He. apply eval_ext. intros d Hd. apply H. apply in_app_iff. right. apply in_flat_map.
    apply in_map_iff in He. destruct He as ([k y] & <- & Hin). exists (k, y). auto.
Qed.

Section Code.
Variable st : cst.
Hypothesis HS : S st.
Notation cd := (code st).

Lemma user_not_defd n : userv root n -> ~ In n (defd cd).
Proof.
  intros Hu Hn. apply (userv_not_gen Hcap Hu). apply (S_gen HS). apply (S_names HS). exact Hn.
Qed.

(** Names read by a statement are defined before it or are user variables;
    either way the statement itself and later ones do not touch them. *)
Lemma read_stable pre x post d : cd = pre ++ x :: post -> In d (cfv x) ->
  ~ In (dname d) (defd (x :: post)).
Proof.
  intros Hc Hd. pose proof (S_code HS pre x post Hc d Hd) as H. unfold scoped_dep in H.
  pose proof (S_nodup HS) as Hnd. rewrite Hc, defd_app in Hnd.
  destruct (dnamed d).
  - exact (NoDup_app_disj _ _ _ Hnd H).
  - intros Hn. apply (user_not_defd H). rewrite Hc, defd_app. apply in_app_iff. right. exact Hn.
Qed.

Lemma cassg_nodup pre x post : cd = pre ++ x :: post -> NoDup (cassg x).
Proof.
  intros Hc. pose proof (S_nodup HS) as Hnd. rewrite Hc, defd_app in Hnd.
  apply NoDup_app_remove_l in Hnd. simpl in Hnd. apply NoDup_app_remove_r in Hnd. exact Hnd.
Qed.

Lemma to_stmt_deps' i x pre post d : cd = pre ++ x :: post -> In d (cfv x) ->
  In d (sdeps (to_stmt i x)).
Proof.
  intros Hc Hd. pose proof (read_stable _ _ _ _ Hc Hd) as Hn.
  destruct x as [n e|outs sks ds ks src]; simpl in *; [|exact Hd].
  apply filter_In. split; [exact Hd|]. apply negb_true_iff. apply String.eqb_neq. intros He. auto.
Qed.

Lemma csem_to_stmt i x : nth_error cd i = Some x -> csem cd (to_stmt i x) = cexec x.
Proof. intros H. unfold CompModel.csem. rewrite to_stmt_sid, H. reflexivity. Qed.

Lemma code_reads : sem_reads_deps (csem cd) (to_stmts cd).
Proof.
  intros s c c' Hs H. apply In_to_stmts in Hs. destruct Hs as (i & x & Hi & ->).
  rewrite (csem_to_stmt _ Hi). apply cexec_ext. intros d Hd. apply H.
  unfold dep_names. apply in_map. destruct (nth_split' _ _ Hi) as (pre & post & Hc & _).
  exact (to_stmt_deps' _ _ _ _ _ Hc Hd).
Qed.

Lemma code_assigns : sem_assigns (csem cd) (to_stmts cd).
Proof.
  intros s c asg Hs H. apply In_to_stmts in Hs. destruct Hs as (i & x & Hi & ->).
  rewrite (csem_to_stmt _ Hi) in H. rewrite (cexec_names _ _ _ _ _ _ _ _ _ H), to_stmt_asg.
  destruct (nth_split' _ _ Hi) as (pre & post & Hc & _).
  split; [exact (cassg_nodup _ _ _ Hc)|tauto].
Qed.

Lemma code_wf : well_founded_flow (to_stmts cd).
Proof.
  exists sid. intros s d Hs Hd Hn. apply In_to_stmts in Hs. destruct Hs as (i & x & Hi & ->).
  right. destruct (nth_split' _ _ Hi) as (pre & post & Hc & Hlen).
  apply to_stmt_deps in Hd. pose proof (S_code HS pre x post Hc d Hd) as H.
  unfold scoped_dep in H. rewrite Hn in H. apply In_defd_nth in H. destruct H as (j & y & Hj & Hy).
  assert (Hlt : j < length pre) by (apply nth_error_Some; congruence).
  exists (to_stmt j y). split; [|split].
  - apply In_to_stmts. exists j, y. split; [|reflexivity]. rewrite Hc, nth_error_app1; assumption.
  - rewrite to_stmt_asg. exact Hy.
  - rewrite !to_stmt_sid. lia.
Qed.

Lemma input_user n : In n (code_inputs (to_stmts cd)) -> userv root n.
Proof.
  rewrite In_inputs. intros (s & d & Hs & Hd & Hn & <-). apply In_to_stmts in Hs.
  destruct Hs as (i & x & Hi & ->). destruct (nth_split' _ _ Hi) as (pre & post & Hc & _).
  apply to_stmt_deps in Hd. pose proof (S_code HS pre x post Hc d Hd) as H.
  unfold scoped_dep in H. rewrite Hn in H. exact H.
Qed.

Lemma code_sa : single_assignment (to_stmts cd) (code_inputs (to_stmts cd)).
Proof.
  split.
  - intros s s' n Hs Hs' Hn Hn'. apply In_to_stmts in Hs, Hs'.
    destruct Hs as (i & x & Hi & ->), Hs' as (j & y & Hj & ->).
    rewrite to_stmt_asg in Hn, Hn'. rewrite !to_stmt_sid.
    exact (defd_unique _ (S_nodup HS) _ _ _ Hi Hj Hn Hn').
  - intros s n Hs Hn Hin. apply In_to_stmts in Hs. destruct Hs as (i & x & Hi & ->).
    rewrite to_stmt_asg in Hn. apply (user_not_defd (input_user _ Hin)). apply In_defd_nth. eauto.
Qed.

Lemma code_ids : NoDup (map sid (to_stmts cd)).
Proof. rewrite to_stmts_sids. apply seq_NoDup. Qed.

Lemma run_solution s : run cd c0 = Ok s -> solution (csem cd) (to_stmts cd) c0 s.
Proof.
  intros Hr. split.
  - intros n Hn. apply (run_frame ple _ _ _ _ _ _ _ _ _ _ Hr). intros Hd. apply In_defd_nth in Hd.
    destruct Hd as (i & x & Hi & Hx). apply (Hn (to_stmt i x)).
    + apply In_to_stmts. eauto.
    + rewrite to_stmt_asg. exact Hx.
  - intros y Hy. apply In_to_stmts in Hy. destruct Hy as (i & x & Hi & ->).
    rewrite (csem_to_stmt _ Hi). destruct (nth_split' _ _ Hi) as (pre & post & Hc & _).
    pose proof Hr as Hr'. rewrite Hc, run_app in Hr'.
    destruct (run pre c0) as [s1|] eqn:E1; [|discriminate Hr']. cbn [bind CompProofs2.run] in Hr'.
    destruct (cexec x s1) as [asg|] eqn:E2; [|discriminate Hr']. cbn [bind] in Hr'.
    pose proof (cexec_names _ _ _ _ _ _ _ _ _ E2) as Hnm.
    exists asg. split.
    + rewrite <- E2. apply cexec_ext. intros d Hd.
      pose proof (read_stable _ _ _ _ Hc Hd) as Hst. simpl in Hst. rewrite in_app_iff in Hst.
      rewrite (run_frame ple _ _ _ _ _ _ _ _ _ _ Hr'); [|tauto].
      apply upds_other. rewrite Hnm. tauto.
    + intros n v Hnv. rewrite (run_frame ple _ _ _ _ _ _ _ _ _ _ Hr').
      * apply upds_in; [|exact Hnv]. rewrite Hnm. exact (cassg_nodup _ _ _ Hc).
      * pose proof (S_nodup HS) as Hnd. rewrite Hc, defd_app in Hnd.
        apply NoDup_app_remove_l in Hnd. simpl in Hnd.
        apply (NoDup_app_disj _ _ _ Hnd). rewrite <- Hnm. apply (in_map fst) in Hnv. exact Hnv.
Qed.

Lemma solution_run sigma : solution (csem cd) (to_stmts cd) c0 sigma ->
  exists s, run cd c0 = Ok s /\ forall n, s n = sigma n.
Proof.
  intros [Hfr Heq].
  assert (Hun : forall n, ~ In n (defd cd) -> sigma n = c0 n).
  { intros n Hn. apply Hfr. intros s Hs Ha. apply In_to_stmts in Hs. destruct Hs as (i & x & Hi & ->).
    rewrite to_stmt_asg in Ha. apply Hn. apply In_defd_nth. eauto. }
  assert (H : forall pre post, cd = pre ++ post ->
    exists s, run pre c0 = Ok s /\ forall n, In n (defd pre) -> s n = sigma n).
  { induction pre as [|x pre IH] using rev_ind; intros post Hc.
    - exists c0. split; [reflexivity|]. intros n [].
    - rewrite <- app_assoc in Hc. simpl in Hc. destruct (IH _ Hc) as (s & Hs & Hag).
      assert (Hx : nth_error cd (length pre) = Some x).
      { rewrite Hc, nth_error_app2, Nat.sub_diag; [reflexivity|lia]. }
      destruct (Heq (to_stmt (length pre) x)) as (asg & Ha & Hv).
      { apply In_to_stmts. eauto. }
      rewrite (csem_to_stmt _ Hx) in Ha.
      assert (Ha' : cexec x s = Ok asg).
      { rewrite <- Ha. apply cexec_ext. intros d Hd.
        pose proof (S_code HS pre x post Hc d Hd) as Hsc. unfold scoped_dep in Hsc.
        destruct (dnamed d); [apply Hag; exact Hsc|].
        pose proof (user_not_defd Hsc) as Hnd. rewrite (Hun _ Hnd).
        apply (run_frame ple _ _ _ _ _ _ _ _ _ _ Hs). intros Hin. apply Hnd. rewrite Hc, defd_app.
        apply in_app_iff. left. exact Hin. }
      exists (upds s asg). rewrite run_app, Hs. cbn [bind CompProofs2.run]. rewrite Ha'. cbn [bind].
      split; [reflexivity|]. intros n Hn.
      pose proof (cexec_names _ _ _ _ _ _ _ _ _ Ha) as Hnm.
      destruct (in_dec string_dec n (map fst asg)) as [Hi|Hi].
      + apply in_map_iff in Hi. destruct Hi as ([m v] & Hm & Hi). simpl in Hm. subst m.
        rewrite (Hv n v Hi). apply upds_in; [|exact Hi]. rewrite Hnm. exact (cassg_nodup _ _ _ Hc).
      + rewrite upds_other by exact Hi. apply Hag. rewrite defd_app in Hn. apply in_app_iff in Hn.
        destruct Hn as [Hn|Hn]; [exact Hn|]. exfalso. apply Hi. rewrite Hnm. simpl in Hn.
        rewrite app_nil_r in Hn. exact Hn. }
  destruct (H cd [] (eq_sym (app_nil_r _))) as (s & Hs & Hag). exists s. split; [exact Hs|].
  intros n. destruct (in_dec string_dec n (defd cd)) as [Hn|Hn]; [apply Hag; exact Hn|].
  rewrite (Hun n Hn). apply (run_frame ple _ _ _ _ _ _ _ _ _ _ Hs Hn).
Qed.
End Code.

Lemma inv0 : inv root vzero vlit vadd vop vsub varr vpot c0 cst0.
Proof.
  split; [|split].
  - split; simpl.
    + constructor.
    + intros n [].
    + intros n [].
    + intros k v [].
    + intros pre x post H. destruct pre; discriminate H.
  - intros k v [].
  - intros _. exists c0. reflexivity.
Qed.

Lemma compile_ok : exists cd r, compile ple kfeat gorder root = Ok (cd, r).
Proof.
  destruct (@comp_ok ple kfeat gorder gorder_perm root Hacc Hcap Hlim V vzero vlit vadd vop vsub varr
    vpot vadd_zero vpot_perm c0 root (sub_refl root) false cst0 inv0) as (v & st & Hc & _).
  unfold compile. rewrite Hc. cbn [bind]. eauto.
Qed.

Lemma compile_and_run_l r :
  (exists c', compile_and_run vzero vlit vadd vop vsub varr vpot ple kfeat gorder root c0 = Ok (r, c'))
  <-> den root = Ok r.
Proof.
  destruct (@comp_ok ple kfeat gorder gorder_perm root Hacc Hcap Hlim V vzero vlit vadd vop vsub varr
    vpot vadd_zero vpot_perm c0 root (sub_refl root) false cst0 inv0)
    as (v & st & Hc & Hi & _ & Hsc & HR).
  destruct Hi as (HS & _ & Hlive).
  unfold compile_and_run, compile. rewrite Hc. cbn [bind].
  destruct (compute_schedule_terminates (to_stmts (code st)) (map dname (fv v)) (code_ids st)) as [sched Hs].
  rewrite Hs.
  assert (Hrr : res_reads_rvars (fun c => ev c v) (map dname (fv v))).
  { intros c c' H. apply eval_ext. intros d Hd. apply H. apply in_map. exact Hd. }
  rewrite (@execute_ok_iff_l V V (csem (code st)) (fun c => ev c v) (map dname (fv v))
    (to_stmts (code st)) c0 _ sched (code_reads HS) (code_assigns HS) Hrr (code_ids st)
    (code_wf HS) (code_sa HS) Hs r).
  split.
  - intros [_ (sigma & Hsol & Hres)].
    destruct (solution_run HS Hsol) as (s & Hrun & Hag). apply (HR s Hrun).
    rewrite <- Hres. apply eval_ext. intros d _. apply Hag.
  - intros Hd. destruct (Hlive (ex_intro _ r Hd)) as [s Hrun]. split.
    + intros n Hn. destruct (input_user HS _ Hn) as (x & Hx & Hcase).
      destruct (@den_sub root V vzero vlit vadd vop vsub varr vpot c0 x (ex_intro _ r Hd) Hx) as [y Hy].
      destruct Hcase as [->|[k ->]]; cbn [evalx] in Hy; unfold get in Hy;
        (destruct (c0 n); [discriminate|discriminate Hy]).
    + exists s. split; [apply run_solution; assumption|]. apply (HR s Hrun). exact Hd.
Qed.
End Final.
