From Verif Require Import Base SchedModel SchedSpec SchedProofs SchedProofs2 CompModel CompSpec CompProofs CompProofs2 CompProofs3 DotModel DotSpec.
From Coq Require Import Permutation Lia.
Set Implicit Arguments.


Definition enum (stmts : list stmt) := combine (seq 0 (length stmts)) stmts.
Definition enumf (num : nat) (stmts : list stmt) := combine (seq num (length stmts)) stmts.
Definition names_of l : list (nat * node) := rev (map (fun p : nat * stmt => (sid (snd p), NStmt (fst p))) l).
Definition orig_of l : list (string * node) :=
  rev (flat_map (fun p : nat * stmt => map (fun a => (a, NStmt (fst p))) (sassignees (snd p))) l).

Lemma number_spec stmts : forall num names origins ls,
  number num stmts names origins ls =
  (names_of (enumf num stmts) ++ names, orig_of (enumf num stmts) ++ origins,
   ls ++ map (fun k => LNode (NStmt k)) (seq num (length stmts))).
Proof.
  unfold names_of, orig_of, enumf.
  induction stmts as [|s rest IH]; intros; simpl; [rewrite app_nil_r; reflexivity|].
  rewrite IH. rewrite rev_app_distr, <- !app_assoc. simpl. rewrite app_nil_r || idtac. reflexivity.
Qed.

Lemma assoc_in K A (eqb : K -> K -> bool) : (forall a b, eqb a b = true <-> a = b) ->
  forall (d : list (K * A)) k a, assoc eqb k d = Some a -> In (k, a) d.
Proof.
  intros He. induction d as [|[k' a'] d IH]; simpl; intros k a H; [discriminate|].
  destruct (eqb k k') eqn:E; [apply He in E; left; congruence|right; auto].
Qed.
Lemma assoc_none K A (eqb : K -> K -> bool) : (forall a b, eqb a b = true <-> a = b) ->
  forall (d : list (K * A)) k a, assoc eqb k d = None -> ~ In (k, a) d.
Proof.
  intros He. induction d as [|[k' a'] d IH]; simpl; intros k a H; [tauto|].
  destruct (eqb k k') eqn:E; [discriminate|]. intros [X|X].
  - injection X as -> ->. rewrite (proj2 (He k k) eq_refl) in E. discriminate.
  - exact (IH _ _ H X).
Qed.

Lemma in_enumf stmts : forall num k s, In (k, s) (enumf num stmts) <->
  num <= k /\ nth_error stmts (k - num) = Some s.
Proof.
  unfold enumf. induction stmts as [|s0 rest IH]; intros num k s; simpl.
  - split; [tauto|]. intros [_ H]. destruct (k - num); discriminate.
  - rewrite IH. split.
    + intros [H|[H1 H2]].
      * injection H as -> ->. rewrite Nat.sub_diag. auto.
      * split; [lia|]. replace (k - num) with (Datatypes.S (k - Datatypes.S num)) by lia. exact H2.
    + intros [H1 H2]. destruct (Nat.eq_dec k num) as [->|Hn].
      * rewrite Nat.sub_diag in H2. injection H2 as ->. left. reflexivity.
      * right. split; [lia|]. replace (k - num) with (Datatypes.S (k - Datatypes.S num)) in H2 by lia. exact H2.
Qed.
Lemma in_enum stmts k s : In (k, s) (enumf 0 stmts) <-> nth_error stmts k = Some s.
Proof. rewrite in_enumf, Nat.sub_0_r. split; [tauto|split; [lia|tauto]]. Qed.

Section G.
Variable stmts : list stmt.
Notation origins := (orig_of (enumf 0 stmts)).
Notation names := (names_of (enumf 0 stmts)).

Lemma in_orig n o : In (n, o) origins <-> exists k, o = NStmt k /\ assigns stmts k n.
Proof.
  unfold orig_of, assigns. rewrite <- in_rev, in_flat_map. split.
  - intros ((k & s) & Hi & Hm). apply in_enum in Hi. apply in_map_iff in Hm. simpl in Hm.
    destruct Hm as (a & Ha & Hin). injection Ha as -> <-. exists k. split; [reflexivity|]. eauto.
  - intros (k & -> & s & Hs & Hn). exists (k, s). split; [apply in_enum; exact Hs|].
    simpl. apply in_map_iff. eauto.
Qed.

Lemma dot_eq r : dot stmts r =
  (LNode NInit :: LNode NResult :: map (fun k => LNode (NStmt k)) (seq 0 (length stmts)))
  ++ flat_map (stmt_arrows names origins) stmts ++ result_arrows origins r.
Proof. unfold dot. rewrite number_spec, !app_nil_r. reflexivity. Qed.

Hypothesis Hsa : forall j k n, assigns stmts j n -> assigns stmts k n -> j = k.
Hypothesis Hid : NoDup (map sid stmts).

Lemma orig_comes n o : orig_name origins n = o <-> comes_from stmts n o.
Proof.
  assert (Hone : comes_from stmts n (orig_name origins n)).
  { unfold orig_name. destruct (assoc String.eqb n origins) as [o'|] eqn:E.
    - apply (fun H => @assoc_in _ _ _ String.eqb_eq _ _ _ H) in E. apply in_orig in E. destruct E as (k & -> & Hk).
      left. exists k. split; [reflexivity|]. split; [exact Hk|]. intros j Hj. exact (Hsa Hj Hk).
    - right. split; [reflexivity|]. intros j Hj.
      apply (fun H => @assoc_none _ _ _ String.eqb_eq _ _ (NStmt j) H) in E. apply E. apply in_orig. eauto. }
  split; [intros <-; exact Hone|].
  intros [(k & -> & Hk & Hu)|[-> Hno]]; destruct Hone as [(k' & E & Hk' & _)|[E Hno']].
  - rewrite E. f_equal. exact (Hu _ Hk').
  - destruct (Hno' _ Hk).
  - destruct (Hno _ Hk').
  - exact E.
Qed.

Lemma names_get k s : nth_error stmts k = Some s -> assoc Nat.eqb (sid s) names = Some (NStmt k).
Proof.
  intros Hk. destruct (assoc Nat.eqb (sid s) names) as [nd|] eqn:E.
  - apply (fun H => @assoc_in _ _ _ Nat.eqb_eq _ _ _ H) in E. unfold names_of in E. rewrite <- in_rev in E.
    apply in_map_iff in E. destruct E as ((j & s') & Hj & Hin). simpl in Hj. apply in_enum in Hin.
    injection Hj as Hs <-. f_equal. f_equal.
    apply (proj1 (NoDup_nth_error (map sid stmts)) Hid).
    + rewrite map_length. apply nth_error_Some. congruence.
    + rewrite !nth_error_map, Hin, Hk. simpl. congruence.
  - exfalso. apply (fun H => @assoc_none _ _ _ Nat.eqb_eq _ _ (NStmt k) H) in E. apply E.
    unfold names_of. rewrite <- in_rev. apply in_map_iff. exists (k, s). split; [reflexivity|].
    apply in_enum. exact Hk.
Qed.

Lemma arrows_of k s : nth_error stmts k = Some s ->
  stmt_arrows names origins s =
  map (fun d => LArrow (orig_name origins (dname d)) (NStmt k) (LDep d)) (nodup dep_dec (sdeps s)).
Proof. intros H. unfold stmt_arrows. rewrite (names_get _ H). reflexivity. Qed.

Lemma in_stmt_arrows a : In a (flat_map (stmt_arrows names origins) stmts) <->
  exists k d, a = LArrow (orig_name origins (dname d)) (NStmt k) (LDep d) /\ reads stmts k d.
Proof.
  rewrite in_flat_map. split.
  - intros (s & Hs & Ha). apply In_nth_error in Hs. destruct Hs as [k Hk].
    rewrite (arrows_of _ Hk) in Ha. apply in_map_iff in Ha. destruct Ha as (d & <- & Hd).
    apply nodup_In in Hd. exists k, d. split; [reflexivity|]. exists s. auto.
  - intros (k & d & -> & s & Hs & Hd). exists s. split; [eapply nth_error_In; eauto|].
    rewrite (arrows_of _ Hs). apply in_map_iff. exists d. split; [reflexivity|]. apply nodup_In. exact Hd.
Qed.

Lemma in_result_arrows r a : In a (result_arrows origins r) ->
  exists e, a = LArrow (orig_expr origins e) NResult (LExpr e).
Proof.
  assert (H1 : forall e, In a [LArrow (orig_expr origins e) NResult (LExpr e)] ->
    exists e, a = LArrow (orig_expr origins e) NResult (LExpr e)).
  { intros e [<-|[]]. exists e. reflexivity. }
  unfold result_arrows. destruct r; try (apply H1).
  rewrite in_map_iff. intros (e & <- & _). exists e. reflexivity.
Qed.

Lemma in_dot_arrow r a b l : In (LArrow a b l) (dot stmts r) <->
  In (LArrow a b l) (flat_map (stmt_arrows names origins) stmts) \/
  In (LArrow a b l) (result_arrows origins r).
Proof.
  rewrite dot_eq. rewrite !in_app_iff. split; [|tauto].
  intros [[H|[H|H]]|H]; try discriminate H; [|exact H].
  apply in_map_iff in H. destruct H as (k & H & _). discriminate H.
Qed.

Lemma nodes_ok r : nodes_of (dot stmts r) = NInit :: NResult :: map NStmt (seq 0 (length stmts)).
Proof.
  rewrite dot_eq. unfold nodes_of. rewrite !flat_map_app. simpl.
  assert (H1 : flat_map (fun l => match l with LNode n => [n] | LArrow _ _ _ => [] end)
    (map (fun k => LNode (NStmt k)) (seq 0 (length stmts))) = map NStmt (seq 0 (length stmts))).
  { induction (seq 0 (length stmts)); simpl; congruence. }
  assert (Hn : forall L, (forall a, In a L -> exists s t l, a = LArrow s t l) ->
    flat_map (fun l => match l with LNode n => [n] | LArrow _ _ _ => [] end) L = []).
  { induction L as [|a L IH]; intros H; [reflexivity|]. simpl.
    destruct (H a (or_introl eq_refl)) as (s & t & l & ->). simpl. apply IH. intros; apply H; right; assumption. }
  rewrite H1, (Hn (flat_map _ _)), (Hn (result_arrows _ _)), !app_nil_r; [reflexivity| |].
  - intros a Ha. apply in_result_arrows in Ha. destruct Ha as (e & ->). eauto.
  - intros a Ha. apply in_stmt_arrows in Ha. destruct Ha as (k & d & -> & _). eauto.
Qed.

Lemma arrow_into_stmt r a k l : In (LArrow a (NStmt k) l) (dot stmts r) <->
  exists d, l = LDep d /\ reads stmts k d /\ comes_from stmts (dname d) a.
Proof.
  rewrite in_dot_arrow. split.
  - intros [H|H].
    + apply in_stmt_arrows in H. destruct H as (k' & d & E & Hr). injection E as -> -> ->.
      exists d. split; [reflexivity|]. split; [exact Hr|]. apply orig_comes. reflexivity.
    + apply in_result_arrows in H. destruct H as (e & E). discriminate E.
  - intros (d & -> & Hr & Hc). left. apply in_stmt_arrows. exists k, d.
    apply orig_comes in Hc. subst a. auto.
Qed.

Lemma no_arrow_into_init r a l : ~ In (LArrow a NInit l) (dot stmts r).
Proof.
  rewrite in_dot_arrow. intros [H|H].
  - apply in_stmt_arrows in H. destruct H as (k' & d & E & Hr). discriminate E.
  - apply in_result_arrows in H. destruct H as (e & E). discriminate E.
Qed.
Lemma orig_not_result n : orig_name origins n <> NResult.
Proof.
  intros H. apply orig_comes in H. destruct H as [(k & H & _)|[H _]]; discriminate H.
Qed.
Lemma no_arrow_from_result r b l : ~ In (LArrow NResult b l) (dot stmts r).
Proof.
  rewrite in_dot_arrow. intros [H|H].
  - apply in_stmt_arrows in H. destruct H as (k' & d & E & Hr). injection E as E _ _.
    exact (@orig_not_result _ (eq_sym E)).
  - apply in_result_arrows in H. destruct H as (e & E). injection E as E _ _.
    destruct e; simpl in E; try discriminate E; exact (@orig_not_result _ (eq_sym E)).
Qed.

(** Uniqueness of the arrow with a given target statement and dependency. *)
Lemma once_app_l g1 g2 t l s : drawn_once g1 t l s -> (forall s', ~ In (LArrow s' t l) g2) ->
  drawn_once (g1 ++ g2) t l s.
Proof.
  intros (a & b & -> & H) H2. exists a, (b ++ g2). rewrite <- app_assoc. split; [reflexivity|].
  intros s'. destruct (H s') as [Ha Hb]. split; [exact Ha|]. rewrite in_app_iff. intros [X|X]; [tauto|exact (H2 _ X)].
Qed.
Lemma once_app_r g1 g2 t l s : drawn_once g2 t l s -> (forall s', ~ In (LArrow s' t l) g1) ->
  drawn_once (g1 ++ g2) t l s.
Proof.
  intros (a & b & -> & H) H2. exists (g1 ++ a), b. rewrite <- app_assoc. split; [reflexivity|].
  intros s'. destruct (H s') as [Ha Hb]. split; [|exact Hb]. rewrite in_app_iff. intros [X|X]; [exact (H2 _ X)|tauto].
Qed.

Lemma once_stmt r k d : reads stmts k d -> drawn_once (dot stmts r) (NStmt k) (LDep d) (orig_name origins (dname d)).
Proof.
  intros (s & Hs & Hd). rewrite dot_eq. apply once_app_r.
  2:{ intros s' [H|[H|H]]; try discriminate H. apply in_map_iff in H. destruct H as (? & H & _). discriminate H. }
  apply once_app_l.
  2:{ intros s' H. apply in_result_arrows in H. destruct H as (e & E). discriminate E. }
  destruct (nth_error_split _ _ Hs) as (pre & post & Hpp & Hlen).
  assert (Hother : forall L, (forall s1, In s1 L -> exists j, j <> k /\ nth_error stmts j = Some s1) ->
     forall s', ~ In (LArrow s' (NStmt k) (LDep d)) (flat_map (stmt_arrows names origins) L)).
  { intros L HL s' H. apply in_flat_map in H. destruct H as (s1 & H1 & H).
    destruct (HL _ H1) as (j & Hj & Hn). rewrite (arrows_of _ Hn) in H.
    apply in_map_iff in H. destruct H as (d' & E & _). injection E as _ E _. congruence. }
  rewrite Hpp at 3. rewrite flat_map_app. simpl. apply once_app_r.
  2:{ apply Hother. intros s1 H1. apply In_nth_error in H1. destruct H1 as [j Hj]. exists j.
      assert (j < length pre) by (apply nth_error_Some; congruence).
      split; [lia|]. rewrite Hpp, nth_error_app1; assumption. }
  apply once_app_l.
  2:{ apply Hother. intros s1 H1. apply In_nth_error in H1. destruct H1 as [j Hj]. exists (Datatypes.S (length pre + j)).
      split; [lia|]. rewrite Hpp, nth_error_app2 by lia.
      replace (Datatypes.S (length pre + j) - length pre) with (Datatypes.S j) by lia. exact Hj. }
  rewrite (arrows_of _ Hs).
  assert (Hin : In d (nodup dep_dec (sdeps s))) by (apply nodup_In; exact Hd).
  apply in_split in Hin. destruct Hin as (l1 & l2 & E).
  pose proof (NoDup_nodup dep_dec (sdeps s)) as Hnd. rewrite E in Hnd |- *. apply NoDup_remove_2 in Hnd.
  rewrite map_app. simpl.
  exists (map (fun d0 => LArrow (orig_name origins (dname d0)) (NStmt k) (LDep d0)) l1),
    (map (fun d0 => LArrow (orig_name origins (dname d0)) (NStmt k) (LDep d0)) l2).
  split; [reflexivity|].
  intros s'. split; intros H; apply in_map_iff in H; destruct H as (d' & E' & H');
    injection E' as _ ->; apply Hnd; apply in_app_iff; tauto.
Qed.

Lemma result_arrows_eq r :
  result_arrows origins r = map (fun e => LArrow (orig_expr origins e) NResult (LExpr e)) (entries r).
Proof. destruct r; reflexivity. Qed.

Lemma shown_orig e o : orig_expr origins e = o <-> shown_source stmts e o.
Proof.
  destruct e; simpl; try (split; congruence); apply orig_comes.
Qed.

Lemma into_result r : exists os,
  filter (fun l => match l with LArrow _ NResult _ => true | _ => false end) (dot stmts r)
  = map (fun p => LArrow (fst p) NResult (LExpr (snd p))) (combine os (entries r))
  /\ Forall2 (fun o e => shown_source stmts e o) os (entries r).
Proof.
  exists (map (orig_expr origins) (entries r)). split.
  - rewrite dot_eq, !filter_app.
    assert (H0 : forall L, (forall a, In a L -> match a with LArrow _ NResult _ => False | _ => True end) ->
      filter (fun l => match l with LArrow _ NResult _ => true | _ => false end) L = []).
    { induction L as [|a L IH]; intros H; [reflexivity|]. simpl.
      pose proof (H a (or_introl eq_refl)) as Ha.
      rewrite IH by (intros; apply H; right; assumption).
      destruct a as [|? [| |] ?]; try reflexivity. destruct Ha. }
    rewrite (H0 (LNode NInit :: _)), (H0 (flat_map _ _)); [simpl| |].
    + rewrite result_arrows_eq. induction (entries r) as [|e l IH]; simpl; [reflexivity|]. rewrite IH. reflexivity.
    + intros a Ha. apply in_stmt_arrows in Ha. destruct Ha as (k & d & -> & _). exact I.
    + intros a [<-|[<-|Ha]]; try exact I. apply in_map_iff in Ha. destruct Ha as (k & <- & _). exact I.
  - induction (entries r) as [|e l IH]; simpl; constructor; [|exact IH]. apply shown_orig. reflexivity.
Qed.

Hypothesis Hfwd : forall j k d, assigns stmts j (dname d) -> reads stmts k d -> j < k.

Definition nrank (n : node) : nat :=
  match n with NInit => 0 | NStmt k => Datatypes.S k | NResult => Datatypes.S (length stmts) end.
Lemma arrow_rank r a b : arrow (dot stmts r) a b -> nrank a < nrank b.
Proof.
  intros [l H]. destruct b as [| |k].
  - destruct (@no_arrow_into_init _ _ _ H).
  - destruct a as [| |j].
    + simpl. lia.
    + destruct (@no_arrow_from_result _ _ _ H).
    + simpl. apply in_dot_arrow in H. destruct H as [H|H].
      * apply in_stmt_arrows in H. destruct H as (? & ? & E & _). discriminate E.
      * apply in_result_arrows in H. destruct H as (e & E). injection E as E _.
        assert (exists n, orig_name origins n = NStmt j) as [n Hn].
        { destruct e; simpl in E; try discriminate E; eexists; symmetry; exact E. }
        apply orig_comes in Hn. destruct Hn as [(k & Ek & (s & Hs & _) & _)|[Ek _]]; [|discriminate Ek].
        injection Ek as <-. assert (j < length stmts) by (apply nth_error_Some; congruence). lia.
  - apply arrow_into_stmt in H. destruct H as (d & -> & Hr & Hc).
    destruct Hc as [(j & -> & Hj & _)|[-> _]]; simpl; [|lia]. pose proof (Hfwd Hj Hr). lia.
Qed.
Lemma path_rank r a b : path (dot stmts r) a b -> nrank a < nrank b.
Proof. induction 1 as [a b H|a b c H _ IH]; [eapply arrow_rank; eauto|]. pose proof (@arrow_rank _ _ _ H). lia. Qed.
End G.

(** ** Compiled codes *)
(** ** Scheduled codes *)
Section Scheduled.
Variable stmts : list stmt.
Variable rvars inputs : list string.
Variable sched : list (stmt * list string).
Hypothesis Hid : NoDup (map sid stmts).
Hypothesis Hwf : well_founded_flow stmts.
Hypothesis Hsa : single_assignment stmts (code_inputs stmts).
Hypothesis Hs : compute_schedule stmts rvars = Some (inputs, sched).
Notation sch := (code_statements sched).

Lemma sched_in s : In s sch <-> In s stmts.
Proof. exact (proj2 (@schedule_complete_l stmts rvars inputs sched Hid Hwf Hs) s). Qed.
Lemma sched_nodup : NoDup sch.
Proof. exact (proj1 (@schedule_complete_l stmts rvars inputs sched Hid Hwf Hs)). Qed.
Lemma sched_perm : Permutation sch stmts.
Proof.
  apply NoDup_Permutation; [exact sched_nodup| |exact sched_in].
  eapply NoDup_map_inv. exact Hid.
Qed.
Lemma sched_ids : NoDup (map sid sch).
Proof. eapply Permutation_NoDup; [|exact Hid]. apply Permutation_map. symmetry. exact sched_perm. Qed.

Lemma sched_single j k n : assigns sch j n -> assigns sch k n -> j = k.
Proof.
  intros (s & Hj & Hn) (s' & Hk & Hn').
  assert (E : sid s = sid s').
  { apply (proj1 Hsa s s' n); try assumption; apply sched_in; eapply nth_error_In; eauto. }
  apply (proj1 (NoDup_nth_error (map sid sch)) sched_ids).
  - rewrite map_length. apply nth_error_Some. congruence.
  - rewrite !nth_error_map, Hj, Hk. simpl. congruence.
Qed.

Lemma inputs_eq : inputs = code_inputs stmts.
Proof.
  destruct (compute_schedule_terminates stmts rvars Hid) as [sch' H]. rewrite H in Hs. injection Hs. auto.
Qed.

Lemma sched_fwd j k d : assigns sch j (dname d) -> reads sch k d -> j < k.
Proof.
  intros Hj (s & Hk & Hd).
  assert (exists dd, nth_error sched k = Some (s, dd)) as [dd Hkd].
  { unfold code_statements in Hk. rewrite nth_error_map in Hk.
    destruct (nth_error sched k) as [[s' dd]|]; [|discriminate]. simpl in Hk. injection Hk as ->. eauto. }
  destruct (nth_error_split _ _ Hkd) as (pre & post & Hpp & Hlen).
  destruct (@schedule_sound_l stmts rvars inputs sched Hid Hs pre s dd post Hpp) as (_ & Hrun & _).
  destruct Hrun as [_ Hrun].
  assert (Hn : In (dname d) (dep_names s)) by (apply in_map; exact Hd).
  destruct (Hrun _ Hn) as (p1 & p2 & Hp & Hcase & _).
  destruct Hcase as [[-> Hin]|(p0 & s0 & d0 & -> & Hn0)].
  - exfalso. destruct Hj as (s' & Hj & Hn'). apply (proj2 Hsa s' (dname d)); [|exact Hn'|].
    + apply sched_in. eapply nth_error_In; eauto.
    + rewrite <- inputs_eq. exact Hin.
  - assert (Ha : assigns sch (length p0) (dname d)).
    { exists s0. split; [|exact Hn0]. unfold code_statements. rewrite Hpp, Hp, <- !app_assoc.
      rewrite nth_error_map, nth_error_app2, Nat.sub_diag by lia. reflexivity. }
    rewrite (sched_single Hj Ha). rewrite <- Hlen, Hp, !app_length. simpl. lia.
Qed.

Lemma comes_init k d : reads sch k d -> (comes_from sch (dname d) NInit <-> In (dname d) inputs).
Proof.
  intros (s & Hk & Hd). split.
  - intros [(j & E & _)|[_ Hno]]; [discriminate E|].
    assert (Hin : In s stmts) by (apply sched_in; eapply nth_error_In; eauto).
    rewrite inputs_eq. destruct (dnamed d) eqn:En.
    + destruct Hwf as [rank Hw]. destruct (Hw s d Hin Hd En) as [H|(s' & Hs' & Ha & _)]; [exact H|].
      exfalso. apply sched_in in Hs'. apply In_nth_error in Hs'. destruct Hs' as [j Hj].
      apply (Hno j). exists s'. auto.
    + apply In_inputs. exists s, d. auto.
  - intros Hin. right. split; [reflexivity|]. intros j (s' & Hj & Hn').
    apply (proj2 Hsa s' (dname d)); [|exact Hn'|].
    + apply sched_in. eapply nth_error_In; eauto.
    + rewrite <- inputs_eq. exact Hin.
Qed.
End Scheduled.

Section Compiled.
Variable ple : nat * expr -> nat * expr -> bool.
Variable kfeat : nat -> nat -> nat.
Variable gorder : list expr -> list expr.
Hypothesis gorder_perm : forall l, Permutation (gorder l) l.
Variable root : expr.
Hypothesis Hacc : accepted root.
Hypothesis Hcap : no_capture root.
Hypothesis Hlim : limits_distinct root.
Variable cd : list cstmt.
Variable r : expr.
Hypothesis Hcomp : compile ple kfeat gorder root = Ok (cd, r).

Lemma compiled_S : exists st, CompProofs2.S root st /\ code st = cd.
Proof.
  destruct (@comp_ok ple kfeat gorder gorder_perm root Hacc Hcap Hlim unit tt (fun _ => Ok tt) (fun _ _ => Ok tt)
    (fun _ _ => Ok tt) (fun _ _ => Ok tt) (fun _ => tt) (fun _ _ _ _ _ _ => Ok tt)
    (fun x => match x with tt => eq_refl end) (fun _ _ _ _ _ _ _ _ => eq_refl) (fun _ => None)
    root (sub_refl root) false cst0) as (v & st & Hc & Hi & _).
  { apply inv0. }
  unfold compile in Hcomp. rewrite Hc in Hcomp. simpl in Hcomp. injection Hcomp as <- <-.
  exists st. split; [apply Hi|reflexivity].
Qed.

Lemma compiled_ids : NoDup (map sid (to_stmts cd)).
Proof. rewrite to_stmts_sids. apply seq_NoDup. Qed.
Lemma compiled_wf : well_founded_flow (to_stmts cd).
Proof. destruct compiled_S as (st & HS & <-). exact (code_wf HS). Qed.
Lemma compiled_sa : single_assignment (to_stmts cd) (code_inputs (to_stmts cd)).
Proof. destruct compiled_S as (st & HS & <-). exact (code_sa Hcap HS). Qed.
End Compiled.
