(** C117, C118, C119, C120: a QBX source over its lifetime. *)
From Coq Require Import QArith Permutation.
From Verif Require Import Base SymProofs RefineModel RefineSpec AssocModel AssocSpec AssocProps FmmModel FmmSpec FmmProofs FmmProofs2 FmmProofs3 FmmProofs4 FmmProps QxModel QxSpec QxProofs QxProofs2.
Set Implicit Arguments.
Open Scope nat_scope.

Lemma after_valid W C l : valid W C (after W C l).
Proof. apply session_spec. apply (valid_unused W C 0). Qed.

(** * C117: what a statement returns does not depend on what was executed before *)
(** ... if the inspector, which may count its calls, has been called as often. *)
Theorem history_is_invisible W C l m i b :
  snd (compute W C m i b (after W C l)) = snd (compute W C m i b (unused (s_calls (after W C l)))).
Proof.
  destruct (@compute_spec W C m i b _ (after_valid W C l)) as (_ & O & _).
  destruct (@compute_spec W C m i b _ (valid_unused W C (s_calls (after W C l)))) as (_ & O' & _).
  rewrite O, O'. reflexivity.
Qed.
Print Assumptions history_is_invisible.

Lemma steady_outcome W C m i b n n' : steady C -> p_compute W C m i b n = p_compute W C m i b n'.
Proof.
  intros S. unfold p_compute. destruct (c_direct C); [reflexivity|]. f_equal. unfold p_post. unfold steady in S. destruct (c_inspector C) as [f|]; [|reflexivity].
  rewrite (S n), (S n'). reflexivity.
Qed.
Theorem session_outcomes W C l : steady C ->
  snd (session W C l fresh) = map (fun c => snd (compute W C (fst (fst c)) (snd (fst c)) (snd c) fresh)) l.
Proof.
  intros S. assert (G : forall l s, valid W C s -> snd (session W C l s) = map (fun c => snd (compute W C (fst (fst c)) (snd (fst c)) (snd c) fresh)) l).
  { clear l. induction l as [|[[m i] b] l IH]; intros s V; cbn [session map fst snd]; [reflexivity|].
    destruct (@compute_spec W C m i b s V) as (V1 & O & _). destruct (@compute_spec W C m i b fresh (valid_unused W C 0)) as (_ & O' & _). rewrite O', (@steady_outcome W C m i b _ (s_calls s) S), <- O.
    destruct (compute W C m i b s) as [s1 r]. cbn [fst snd] in *. pose proof (IH s1 V1) as E. destruct (session W C l s1) as [s2 rs]. cbn [snd] in *. f_equal. exact E. }
  apply G. apply (valid_unused W C 0).
Qed.
Print Assumptions session_outcomes.

(** Geometry data, associations, trees, traversals and kernel data are made at most once each. *)
Theorem no_repeated_work W C l l1 e l2 e' :
  s_log (after W C l) = l1 ++ e :: l2 -> In e' l2 -> ~ same_work e e'.
Proof. intros E I. exact (v_log (after_valid W C l) _ _ _ E _ I). Qed.
Print Assumptions no_repeated_work.

(** * C118: inspector, warning, cost model *)
Lemma times_app p a b : times p (a ++ b) = times p a + times p b.
Proof. unfold times. rewrite filter_app, app_length. reflexivity. Qed.
Lemma times_none p l : Forall (fun e => p e = false) l -> times p l = 0.
Proof. unfold times. induction 1 as [|e l E F IH]; cbn; [reflexivity|]. rewrite E. exact IH. Qed.
Lemma quiet_none e : quiet e -> is_warn e = false /\ is_inspect e = false /\ (forall m, is_run m e = false).
Proof. destruct e; cbn; try contradiction; repeat split; intros []; reflexivity. Qed.
Lemma assoc_none e : assoc_event e -> is_warn e = false /\ is_inspect e = false /\ (forall m, is_run m e = false) /\ is_tree_work e = false.
Proof. destruct e; cbn; try contradiction; repeat split; intros []; reflexivity. Qed.

(** The warning about missing refinement: exactly once per executed statement, before anything
    else, and not otherwise. *)
Theorem unrefined_warning W C l m i b : exists w,
  s_log (fst (compute W C m i b (after W C l))) = s_log (after W C l) ++ w
  /\ times is_warn w = (if c_norefine C then if c_direct C then match m with Exec => 1 | Cost => 0 end else 1 else 0)
  /\ (times is_warn w = 1 -> exists w', w = EWarn :: w').
Proof.
  destruct (@compute_spec W C m i b _ (after_valid W C l)) as (_ & _ & _ & q & F & L). eexists. split; [exact L|].
  assert (Q : times is_warn q = 0).
  { apply times_none. eapply Forall_impl; [|exact F]. unfold inner_event. intros e. destruct (c_direct C); [apply assoc_none|apply quiet_none]. }
  assert (E : times is_warn (e_compute W C m i b (s_calls (after W C l))) = 0).
  { unfold e_compute. destruct (c_direct C); [reflexivity|]. destruct (p_pre W C i b) as [x|e]; [|reflexivity]. unfold e_post.
    destruct (c_inspector C) as [f|]; [destruct (f _)|]; destruct m; reflexivity. }
  rewrite !times_app, Q, E. unfold warning. destruct (c_norefine C), (c_direct C), m; cbn; (split; [reflexivity|]); intros X; try discriminate; eexists; reflexivity.
Qed.
Print Assumptions unrefined_warning.

(** The inspector is asked exactly once for every statement executed by the FMM, after
    everything is set up and before the driver, and never for direct evaluation.  If it
    declines, the driver does not run and every output is zero. *)
Theorem inspector_decides W C l m i b res :
  let s := after W C l in
  let r := compute W C m i b s in
  snd r = Val res -> exists w, s_log (fst r) = s_log s ++ w /\
  if c_direct C
  then times is_inspect w = 0 /\ times (is_run Exec) w = 0 /\ times (is_run Cost) w = 0 /\ times is_tree_work w = 0
  else times (is_run match m with Exec => Cost | Cost => Exec end) w = 0 /\
    match c_inspector C with
    | None => times is_inspect w = 0 /\ times (is_run m) w = 1
    | Some f => s_calls (fst r) = S (s_calls s) /\
      if f (s_calls s)
      then exists w' k, w = w' ++ [EInspect k; match m with Exec => EDrive k | Cost => ECost k end]
             /\ times is_inspect w' = 0 /\ times (is_run m) w' = 0
      else exists w' k, w = w' ++ [EInspect k] /\ times is_inspect w' = 0 /\ times (is_run m) w' = 0
             /\ res = map (fun o => Some (o_name o, Zero)) (i_outs i)
    end.
Proof.
  intros s r E. destruct (@compute_spec W C m i b _ (after_valid W C l)) as (_ & O & K & q & F & L). fold s in O, K, L. fold r in O, K, L.
  eexists. split; [exact L|]. rewrite E in O. unfold p_compute in O. unfold d_compute in K. unfold e_compute in *. unfold warning in *. unfold inner_event in F.
  destruct (c_direct C) eqn:D.
  - rewrite app_nil_r. rewrite !times_app.
    assert (X : times is_inspect q = 0 /\ times (is_run Exec) q = 0 /\ times (is_run Cost) q = 0 /\ times is_tree_work q = 0).
    { repeat split; apply times_none; (eapply Forall_impl; [|exact F]); intros e A; apply assoc_none in A; apply A. }
    destruct X as (X1 & X2 & X3 & X4). rewrite X1, X2, X3, X4. destruct (c_norefine C), m; cbn; auto.
  - destruct (p_pre W C i b) as [x|e]; [|discriminate O]. cbn [obind] in O. cbn [andb negb] in L |- *. rewrite Bool.andb_true_r in L |- *.
    set (wn := if c_norefine C then [EWarn] else []) in *.
    assert (X : times is_inspect (wn ++ q) = 0 /\ (forall m, times (is_run m) (wn ++ q) = 0)).
    { rewrite times_app. split; [|intros m0; rewrite times_app]; rewrite (@times_none _ q) by (eapply Forall_impl; [|exact F]; intros e A; apply quiet_none in A; apply A); unfold wn; destruct (c_norefine C); try destruct m0; reflexivity. }
    destruct X as (X1 & X2). rewrite app_assoc, times_app, X2. unfold e_post in *. unfold p_post in O. unfold d_post in K.
    destruct (c_inspector C) as [f|].
    + split; [destruct (f (s_calls s)), m; reflexivity|]. split; [lia|]. destruct (f (s_calls s)).
      * exists (wn ++ q), (key_of x). split; [destruct m; reflexivity|]. auto.
      * exists (wn ++ q), (key_of x). split; [reflexivity|]. split; [exact X1|]. split; [apply X2|]. cbn in O. injection O as ->. unfold zeros. rewrite map_map. reflexivity.
    + split; [destruct m; reflexivity|]. rewrite !(times_app _ (wn ++ q)), X1, X2. destruct m; split; reflexivity.
Qed.
Print Assumptions inspector_decides.

(** Even when it raises, a statement asks the inspector at most once and runs at most one
    driver, and it never runs one the inspector declined. *)
Theorem inspected_at_most_once W C l m i b :
  let s := after W C l in
  let r := compute W C m i b s in
  exists w, s_log (fst r) = s_log s ++ w
  /\ times is_inspect w <= (if c_direct C then 0 else match c_inspector C with None => 0 | Some _ => 1 end)
  /\ times (is_run m) w <= (if c_direct C then 0 else match c_inspector C with None => 1 | Some f => if f (s_calls s) then 1 else 0 end)
  /\ times (is_run match m with Exec => Cost | Cost => Exec end) w = 0
  /\ s_calls (fst r) = s_calls s + times is_inspect w.
Proof.
  intros s r. destruct (@compute_spec W C m i b _ (after_valid W C l)) as (_ & _ & K & q & F & L). fold s in K, L. fold r in K, L.
  eexists. split; [exact L|]. unfold d_compute in K. unfold e_compute in *. unfold warning in *. unfold inner_event in F. rewrite !times_app, K.
  assert (Q : times is_inspect q = 0 /\ (forall m, times (is_run m) q = 0)).
  { split; [|intros m0]; (apply times_none; eapply Forall_impl; [|exact F]; intros e A); (destruct (c_direct C); [apply assoc_none in A|apply quiet_none in A]); apply A. }
  destruct Q as (Q1 & Q2). rewrite Q1, !Q2.
  assert (X : forall m0, times is_inspect (if c_norefine C && negb (c_direct C && match m with Cost => true | Exec => false end) then [EWarn] else []) = 0
    /\ times (is_run m0) (if c_norefine C && negb (c_direct C && match m with Cost => true | Exec => false end) then [EWarn] else []) = 0) by (intros m0; destruct (_ && _), m0; split; reflexivity).
  rewrite (proj1 (X m)), (proj2 (X m)), (proj2 (X (match m with Exec => Cost | Cost => Exec end))).
  destruct (c_direct C); [cbn; lia|]. destruct (p_pre W C i b) as [x|e]; [|cbn; destruct (c_inspector C) as [f|]; [destruct (f _)|]; lia].
  unfold e_post, d_post. destruct (c_inspector C) as [f|]; [destruct (f (s_calls s))|]; destruct m; cbn; lia.
Qed.
Print Assumptions inspected_at_most_once.

(** Cost modelling: refused for direct evaluation; otherwise it succeeds exactly when execution
    does, with the same names, and its potentials are zero. *)
Theorem cost_run_direct W C l i b : c_direct C = true ->
  compute W C Cost i b (after W C l) = (after W C l, Exc (Std NotImplementedError)).
Proof. intros D. unfold compute. rewrite D. reflexivity. Qed.
Lemma slice_In A (l : list A) a b x : In x (slice l a b) -> In x l.
Proof.
  unfold slice. intros I. assert (J : In x (skipn a l)) by (rewrite <- (firstn_skipn (b - a) (skipn a l)); apply in_app_iff; left; exact I).
  rewrite <- (firstn_skipn a l). apply in_app_iff. right. exact J.
Qed.
Theorem cost_run W C l i b : c_direct C = false ->
  let s := after W C l in
  ((exists res, snd (compute W C Exec i b s) = Val res) <-> (exists res, snd (compute W C Cost i b s) = Val res))
  /\ forall res res', snd (compute W C Exec i b s) = Val res -> snd (compute W C Cost i b s) = Val res' ->
     map (option_map fst) res = map (option_map fst) res'
     /\ forall e, In e res' -> exists n v, e = Some (n, v) /\ match v with Zero => True | Pot p => forall x, In x p -> x = [] end.
Proof.
  intros D s. destruct (@compute_spec W C Exec i b _ (after_valid W C l)) as (_ & O & _). destruct (@compute_spec W C Cost i b _ (after_valid W C l)) as (_ & O' & _).
  fold s in O, O'. rewrite O, O'. clear O O'. unfold p_compute. rewrite D. destruct (p_pre W C i b) as [x|e]; cbn [obind]; [|split; [split; intros (r & H); discriminate|discriminate]].
  unfold p_post.
  assert (Z : forall m m' : mode, (exists res, obind (Val (zeros i)) (fun r => Val (map Some r)) = Val res) -> exists res, obind (Val (zeros i)) (fun r => Val (map Some r)) = Val res) by auto.
  assert (LEN : forall m, length (driver m (let '(_, _, T, _, _) := x in T) (let '(_, _, _, V, _) := x in V) (length (q_ctr (source_of W (key_of x)))) (let '(_, _, _, _, t) := x in t) (q_nquad (source_of W (key_of x))) (length (i_tkn i))) = length (i_tkn i)).
  { intros []; cbn [driver]; [unfold drive_fmm; rewrite map_length, seq_length; reflexivity|apply repeat_length]. }
  destruct x as [[[[numbers k] T] V] ttc]. cbn [key_of] in LEN. set (nc := length (q_ctr (source_of W k))) in *.
  assert (FIN : forall m m' r, finish W m i (numbers, k, T, V, ttc) = Ok r -> exists r', finish W m' i (numbers, k, T, V, ttc) = Ok r' /\ Forall2 (fun e e' => fst e = fst e') r r').
  { intros m m' r H. unfold finish in *. fold nc in H |- *. eapply pick_cost; [|exact H]. rewrite !LEN. reflexivity. }
  assert (NM : forall r r' : list (string * value), Forall2 (fun e e' => fst e = fst e') r r' -> map (option_map fst) (map Some r) = map (option_map fst) (map Some r')).
  { intros r r' H. induction H as [|e e' r r' E H IH]; cbn in *; [reflexivity|]. rewrite E, IH. reflexivity. }
  assert (ZE : forall r, finish W Cost i (numbers, k, T, V, ttc) = Ok r -> forall e, In e (map Some r) -> exists n v, e = Some (n, v) /\ match v with Zero => True | Pot p => forall x, In x p -> x = [] end).
  { intros r H e I. apply in_map_iff in I. destruct I as (e1 & <- & I). unfold finish in H. cbn [driver] in H. fold nc in H.
    assert (J : exists o, In o (i_outs i) /\ pick_output numbers (discr_starts nc (points_of W k)) (repeat (repeat [] (ft_ntgt T)) (length (i_tkn i))) o = Ok e1).
    { clear - H I. revert r H I. induction (i_outs i) as [|o outs IH]; intros r H I; cbn [mapM] in H; [injection H as <-; destruct I|].
      destruct (pick_output _ _ _ o) as [y|] eqn:Y; [|discriminate]. cbn [Base.bind] in H. destruct (mapM _ outs) as [ys|] eqn:YS; [|discriminate]. cbn in H. injection H as <-.
      destruct I as [<-|I]; [exists o; split; [left; reflexivity|exact Y]|]. destruct (IH ys eq_refl I) as (o' & IO & PO). exists o'. split; [right; exact IO|exact PO]. }
    destruct J as (o & _ & J). unfold pick_output in J. destruct (lookup_key _ _) as [n|]; [|discriminate]. destruct (nth_error (repeat _ _) _) as [v|] eqn:NE; [|discriminate]. injection J as <-.
    eexists. eexists. split; [reflexivity|]. intros y I1. apply slice_In in I1. apply nth_error_In in NE. apply repeat_spec in NE. subst v. apply repeat_spec in I1. exact I1. }
  assert (ZZ : forall e, In e (map Some (zeros i)) -> exists n v, e = Some (n, v) /\ match v with Zero => True | Pot p => forall x, In x p -> x = [] end).
  { intros e I. unfold zeros in I. rewrite map_map in I. apply in_map_iff in I. destruct I as (o & <- & _). exists (o_name o), Zero. auto. }
  assert (GEN : ((exists res, obind (olift (finish W Exec i (numbers, k, T, V, ttc))) (fun r => Val (map Some r)) = Val res) <->
                 (exists res, obind (olift (finish W Cost i (numbers, k, T, V, ttc))) (fun r => Val (map Some r)) = Val res))
     /\ forall res res', obind (olift (finish W Exec i (numbers, k, T, V, ttc))) (fun r => Val (map Some r)) = Val res ->
        obind (olift (finish W Cost i (numbers, k, T, V, ttc))) (fun r => Val (map Some r)) = Val res' ->
        map (option_map fst) res = map (option_map fst) res' /\ forall e, In e res' -> exists n v, e = Some (n, v) /\ match v with Zero => True | Pot p => forall x, In x p -> x = [] end).
  { split.
    - split; intros (res & H); apply oval in H; destruct H as (r & R & _); apply olift_val in R.
      + destruct (FIN _ Cost _ R) as (r' & R' & _). rewrite R'. cbn. eauto.
      + destruct (FIN _ Exec _ R) as (r' & R' & _). rewrite R'. cbn. eauto.
    - intros res res' H H'. apply oval in H. destruct H as (r & R & H). apply olift_val in R. injection H as <-. apply oval in H'. destruct H' as (r' & R' & H'). apply olift_val in R'. injection H' as <-.
      destruct (FIN _ Cost _ R) as (r2 & R2 & F2). assert (r2 = r') by congruence. subst r2. split; [apply NM; exact F2|apply ZE; exact R']. }
  destruct (c_inspector C) as [f|]; [|exact GEN]. destruct (f (s_calls s)); [exact GEN|].
  split; [tauto|]. intros res res' H H'. cbn in H, H'. injection H as <-. injection H' as <-. split; [reflexivity|exact ZZ].
Qed.
Print Assumptions cost_run.

(** * C119: what is handed to the tree and traversal builders, and the values of a statement *)
Theorem tree_built_from W C l k a :
  In (ETree k a) (s_log (after W C l)) ->
  exists assoc, associate_all (source_of W k) (points_of W k) = Associated assoc
    /\ length assoc = length (concat (map fst (points_of W k)))
    /\ tree_inputs (c_extent C) (source_of W k) (points_of W k) assoc a.
Proof.
  intros I. pose proof (v_sound (after_valid W C l)) as F. rewrite Forall_forall in F. specialize (F _ I). cbn in F.
  destruct (args_inputs F) as (assoc & A & T). exists assoc. split; [exact A|]. split; [exact (assoc_length _ _ A)|exact T].
Qed.
Print Assumptions tree_built_from.

(** Close lists are merged exactly if expansions have extent. *)
Theorem traversal_merged W C l k m : In (ETrav k m) (s_log (after W C l)) -> m = c_extent C.
Proof. intros I. pose proof (v_sound (after_valid W C l)) as F. rewrite Forall_forall in F. exact (F _ I). Qed.
Print Assumptions traversal_merged.

(** In terms of geometry: a target counts towards the refinement of the tree exactly if it is
    not close to the source. *)
Theorem close_targets_weigh_nothing W C l k a near :
  source_ok (source_of W k) near -> In (ETree k a) (s_log (after W C l)) ->
  let q := source_of W k in
  let P := concat (map fst (points_of W k)) in
  forall i, i < length P ->
    (close_pt q (nth_pt P i) -> nth (ta_nsrc a + length (q_ctr q) + i) (ta_weights a) 0%Z = 0%Z)
    /\ (~ close_pt q (nth_pt P i) -> nth (ta_nsrc a + length (q_ctr q) + i) (ta_weights a) 0%Z = 1%Z).
Proof.
  intros SO I q P i Hi. destruct (tree_built_from _ _ _ _ _ I) as (assoc & A & L & T). fold q in A, T. fold P in L.
  pose proof (@associate_all_spec q near SO (points_of W k)) as S. cbv zeta in S. rewrite A in S. destruct S as (_ & _ & S). specialize (S i Hi).
  rewrite (ti_other T Hi). unfold all_pts in S. fold P in S. destruct (nth i assoc None) as [c|]; split; intros H; try reflexivity; exfalso; tauto.
Qed.
Print Assumptions close_targets_weigh_nothing.

(** A statement executed by the FMM, after whatever history: the full potentials at the points of
    its targets - unless the inspector declined. *)
Theorem executed_potentials W C l i b near res :
  let q := w_q W (b_places b) (i_src i) in
  let s := after W C l in
  c_direct C = false -> source_ok q near -> builder_ok W (c_extent C) ->
  snd (compute W C Exec i b s) = Val res ->
  (exists f, c_inspector C = Some f /\ f (s_calls s) = false /\ res = map (fun o => Some (o_name o, Zero)) (i_outs i))
  \/ (length res = length (i_outs i)
      /\ exists P, gathered_points q (points_at W b) (i_outs i) P
      /\ forall j o, nth_error (i_outs i) j = Some o -> exists x pot,
           points_at W b (o_tgt o) = Ok x /\ nth_error res j = Some (Some (o_name o, Pot pot)) /\ length pot = length x
           /\ forall n, n < length x -> value_ok q P (o_knl o) (limit_side (o_limit o)) (nth_pt x n) (nth n pot [])).
Proof.
  intros q s D SO B E. destruct (@compute_spec W C Exec i b _ (after_valid W C l)) as (_ & O & _). fold s in O. rewrite E in O. unfold p_compute in O. rewrite D in O.
  symmetry in O. apply oval in O. destruct O as (r & R & O). injection O as <-. apply oval in R. destruct R as (x & P & R). unfold p_post in R.
  assert (GO : olift (finish W Exec i x) = Val r -> length (map Some r) = length (i_outs i)
      /\ exists P, gathered_points q (points_at W b) (i_outs i) P
      /\ forall j o, nth_error (i_outs i) j = Some o -> exists x pot,
           points_at W b (o_tgt o) = Ok x /\ nth_error (map Some r) j = Some (Some (o_name o, Pot pot)) /\ length pot = length x
           /\ forall n, n < length x -> value_ok q P (o_knl o) (limit_side (o_limit o)) (nth_pt x n) (nth n pot [])).
  { intros F. apply olift_val in F. destruct (@finish_exec W C i b x r B P F) as (T & V & r0 & OK & NS & X & ->). fold q in NS, X.
    destruct (@fmm_outputs _ near _ _ _ _ (@with_fmm_ok q T V near SO) X) as (L & P0 & G & FF). rewrite map_length. unfold pots. rewrite map_length. split; [exact L|].
    exists P0. split; [exact G|]. intros j o J. destruct (FF (@with_fmm_at q T V P0 OK NS) j o J) as (y & pot & Y & N & LP & VAL). exists y, pot. split; [exact Y|]. split; [|split; [exact LP|exact VAL]].
    rewrite !nth_error_map, N. reflexivity. }
  destruct (c_inspector C) as [f|]; [|right; exact (GO R)]. destruct (f (s_calls s)) eqn:FN; [right; exact (GO R)|].
  left. exists f. split; [reflexivity|]. split; [exact FN|]. injection R as <-. unfold zeros. rewrite map_map. reflexivity.
Qed.
Print Assumptions executed_potentials.

(** Likewise for direct evaluation. *)
Theorem executed_directly W C l i b near res :
  let q := w_q W (b_places b) (i_src i) in
  c_direct C = true -> source_ok q near ->
  snd (compute W C Exec i b (after W C l)) = Val res ->
  length res = length (i_outs i)
  /\ forall j o, nth_error (i_outs i) j = Some o -> exists x pot,
       points_at W b (o_tgt o) = Ok x /\ nth_error res j = Some (Some (o_name o, Pot pot)) /\ length pot = length x
       /\ if b_self b (o_tgt o)
          then exists z, o_limit o = Some z /\ z <> 0%Z /\ forall n, n < length x ->
                 nth n pot [] = full_potential (o_knl o) (seq 0 (q_nquad q)) (q_nquad q) (Own n z) n
          else forall n, n < length x -> value_ok q x (o_knl o) (limit_side (o_limit o)) (nth_pt x n) (nth n pot [])
                 /\ (Z.abs (limit_side (o_limit o)) = 1%Z -> close_pt q (nth_pt x n)).
Proof.
  intros q D SO E. destruct (@compute_spec W C Exec i b _ (after_valid W C l)) as (_ & O & _). rewrite E in O. unfold p_compute in O. rewrite D in O.
  destruct (@direct_same W i b _ (eq_sym O)) as (r0 & X & ->). fold q in X. destruct (@direct_outputs q near _ _ _ _ _ SO X) as (L & F). unfold dpots. rewrite map_length. split; [exact L|].
  intros j o J. destruct (F j o J) as (x & pot & PX & N & LP & V). exists x, pot. split; [exact PX|]. split; [rewrite nth_error_map, N; reflexivity|]. split; [exact LP|exact V].
Qed.
Print Assumptions executed_directly.

(** * C120: when a statement can be executed by the FMM *)
Lemma base_kernel_iff W sk base : base_kernel W sk = Ok base <-> same_base W sk base.
Proof.
  unfold base_kernel, same_base. destruct sk as [|x l]; [split; [discriminate|intros [N _]; congruence]|]. destruct (forallb _ l) eqn:F.
  - rewrite forallb_forall in F. split.
    + intros H. injection H as <-. split; [discriminate|]. intros y [->|I]; [reflexivity|]. apply Nat.eqb_eq. exact (F y I).
    + intros [_ H]. f_equal. apply H. left. reflexivity.
  - split; [discriminate|]. intros [_ H]. exfalso. assert (forallb (fun y => w_base W y =? w_base W x) l = true); [|congruence].
    apply forallb_forall. intros y I. apply Nat.eqb_eq. rewrite (H y (or_intror I)), (H x (or_introl eq_refl)). reflexivity.
Qed.
Lemma takes_indep W C sk tk base : base_kernel W sk = Ok base -> p_indep W C sk tk = Val tt ->
  (c_backend C = "sumpy"%string -> c_tsqbx C <> Some true /\ w_invariant W base = true) -> backend_takes W C sk tk base.
Proof.
  intros BK I SP. unfold p_indep in I. rewrite BK in I. cbn [olift obind] in I. destruct (String.eqb (c_backend C) "sumpy") eqn:S1.
  - apply String.eqb_eq in S1. left. split; [exact S1|]. exact (SP S1).
  - destruct (String.eqb (c_backend C) "fmmlib") eqn:S2; [|discriminate]. apply String.eqb_eq in S2. right. split; [exact S2|].
    destruct sk as [|x [|]]; try discriminate. exists x. split; [reflexivity|]. destruct (w_fmmlib W [x] tk (c_tsqbx C)); [discriminate|reflexivity].
Qed.
Lemma indep_takes W C k sk tk base : base_kernel W sk = Ok base -> backend_takes W C sk tk base ->
  p_indep W C sk tk = Val tt /\ p_wrangler W C k base = p_trav W C k.
Proof.
  intros BK [(S & TS & IV)|(S & x & -> & F)]; unfold p_indep, p_wrangler; rewrite BK, S; cbn.
  - split; [reflexivity|]. rewrite IV. destruct (c_tsqbx C) as [[|]|]; [congruence| |]; reflexivity.
  - rewrite F. split; reflexivity.
Qed.
Theorem fmm_statement_executes W C l i b near :
  let q := w_q W (b_places b) (i_src i) in
  c_direct C = false -> c_inspector C = None -> source_ok q near -> q_src q <> [] ->
  ((exists res, snd (compute W C Exec i b (after W C l)) = Val res) <->
   i_strengths i = None /\ i_args i = None
   /\ (exists base, same_base W (i_skn i) base /\ backend_takes W C (i_skn i) (i_tkn i) base)
   /\ 2 * length (q_src q) = length (q_ctr q)
   /\ forall o, In o (i_outs i) -> exists x, points_at W b (o_tgt o) = Ok x /\ o_knl o < length (i_tkn i)
        /\ forall p, In p x -> ~ failing_pt q (limit_side (o_limit o)) p).
Proof.
  intros q D NI SO NE. destruct (@compute_spec W C Exec i b _ (after_valid W C l)) as (_ & O & _). rewrite O. clear O. unfold p_compute. rewrite D.
  split.
  - intros (res & H). apply oval in H. destruct H as (r & R & _). apply oval in R. destruct R as (x & P & R). unfold p_post in R. rewrite NI in R. apply olift_val in R.
    destruct (@pre_inv W C i b _ P) as (numbers & tgts & T & V & a & X). cbv zeta in X. set (k := GK (b_places b) (i_src i) tgts) in *. destruct X as (-> & G & S1 & S2 & AS & TR & TV & base & BK & PI & SP).
    repeat (split; [assumption|]). split; [exists base; split; [apply base_kernel_iff; exact BK|exact (takes_indep W C _ _ BK PI SP)]|].
    change (source_of W k) with q in *. set (points := points_at W b).
    pose proof (gather_same W (b_obj b) (i_outs i) [] []) as GS. rewrite G in GS. cbn [fst snd map] in GS. change (fun t => do x <- b_obj b t; Ok (w_pts W x)) with points in GS.
    change (map (fun e : nat * Z => (w_pts W (fst e), snd e)) tgts) with (points_of W k) in *.
    (* the FMM of FmmModel succeeds *)
    unfold finish in R. change (source_of W k) with q in R. cbn [driver] in R. destruct (pick_same _ _ _ EmptyString _ R) as (r0 & E & _).
    assert (X : exec_fmm (QS (q_src q) (q_ctr q) (q_discr q) (q_tunnel q) (q_radius q) (q_tol q) (q_dev q) (q_order q) (q_tree q) (q_nquad q) (fun _ => (T, V))) points (length (i_tkn i)) (i_outs i) = Ok r0).
    { unfold exec_fmm. rewrite GS. cbn [Base.bind q_ctr q_fmm q_nquad]. match goal with |- match ?m with _ => _ end = _ => change m with (associate_all q (points_of W k)) end. rewrite AS.
      rewrite user_ttc_no_failed. exact E. }
    set (q2 := QS (q_src q) (q_ctr q) (q_discr q) (q_tunnel q) (q_radius q) (q_tol q) (q_dev q) (q_order q) (q_tree q) (q_nquad q) (fun _ => (T, V))) in X.
    assert (SO2 : source_ok q2 near) by (destruct SO; constructor; assumption).
    exact (proj1 (@fmm_succeeds q2 near points (length (i_tkn i)) (i_outs i) SO2) (ex_intro _ r0 X)).
  - intros (S1 & S2 & (base & BK & TK) & NC & HO). apply base_kernel_iff in BK. set (points := points_at W b) in *.
    assert (X : exists r0, exec_fmm q points (length (i_tkn i)) (i_outs i) = Ok r0) by (apply (proj2 (@fmm_succeeds q near points _ _ SO)); auto).
    destruct X as (r0 & X). destruct (exec_fmm_inv _ _ _ _ X) as (d & ts & a & G & GI & AS & _ & F).
    pose proof (gather_same W (b_obj b) (i_outs i) [] []) as GS. cbn [map] in GS. change (fun t => do x <- b_obj b t; Ok (w_pts W x)) with points in GS. rewrite G in GS.
    destruct (gather (b_obj b) (i_outs i) [] []) as [[d' tgts]|] eqn:GA; [|discriminate]. cbn [fst snd] in GS. injection GS as <- ->.
    set (k := GK (b_places b) (i_src i) tgts).
    change (map (fun e : nat * Z => (w_pts W (fst e), snd e)) tgts) with (points_of W k) in *. change q with (source_of W k) in AS.
    assert (TT : p_ttc W k = Val (user_ttc (length (q_ctr q)) a)) by (apply p_ttc_at; exists a; auto).
    assert (LC : length (q_ctr q) <> 0) by (destruct (q_src q); [congruence|cbn [length] in NC; lia]).
    assert (LA := assoc_length _ _ AS).
    assert (RW : exists ws, refine_weights (q_nquad q) (length (target_points (q_ctr q) (points_of W k))) (user_ttc (length (q_ctr q)) a) = Ok ws).
    { unfold refine_weights. rewrite target_points_eq, app_length. unfold user_ttc. rewrite app_length, repeat_length, map_length, LA.
      destruct (length (q_ctr q) + _ =? 0) eqn:Z; [apply Nat.eqb_eq in Z; lia|]. replace (_ =? _) with true; [eauto|]. symmetry. apply Nat.eqb_eq. lia. }
    destruct RW as (ws & RW).
    assert (TR : exists T, p_tree W C k = Val T) by (unfold p_tree, p_args; rewrite TT; cbn [obind]; change (source_of W k) with q; rewrite RW; cbn; eauto).
    destruct TR as (T & TR). assert (TV : p_trav W C k = Val (w_trav W T (c_extent C))) by (unfold p_trav; rewrite TR; reflexivity).
    assert (PR : p_pre W C i b = Val (d, k, T, w_trav W T (c_extent C), user_ttc (length (q_ctr q)) a)).
    { unfold p_pre. rewrite GA. cbn [olift obind fst snd]. cbv zeta. fold k. rewrite S1, BK. cbn [p_raise olift obind]. rewrite TR, S2. cbn [p_raise obind].
      destruct (@indep_takes W C k (i_skn i) (i_tkn i) base BK TK) as (-> & ->). cbn [obind]. rewrite TV. cbn [obind]. rewrite TT. cbn [obind]. rewrite user_ttc_no_failed. reflexivity. }
    rewrite PR. cbn [obind]. unfold p_post. rewrite NI.
    assert (FI : exists r, finish W Exec i (d, k, T, w_trav W T (c_extent C), user_ttc (length (q_ctr q)) a) = Ok r).
    { unfold finish. cbn [driver]. change (source_of W k) with q. apply mapM_total. intros o I. destruct (Forall2_In_l F I) as (r & _ & n & LK & _ & _ & _ & KN & _).
      unfold pick_output. unfold FmmProofs3.gkey in LK. rewrite LK.
      destruct (nth_error _ (o_knl o)) as [v|] eqn:NN; [eauto|]. apply nth_error_None in NN. unfold drive_fmm in NN. rewrite map_length, seq_length in NN. lia. }
    destruct FI as (r & ->). cbn. eauto.
Qed.
Print Assumptions fmm_statement_executes.

(** The backend's name and target-specific expansions matter for the FMM only. *)
Theorem bad_backend W C l i b m : c_direct C = false -> c_backend C <> "sumpy"%string -> c_backend C <> "fmmlib"%string ->
  forall res, snd (compute W C m i b (after W C l)) <> Val res.
Proof.
  intros D N1 N2 res E. destruct (@compute_spec W C m i b _ (after_valid W C l)) as (_ & O & _). rewrite E in O. symmetry in O. unfold p_compute in O. rewrite D in O.
  apply oval in O. destruct O as (r & R & _). apply oval in R. destruct R as (x & P & _). destruct (@pre_inv W C i b _ P) as (numbers & tgts & T & V & a & _ & _ & _ & _ & _ & _ & _ & base & BK & I & _).
  unfold p_indep in I. rewrite BK in I. cbn [olift obind] in I. destruct (String.eqb (c_backend C) "sumpy") eqn:S1; [apply String.eqb_eq in S1; congruence|].
  destruct (String.eqb (c_backend C) "fmmlib") eqn:S2; [apply String.eqb_eq in S2; congruence|]. discriminate.
Qed.
Print Assumptions bad_backend.

(** * Concrete settings *)
Definition exW : world := World (fun p n => exq) (fun x => match ex_points x with Ok l => l | _ => [] end)
  (fun a => fst (one_fmm (ta_nsrc a) (length (ta_targets a)))) (fun T _ => snd (one_fmm (ft_nsrc T) (ft_ntgt T)))
  (fun k => k) (fun k => k =? 0) (fun _ _ _ => None).
Definition exC (direct : bool) (f : option (nat -> bool)) : settings := Settings direct true "sumpy" None f true.
Definition exI (k : nat) : insn := Insn 0 [k] [0; 1] [Out "a" 0 1 None; Out "b" 1 1 None; Out "c" 0 0 (Some 1%Z)] None None.
Definition exB : bexpr := BExpr 0 (fun t => Ok t) (fun _ => false).
Lemma exW_builder e : builder_ok exW e.
Proof. intros a L. cbn. split; [apply (one_fmm_ok (ta_nsrc a) (length (ta_targets a)))|auto]. Qed.

(** A session: the inspector declines the first and third statement.  Only the first one builds
    anything; the second one's potentials are those of FmmModel. *)
Definition exK : gkey := GK 0 0 [(1, 0%Z); (0, 1%Z)].
Definition exD (k : nat) : list contr := src3 k (Via 1) 2.
Example session_example :
  let r := session exW (exC false (Some (fun n => n =? 1))) [(Exec, exI 0, exB); (Exec, exI 0, exB); (Cost, exI 0, exB)] fresh in
  s_log (fst r) =
    [EWarn; EGeo exK; EAssoc exK true;
     ETree exK (TA 3 [[-(1)]; [1]; [1#2]; [10]; [0]]%Q [1; 1; 1; 1; 1; 0; 1; 0]%Z (Some [1; 1; 0; 0; 0]%Q));
     EIndep [0] [0; 1]; ETrav exK true; EInspect exK;
     EWarn; EInspect exK; EDrive exK; EWarn; EInspect exK]
  /\ snd r = [Val [Some ("a"%string, Zero); Some ("b"%string, Zero); Some ("c"%string, Zero)];
              Val [Some ("a"%string, Pot [exD 0; src3 0 Point 3]); Some ("b"%string, Pot [exD 1; src3 1 Point 3]);
                   Some ("c"%string, Pot [src3 0 (Via 1) 4])];
              Val [Some ("a"%string, Zero); Some ("b"%string, Zero); Some ("c"%string, Zero)]].
Proof. vm_compute. split; reflexivity. Qed.
Example session_cost_example :
  snd (session exW (exC false None) [(Cost, exI 0, exB)] fresh)
  = [Val [Some ("a"%string, Pot [[]; []]); Some ("b"%string, Pot [[]; []]); Some ("c"%string, Pot [[]])]].
Proof. vm_compute. reflexivity. Qed.
(** The hypotheses of executed_potentials, executed_directly and fmm_statement_executes are met. *)
Example exec_hypotheses : source_ok (w_q exW (b_places exB) (i_src (exI 0))) (fun _ _ => 0%Q) /\ builder_ok exW true
  /\ q_src (w_q exW 0 0) <> [] /\ same_base exW [0] 0 /\ backend_takes exW (exC false None) [0] [0; 1] 0.
Proof.
  split; [exact exq_ok|]. split; [apply exW_builder|]. split; [discriminate|]. split; [split; [discriminate|]; intros y [<-|[]]; reflexivity|].
  left. split; [reflexivity|]. split; [discriminate|reflexivity].
Qed.

(** C120 as one would state it - a statement that can be executed directly can be executed by the
    FMM - is false: for a kernel that is not translation invariant the constructor of the FMM's
    wrangler raises UnboundLocalError. *)
Theorem noninvariant_kernel_refuted :
  ~ (forall W C C' i b near, source_ok (w_q W (b_places b) (i_src i)) near -> builder_ok W (c_extent C') ->
     c_direct C = true -> c_direct C' = false -> c_backend C' = "sumpy"%string -> c_tsqbx C' = None -> c_inspector C' = None ->
     (exists res, snd (compute W C Exec i b fresh) = Val res) -> exists res, snd (compute W C' Exec i b fresh) = Val res).
Proof.
  intros H. destruct (H exW (exC true None) (exC false None) (exI 1) exB (fun _ _ => 0%Q)) as (res & E); try reflexivity.
  - exact exq_ok.
  - apply exW_builder.
  - eexists. vm_compute. reflexivity.
  - vm_compute in E. discriminate.
Qed.
Print Assumptions noninvariant_kernel_refuted.
Example noninvariant_outcome : snd (compute exW (exC false None) Exec (exI 1) exB fresh) = Exc UnboundLocal.
Proof. vm_compute. reflexivity. Qed.
