(** C26: the refinement loops; C49: the warning. *)
From Verif Require Import Base RefineModel RefineSpec RefineProofs.
From Coq Require Import QArith Permutation.
Set Implicit Arguments.
Open Scope nat_scope.

(** What is assumed about the mesh refiner: it keeps element groups proper. *)
Definition refiner_ok (E : env) : Prop :=
  forall clk d fl d', proper d -> e_refine E clk d fl = Ok d' -> proper d'.

(** Stage 1: at most [maxiter] refiner calls; the connection leads from the given to the
    returned discretization; each call refines exactly the violating elements; without the
    warning all criteria hold; the warning means that all [maxiter] rounds were used. *)
Theorem stage1_refinement : forall E l k maxiter clk d d' c warn clk',
  schedules_ok E -> refiner_ok E ->
  (forall x, proper x -> tree1_ok E (k_tol k) x (e_tree1 E x)) ->
  proper d -> l_mode l <> NO_REFINEMENT ->
  refine_stage1 E l k maxiter clk d = Ok (d', c, warn, clk') ->
  clk <= clk' <= clk + maxiter /\ connects c d d'
  /\ (warn = false -> stage1_criteria_hold E k d')
  /\ (warn = true -> clk' = clk + maxiter)
  /\ exists links, c = Chained d links /\ length links = clk' - clk /\ Forall (exact_round (stage1_target E k)) links.
Proof.
  intros E l k maxiter clk d d' c warn clk' HS HR HT Hd HM H.
  unfold refine_stage1 in H.
  assert (X : exists m, l_mode l = m /\ m <> NO_REFINEMENT) by eauto. destruct X as (m & Em & Hm).
  assert (H' : (do o <- refine_loop E m (fun _ x => stage1_checks E k x) maxiter clk d;
    Ok (o_discr o, Chained d (o_links o), o_warn o, o_clk o)) = Ok (d', c, warn, clk')).
  { rewrite Em in H. destruct m; [exact H|congruence|exact H]. }
  clear H. destruct (refine_loop _ _ _ _ _ _) as [o|] eqn:R; cbn [bind] in H'; [|discriminate].
  assert (o_discr o = d') by congruence. assert (Chained d (o_links o) = c) by congruence.
  assert (o_warn o = warn) by congruence. assert (o_clk o = clk') by congruence. subst d' c warn clk'. clear H'.
  destruct (@refine_loop_spec E m (fun _ x => stage1_checks E k x) (stage1_target E k)
      (fun _ x => stage1_criteria_hold E k x) proper) with (fuel := maxiter) (clk := clk) (d := d) (o := o)
    as (A & B & C & D & F & G & I & J); auto.
  { intros clk0 d0 fl v P Q. apply stage1_checks_spec; auto. }
  split; [lia|]. split; [split; [reflexivity|split; [cbn [conn_to]; apply links_last; exact B|exact B]]|].
  split; [exact G|]. split; [intros W; rewrite D, (I W); reflexivity|].
  exists (o_links o). split; [reflexivity|]. split; [lia|exact F].
Qed.

(** Stage 2: the same for the quadrature criterion, then exactly the forced uniform rounds. *)
Theorem stage2_refinement : forall E l rounds maxiter clk d1 d' c warn clk',
  schedules_ok E -> refiner_ok E -> (forall g, 0 < l_fine_nu l g) ->
  (forall clk d2, tree2_ok E d1 d2 (make_quad E l clk d2) (e_tree2 E d1 (make_quad E l clk d2))) ->
  proper d1 -> l_mode l <> NO_REFINEMENT ->
  refine_stage2 E l rounds maxiter clk d1 = Ok (d', c, warn, clk') ->
  connects c d1 d'
  /\ exists mid links forced, c = Chained d1 (links ++ forced)
     /\ links_from d1 links mid /\ links_from mid forced d'
     /\ length links <= maxiter /\ length forced = rounds /\ clk' = clk + length links + rounds
     /\ (exists n, n = clk + length links /\
          (warn = false -> stage2_criterion_holds E d1 mid (make_quad E l n mid)))
     /\ (warn = true -> length links = maxiter)
     /\ Forall (fun ln => exists n, exact_round (fun x => under_resolved E d1 x (make_quad E l n x)) ln) links
     /\ Forall (exact_round (fun _ _ => True)) forced.
Proof.
  intros E l rounds maxiter clk d1 d' c warn clk' HS HR HN HT Hd HM H.
  unfold refine_stage2 in H.
  assert (X : exists m, l_mode l = m /\ m <> NO_REFINEMENT) by eauto. destruct X as (m & Em & Hm).
  assert (H' : (do o <- refine_loop E m (stage2_checks E l d1) maxiter clk d1;
    do u <- uniform_rounds E rounds (o_clk o) (o_discr o);
    Ok (o_discr u, Chained d1 (o_links o ++ o_links u), o_warn o, o_clk u)) = Ok (d', c, warn, clk')).
  { rewrite Em in H. destruct m; [exact H|congruence|exact H]. }
  clear H. destruct (refine_loop _ _ _ _ _ _) as [o|] eqn:R; cbn [bind] in H'; [|discriminate].
  destruct (uniform_rounds _ _ _ _) as [u|] eqn:U; cbn [bind] in H'; [|discriminate].
  assert (o_discr u = d') by congruence. assert (Chained d1 (o_links o ++ o_links u) = c) by congruence.
  assert (o_warn o = warn) by congruence. assert (o_clk u = clk') by congruence. subst d' c warn clk'. clear H'.
  assert (K : proper (o_discr o) /\ links_from d1 (o_links o) (o_discr o) /\ length (o_links o) <= maxiter
    /\ o_clk o = clk + length (o_links o)
    /\ Forall (fun ln => exists n, exact_round (fun x => under_resolved E d1 x (make_quad E l n x)) ln) (o_links o)
    /\ (o_warn o = false -> stage2_criterion_holds E d1 (o_discr o) (make_quad E l (o_clk o) (o_discr o)))
    /\ (o_warn o = true -> length (o_links o) = maxiter)).
  { assert (GEN : forall d0, (forall clk d2, tree2_ok E d0 d2 (make_quad E l clk d2) (e_tree2 E d0 (make_quad E l clk d2))) ->
      forall fuel clk d o, refine_loop E m (stage2_checks E l d0) fuel clk d = Ok o -> proper d ->
      proper (o_discr o) /\ links_from d (o_links o) (o_discr o) /\ length (o_links o) <= fuel
      /\ o_clk o = clk + length (o_links o)
      /\ Forall (fun ln => exists n, exact_round (fun x => under_resolved E d0 x (make_quad E l n x)) ln) (o_links o)
      /\ (o_warn o = false -> stage2_criterion_holds E d0 (o_discr o) (make_quad E l (o_clk o) (o_discr o)))
      /\ (o_warn o = true -> length (o_links o) = fuel)).
    { clear - HS HR HN Hm. intros d0 HT. induction fuel as [|fuel IH]; intros clk d o R Hd; cbn [refine_loop] in R.
      - assert (o = Out d [] true clk) by congruence. subst o. cbn.
        repeat split; auto; try lia; try constructor; discriminate.
      - destruct (stage2_checks E l d0 clk d) as [flags v] eqn:X.
        destruct (@stage2_checks_spec E l d0 clk d flags v HS HN HT X) as (L & F & V).
        destruct v.
        + destruct m; [|congruence|discriminate].
          destruct (e_refine E clk d flags) as [d'|] eqn:RR; cbn [bind] in R; [|discriminate].
          destruct (refine_loop E _ _ fuel (S clk) d') as [o'|] eqn:Y; cbn [bind] in R; [|discriminate].
          match type of R with Ok ?rhs = _ => assert (o = rhs) by congruence end. subst o.
          destruct (IH (S clk) d' o' Y ltac:(eapply HR; eauto)) as (A & B & C & D & G & I & J).
          cbn [o_discr o_links o_clk o_warn length]. split; [exact A|].
          split; [constructor; [reflexivity|exact B]|]. split; [lia|]. split; [lia|].
          split; [constructor; [|exact G]|].
          * exists clk, d, d', flags. auto.
          * split; [exact I|]. intros W. rewrite (J W). reflexivity.
        + assert (o = Out d [] false clk) by congruence. subst o. cbn [o_discr o_links o_clk o_warn length].
          repeat split; auto; try lia; try constructor; try discriminate. intros _. apply V. reflexivity. }
    exact (GEN d1 HT maxiter clk d1 o R Hd). }
  destruct K as (A & B & C & D & F & G & I).
  destruct (@uniform_rounds_spec E HR rounds (o_clk o) (o_discr o) u A U) as (A' & B' & C' & D' & F').
  assert (LL := links_app B B').
  split; [split; [reflexivity|split; [cbn [conn_to]; apply links_last; exact LL|exact LL]]|].
  exists (o_discr o), (o_links o), (o_links u).
  split; [reflexivity|]. split; [exact B|]. split; [exact B'|]. split; [exact C|]. split; [exact C'|]. split; [lia|].
  split; [exists (o_clk o); split; [exact D|exact G]|]. split; [exact I|]. split; [exact F|exact F'].
Qed.

(** Refinement cannot fail unless the mesh refiner fails or refinement is forbidden. *)
Theorem refinement_terminates : forall E l k rounds maxiter clk d,
  (forall n x fl, exists x', e_refine E n x fl = Ok x') -> l_mode l <> ERROR_ON_REFINEMENT ->
  (exists r, refine_stage1 E l k maxiter clk d = Ok r) /\ (exists r, refine_stage2 E l rounds maxiter clk d = Ok r).
Proof.
  intros E l k rounds maxiter clk d HR HM.
  assert (LOOP : forall m checks fuel clk d, m <> ERROR_ON_REFINEMENT ->
    exists o, refine_loop E m checks fuel clk d = Ok o).
  { clear - HR. intros m checks fuel. induction fuel as [|fuel IH]; intros clk d Hm; cbn [refine_loop]; [eauto|].
    destruct (checks clk d) as [fl v]. destruct v; [|eauto].
    destruct (HR clk d fl) as [d' E']. destruct (IH (S clk) d' Hm) as [o Ho].
    destruct m; [| |congruence]; rewrite E'; cbn [bind]; rewrite Ho; cbn [bind]; eauto. }
  assert (UNI : forall n clk d, exists o, uniform_rounds E n clk d = Ok o).
  { clear - HR. induction n as [|n IH]; intros clk d; cbn [uniform_rounds]; [eauto|].
    destruct (HR clk d (repeat true (nelements d))) as [d' E']. rewrite E'. cbn [bind].
    destruct (IH (S clk) d') as [o Ho]. rewrite Ho. cbn [bind]. eauto. }
  unfold refine_stage1, refine_stage2.
  destruct (LOOP (l_mode l) (fun _ x => stage1_checks E k x) maxiter clk d HM) as [o1 O1].
  destruct (LOOP (l_mode l) (stage2_checks E l d) maxiter clk d HM) as [o2 O2].
  destruct (UNI rounds (o_clk o2) (o_discr o2)) as [u U].
  destruct (l_mode l) eqn:EM; [|eauto|congruence].
  rewrite O1, O2. cbn [bind]. rewrite U. cbn [bind]. eauto.
Qed.

(** NO_REFINEMENT: the mesh is returned unrefined, with the identity connection. *)
Theorem no_refinement : forall E l k rounds maxiter clk d,
  l_mode l = NO_REFINEMENT ->
  refine_stage1 E l k maxiter clk d = Ok (d, IdConn d, false, clk)
  /\ refine_stage2 E l rounds maxiter clk d = Ok (d, IdConn d, false, clk).
Proof. intros E l k rounds maxiter clk d H. unfold refine_stage1, refine_stage2. rewrite H. auto. Qed.

(** ERROR_ON_REFINEMENT: raises iff some criterion is violated, and never calls the refiner. *)
Theorem error_on_refinement_stage1 : forall E l k maxiter clk d,
  schedules_ok E -> proper d -> tree1_ok E (k_tol k) d (e_tree1 E d) ->
  l_mode l = ERROR_ON_REFINEMENT -> 0 < maxiter ->
  (stage1_criteria_hold E k d /\ refine_stage1 E l k maxiter clk d = Ok (d, Chained d [], false, clk))
  \/ (~ stage1_criteria_hold E k d /\ refine_stage1 E l k maxiter clk d = Err RefinementNeeded).
Proof.
  intros E l k maxiter clk d HS HP HT HM Hmax. unfold refine_stage1. rewrite HM.
  destruct maxiter as [|mx]; [lia|]. cbn [refine_loop].
  destruct (stage1_checks E k d) as [fl v] eqn:X.
  destruct (stage1_checks_spec k HS HP HT X) as (_ & _ & V).
  destruct v; cbn [bind o_discr o_links o_warn o_clk]; [right|left]; (split; [|reflexivity]).
  - intros H. apply V in H. discriminate.
  - apply V. reflexivity.
Qed.

Theorem error_on_refinement_stage2 : forall E l maxiter clk d1,
  schedules_ok E -> (forall g, 0 < l_fine_nu l g) ->
  (forall clk d2, tree2_ok E d1 d2 (make_quad E l clk d2) (e_tree2 E d1 (make_quad E l clk d2))) ->
  l_mode l = ERROR_ON_REFINEMENT -> 0 < maxiter ->
  (stage2_criterion_holds E d1 d1 (make_quad E l clk d1)
     /\ refine_stage2 E l 0 maxiter clk d1 = Ok (d1, Chained d1 [], false, clk))
  \/ (~ stage2_criterion_holds E d1 d1 (make_quad E l clk d1)
     /\ forall rounds, refine_stage2 E l rounds maxiter clk d1 = Err RefinementNeeded).
Proof.
  intros E l maxiter clk d1 HS HN HT HM Hmax. unfold refine_stage2. rewrite HM.
  destruct maxiter as [|mx]; [lia|]. cbn [refine_loop].
  destruct (stage2_checks E l d1 clk d1) as [fl v] eqn:X.
  destruct (@stage2_checks_spec E l d1 clk d1 fl v HS HN HT X) as (_ & _ & V).
  destruct v; cbn [bind o_discr o_links o_warn o_clk uniform_rounds app]; [right|left]; (split; [|reflexivity]).
  - intros H. apply V in H. discriminate.
  - apply V. reflexivity.
Qed.

(** A schedule-independence statement: the order in which the device runs the work items
    does not change a round. *)
Theorem round_schedule_independent : forall E E' k d,
  schedules_ok E -> schedules_ok E' -> proper d ->
  E' = Env (e_dist E) (e_node E) (e_center E) (e_radius E) (e_quad_res E) (e_curvature E) (e_danger E)
           (e_tree1 E) (e_tree2 E) (e_refine E) (e_quad_id E) (e_order E') ->
  tree1_ok E (k_tol k) d (e_tree1 E d) ->
  stage1_checks E' k d = stage1_checks E k d.
Proof.
  intros E E' k d HS HS' HP EE HT.
  destruct (stage1_checks E k d) as [f v] eqn:X. destruct (stage1_checks E' k d) as [f' v'] eqn:X'.
  destruct (stage1_checks_spec k HS HP HT X) as (L & F & V).
  assert (HT' : tree1_ok E' (k_tol k) d (e_tree1 E' d)) by (rewrite EE; exact HT).
  destruct (stage1_checks_spec k HS' HP HT' X') as (L' & F' & V').
  assert (T : forall e, stage1_target E' k d e <-> stage1_target E k d e) by (rewrite EE; intros e; reflexivity).
  assert (C : stage1_criteria_hold E' k d <-> stage1_criteria_hold E k d) by (rewrite EE; reflexivity).
  f_equal.
  - apply nth_ext with (d := false) (d' := false); [congruence|]. intros e He. rewrite L' in He.
    specialize (F e He). specialize (F' e He). specialize (T e). unfold flagged in *.
    destruct (nth e f false) eqn:A, (nth e f' false) eqn:B; try reflexivity; exfalso.
    + assert (false = true) by tauto. discriminate.
    + assert (false = true) by tauto. discriminate.
  - destruct v, v'; try reflexivity; exfalso; assert (true = false) by tauto; discriminate.
Qed.

(** ** Non-vacuity and the warning *)

(** A one-group mesh whose every refinement doubles the elements; element size 1/n; all
    centers far from all sources. *)
Definition ex_env : env :=
  Env (fun _ _ => 1%Q) (fun _ _ => []) (fun _ _ => []) (fun _ _ => 0%Q)
      (fun d _ => (1 # Pos.of_nat (nelements d))%Q) (fun _ _ => 0%Q) (fun _ _ => 0%Q)
      (fun d => Tree (fun _ => seq 0 (ndofs d)) (fun _ => []) (fun _ => [0]))
      (fun d1 d2 => Tree (fun _ => []) (fun _ => seq 0 (2 * ndofs d1)) (fun _ => [0]))
      (fun clk d fl => Ok (Discr (S clk) (map (fun g => (2 * fst g, snd g)) (d_groups d))))
      (fun clk => 100 + clk) (fun n => rev (seq 0 n)).
Definition ex_d : discr := Discr 0 [(1, 3)].
Definition ex_l : lpot := Lpot REFINE ex_d (fun _ => 5).
Definition ex_k : crit1 := Crit1 (Some (1 # 3)%Q) (Some 1%Q) 0%Q.

Lemma ex_schedules : schedules_ok ex_env.
Proof. intros n. apply Permutation_sym, Permutation_rev. Qed.
Lemma ex_refiner : refiner_ok ex_env.
Proof.
  intros clk d fl d' H E. assert (X : d' = Discr (S clk) (map (fun g => (2 * fst g, snd g)) (d_groups d))) by (unfold ex_env in E; cbn [e_refine] in E; congruence).
  subst d'. unfold proper. cbn [d_groups]. rewrite Forall_map. exact H.
Qed.
Lemma ex_tree1 tol : forall x, proper x -> tree1_ok ex_env tol x (e_tree1 ex_env x).
Proof.
  intros x _. split; cbn.
  - intros b s H. apply in_seq in H. lia.
  - intros c s Hc Hs _. exists 0. split; [auto|]. apply in_seq. lia.
Qed.
Lemma ex_tree2 d1 l : forall clk d2, tree2_ok ex_env d1 d2 (make_quad ex_env l clk d2) (e_tree2 ex_env d1 (make_quad ex_env l clk d2)).
Proof.
  intros clk x. split; cbn [ex_env e_tree2 t_centers t_visit].
  - intros b s H. apply in_seq in H. lia.
  - intros s c e _ Hc _. exists 0. split; [left; reflexivity|]. apply in_seq. lia.
Qed.

(** The quad-stage-2 discretization: the elements of stage 2, and in group [g] the number
    of nodes of the fine quadrature rule for that group; connected by the mesh they share;
    no refiner call and no warning. *)
Theorem quad_stage2_discretization : forall E l clk d2 q c warn clk',
  refine_quad E l clk d2 = (q, c, warn, clk') ->
  d_id q = e_quad_id E clk /\ length (d_groups q) = length (d_groups d2)
  /\ (forall g nel nu, nth_error (d_groups d2) g = Some (nel, nu) ->
        nth_error (d_groups q) g = Some (nel, l_fine_nu l g))
  /\ c = SameMesh d2 q /\ connects c d2 q /\ warn = false.
Proof.
  intros E l clk d2 q c warn clk' H. unfold refine_quad in H. injection H as <- <- <- <-.
  assert (X : forall (gs : list (nat * nat)) b,
    let r := map (fun '(g, (nel, _)) => (nel, l_fine_nu l g)) (combine (seq b (length gs)) gs) in
    length r = length gs /\ forall g nel nu, nth_error gs g = Some (nel, nu) -> nth_error r g = Some (nel, l_fine_nu l (b + g))).
  { induction gs as [|[nel0 nu0] gs IH]; intros b; cbn -[nth_error].
    - split; [reflexivity|]. intros [|g]; discriminate.
    - destruct (IH (S b)) as [L F]. split; [cbn in L; rewrite L; reflexivity|].
      intros [|g] nel nu Hg; cbn in Hg.
      + injection Hg as <- <-. cbn. rewrite Nat.add_0_r. reflexivity.
      + cbn. rewrite (F g nel nu Hg). do 3 f_equal. lia. }
  destruct (X (d_groups d2) 0) as [L F]. split; [reflexivity|]. split; [exact L|]. split; [exact F|].
  split; [reflexivity|]. split; [repeat split|reflexivity].
Qed.
Print Assumptions quad_stage2_discretization.

Example quad_stage2_example : exists q c w n,
  refine_quad ex_env (Lpot REFINE ex_d (fun g => S g)) 3 (Discr 4 [(2, 7); (3, 5)]) = (q, c, w, n)
  /\ d_groups q = [(2, 1); (3, 2)].
Proof. do 4 eexists. split; reflexivity. Qed.
(** Two rounds of refinement are needed and performed; the hypotheses of the theorems hold. *)
Example stage1_example :
  refine_stage1 ex_env ex_l ex_k 5 0 ex_d
  = Ok (Discr 2 [(4, 3)],
        Chained ex_d [RefConn ex_d (Discr 1 [(2, 3)]) [true];
                      RefConn (Discr 1 [(2, 3)]) (Discr 2 [(4, 3)]) [true; true]], false, 2).
Proof. reflexivity. Qed.
Example stage2_example :
  refine_stage2 ex_env ex_l 1 5 2 (Discr 2 [(4, 3)])
  = Ok (Discr 3 [(8, 3)], Chained (Discr 2 [(4, 3)])
         [RefConn (Discr 2 [(4, 3)]) (Discr 3 [(8, 3)]) [true; true; true; true]], false, 3).
Proof. reflexivity. Qed.
Example stage1_example_applies :
  stage1_criteria_hold ex_env ex_k (Discr 2 [(4, 3)]) /\ ~ stage1_criteria_hold ex_env ex_k ex_d.
Proof.
  split.
  - eapply (@stage1_refinement ex_env ex_l ex_k 5 0 ex_d);
      [exact ex_schedules|exact ex_refiner|apply ex_tree1|repeat constructor|discriminate|exact stage1_example|reflexivity].
  - intros H. assert (X := H 0). destruct X as [X _]; [unfold nelements; cbn; lia|]. apply X. unfold too_long. cbn. reflexivity.
Qed.

(** C49 is false: with exactly as many rounds as needed, the code warns although the
    final mesh satisfies all criteria (the last mesh is never checked). *)
Theorem warning_means_violation_refuted :
  ~ (forall E l k maxiter clk d d' c clk',
       schedules_ok E -> refiner_ok E -> (forall x, proper x -> tree1_ok E (k_tol k) x (e_tree1 E x)) ->
       proper d -> l_mode l = REFINE -> 0 < maxiter ->
       refine_stage1 E l k maxiter clk d = Ok (d', c, true, clk') -> ~ stage1_criteria_hold E k d').
Proof.
  intros H.
  apply (H ex_env ex_l ex_k 2 0 ex_d (Discr 2 [(4, 3)])
         (Chained ex_d [RefConn ex_d (Discr 1 [(2, 3)]) [true];
                      RefConn (Discr 1 [(2, 3)]) (Discr 2 [(4, 3)]) [true; true]]) 2);
    [exact ex_schedules|exact ex_refiner|apply ex_tree1|repeat constructor|reflexivity|lia|reflexivity|].
  apply stage1_example_applies.
Qed.

(** What the warning does mean: that all rounds were used up by meshes that violated a
    criterion; running with one more round decides whether the returned mesh is all right. *)
Lemma loop_enough E m checks : forall fuel n clk d o,
  refine_loop E m checks fuel clk d = Ok o -> o_warn o = false -> refine_loop E m checks (fuel + n) clk d = Ok o.
Proof.
  induction fuel as [|fuel IH]; intros n clk d o H W; cbn [refine_loop] in H.
  - assert (o = Out d [] true clk) by congruence. subst o. discriminate.
  - cbn [Nat.add refine_loop]. destruct (checks clk d) as [fl v]. destruct v; [|exact H].
    destruct m; [| |discriminate];
    (destruct (e_refine E clk d fl) as [d'|] eqn:R; cbn [bind] in H |- *; [|discriminate];
     destruct (refine_loop E _ checks fuel (S clk) d') as [o'|] eqn:Y; cbn [bind] in H; [|discriminate];
     match type of H with Ok ?rhs = _ => assert (o = rhs) by congruence end; subst o; cbn [o_warn] in W;
     rewrite (IH n _ _ _ Y W); reflexivity).
Qed.

Lemma loop_more E m checks : forall fuel clk d o,
  refine_loop E m checks fuel clk d = Ok o -> o_warn o = true ->
  refine_loop E m checks (S fuel) clk d
  = do o' <- refine_loop E m checks 1 (o_clk o) (o_discr o);
    Ok (Out (o_discr o') (o_links o ++ o_links o') (o_warn o') (o_clk o')).
Proof.
  induction fuel as [|fuel IH]; intros clk d o H W.
  - cbn [refine_loop] in H. assert (o = Out d [] true clk) by congruence. subst o. cbn [o_discr o_clk o_links app].
    destruct (refine_loop E m checks 1 clk d) as [[]|]; reflexivity.
  - cbn [refine_loop] in H. destruct (checks clk d) as [fl v] eqn:X. destruct v; [|assert (o = Out d [] false clk) by congruence; subst o; discriminate].
    remember (S fuel) as f eqn:Ef.
    remember (refine_loop E m checks 1) as one eqn:E1.
    cbn [refine_loop]. rewrite X.
    destruct m; [| |discriminate];
    (destruct (e_refine E clk d fl) as [d'|] eqn:R; cbn [bind] in H |- *; [|discriminate];
     destruct (refine_loop E _ checks fuel (S clk) d') as [o'|] eqn:Y; cbn [bind] in H; [|discriminate];
     match type of H with Ok ?rhs = _ => assert (o = rhs) by congruence end; subst o; cbn [o_warn o_clk o_discr o_links] in W |- *;
     subst f; rewrite (IH _ _ _ Y W); rewrite <- ?E1; destruct (one (o_clk o') (o_discr o')) as [oo|]; reflexivity).
Qed.

(** Stage 1 warns iff all [maxiter] rounds were used, and every mesh that was refined in them
    violated a criterion.  A run that ends without the warning is not changed by allowing more
    rounds; after a run that ends with it, one more round returns the same mesh without the
    warning iff that mesh satisfies the criteria, and otherwise refines it once more. *)
Theorem warning_means_rounds_used : forall E l k maxiter clk d d' c warn clk',
  schedules_ok E -> refiner_ok E ->
  (forall x, proper x -> tree1_ok E (k_tol k) x (e_tree1 E x)) ->
  proper d -> l_mode l <> NO_REFINEMENT ->
  refine_stage1 E l k maxiter clk d = Ok (d', c, warn, clk') ->
  (warn = true <-> clk' = clk + maxiter)
  /\ (exists links, c = Chained d links
      /\ Forall (fun ln => exists x y fl, ln = RefConn x y fl /\ ~ stage1_criteria_hold E k x) links)
  /\ (warn = false -> forall n, refine_stage1 E l k (maxiter + n) clk d = Ok (d', c, false, clk'))
  /\ (warn = true ->
      (stage1_criteria_hold E k d' <-> refine_stage1 E l k (S maxiter) clk d = Ok (d', c, false, clk'))
      /\ (~ stage1_criteria_hold E k d' ->
          refine_stage1 E l k (S maxiter) clk d
          = match l_mode l with
            | ERROR_ON_REFINEMENT => Err RefinementNeeded
            | _ => do d2 <- e_refine E clk' d' (fst (stage1_checks E k d'));
                   Ok (d2, Chained d (match c with Chained _ ls => ls | _ => [] end
                                      ++ [RefConn d' d2 (fst (stage1_checks E k d'))]), true, S clk')
            end)).
Proof.
  intros E l k maxiter clk d d' c warn clk' HS HR HT Hd HM H.
  unfold refine_stage1 in H |- *.
  assert (X : exists m, l_mode l = m /\ m <> NO_REFINEMENT) by eauto. destruct X as (m & Em & Hm).
  set (F := fun n => do o <- refine_loop E m (fun _ x => stage1_checks E k x) n clk d;
    Ok (o_discr o, Chained d (o_links o), o_warn o, o_clk o)).
  assert (HF : forall n, match l_mode l with NO_REFINEMENT => Ok (d, IdConn d, false, clk)
      | _ => do o <- refine_loop E (l_mode l) (fun _ x => stage1_checks E k x) n clk d;
             Ok (o_discr o, Chained d (o_links o), o_warn o, o_clk o) end = F n).
  { intros n. rewrite Em. unfold F. destruct m; [reflexivity|congruence|reflexivity]. }
  assert (H' : F maxiter = Ok (d', c, warn, clk')) by (rewrite <- HF; rewrite Em in H |- *; destruct m; exact H).
  clear H.
  assert (GOAL : (warn = true <-> clk' = clk + maxiter)
  /\ (exists links, c = Chained d links
      /\ Forall (fun ln => exists x y fl, ln = RefConn x y fl /\ ~ stage1_criteria_hold E k x) links)
  /\ (warn = false -> forall n, F (maxiter + n) = Ok (d', c, false, clk'))
  /\ (warn = true ->
      (stage1_criteria_hold E k d' <-> F (S maxiter) = Ok (d', c, false, clk'))
      /\ (~ stage1_criteria_hold E k d' ->
          F (S maxiter)
          = match m with
            | ERROR_ON_REFINEMENT => Err RefinementNeeded
            | _ => do d2 <- e_refine E clk' d' (fst (stage1_checks E k d'));
                   Ok (d2, Chained d (match c with Chained _ ls => ls | _ => [] end
                                      ++ [RefConn d' d2 (fst (stage1_checks E k d'))]), true, S clk')
            end))).
  2:{ rewrite Em. destruct m; [exact GOAL|congruence|exact GOAL]. }
  unfold F in H' |- *. clear F HF.
  destruct (refine_loop _ _ _ maxiter _ _) as [o|] eqn:R; cbn [bind] in H'; [|discriminate].
  assert (o_discr o = d') by congruence. assert (Chained d (o_links o) = c) by congruence.
  assert (o_warn o = warn) by congruence. assert (o_clk o = clk') by congruence. subst d' c warn clk'. clear H'.
  assert (INV : proper (o_discr o)).
  { destruct (@refine_loop_spec E m (fun _ x => stage1_checks E k x) (stage1_target E k)
      (fun _ x => stage1_criteria_hold E k x) proper) with (fuel := maxiter) (clk := clk) (d := d) (o := o) as (A & _); auto.
    intros clk0 d0 fl v P Q. apply stage1_checks_spec; auto. }
  assert (K : (o_warn o = true <-> o_clk o = clk + maxiter)
     /\ Forall (fun ln => exists x y fl, ln = RefConn x y fl /\ ~ stage1_criteria_hold E k x) (o_links o)).
  { clear INV. revert clk d o R Hd. induction maxiter as [|fuel IH]; intros clk d o R Hd; cbn [refine_loop] in R.
    - assert (o = Out d [] true clk) by congruence. subst o. cbn. split; [split; intros; [lia|reflexivity]|constructor].
    - destruct (stage1_checks E k d) as [fl v] eqn:X. destruct (stage1_checks_spec k HS Hd (HT d Hd) X) as (L & FF & V).
      destruct v.
      + destruct m; [|congruence|discriminate].
        destruct (e_refine E clk d fl) as [d'|] eqn:RR; cbn [bind] in R; [|discriminate].
        destruct (refine_loop E _ _ fuel (S clk) d') as [o'|] eqn:Y; cbn [bind] in R; [|discriminate].
        match type of R with Ok ?rhs = _ => assert (o = rhs) by congruence end. subst o.
        destruct (IH (S clk) d' o' Y ltac:(eapply HR; eauto)) as [A B]. cbn [o_warn o_clk o_links].
        split; [rewrite A; split; intros; lia|]. constructor; [|exact B].
        exists d, d', fl. split; [reflexivity|]. intros Q. apply V in Q. discriminate.
      + assert (o = Out d [] false clk) by congruence. subst o. cbn [o_warn o_clk o_links]. split; [split; [discriminate|lia]|constructor]. }
  destruct K as [K1 K2]. split; [exact K1|]. split; [exists (o_links o); auto|].
  split; [intros W n; rewrite (@loop_enough E m _ maxiter n clk d o R W); cbn [bind]; rewrite W; reflexivity|].
  intros W. rewrite (@loop_more E m _ maxiter clk d o R W). cbn [refine_loop].
  destruct (stage1_checks E k (o_discr o)) as [fl v] eqn:X. cbn [fst].
  destruct (stage1_checks_spec k HS INV (HT _ INV) X) as (L & FF & V).
  destruct v; cbn [bind o_discr o_links o_warn o_clk].
  - split.
    + split; [intros Q; apply V in Q; discriminate|]. intros Q. exfalso.
      destruct m; [| |discriminate]; (destruct (e_refine E (o_clk o) (o_discr o) fl); cbn [bind o_discr o_links o_warn o_clk] in Q; discriminate).
    + intros _. destruct m; [|congruence|reflexivity].
      destruct (e_refine E (o_clk o) (o_discr o) fl); reflexivity.
  - split; [split; [intros _; rewrite app_nil_r; reflexivity|intros _; apply V; reflexivity]|].
    intros Q. exfalso. apply Q, V. reflexivity.
Qed.
Example warning_means_rounds_used_applies :
  refine_stage1 ex_env ex_l ex_k 3 0 ex_d
  = Ok (Discr 2 [(4, 3)],
        Chained ex_d [RefConn ex_d (Discr 1 [(2, 3)]) [true];
                      RefConn (Discr 1 [(2, 3)]) (Discr 2 [(4, 3)]) [true; true]], false, 2).
Proof.
  eapply (@warning_means_rounds_used ex_env ex_l ex_k 2 0 ex_d);
    [exact ex_schedules|exact ex_refiner|apply ex_tree1|repeat constructor|discriminate|reflexivity|reflexivity|apply stage1_example_applies].
Qed.
Print Assumptions warning_means_rounds_used.

(** With maxiter = 0 it always warns, and does not notice that refinement is forbidden
    but needed. *)
Theorem maxiter_zero_checks_nothing : forall E l k clk d, l_mode l <> NO_REFINEMENT ->
  refine_stage1 E l k 0 clk d = Ok (d, Chained d [], true, clk).
Proof. intros E l k clk d H. unfold refine_stage1. destruct (l_mode l); [reflexivity|congruence|reflexivity]. Qed.

Print Assumptions stage1_refinement.
Print Assumptions stage2_refinement.
Print Assumptions refinement_terminates.
Print Assumptions no_refinement.
Print Assumptions error_on_refinement_stage1.
Print Assumptions error_on_refinement_stage2.
Print Assumptions round_schedule_independent.
Print Assumptions warning_means_violation_refuted.
Print Assumptions maxiter_zero_checks_nothing.
