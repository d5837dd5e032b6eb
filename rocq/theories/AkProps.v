(** C97, C98: target association and refinement checks on the device, for every distribution
    of the work items over workers and every interleaving of their steps. *)
From Coq Require Import QArith Qabs Permutation Lqa.
From Verif Require Import Base RefineModel RefineSpec RefineProofs RefineProps AssocModel AssocSpec AssocProofs AssocProps KrnModel KrnProofs AkModel AkSpec AkProofs AkProofs2 AkProofs4 AkProofs5 AkProofs6.
Set Implicit Arguments.
Open Scope list_scope. Open Scope nat_scope.

(** ** C97 *)

(** Whatever the schedules: association on the device has exactly one outcome, and it is correct
    in terms of points and distances. *)
Theorem device_association junk D near nb d S C targets T tunnel radius tol :
  let TG := concat (map fst targets) in
  let close := close (dv_dist D) S TG tunnel in
  let flag := fun i => nth i (request_of targets) 0%Z in
  let chosen := chosen (dv_dist D) C TG radius tol flag in
  let failing := failing (dv_dist D) S C TG tunnel radius tol flag in
  tree_ok (particles S C (map fst targets)) T ->
  queries_ok D near (particles S C (map fst targets)) T ->
  boxes_ok D nb T ->
  (forall x y, (dv_dist D x y == dv_dist D y x)%Q) ->
  (forall c, (0 < reach radius tol c)%Q) ->
  proper d -> ndofs d = length S ->
  exists out,
  (forall out', dev_associate junk D nb d S C targets T tunnel radius tol out' <-> out' = out) /\
  match out with
  | Associated a =>
      length a = length TG
      /\ (forall i, i < length TG ->
           match nth i a None with Some c => close i /\ chosen i c | None => ~ close i end)
      /\ 2 * length S = length C
      /\ ((exists i, i < length TG /\ close i) -> sides_fit targets)
  | Failed fl failed =>
      length failed = length TG
      /\ (forall i, i < length TG -> (nth i failed false = true <-> failing i))
      /\ (exists i, i < length TG /\ failing i)
      /\ length fl = nelements d
      /\ (exists e, e < nelements d /\ nth e fl false = true)
      /\ (forall e, e < nelements d -> nth e fl false = true ->
            exists i s, i < length TG /\ failing i /\ on_element d e s
              /\ (dv_dist D (nth_pt TG i) (nth_pt S s) <= tunnel s)%Q)
  | Raised e =>
      e = AssertionError
      /\ (2 * length S <> length C
          \/ (~ sides_fit targets /\ exists i, i < length TG /\ close i)
          \/ exists i, i < length TG /\ failing i)
  end.
Proof.
  intros TG cl flag ch fa HT HQ HB Hsym Hrad HP HN.
  assert (HO : Permutation (seq 0 (list_sum (map (@length pt) (map fst targets)))) (seq 0 (length TG))) by (unfold TG; rewrite concat_length'; apply Permutation_refl).
  exists (associate D (seq 0 (list_sum (map (@length pt) (map fst targets)))) d S C targets T tunnel radius tol). split.
  - intros out'. apply associate_iff; [exact HT|exact HB|apply Permutation_refl].
  - exact (@association_correct D near (seq 0 (list_sum (map (@length pt) (map fst targets)))) d S C targets T tunnel radius tol HT HQ Hsym Hrad HP HN HO).
Qed.
Print Assumptions device_association.

(** If every close target has an admissible center, the device finds one for each, under every
    schedule. *)
Theorem device_association_total junk D near nb d S C targets T tunnel radius tol out :
  let TG := concat (map fst targets) in
  let flag := fun i => nth i (request_of targets) 0%Z in
  tree_ok (particles S C (map fst targets)) T ->
  queries_ok D near (particles S C (map fst targets)) T ->
  boxes_ok D nb T ->
  (forall x y, (dv_dist D x y == dv_dist D y x)%Q) ->
  (forall c, (0 < reach radius tol c)%Q) ->
  proper d -> ndofs d = length S ->
  2 * length S = length C -> sides_fit targets ->
  (forall i, i < length TG -> AssocSpec.close (dv_dist D) S TG tunnel i ->
     exists c, admissible (dv_dist D) C TG radius tol flag i c) ->
  dev_associate junk D nb d S C targets T tunnel radius tol out ->
  exists a, out = Associated a.
Proof.
  intros TG flag HT HQ HB Hsym Hrad HP HN H2 HF HA H.
  assert (HO : Permutation (seq 0 (list_sum (map (@length pt) (map fst targets)))) (seq 0 (length TG))) by (unfold TG; rewrite concat_length'; apply Permutation_refl).
  apply (associate_iff junk d _ _ _ tunnel radius tol HT HB out (Permutation_refl _)) in H.
  destruct (@association_total D near (seq 0 (list_sum (map (@length pt) (map fst targets)))) d S C targets T tunnel radius tol HT HQ Hsym Hrad HP HN HO H2 HF HA) as (a & Ea).
  exists a. congruence.
Qed.
Print Assumptions device_association_total.

(** The concrete setting of AssocProps.v, on the device. *)
Lemma ex_boxes T coords sorted user : T = ex_tree coords sorted user -> boxes_ok ex_dev 3 T.
Proof.
  intros ->. split.
  - intros x. cbn. unfold ex_box_of. destruct (Qle_bool _ 1); [lia|]. destruct (Qle_bool _ 5); lia.
  - intros c r b I. cbn [dv_visit ex_dev] in I. unfold ex_visit in I. apply filter_In in I. destruct I as ([<-|[<-|[<-|[]]]] & _); lia.
Qed.
Example device_association_example out :
  dev_associate 7 ex_dev 3 ex_discr ex_S ex_C ex_T ex_shifted (fun _ => 3%Q) (fun _ => 3%Q) 0 out <-> out = Associated [Some 0; None; Some 1].
Proof.
  rewrite (@associate_iff 7 ex_dev 3 ex_discr ex_S ex_C ex_T ex_shifted (fun _ => 3%Q) (fun _ => 3%Q) 0%Q ex_shifted_ok (@ex_boxes _ _ _ _ eq_refl) [0;1;2] out (Permutation_refl _)).
  fold (ex_assoc ex_shifted 3). rewrite (proj1 association_example). tauto.
Qed.
Example device_association_applies : exists out,
  (forall out', dev_associate 7 ex_dev 3 ex_discr ex_S ex_C ex_T ex_shifted (fun _ => 3%Q) (fun _ => 3%Q) 0 out' <-> out' = out).
Proof.
  assert (X := @device_association 7 ex_dev ex_dist 3 ex_discr ex_S ex_C ex_T ex_shifted (fun _ => 3%Q) (fun _ => 3%Q) 0
     ex_shifted_ok ex_shifted_queries (@ex_boxes _ _ _ _ eq_refl) ex_sym (fun c => @ex_reach 3 c eq_refl) ltac:(repeat constructor) eq_refl).
  destruct X as (out & X & _). eauto.
Qed.
Example device_failure_example out :
  dev_associate 7 ex_dev 3 ex_discr ex_S ex_C ex_T ex_straight (fun _ => 3%Q) (fun _ => (1#100)%Q) 0 out <-> out = Failed [true] [true; false; false].
Proof.
  rewrite (@associate_iff 7 ex_dev 3 ex_discr ex_S ex_C ex_T ex_straight (fun _ => 3%Q) (fun _ => (1#100)%Q) 0%Q ex_straight_ok (@ex_boxes _ _ _ _ eq_refl) [0;1;2] out (Permutation_refl _)).
  fold (ex_assoc ex_straight (1#100)). rewrite failure_example. tauto.
Qed.

(** ** C98 *)

(** The environment with the trees of the device and some order of the work items. *)
Definition on_device (D : device) (E : RefineModel.env) (tol : Q) (tree_of : discr -> btree) : RefineModel.env :=
  Env (e_dist E) (e_node E) (e_center E) (e_radius E) (e_quad_res E) (e_curvature E) (e_danger E)
      (fun d => tree1_of D E tol (tree_of d) d) (e_tree2 E) (e_refine E) (e_quad_id E) (fun n => seq 0 n).
Lemma on_device_schedules D E tol tree_of : schedules_ok (on_device D E tol tree_of).
Proof. intros n. apply Permutation_refl. Qed.

(** Each check on the device, whatever the schedule, adds exactly the flags of the elements that
    violate its criterion, and reports whether there are any. *)
Theorem device_threshold_check junk n prop th flags r found :
  length flags = n -> dev_threshold junk n prop th flags r found ->
  length r = n
  /\ (forall e, e < n -> (flagged r e <-> flagged flags e \/ (th < prop e)%Q))
  /\ (found = true <-> exists e, e < n /\ (th < prop e)%Q).
Proof.
  intros L H. set (E := Env (fun _ _ => 0%Q) (fun _ _ => []) (fun _ _ => []) (fun _ _ => 0%Q) (fun _ _ => 0%Q) (fun _ _ => 0%Q) (fun _ _ => 0%Q)
    (fun _ => Tree (fun _ => []) (fun _ => []) (fun _ => [])) (fun _ _ => Tree (fun _ => []) (fun _ => []) (fun _ => [])) (fun _ d _ => Ok d) (fun n => n) (fun n => seq 0 n)).
  assert (HS : schedules_ok E) by (intros k; apply Permutation_refl).
  apply (@threshold_iff junk E n prop th flags r found HS) in H. assert (M := @check_prop_marks E n prop th flags HS L). rewrite <- H in M. destruct M as (A & B & C). cbn [fst snd] in *.
  split; [congruence|]. auto.
Qed.
Theorem device_disks_check junk D near nb E k d T flags r found :
  device_ok D near E -> device_tree_ok D near nb E d d T -> proper d -> length flags = nelements d ->
  dev_disks junk D nb E T d (k_tol k) flags r found ->
  length r = nelements d
  /\ (forall e, e < nelements d -> (flagged r e <-> flagged flags e \/ disturbed E k d e))
  /\ (found = true <-> exists e, e < nelements d /\ disturbed E k d e).
Proof.
  intros (HD & HN) (HT & HQ & HB) HP L H. set (E' := on_device D E (k_tol k) (fun _ => T)).
  change (dev_disks junk D nb E' T d (k_tol k) flags r found) in H.
  assert (HS : schedules_ok E') by apply on_device_schedules.
  apply (@disks_iff junk D nb E' HD HS T d (k_tol k) flags r found HT HB) in H.
  assert (M := @check_disks_marks E' k d _ flags HS HP (@tree1_of_ok D E' HD near HN T d (k_tol k) HT HQ) L).
  rewrite <- H in M. destruct M as (A & B & C). cbn [fst snd] in *. split; [congruence|]. split; [exact B|exact C].
Qed.
Theorem device_quad_check junk D near nb E d1 d2 dq T flags r found :
  device_ok D near E -> device_tree_ok D near nb E d1 dq T -> proper dq -> nelements dq = nelements d2 -> length flags = nelements d2 ->
  dev_quad junk D nb E T d1 d2 dq flags r found ->
  length r = nelements d2
  /\ (forall e, e < nelements d2 -> (flagged r e <-> flagged flags e \/ under_resolved E d1 d2 dq e))
  /\ (found = true <-> exists e, e < nelements d2 /\ under_resolved E d1 d2 dq e).
Proof.
  intros (HD & HN) (HT & HQ & HB) HP HE L H. set (E' := on_device D E 0 (fun _ => T)).
  change (dev_quad junk D nb E' T d1 d2 dq flags r found) in H.
  assert (HS : schedules_ok E') by apply on_device_schedules.
  apply (@quad_iff junk D nb E' HD HS T d1 d2 dq flags r found HT HB HP HE) in H.
  assert (M := @check_quad_marks E' d1 d2 dq _ flags HS HP HE (@tree2_of_ok D E' HD near HN T d1 d2 dq HT HQ) L).
  rewrite <- H in M. destruct M as (A & B & C). cbn [fst snd] in *. split; [congruence|]. split; [exact B|exact C].
Qed.
Print Assumptions device_threshold_check.
Print Assumptions device_disks_check.
Print Assumptions device_quad_check.

(** Stage 1 on the device behaves as the model with atomic checks. *)
Lemma stage1_checks_iff junk D near nb E tb k clk d r v :
  device_ok D near E -> device_tree_ok D near nb E d d (tb d) ->
  (dev_stage1_checks junk D nb E tb k d r v <-> (r, v) = (fun (_ : nat) x => stage1_checks (on_device D E (k_tol k) tb) k x) clk d).
Proof.
  intros (HD & HN) (HT & HQ & HB). set (E' := on_device D E (k_tol k) tb).
  assert (HS : schedules_ok E') by apply on_device_schedules. cbv beta.
  unfold dev_stage1_checks, stage1_checks.
  set (L1 := match k_length k with Some th => check_prop E' (nelements d) (e_quad_res E' d) th (empty_flags d) | None => (empty_flags d, false) end).
  assert (H1 : forall f1 v1, match k_length k with
    | Some th => dev_threshold junk (nelements d) (e_quad_res E d) th (empty_flags d) f1 v1
    | None => f1 = empty_flags d /\ v1 = false end <-> (f1, v1) = L1).
  { intros f1 v1. unfold L1. destruct (k_length k) as [th|]; [apply threshold_iff; exact HS|].
    split; [intros (-> & ->); reflexivity|intros [= -> ->]; auto]. }
  destruct L1 as (f1, v1).
  set (L2 := match k_curv k with Some th => check_prop E' (nelements d) (e_curvature E' d) th f1 | None => (f1, false) end).
  assert (H2 : forall f2 v2, match k_curv k with
    | Some th => dev_threshold junk (nelements d) (e_curvature E d) th f1 f2 v2
    | None => f2 = f1 /\ v2 = false end <-> (f2, v2) = L2).
  { intros f2 v2. unfold L2. destruct (k_curv k) as [th|]; [apply threshold_iff; exact HS|].
    split; [intros (-> & ->); reflexivity|intros [= -> ->]; auto]. }
  destruct L2 as (f2, v2).
  assert (H3 : dev_disks junk D nb E (tb d) d (k_tol k) f2 r v <-> (r, v) = check_disks E' d (e_tree1 E' d) (k_tol k) f2)
    by exact (@disks_iff junk D nb E' HD HS (tb d) d (k_tol k) f2 r v HT HB).
  split.
  - intros (f1' & v1' & f2' & v2' & A & B & C). apply H1 in A. injection A as -> ->. apply H2 in B. injection B as -> ->.
    destruct (v1 || v2); [destruct C as (-> & ->); reflexivity|]. apply H3. exact C.
  - intros C. exists f1, v1, f2, v2. split; [apply H1; reflexivity|]. split; [apply H2; reflexivity|].
    destruct (v1 || v2); [injection C as -> ->; auto|]. apply H3. exact C.
Qed.
Lemma stage1_iff junk D near nb E tb l k maxiter clk d out :
  refiner_ok E -> device_ok D near E -> (forall x, proper x -> device_tree_ok D near nb E x x (tb x)) -> proper d ->
  (dev_stage1 junk D nb E tb l k maxiter clk d out <-> out = refine_stage1 (on_device D E (k_tol k) tb) l k maxiter clk d).
Proof.
  intros HR HD HT Hd. set (E' := on_device D E (k_tol k) tb).
  assert (G : forall m, dev_loop E m (fun _ x => dev_stage1_checks junk D nb E tb k x) maxiter clk d = dev_loop E' m (fun _ x => dev_stage1_checks junk D nb E tb k x) maxiter clk d).
  { intros m. generalize maxiter clk d. induction maxiter0 as [|f IH]; intros c x; cbn [dev_loop]; [reflexivity|]. reflexivity. }
  unfold dev_stage1, refine_stage1.
  assert (K : forall m, (exists r, dev_loop E m (fun _ x => dev_stage1_checks junk D nb E tb k x) maxiter clk d r /\
      out = match r with Err e => Err e | Ok o => Ok (o_discr o, Chained d (o_links o), o_warn o, o_clk o) end)
    <-> out = (do o <- refine_loop E' m (fun _ x => stage1_checks E' k x) maxiter clk d; Ok (o_discr o, Chained d (o_links o), o_warn o, o_clk o))).
  { intros m. 
    assert (LI : forall r, dev_loop E m (fun _ x => dev_stage1_checks junk D nb E tb k x) maxiter clk d r <-> r = refine_loop E' m (fun _ x => stage1_checks E' k x) maxiter clk d).
    { intros r. rewrite G. apply loop_iff with (inv := proper); [|exact HR|exact Hd].
      intros c x fl v Hx. exact (@stage1_checks_iff junk D near nb E tb k c x fl v HD (HT x Hx)). }
    split.
    - intros (r & A & ->). apply LI in A. subst r. destruct (refine_loop _ _ _ _ _ _); reflexivity.
    - intros ->. eexists. split; [apply LI; reflexivity|]. destruct (refine_loop _ _ _ _ _ _); reflexivity. }
  destruct (l_mode l); [apply K|tauto|apply K].
Qed.

(** With refinement switched off the kernels do not run: the mesh itself is returned, with the
    identity connection and no warning. *)
Theorem device_no_refinement junk D nb E tb tb2 l k rounds maxiter clk d out :
  l_mode l = NO_REFINEMENT ->
  (dev_stage1 junk D nb E tb l k maxiter clk d out <-> out = Ok (d, IdConn d, false, clk))
  /\ (dev_stage2 junk D nb E tb2 l rounds maxiter clk d out <-> out = Ok (d, IdConn d, false, clk)).
Proof. intros H. unfold dev_stage1, dev_stage2. rewrite H. split; reflexivity. Qed.
(** Stage 1 on the device, whatever the schedules: it has exactly one outcome ... *)
Theorem device_stage1_deterministic junk D near nb E tb l k maxiter clk d :
  refiner_ok E -> device_ok D near E -> (forall x, proper x -> device_tree_ok D near nb E x x (tb x)) -> proper d ->
  exists out, forall out', dev_stage1 junk D nb E tb l k maxiter clk d out' <-> out' = out.
Proof. intros HR HD HT Hd. eexists. intros out'. apply stage1_iff with (near := near); assumption. Qed.
(** ... which satisfies what is demanded of stage 1. *)
Theorem device_stage1_refinement junk D near nb E tb l k maxiter clk d d' c warn clk' :
  refiner_ok E -> device_ok D near E -> (forall x, proper x -> device_tree_ok D near nb E x x (tb x)) -> proper d ->
  l_mode l <> NO_REFINEMENT ->
  dev_stage1 junk D nb E tb l k maxiter clk d (Ok (d', c, warn, clk')) ->
  clk <= clk' <= clk + maxiter /\ connects c d d'
  /\ (warn = false -> stage1_criteria_hold E k d')
  /\ (warn = true -> clk' = clk + maxiter)
  /\ exists links, c = Chained d links /\ length links = clk' - clk /\ Forall (exact_round (stage1_target E k)) links.
Proof.
  intros HR HD HT Hd Hm H. apply (@stage1_iff junk D near nb E tb l k maxiter clk d _ HR HD HT Hd) in H. symmetry in H.
  refine (@stage1_refinement (on_device D E (k_tol k) tb) l k maxiter clk d d' c warn clk' (on_device_schedules _ _ _ _) HR _ Hd Hm H).
  intros x Hx. destruct (HT x Hx) as (A & B & _). destruct HD as (HD & HN).
  exact (@tree1_of_ok D (on_device D E (k_tol k) tb) HD near HN (tb x) x (k_tol k) A B).
Qed.
Theorem device_stage1_error junk D near nb E tb l k maxiter clk d out :
  refiner_ok E -> device_ok D near E -> (forall x, proper x -> device_tree_ok D near nb E x x (tb x)) -> proper d ->
  l_mode l = ERROR_ON_REFINEMENT -> 0 < maxiter ->
  dev_stage1 junk D nb E tb l k maxiter clk d out ->
  (stage1_criteria_hold E k d /\ out = Ok (d, Chained d [], false, clk))
  \/ (~ stage1_criteria_hold E k d /\ out = Err RefinementNeeded).
Proof.
  intros HR HD HT Hd Hm Hx H. apply (@stage1_iff junk D near nb E tb l k maxiter clk d _ HR HD HT Hd) in H. subst out.
  refine (@error_on_refinement_stage1 (on_device D E (k_tol k) tb) l k maxiter clk d (on_device_schedules _ _ _ _) Hd _ Hm Hx).
  destruct (HT d Hd) as (A & B & _). destruct HD as (HD & HN).
  exact (@tree1_of_ok D (on_device D E (k_tol k) tb) HD near HN (tb d) d (k_tol k) A B).
Qed.
Print Assumptions device_stage1_deterministic.
Print Assumptions device_stage1_refinement.
Print Assumptions device_stage1_error.

(** Stage 2 on the device. *)
Lemma stage2_loop_iff junk D near nb E tb l m fuel clk d1 d out :
  device_ok D near E -> (forall g, 0 < l_fine_nu l g) ->
  (forall clk d2, device_tree_ok D near nb E d1 (make_quad E l clk d2) (tb d1 (make_quad E l clk d2))) ->
  let E' := on_device D E 0 (fun d => tb d d) in
  (dev_loop E m (fun c x => dev_stage2_checks junk D nb E tb l d1 c x) fuel clk d out
   <-> out = refine_loop E' m (fun c x => check_quad E' d1 x (make_quad E l c x) (tree2_of D E (tb d1 (make_quad E l c x)) d1 x (make_quad E l c x)) (empty_flags x)) fuel clk d).
Proof.
  intros (HD & HN) HF HT E'.
  assert (G : dev_loop E m (fun c x => dev_stage2_checks junk D nb E tb l d1 c x) fuel clk d = dev_loop E' m (fun c x => dev_stage2_checks junk D nb E tb l d1 c x) fuel clk d).
  { generalize fuel clk d. induction fuel0 as [|f IH]; intros c x; cbn [dev_loop]; reflexivity. }
  rewrite G. apply loop_iff with (inv := fun _ => True); [|auto|exact I].
  intros c x fl v _. destruct (HT c x) as (A & B & C). unfold dev_stage2_checks.
  exact (@quad_iff junk D nb E' HD (on_device_schedules _ _ _ _) _ d1 x (make_quad E l c x) (empty_flags x) fl v A C (make_quad_proper _ _ _ _ HF) (make_quad_nelements _ _ _ _)).
Qed.
Lemma stage2_check_spec D near nb E tb l clk d1 d2 flags v :
  device_ok D near E -> (forall g, 0 < l_fine_nu l g) ->
  (forall clk d2, device_tree_ok D near nb E d1 (make_quad E l clk d2) (tb d1 (make_quad E l clk d2))) ->
  let E' := on_device D E 0 (fun d => tb d d) in
  check_quad E' d1 d2 (make_quad E l clk d2) (tree2_of D E (tb d1 (make_quad E l clk d2)) d1 d2 (make_quad E l clk d2)) (empty_flags d2) = (flags, v) ->
  length flags = nelements d2
  /\ (forall e, e < nelements d2 -> (flagged flags e <-> under_resolved E d1 d2 (make_quad E l clk d2) e))
  /\ (v = false <-> stage2_criterion_holds E d1 d2 (make_quad E l clk d2)).
Proof.
  intros (HD & HN) HF HT E' X. destruct (empty_flags_spec d2) as [L0 F0]. destruct (HT clk d2) as (A & B & C).
  assert (M := @check_quad_marks E' d1 d2 (make_quad E l clk d2) _ (empty_flags d2) (on_device_schedules _ _ _ _)
     (make_quad_proper _ _ _ _ HF) (make_quad_nelements _ _ _ _) (@tree2_of_ok D E' HD near HN (tb d1 (make_quad E l clk d2)) d1 d2 _ A B) L0).
  change (tree2_of D E' (tb d1 (make_quad E l clk d2)) d1 d2 (make_quad E l clk d2)) with (tree2_of D E (tb d1 (make_quad E l clk d2)) d1 d2 (make_quad E l clk d2)) in M.
  rewrite X in M. destruct M as (L & F & V). cbn [fst snd] in *. split; [congruence|]. split.
  - intros e He. rewrite (F e He). specialize (F0 e). change (under_resolved E' d1 d2 (make_quad E l clk d2) e) with (under_resolved E d1 d2 (make_quad E l clk d2) e). tauto.
  - split.
    + intros -> e He H. assert (false = true) by (apply V; exists e; split; [exact He|exact H]). discriminate.
    + intros H. destruct v; [|reflexivity]. destruct (proj1 V eq_refl) as (e & He & X'). exfalso. exact (H e He X').
Qed.
Theorem device_stage2_deterministic junk D near nb E tb l rounds maxiter clk d1 :
  device_ok D near E -> (forall g, 0 < l_fine_nu l g) ->
  (forall clk d2, device_tree_ok D near nb E d1 (make_quad E l clk d2) (tb d1 (make_quad E l clk d2))) ->
  exists out, forall out', dev_stage2 junk D nb E tb l rounds maxiter clk d1 out' <-> out' = out.
Proof.
  intros HD HF HT. unfold dev_stage2.
  assert (K : forall m, exists out, forall out', (exists r, dev_loop E m (fun c x => dev_stage2_checks junk D nb E tb l d1 c x) maxiter clk d1 r /\
      match r with
      | Err e => out' = Err e
      | Ok o => out' = match uniform_rounds E rounds (o_clk o) (o_discr o) with
                      | Err e => Err e
                      | Ok u => Ok (o_discr u, Chained d1 (o_links o ++ o_links u), o_warn o, o_clk u)
                      end
      end) <-> out' = out).
  { intros m. eexists. intros out'. split.
    - intros (r & A & B). apply (@stage2_loop_iff junk D near nb E tb l m maxiter clk d1 d1 r HD HF HT) in A.
      cbv zeta in A.
      instantiate (1 := match refine_loop (on_device D E 0 (fun d => tb d d)) m _ maxiter clk d1 with
        | Err e => Err e
        | Ok o => match uniform_rounds E rounds (o_clk o) (o_discr o) with
                      | Err e => Err e
                      | Ok u => Ok (o_discr u, Chained d1 (o_links o ++ o_links u), o_warn o, o_clk u)
                      end end).
      cbv beta. rewrite <- A. destruct r; exact B.
    - intros ->. eexists. split; [apply (@stage2_loop_iff junk D near nb E tb l m maxiter clk d1 d1 _ HD HF HT); reflexivity|].
      destruct (refine_loop _ _ _ _ _ _); reflexivity. }
  destruct (l_mode l); [apply K|eexists; intros out'; apply iff_refl|apply K].
Qed.
Theorem device_stage2_refinement junk D near nb E tb l rounds maxiter clk d1 d' c warn clk' :
  refiner_ok E -> device_ok D near E -> (forall g, 0 < l_fine_nu l g) ->
  (forall clk d2, device_tree_ok D near nb E d1 (make_quad E l clk d2) (tb d1 (make_quad E l clk d2))) ->
  proper d1 -> l_mode l <> NO_REFINEMENT ->
  dev_stage2 junk D nb E tb l rounds maxiter clk d1 (Ok (d', c, warn, clk')) ->
  connects c d1 d'
  /\ exists mid links forced, c = Chained d1 (links ++ forced)
     /\ links_from d1 links mid /\ links_from mid forced d'
     /\ length links <= maxiter /\ length forced = rounds /\ clk' = clk + length links + rounds
     /\ (exists n, n = clk + length links /\
          (warn = false -> stage2_criterion_holds E d1 mid (make_quad E l n mid)))
     /\ (warn = true -> length links = maxiter)
     /\ Forall (fun ln => exists n, exact_round (fun x => under_resolved E d1 x (make_quad E l n x)) ln) links
     /\ Forall (exact_round (fun _ _ => True)) forced.
Proof.
  intros HR HD HF HT Hd Hm H. set (E' := on_device D E 0 (fun d => tb d d)).
  assert (X : exists m r, dev_loop E m (fun c x => dev_stage2_checks junk D nb E tb l d1 c x) maxiter clk d1 r /\
      match r with
      | Err e => Ok (d', c, warn, clk') = Err e
      | Ok o => Ok (d', c, warn, clk') = match uniform_rounds E rounds (o_clk o) (o_discr o) with
                      | Err e => Err e
                      | Ok u => Ok (o_discr u, Chained d1 (o_links o ++ o_links u), o_warn o, o_clk u)
                      end
      end).
  { unfold dev_stage2 in H. destruct (l_mode l); [eauto|congruence|eauto]. }
  destruct X as (m & r & A & B). destruct r as [o|]; [|discriminate].
  destruct (uniform_rounds E rounds (o_clk o) (o_discr o)) as [u|] eqn:U; [|discriminate]. injection B as -> -> -> ->.
  apply (@stage2_loop_iff junk D near nb E tb l m maxiter clk d1 d1 _ HD HF HT) in A. symmetry in A.
  apply (@loop_spec E' m _ (fun n x => under_resolved E d1 x (make_quad E l n x)) (fun n x => stage2_criterion_holds E d1 x (make_quad E l n x)) proper) in A.
  2: { intros cl x fl v _ Q. exact (@stage2_check_spec D near nb E tb l cl d1 x fl v HD HF HT Q). }
  2: { exact HR. }
  2: { exact Hd. }
  destruct A as (P1 & P2 & P3 & P4 & P5 & P6 & P7).
  destruct (@uniform_rounds_spec E HR rounds (o_clk o) (o_discr o) u P1 U) as (A' & B' & C' & D' & F').
  assert (LL := links_app P2 B').
  split; [split; [reflexivity|split; [cbn [conn_to]; apply links_last; exact LL|exact LL]]|].
  exists (o_discr o), (o_links o), (o_links u).
  split; [reflexivity|]. split; [exact P2|]. split; [exact B'|]. split; [exact P3|]. split; [exact C'|]. split; [lia|].
  split; [exists (o_clk o); split; [exact P4|exact P6]|]. split; [exact P7|]. split; [exact P5|exact F'].
Qed.
Print Assumptions device_stage2_deterministic.
Print Assumptions device_stage2_refinement.

(** *** A concrete refinement on the device: nodes at 0, centers at 10, unit radii; the
    length criterion needs two rounds. *)
Definition straight (P : list pt) : btree := ex_tree P (seq 0 (length P)) (seq 0 (length P)).
Lemma straight_ok P : tree_ok P (straight P).
Proof.
  split.
  - intros u H. cbn [straight ex_tree bt_sorted bt_user]. rewrite seq_nth by exact H. split; [exact H|]. rewrite seq_nth; [reflexivity|exact H].
  - intros u H. cbn [straight ex_tree bt_sorted bt_user]. rewrite seq_nth by exact H. split; [exact H|]. rewrite seq_nth; [reflexivity|exact H].
  - intros u H. cbn [straight ex_tree bt_sorted bt_coords]. rewrite seq_nth by exact H. reflexivity.
  - intros b j. apply leaf_ok. reflexivity.
Qed.
Definition dk_env : RefineModel.env :=
  Env ex_dist (fun _ _ => [0%Q]) (fun _ _ => [10%Q]) (fun _ _ => 1%Q)
      (fun d _ => (1 # Pos.of_nat (nelements d))%Q) (fun _ _ => 0%Q) (fun _ _ => 1%Q)
      (e_tree1 ex_env) (e_tree2 ex_env) (e_refine ex_env) (e_quad_id ex_env) (e_order ex_env).
Definition dk_tree (d1 dq : discr) : btree := straight (particles (nodes dk_env dq) (ctrs dk_env d1) []).
Lemma dk_ok : device_ok ex_dev ex_dist dk_env.
Proof. split; [reflexivity|]. intros x y. apply Qle_refl. Qed.
Lemma dk_tree_ok d1 dq : device_tree_ok ex_dev ex_dist (fun _ => 3) dk_env d1 dq (dk_tree d1 dq).
Proof.
  split; [apply straight_ok|]. split; [|eapply ex_boxes; reflexivity].
  eapply ex_queries; [reflexivity|]. intros j H.
  assert (I : In (nth_pt (particles (nodes dk_env dq) (ctrs dk_env d1) []) j) (particles (nodes dk_env dq) (ctrs dk_env d1) [])) by (apply nth_In; exact H).
  unfold particles in I at 2. cbn [concat] in I. rewrite app_nil_r in I. apply in_app_or in I.
  destruct I as [I|I]; apply in_map_iff in I; destruct I as (i & E & _); rewrite <- E; reflexivity.
Qed.
Lemma dk_refiner : refiner_ok dk_env.
Proof. exact ex_refiner. Qed.
Example device_stage1_example out :
  dev_stage1 7 ex_dev (fun _ => 3) dk_env (fun d => dk_tree d d) ex_l ex_k 5 0 ex_d out
  <-> out = Ok (Discr 2 [(4, 3)],
        Chained ex_d [RefConn ex_d (Discr 1 [(2, 3)]) [true];
                      RefConn (Discr 1 [(2, 3)]) (Discr 2 [(4, 3)]) [true; true]], false, 2).
Proof.
  rewrite (@stage1_iff 7 ex_dev ex_dist (fun _ => 3) dk_env (fun d => dk_tree d d) ex_l ex_k 5 0 ex_d out dk_refiner dk_ok (fun x _ => dk_tree_ok x x) ltac:(repeat constructor)).
  match goal with |- _ = ?A <-> _ = ?B => assert (X : A = B) by (vm_compute; reflexivity) end. rewrite X. tauto.
Qed.
Example device_stage1_applies : stage1_criteria_hold dk_env ex_k (Discr 2 [(4, 3)]) /\ ~ stage1_criteria_hold dk_env ex_k ex_d.
Proof.
  split.
  - eapply (@device_stage1_refinement 7 ex_dev ex_dist (fun _ => 3) dk_env (fun d => dk_tree d d) ex_l ex_k 5 0 ex_d);
      [exact dk_refiner|exact dk_ok|intros x _; apply dk_tree_ok|repeat constructor|discriminate|apply device_stage1_example; reflexivity|reflexivity].
  - intros H. assert (X := H 0). destruct X as [X _]; [unfold nelements; cbn; lia|]. apply X. unfold too_long. cbn. reflexivity.
Qed.
Example device_stage2_applies : exists out,
  dev_stage2 7 ex_dev (fun _ => 3) dk_env dk_tree ex_l 1 5 2 (Discr 2 [(4, 3)]) (Ok out) /\ snd (fst out) = false.
Proof.
  eexists (_, _, false, _). split; [|reflexivity]. unfold dev_stage2. cbn [l_mode ex_l]. eexists. split.
  - apply (@stage2_loop_iff 7 ex_dev ex_dist (fun _ => 3) dk_env dk_tree ex_l REFINE 5 2 (Discr 2 [(4, 3)]) _ _ dk_ok ltac:(intros; cbn; lia) (fun clk d2 => dk_tree_ok _ _)). vm_compute. reflexivity.
  - vm_compute. reflexivity.
Qed.
