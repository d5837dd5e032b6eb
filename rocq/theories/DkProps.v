(** The remaining kernels and the executors on the device: C99, C100, C101. *)
From Coq Require Import QArith Qcanon Permutation Sorting.Sorted Field.
From Verif Require Import Base RefineModel AssocModel AssocSpec AssocProps FmmModel FmmSpec FmmProofs FmmProofs2 FmmProofs3 FmmProofs4 FmmProps FmlModel FmlSpec FmlProofs2 FmlProofs3 FmlProofs4 FmlProps MatModel MatSpec CostModel CostSpec CostProofs CostProps
  KrnModel KrnSpec KrnProofs KrnProofs2 KrnProofs3 KrnProofs4 KrnProps AkModel AkSpec AkProofs AkProofs4 DkModel DkSpec DkProofs DkProofs2 DkProofs3.
Set Implicit Arguments.
Open Scope string_scope. Open Scope list_scope. Open Scope nat_scope.

Lemma QcR_lawful : lawful QcR.
Proof.
  split.
  - constructor; cbn; intros; ring.
  - intros x y. cbn. split; [apply Qc_eq_bool_correct|]. intros ->. unfold Qc_eq_bool. destruct (Qc_eq_dec y y); [reflexivity|congruence].
Qed.
Lemma arrays_nodup T V bs bt : fmm_ok T V -> arrays_ok T V bs bt -> forall b, In b (tr_target_boxes V) -> NoDup (ft_box_tgt T b).
Proof.
  intros OK AO b I. destruct (fo_target_boxes OK) as (_ & HB). destruct (ao_tgt AO (HB b I)) as (s & n & _ & _ & ->). apply seq_NoDup.
Qed.

(** * C99: the cost model on the device *)

(** However the kernels are scheduled, every stage is charged center by center. *)
Theorem device_cost_counts junk T V level nc ttc bs bt B :
  fmm_ok T V -> ttc_ok nc (ft_ntgt T) ttc -> arrays_ok T V bs bt ->
  device_backend junk T V level nc ttc bt B -> backend_ok T V level nc ttc B.
Proof.
  intros OK HT AO D. apply (device_backend_iff junk level OK HT AO) in D. destruct D as (D1 & D2 & D3 & D4 & D5).
  destruct (cost_vectorised_counts QcR T V level nc ttc QcR_lawful OK (arrays_nodup OK AO) HT) as (C1 & C2 & C3 & C4 & C5).
  repeat split; intros; rewrite ?D1, ?D2, ?D3, ?D4, ?D5;
    first [apply C1|apply C2|apply C3|apply C4|apply C5]; assumption.
Qed.
Print Assumptions device_cost_counts.
(** There are runs of the kernels, and all of them give the same numbers. *)
Theorem device_cost_deterministic T V level nc ttc bs bt :
  fmm_ok T V -> ttc_ok nc (ft_ntgt T) ttc -> arrays_ok T V bs bt ->
  exists B, (forall junk, device_backend junk T V level nc ttc bt B)
    /\ forall junk B', device_backend junk T V level nc ttc bt B' ->
       (forall c nd, p_form B' c nd = p_form B c nd) /\ (forall c, p_m2q B' c = p_m2q B c) /\ (forall c, p_l2q B' c = p_l2q B c)
       /\ (forall c, p_eval B' c = p_eval B c) /\ (forall c nd, p_eval_ts B' c nd = p_eval_ts B c nd).
Proof.
  intros OK HT AO. exists (vec_backend QcR T V level nc ttc). split.
  - intros junk. apply (device_backend_iff junk level OK HT AO). repeat split.
  - intros junk B' D. apply (device_backend_iff junk level OK HT AO) in D. exact D.
Qed.
Print Assumptions device_cost_deterministic.
(** The device and the reference implementation report the same costs per box and per stage. *)
Theorem device_cost_agrees_with_reference junk T V level nc ttc bs bt B
    (e2e : QcR -> QcR -> QcR) (rsqrt : QcR -> QcR) (use_ts : bool) (x : xlat QcR) (nlevels : nat) (ndirect : list nat) (ps : list (string * QcR)) :
  fmm_ok T V -> ttc_ok nc (ft_ntgt T) ttc -> arrays_ok T V bs bt ->
  device_backend junk T V level nc ttc bt B -> length ndirect = length (tr_target_boxes V) ->
  (forall base, qbx_cost_per_box V e2e rsqrt B use_ts x nlevels ndirect ps base
              = qbx_cost_per_box V e2e rsqrt (py_backend QcR T V level nc ttc) use_ts x nlevels ndirect ps base)
  /\ (forall base, qbx_cost_per_stage e2e rsqrt B use_ts x nlevels ndirect ps base
              = qbx_cost_per_stage e2e rsqrt (py_backend QcR T V level nc ttc) use_ts x nlevels ndirect ps base).
Proof.
  intros OK HT AO D L.
  destruct (form_cong _ _ _ _ _ _ _ _ (device_cost_counts OK HT AO D) (cost_reference_counts QcR T V level nc ttc QcR_lawful OK HT)) as (F1 & F2 & F3 & F4 & F5).
  split; intros base; [unfold qbx_cost_per_box|unfold qbx_cost_per_stage]; destruct (cost_factors _ _ _ _ _) as [k|e]; cbn [bind]; try reflexivity;
    destruct base as [res|e]; cbn [bind]; try reflexivity; rewrite F2, F3, F4; rewrite ?F1, ?F5 by exact L; reflexivity.
Qed.
Print Assumptions device_cost_agrees_with_reference.

(** * C100: direct evaluation on the device *)

(** The number and the positions of the targets that have a center, in increasing order. *)
Theorem device_target_numbers junk tt count numbers :
  dev_numbers junk tt count numbers ->
  count = length numbers /\ StronglySorted lt numbers
  /\ forall i, In i numbers <-> i < length tt /\ (0 <= nth i tt (-1))%Z.
Proof.
  intros D. apply numbers_iff in D. destruct D as (-> & ->). split; [reflexivity|]. split; [|apply qbx_tgt_numbers_In].
  unfold qbx_tgt_numbers. generalize 0 as s. induction tt as [|z tt IH]; intros s; cbn [length seq combine filter fst]; [constructor|].
  assert (LB : Forall (lt s) (map snd (filter (fun p => (0 <=? fst p)%Z) (combine tt (seq (S s) (length tt)))))).
  { apply Forall_forall. intros i I. apply in_map_iff in I. destruct I as ((z', i') & <- & I). apply filter_In in I. destruct I as (I & _). apply in_combine_r in I. apply in_seq in I. cbn. lia. }
  destruct (0 <=? z)%Z; cbn [map snd]; [constructor; [apply IH|exact LB]|apply IH].
Qed.
Print Assumptions device_target_numbers.
Theorem device_direct_outputs junk q near nb points nknl self outs res :
  source_ok q near -> (forall x, boxes_ok (q_dev q) (nb x) (q_tree q x)) -> 0 < q_nquad q ->
  dev_exec_direct junk q nb points nknl self outs (Ok res) ->
  length res = length outs
  /\ forall j o, nth_error outs j = Some o -> exists x pot,
       points (o_tgt o) = Ok x /\ nth_error res j = Some (Some (o_name o, map (map Some) pot)) /\ length pot = length x
       /\ if self (o_tgt o)
          then exists z, o_limit o = Some z /\ z <> 0%Z /\ forall i, i < length x ->
                 nth i pot [] = full_potential (o_knl o) (seq 0 (q_nquad q)) (q_nquad q) (Own i z) i
          else forall i, i < length x -> value_ok q x (o_knl o) (limit_side (o_limit o)) (nth_pt x i) (nth i pot [])
                 /\ (Z.abs (limit_side (o_limit o)) = 1%Z -> close_pt q (nth_pt x i)).
Proof.
  intros SO HB HQ D. apply (direct_iff junk nb points nknl SO HB HQ) in D. destruct (exec_direct q self points nknl outs) as [res'|e] eqn:E; [|discriminate].
  injection D as ->. destruct (direct_outputs _ _ _ _ SO E) as (L & F). split; [rewrite map_length; exact L|].
  intros j o Ej. destruct (F j o Ej) as (x & pot & P1 & P2 & P3). exists x, pot. split; [exact P1|]. split; [|exact P3]. rewrite nth_error_map, P2. reflexivity.
Qed.
Print Assumptions device_direct_outputs.
(** The outcome, result or exception, does not depend on the schedules. *)
Theorem device_direct_deterministic q near nb points nknl self outs :
  source_ok q near -> (forall x, boxes_ok (q_dev q) (nb x) (q_tree q x)) -> 0 < q_nquad q ->
  exists out, forall junk out', dev_exec_direct junk q nb points nknl self outs out' <-> out' = out.
Proof. intros SO HB HQ. eexists. intros junk out'. apply (direct_iff junk nb points nknl SO HB HQ). Qed.
Print Assumptions device_direct_deterministic.
Theorem device_direct_succeeds junk q near nb points nknl self outs :
  source_ok q near -> (forall x, boxes_ok (q_dev q) (nb x) (q_tree q x)) -> 0 < q_nquad q -> 2 * length (q_src q) = length (q_ctr q) ->
  ((exists res, dev_exec_direct junk q nb points nknl self outs (Ok res)) <->
   forall o, In o outs -> exists x, points (o_tgt o) = Ok x /\ o_knl o < nknl
     /\ if self (o_tgt o) then exists z, o_limit o = Some z /\ z <> 0%Z
        else (forall p, In p x -> ~ failing_pt q (limit_side (o_limit o)) p)
          /\ (Z.abs (limit_side (o_limit o)) = 1%Z -> forall p, In p x -> close_pt q p)).
Proof.
  intros SO HB HQ N. rewrite <- (@direct_succeeds q near self points nknl outs SO N). split.
  - intros (res & D). apply (direct_iff junk nb points nknl SO HB HQ) in D. destruct (exec_direct q self points nknl outs) as [res'|e]; [eauto|discriminate].
  - intros (res & E). eexists. apply (direct_iff junk nb points nknl SO HB HQ). rewrite E. reflexivity.
Qed.
Print Assumptions device_direct_succeeds.

(** * C101: the FMM on the device, from the request to the results *)
Definition fmm_device_ok (q : qsource) (bxs : list pt -> boxes * boxes) : Prop :=
  forall x, fmm_at q x /\ levels_ok (fst (q_fmm q x)) (snd (q_fmm q x)) /\ arrays_ok (fst (q_fmm q x)) (snd (q_fmm q x)) (fst (bxs x)) (snd (bxs x)).
Theorem device_fmm_outputs junk q near nb bxs points nknl outs res :
  source_ok q near -> (forall x, boxes_ok (q_dev q) (nb x) (q_tree q x)) -> fmm_device_ok q bxs ->
  dev_exec_fmm junk q nb bxs points nknl outs (Ok res) ->
  length res = length outs
  /\ exists P, gathered_points q points outs P
  /\ forall j o, nth_error outs j = Some o -> exists x pot,
       points (o_tgt o) = Ok x /\ nth_error res j = Some (o_name o, map (map Some) pot) /\ length pot = length x
       /\ forall i, i < length x -> value_ok q P (o_knl o) (limit_side (o_limit o)) (nth_pt x i) (nth i pot []).
Proof.
  intros SO HB FD D. apply (fmm_iff junk nb points nknl SO HB bxs (fun x => proj1 (FD x)) (fun x => proj1 (proj2 (FD x))) (fun x => proj2 (proj2 (FD x)))) in D.
  destruct (exec_fmm q points nknl outs) as [res'|e] eqn:E; [|discriminate]. injection D as ->.
  destruct (fmm_outputs _ _ _ SO E) as (L & P & G & F). split; [rewrite map_length; exact L|]. exists P. split; [exact G|].
  intros j o Ej. destruct (F (proj1 (FD P)) j o Ej) as (x & pot & P1 & P2 & P3). exists x, pot. split; [exact P1|]. split; [|exact P3]. rewrite nth_error_map, P2. reflexivity.
Qed.
Print Assumptions device_fmm_outputs.
Theorem device_fmm_deterministic q near nb bxs points nknl outs :
  source_ok q near -> (forall x, boxes_ok (q_dev q) (nb x) (q_tree q x)) -> fmm_device_ok q bxs ->
  exists out, forall junk out', dev_exec_fmm junk q nb bxs points nknl outs out' <-> out' = out.
Proof.
  intros SO HB FD. eexists. intros junk out'. apply (fmm_iff junk nb points nknl SO HB bxs (fun x => proj1 (FD x)) (fun x => proj1 (proj2 (FD x))) (fun x => proj2 (proj2 (FD x)))).
Qed.
Print Assumptions device_fmm_deterministic.
Theorem device_fmm_succeeds junk q near nb bxs points nknl outs :
  source_ok q near -> (forall x, boxes_ok (q_dev q) (nb x) (q_tree q x)) -> fmm_device_ok q bxs ->
  ((exists res, dev_exec_fmm junk q nb bxs points nknl outs (Ok res)) <->
   2 * length (q_src q) = length (q_ctr q)
   /\ forall o, In o outs -> exists x, points (o_tgt o) = Ok x /\ o_knl o < nknl
        /\ forall p, In p x -> ~ failing_pt q (limit_side (o_limit o)) p).
Proof.
  intros SO HB FD. rewrite <- (@fmm_succeeds q near points nknl outs SO).
  assert (I := fun r => fmm_iff junk nb points nknl SO HB bxs (fun x => proj1 (FD x)) (fun x => proj1 (proj2 (FD x))) (fun x => proj2 (proj2 (FD x))) outs r). split.
  - intros (res & D). apply I in D. destruct (exec_fmm q points nknl outs) as [res'|e]; [eauto|discriminate].
  - intros (res & E). eexists. apply I. rewrite E. reflexivity.
Qed.
Print Assumptions device_fmm_succeeds.
(** Both ways of evaluation on the device give the same contributions to targets off the source,
    wherever the choice of the center is unique. *)
Theorem device_direct_agrees_with_fmm junk junk' q near nb bxs self points nknl outs res res' :
  source_ok q near -> (forall x, boxes_ok (q_dev q) (nb x) (q_tree q x)) -> 0 < q_nquad q -> fmm_device_ok q bxs ->
  dev_exec_direct junk q nb points nknl self outs (Ok res) -> dev_exec_fmm junk' q nb bxs points nknl outs (Ok res') ->
  forall j o x, nth_error outs j = Some o -> self (o_tgt o) = false -> points (o_tgt o) = Ok x ->
  (forall p c c', In p x -> chosen_pt q (limit_side (o_limit o)) p c -> chosen_pt q (limit_side (o_limit o)) p c' -> c = c') ->
  exists pot pot' P, nth_error res j = Some (Some (o_name o, map (map Some) pot)) /\ nth_error res' j = Some (o_name o, map (map Some) pot')
    /\ length pot = length x /\ length pot' = length x
    /\ forall i, i < length x -> exists r u, nth_pt P u = nth_pt x i
         /\ Permutation (nth i pot []) (full_potential (o_knl o) (seq 0 (q_nquad q)) (q_nquad q) r i)
         /\ Permutation (nth i pot' []) (full_potential (o_knl o) (seq 0 (q_nquad q)) (q_nquad q) r u).
Proof.
  intros SO HB HQ FD D F j o x Ej Es Ex U.
  apply (direct_iff junk nb points nknl SO HB HQ) in D. destruct (exec_direct q self points nknl outs) as [r|e] eqn:E; [|discriminate]. injection D as ->.
  apply (fmm_iff junk' nb points nknl SO HB bxs (fun x => proj1 (FD x)) (fun x => proj1 (proj2 (FD x))) (fun x => proj2 (proj2 (FD x)))) in F.
  destruct (exec_fmm q points nknl outs) as [r'|e] eqn:E'; [|discriminate]. injection F as ->.
  destruct (direct_agrees_with_fmm _ _ _ _ SO (fun x => proj1 (FD x)) E E' j Ej Es Ex U) as (pot & pot' & P & P1 & P2 & P3).
  exists pot, pot', P. rewrite !nth_error_map, P1, P2. auto.
Qed.
Print Assumptions device_direct_agrees_with_fmm.

(** ** The hypotheses are met *)
Definition ex_nb (x : list pt) : nat := 1.
Definition ex_bxs (x : list pt) : boxes * boxes := (Boxes [0] [3], Boxes [0] [length x]).
Lemma exq_boxes x : boxes_ok (q_dev exq) (ex_nb x) (q_tree exq x).
Proof. split; cbn; [intros; unfold ex_nb; lia|]. intros _ _ b [<-|[]]. unfold ex_nb. lia. Qed.
Lemma exq_device : fmm_device_ok exq ex_bxs.
Proof.
  intros x. split; [apply exq_fmm|]. split; split; cbn.
  - intros l b (s & n & E & A & B). destruct l as [|[|l]]; cbn in E; try discriminate. injection E as <- <-. lia.
  - intros l lev m b E. destruct l; discriminate.
  - intros b Hb. assert (b = 0) by lia. subst b. exists 0, 3. repeat split.
  - intros b Hb. assert (b = 0) by lia. subst b. exists 0, (length x). repeat split.
  - intros b j _ I. lia.
  - intros k b _ I. lia.
Qed.
Example device_fmm_example junk out : dev_exec_fmm junk exq ex_nb ex_bxs ex_points 2 ex_outs out <-> out =
  Ok (map with_somes [("a"%string, [src3 0 (Via 1) 2]); ("b"%string, [src3 1 (Via 1) 3; src3 1 Point 4]); ("c"%string, [src3 0 (Via 0) 5]);
        ("d"%string, [src3 1 (Via 1) 6; src3 1 Point 7]); ("e"%string, [src3 0 (Via 1) 3; src3 0 Point 4])]).
Proof.
  rewrite (fmm_iff junk ex_nb ex_points 2 exq_ok exq_boxes ex_bxs (fun x => proj1 (exq_device x)) (fun x => proj1 (proj2 (exq_device x))) (fun x => proj2 (proj2 (exq_device x)))), fmm_example. reflexivity.
Qed.
Example device_direct_example junk out : dev_exec_direct junk exq ex_nb ex_points 2 (fun t => t =? 0) ex_outs out <-> out =
  Ok (map (fun x => Some (with_somes x)) [("a"%string, [src3 0 (Own 0 1) 0]); ("b"%string, [src3 1 (Via 1) 0; src3 1 Point 1]); ("c"%string, [src3 0 (Own 0 (-1)) 0]);
        ("d"%string, [src3 1 (Via 1) 0; src3 1 Point 1]); ("e"%string, [src3 0 (Via 1) 0; src3 0 Point 1])]).
Proof.
  assert (HQ : 0 < q_nquad exq) by (cbn; lia). rewrite (direct_iff junk ex_nb ex_points 2 exq_ok exq_boxes HQ), direct_example. reflexivity.
Qed.
Example device_numbers_example junk count numbers : dev_numbers junk [(-1); 4; (-1); 0]%Z count numbers <-> count = 2 /\ numbers = [1; 3].
Proof. apply numbers_iff. Qed.
Example device_cost_example : exists B, device_backend 7 tree5 trav5' (fun _ => 0) 1 ttc5 bt5 B /\ p_eval B (Q2Qc 3) = [Q2Qc 3; Q2Qc 0].
Proof.
  destruct (device_cost_deterministic (fun _ => 0) trav5'_ok ttc5_ok arrays5_ok) as (B & H & _). exists B. split; [apply H|].
  specialize (H 7). apply (device_backend_iff 7 (fun _ => 0) trav5'_ok ttc5_ok arrays5_ok) in H. destruct H as (_ & _ & _ & -> & _). vm_compute. reflexivity.
Qed.
