(** C95, C96: the device kernels of the sumpy backend. *)
From Coq Require Import QArith Permutation Sorted.
From Verif Require Import Base RefineModel AssocModel FmmModel FmmSpec FmmProofs FmmProofs2 FmmProps FmlModel FmlSpec FmlProofs2 FmlProofs3 FmlProofs4 FmlProps
  KrnModel KrnSpec KrnProofs KrnProofs2 KrnProofs3 KrnProofs4 KrnProofs5.
Set Implicit Arguments.
Open Scope string_scope. Open Scope list_scope. Open Scope nat_scope.

(** * C95: potentials *)

(** However the work items of the six kernels are distributed over workers and however these
    interleave, whatever their private variables contain initially and whatever reads out of
    bounds yield: the call can only return the full potentials (every source once, through the
    requested center, or directly), each term formed, translated and evaluated with one center,
    scaling factor and order ([Some]) ... *)
Theorem device_potentials junk T V nc ttc bs bt sw nknl out :
  fmm_ok T V -> levels_ok T V -> ttc_ok nc (ft_ntgt T) ttc -> arrays_ok T V bs bt ->
  drive_dev junk T V nc ttc bs bt sw nknl out ->
  length out = nknl
  /\ forall knl, knl < nknl -> let pot := nth knl out [] in
     length pot = ft_ntgt T
     /\ (forall u, u < nc -> nth u pot [] = [])
     /\ forall u, nc <= u -> u < ft_ntgt T ->
          Permutation (nth u pot []) (map Some (full_potential knl sw (ft_nsrc T) (route_of (nth u ttc 0%Z)) u)).
Proof.
  intros OK LO HT AO D. apply (drive_iff junk nknl OK LO HT AO) in D. subst out.
  split; [rewrite map_length; unfold drive_fmm; rewrite map_length; apply seq_length|]. intros knl K. cbv zeta.
  destruct (@fmm_potentials T V nc ttc sw nknl knl OK HT K) as (L & LP & C & P).
  rewrite (@nth_map_d _ _ _ (drive_fmm T V nc ttc sw nknl) knl [] []) by (rewrite L; exact K).
  rewrite map_length. split; [exact LP|]. split.
  - intros u U. destruct (Nat.ltb_spec u (ft_ntgt T)) as [Lu|Lu].
    + rewrite (@nth_map_d _ _ _ (nth knl (drive_fmm T V nc ttc sw nknl) []) u [] []) by (rewrite LP; exact Lu). rewrite (C u U). reflexivity.
    + rewrite nth_overflow; [reflexivity|]. rewrite map_length, LP. exact Lu.
  - intros u U1 U2. rewrite (@nth_map_d _ _ _ (nth knl (drive_fmm T V nc ttc sw nknl) []) u [] []) by (rewrite LP; exact U2).
    apply Permutation_map. apply P; assumption.
Qed.
Print Assumptions device_potentials.
(** ... it can return something, and all runs return the same terms in the same order. *)
Theorem device_schedule_independent T V nc ttc bs bt sw nknl :
  fmm_ok T V -> levels_ok T V -> ttc_ok nc (ft_ntgt T) ttc -> arrays_ok T V bs bt ->
  exists out, forall junk r, drive_dev junk T V nc ttc bs bt sw nknl r <-> r = out.
Proof. intros OK LO HT AO. eexists. intros junk r. apply (drive_iff junk nknl OK LO HT AO). Qed.
Print Assumptions device_schedule_independent.

(** * C96: kernel launches *)

(** No launch of any kernel runs forever: there is no infinite sequence of steps of workers that
    have work left ... *)
Theorem kernels_terminate (R : Type) (st : mstate R) :
  Acc (fun st' st => exists t c k p, nth_error (todo st) t = Some (c :: k) /\ nth_error (envs st) t = Some p /\ st' = step st t) st.
Proof.
  induction (no_infinite_run st) as [st _ IH]. constructor. intros st' (t & c & k & p & E1 & E2 & ->). apply IH. exists t. split; [|reflexivity]. exists c, k, p. auto.
Qed.
Print Assumptions kernels_terminate.
(** ... and none is ever stuck: every incomplete run can be completed. *)
Theorem kernels_complete (R : Type) (K : kernel R) assign es m schedule :
  length es = length assign -> exists rest, finished (run (initial K assign es m) (schedule ++ rest)).
Proof.
  intros L. destruct (@can_finish R (run (initial K assign es m) schedule)) as (rest & F).
  - rewrite run_envs_length, run_todo_length. cbn. rewrite map_length. exact L.
  - exists rest. unfold run in *. rewrite fold_left_app. exact F.
Qed.
Print Assumptions kernels_complete.

(** The lookup table sends every center to the number of the target box that contains it,
    whatever the array contained before; in particular the writes do not race. *)
Theorem center_box_lookup junk T V nc ttc bs bt m0 a :
  fmm_ok T V -> ttc_ok nc (ft_ntgt T) ttc -> arrays_ok T V bs bt -> length m0 = nc ->
  launch (box_lookup junk nc bt (box_to_target_box T V) (user_target_from_tree_target T)) (ft_nboxes T) m0 a ->
  length a = nc /\ forall c, c < nc -> exists k, nth_error a c = Some k /\ k < length (tr_target_boxes V)
    /\ In (nth c (ft_sorted T) 0) (ft_box_tgt T (nth k (tr_target_boxes V) 0)).
Proof.
  intros OK HT AO L D. rewrite (lookup_iff junk OK HT AO) in D by exact L. subst a. split; [apply ctb_length|]. intros c Lc.
  destruct (ctb_spec OK HT Lc) as (k & Lk & Ek & I). exists k. split; [|auto]. rewrite <- Ek. apply nth_error_nth'. rewrite ctb_length. exact Lc.
Qed.
Print Assumptions center_box_lookup.
(** The centers to be evaluated are those that some target uses, in increasing order, although
    several workers may mark the same center at the same time. *)
Theorem used_centers_picked junk T nc ttc a :
  ttc_ok nc (ft_ntgt T) ttc -> dev_global_centers junk nc ttc a ->
  StronglySorted lt a /\ forall c, In c a <-> exists u, nc <= u /\ u < ft_ntgt T /\ nth u ttc 0%Z = Z.of_nat c.
Proof.
  intros HT D. apply (global_iff junk T HT) in D. subst a. split; [|intros c; apply (In_global_centers T HT)].
  unfold global_centers. generalize (fun c => nth c (center_is_used nc ttc) false) as f. generalize 0 as s. clear.
  induction nc as [|m IH]; intros s f; cbn; [constructor|]. destruct (f s); [|apply IH]. constructor; [apply IH|].
  apply Forall_forall. intros x I. apply filter_In in I. destruct I as (I & _). apply in_seq in I. lia.
Qed.
Print Assumptions used_centers_picked.
Theorem used_centers_some junk nc ttc : exists a, dev_global_centers junk nc ttc a.
Proof.
  unfold dev_global_centers. destruct (@can_finish _ (initial (pick_used junk (skipn nc ttc)) [seq 0 (length (skipn nc ttc))] [fun _ => VJunk] (repeat false nc)) eq_refl) as (s & F).
  eexists _, _. split; [apply Launched with (assign := [seq 0 (length (skipn nc ttc))]) (es := [fun _ => VJunk]) (schedule := s); [cbn; rewrite app_nil_r; reflexivity|reflexivity|exact F]|reflexivity].
Qed.
Print Assumptions used_centers_some.

(** ** The hypotheses are met *)
Definition bs5 : boxes := Boxes [0; 0; 1; 1; 3] [0; 1; 0; 2; 1].
Definition bt5 : boxes := Boxes [0; 0; 2; 2; 2] [0; 2; 0; 0; 1].
Lemma arrays5_ok : arrays_ok tree5 trav5' bs5 bt5.
Proof.
  split.
  - intros b B. cbn in B. destruct b as [|[|[|[|[|b]]]]]; [eexists _, _; cbn; repeat split..|lia].
  - intros b B. cbn in B. destruct b as [|[|[|[|[|b]]]]]; [eexists _, _; cbn; repeat split..|lia].
  - intros b j B I. cbn in B. destruct b as [|[|[|[|[|b]]]]]; cbn in I |- *; intuition lia.
  - intros k b K I. cbn in K. destruct k as [|[|k]]; cbn in I |- *; intuition lia.
Qed.
Example device_example junk r : drive_dev junk tree5 trav5' 1 ttc5 bs5 bt5 [10; 11; 12; 13] 2 r
  <-> r = map (fun k => [ []; map (fun s => Some (Contr k (10 + s) s (Via 0) 1)) [2; 0; 3; 1];
                         map (fun s => Some (Contr k (10 + s) s Point 2)) [2; 0; 3; 1] ]) [0; 1].
Proof.
  rewrite (drive_iff junk 2 trav5'_ok levels5_ok ttc5_ok arrays5_ok). replace (map (map (map Some)) (drive_fmm tree5 trav5' 1 ttc5 [10; 11; 12; 13] 2)) with
    (map (fun k => [ []; map (fun s => Some (Contr k (10 + s) s (Via 0) 1)) [2; 0; 3; 1]; map (fun s => Some (Contr k (10 + s) s Point 2)) [2; 0; 3; 1] ]) [0; 1]);
    [reflexivity|vm_compute; reflexivity].
Qed.
Example lookup_example junk a : launch (box_lookup junk 1 bt5 (box_to_target_box tree5 trav5') (user_target_from_tree_target tree5)) 5 [17] a <-> a = [0].
Proof. rewrite (lookup_iff junk trav5'_ok ttc5_ok arrays5_ok) by reflexivity. reflexivity. Qed.
(** Two targets of the same center are processed by two workers at once. *)
Example pick_example junk a : launch (pick_used junk [0; 0; -1]%Z) 3 [false; false] a <-> a = [true; false].
Proof.
  assert (HT : ttc_ok 2 5 [-1; -1; 0; 0; -1]%Z).
  { repeat split; try (cbn; lia). - intros u U. destruct u as [|[|u]]; [reflexivity..|lia].
    - intros u U1 U2. destruct u as [|[|[|[|[|u]]]]]; try lia; [right; exists 0; split; [lia|reflexivity]..|left; reflexivity]. }
  exact (@pick_iff junk (FT 0 5 (fun _ => 0) (fun _ => 0) [] [] 0 (fun _ => []) (fun _ => []) [] (fun _ => []) (fun _ => [])) 2 [-1; -1; 0; 0; -1]%Z HT a).
Qed.
(** The machine does show races: two workers that add to one cell without synchronization may
    lose an update ... *)
Definition racy : kernel nat := Kernel "i" (Block [
  Load "old" (fun _ => 0) (fun o => match o with Some n => VNum n | None => VJunk end);
  Store (fun _ => 0) (fun p _ => S (num 0 p "old"))]) false.
Definition two_workers : mstate nat := initial racy [[0]; [1]] [fun _ => VJunk; fun _ => VJunk] [0].
Example race_example : launch racy 2 [0] [2] /\ launch racy 2 [0] [1].
Proof.
  assert (H : forall s m, todo (run two_workers s) = [[]; []] -> mem (run two_workers s) = m -> launch racy 2 [0] m).
  { intros s m F <-. apply Launched; [reflexivity|reflexivity|]. unfold finished. fold two_workers. rewrite F. repeat constructor. }
  split.
  - apply H with (s := repeat 0 7 ++ repeat 1 7); vm_compute; reflexivity.
  - apply H with (s := repeat 0 4 ++ repeat 1 7 ++ repeat 0 7); vm_compute; reflexivity.
Qed.
(** ... and a launch of a kernel that assumes work items, without any, may do anything. *)
Example assumption_example K m m' : k_assume K = true -> launch K 0 (m : list (list term)) m'.
Proof. apply Unassumed. reflexivity. Qed.
