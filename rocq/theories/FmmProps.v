(** C29, C30, C31, C42, C55, C56: the QBX FMM and the two executors. *)
From Coq Require Import QArith Qabs Permutation Sorted Lqa.
From Verif Require Import Base SymProofs SymProofs2 RefineModel RefineSpec AssocModel AssocSpec AssocProps FmmModel FmmSpec FmmProofs FmmProofs2 FmmProofs3 FmmProofs4.
Set Implicit Arguments.
Open Scope nat_scope.

(** * C29: layout of the targets *)
Theorem target_layout centers ts :
  let nc := length centers in
  let P := target_points centers ts in
  let sides := side_preferences nc ts in
  let starts := discr_starts nc ts in
  P = centers ++ concat (map fst ts)
  /\ length sides = length P /\ length starts = S (length ts) /\ nth (length ts) starts 0 = length P
  /\ (forall c, c < nc -> nth c sides 0%Z = 0%Z)
  /\ forall k x z, nth_error ts k = Some (x, z) ->
       nth k starts 0 + length x = nth (k + 1) starts 0
       /\ slice P (nth k starts 0) (nth (k + 1) starts 0) = x
       /\ slice sides (nth k starts 0) (nth (k + 1) starts 0) = repeat z (length x).
Proof.
  cbv zeta. split; [apply target_points_eq|]. rewrite target_points_eq, side_preferences_eq, !app_length, repeat_length, total_concat, flat_side_length.
  split; [reflexivity|]. split; [apply discr_starts_length|]. split; [rewrite discr_starts_nth by lia; rewrite firstn_all; reflexivity|]. split.
  - intros c Hc. rewrite app_nth1 by (rewrite repeat_length; exact Hc). apply nth_rep.
  - intros k x z E. assert (K : k < length ts) by (apply nth_error_Some; congruence). rewrite !discr_starts_nth by lia. replace (k + 1) with (S k) by lia.
    pose proof (total_firstn_S ts K) as TS. rewrite (nth_error_nth _ _ _ E) in TS. cbn [fst] in TS. rewrite TS.
    split; [lia|].
    assert (G : forall A (pre : list A) (f : list pt * Z -> list A), length pre = length centers -> (forall t, length (f t) = length (fst t)) ->
       slice (pre ++ flat_map f ts) (length centers + total (firstn k ts)) (length centers + (total (firstn k ts) + length x)) = f (x, z)).
    { intros A pre f L Hf. clear TS. rewrite <- L. destruct (nth_error_split ts k E) as (l1 & l2 & Et & L1).
      assert (FK : firstn k ts = l1) by (rewrite Et, <- L1, firstn_app, Nat.sub_diag, firstn_all; cbn; apply app_nil_r).
      rewrite FK, Et, flat_map_app. cbn [flat_map]. unfold slice. rewrite app_assoc, skipn_app.
      assert (LL : length (pre ++ flat_map f l1) = length pre + total l1).
      { rewrite app_length. f_equal. clear - Hf. unfold total. induction l1 as [|t l IH]; cbn; [reflexivity|]. rewrite app_length, Hf. f_equal. exact IH. }
      rewrite skipn_all2 by lia. rewrite LL, Nat.sub_diag. cbn [app skipn].
      replace (length pre + (total l1 + length x) - (length pre + total l1)) with (length (f (x, z))) by (rewrite Hf; cbn; lia).
      rewrite firstn_app, Nat.sub_diag, firstn_all. cbn. apply app_nil_r. }
    split.
    + rewrite <- flat_map_concat_map. apply (G pt centers fst); [reflexivity|reflexivity].
    + apply (G Z (repeat 0%Z (length centers)) (fun t => repeat (snd t) (length (fst t)))); [apply repeat_length|intros t; apply repeat_length].
Qed.
Print Assumptions target_layout.

(** Every pair of a target name and a limit gets one number, with its own points and side. *)
Theorem gathered_targets points outs d ts :
  gather_targets points outs [] [] = Ok (d, ts) ->
  NoDup (map fst d) /\ length ts = length d
  /\ (forall k, In k (map fst d) <-> exists o, In o outs /\ (o_tgt o, o_limit o) = k)
  /\ forall o, In o outs -> exists n x, In ((o_tgt o, o_limit o), n) d /\ lookup_key d (o_tgt o, o_limit o) = Some n
       /\ points (o_tgt o) = Ok x /\ nth_error ts n = Some (x, limit_side (o_limit o)).
Proof.
  intros G. assert (G0 : ginv points [] []) by (unfold ginv; cbn; repeat split; try constructor; intros; lia).
  destruct (gather_inv outs G0 G) as (GI & _ & A & B). destruct GI as (N & S & L & P). split; [exact N|]. split; [exact L|]. split.
  - intros k. split; [intros I; destruct (B k I) as [[]|X]; exact X|]. intros (o & I & <-). exact (A o I).
  - intros o I. assert (K := A o I). apply in_map_iff in K. destruct K as ([k v] & Ek & Ik). cbn in Ek. subst k.
    destruct (lookup_key d (gkey o)) as [n|] eqn:LK.
    + destruct (lookup_nth d S _ LK) as (NL & EK). destruct (P n NL) as (P1 & P2). rewrite EK in P1, P2. cbn [fst snd gkey] in P1, P2.
      exists n, (fst (nth n ts ([], 0%Z))). split; [|split; [exact LK|split; [exact P1|]]].
      * assert (Z : nth n d ((0, None), 0) = (gkey o, n)).
        { assert (X : nth n (map snd d) 0 = n) by (rewrite S, seq_nth by exact NL; reflexivity). rewrite (@nth_map_d _ _ snd d n ((0, None), 0) 0 NL) in X.
          destruct (nth n d ((0, None), 0)) as [k' v']. cbn in EK, X. congruence. }
        fold (gkey o). rewrite <- Z. apply nth_In. exact NL.
      * rewrite <- P2, <- surjective_pairing. apply nth_error_nth'. lia.
    + exfalso. apply lookup_None in LK. apply LK. change (gkey o) with (fst (gkey o, v)). apply in_map. exact Ik.
Qed.
Print Assumptions gathered_targets.

(** * C30: incidence between centers and targets *)
Lemma seq_sorted n : forall m, StronglySorted lt (seq m n).
Proof. induction n as [|n IH]; intros m; cbn; constructor; [apply IH|]. apply Forall_forall. intros x I. apply in_seq in I. lia. Qed.
Lemma filter_sorted (f : nat -> bool) l : StronglySorted lt l -> StronglySorted lt (filter f l).
Proof.
  induction 1 as [|x l S IH F]; cbn; [constructor|]. destruct (f x); [|exact IH]. constructor; [exact IH|]. apply Forall_forall. intros y I. apply filter_In in I.
  rewrite Forall_forall in F. apply F. apply I.
Qed.
Theorem incidence_lists T V nc ttc :
  fmm_ok T V -> ttc_ok nc (ft_ntgt T) ttc ->
  let assoc_to u c := nc <= u /\ u < ft_ntgt T /\ nth u ttc 0%Z = Z.of_nat c in
  (* the active centers: exactly those with targets, in increasing order *)
  StronglySorted lt (global_centers nc ttc)
  /\ (forall c, In c (global_centers nc ttc) <-> exists u, assoc_to u c)
  (* the targets of a center, by tree position, each once *)
  /\ (forall c, NoDup (center_targets T ttc c))
  /\ (forall c u, u < ft_ntgt T -> (In (nth u (ft_sorted T) 0) (center_targets T ttc c) <-> assoc_to u c))
  /\ (forall c i, In i (center_targets T ttc c) -> i < ft_ntgt T)
  (* all others except the centers themselves are evaluated without QBX *)
  /\ NoDup (non_qbx_targets T nc ttc)
  /\ (forall u, u < ft_ntgt T -> (In (nth u (ft_sorted T) 0) (non_qbx_targets T nc ttc) <-> nc <= u /\ forall c, ~ assoc_to u c))
  /\ (forall i, In i (non_qbx_targets T nc ttc) -> i < ft_ntgt T)
  (* the target box of a center holds the center *)
  /\ (forall c, c < nc -> let k := nth c (center_to_target_box T V nc) 0 in
        k < length (tr_target_boxes V) /\ In (nth c (ft_sorted T) 0) (ft_box_tgt T (nth k (tr_target_boxes V) 0))).
Proof.
  intros OK HT. cbv zeta. assert (HT' := HT). destruct HT' as (L & NL & C0 & AS).
  split; [apply filter_sorted, seq_sorted|]. split; [intros c; eapply In_global_centers; exact HT|].
  split; [intros c; apply center_targets_NoDup|]. split; [|split; [|split; [|split; [|split]]]].
  - intros c u U. rewrite (In_center_targets OK HT), (fo_tgt_pt OK U). split.
    + intros [_ E]. split; [|auto]. destruct (le_lt_dec nc u) as [G|G]; [exact G|]. rewrite C0 in E by exact G. lia.
    + intros (_ & _ & E). split; [apply (sorted_lt OK U)|exact E].
  - intros c i I. apply (In_center_targets OK HT) in I. apply I.
  - apply non_qbx_NoDup.
  - intros u U. rewrite (In_non_qbx OK HT), (fo_tgt_pt OK U). split.
    + intros (_ & A & E). split; [exact A|]. intros c (_ & _ & E'). lia.
    + intros (A & N). split; [apply (sorted_lt OK U)|]. split; [exact A|]. destruct (AS u A U) as [E|(c & _ & E)]; [exact E|]. exfalso. apply (N c). auto.
  - intros i I. apply (In_non_qbx OK HT) in I. apply I.
  - intros c Hc. destruct (ctb_spec OK HT Hc) as (k & K & Ek & I). rewrite Ek. split; [exact K|exact I].
Qed.
Print Assumptions incidence_lists.

(** * C31: the FMM *)
Theorem fmm_potentials T V nc ttc sw nknl knl :
  fmm_ok T V -> ttc_ok nc (ft_ntgt T) ttc -> knl < nknl ->
  let pot := nth knl (drive_fmm T V nc ttc sw nknl) [] in
  length (drive_fmm T V nc ttc sw nknl) = nknl /\ length pot = ft_ntgt T
  /\ (forall u, u < nc -> nth u pot [] = [])
  /\ forall u, nc <= u -> u < ft_ntgt T ->
       Permutation (nth u pot []) (full_potential knl sw (ft_nsrc T) (route_of (nth u ttc 0%Z)) u).
Proof.
  intros OK HT K. cbv zeta. split; [unfold drive_fmm; rewrite map_length; apply seq_length|]. rewrite drive_fmm_nth by exact K.
  split; [apply (reorder_length OK)|]. split.
  - intros u U. apply (reorder_center OK HT). exact U.
  - intros u U1 U2. destruct (reorder_target OK HT (map (fun u => nth u sw 0) (ft_user_src T)) knl U1 U2) as (k & KB & E).
    rewrite E, <- eval_map_full. apply Permutation_map. apply (parts_perm OK). exact KB.
Qed.
Print Assumptions fmm_potentials.

Lemma Forall2_intro_nth A B (R : A -> B -> Prop) : forall l l', length l = length l' ->
  (forall k a b, nth_error l k = Some a -> nth_error l' k = Some b -> R a b) -> Forall2 R l l'.
Proof.
  induction l as [|a l IH]; intros [|b l'] L H; try discriminate; constructor; [apply (H 0); reflexivity|].
  apply IH; [cbn in L; lia|]. intros k x y X Y. apply (H (S k)); assumption.
Qed.
Lemma ginv_nil points : ginv points [] [].
Proof. unfold ginv; cbn; repeat split; try constructor; intros; lia. Qed.
Theorem fmm_outputs q near points nknl outs res :
  source_ok q near -> exec_fmm q points nknl outs = Ok res ->
  length res = length outs
  /\ exists P, gathered_points q points outs P
  /\ (fmm_at q P -> forall j o, nth_error outs j = Some o -> exists x pot,
       points (o_tgt o) = Ok x /\ nth_error res j = Some (o_name o, pot) /\ length pot = length x
       /\ forall i, i < length x -> value_ok q P (o_knl o) (limit_side (o_limit o)) (nth_pt x i) (nth i pot [])).
Proof.
  intros SO H. destruct (exec_fmm_inv _ _ _ _ H) as (d & ts & a & G & GI & HA & _ & F).
  split; [symmetry; apply (Forall2_len F)|]. exists (target_points (q_ctr q) ts). split.
  { destruct (gather_inv outs (ginv_nil points) G) as (_ & _ & GA & GB). destruct GI as (N & S & L & GP). exists (map fst d), (map fst ts).
    split; [exact N|]. split; [intros k; split; [intros I; destruct (GB k I) as [[]|X]; exact X|intros (o & I & <-); exact (GA o I)]|].
    split; [|apply target_points_eq]. apply Forall2_intro_nth; [rewrite !map_length; symmetry; exact L|].
    intros k e x Ee Ex. rewrite nth_error_map in Ee, Ex. destruct (nth_error d k) as [e'|] eqn:Ed; [|discriminate]. destruct (nth_error ts k) as [t|] eqn:Et; [|discriminate].
    injection Ee as <-. injection Ex as <-. assert (K : k < length d) by (apply nth_error_Some; congruence). destruct (GP k K) as (P1 & _).
    rewrite (nth_error_nth _ _ _ Ed), (nth_error_nth _ _ _ Et) in P1. exact P1. }
  intros FA j o E.
  destruct (Forall2_nth_error _ F E) as (r & R & n & _ & NL & PX & SD & KN & ->). cbn zeta in R.
  set (x := fst (nth n ts ([], 0%Z))) in *. set (TV := q_fmm q (target_points (q_ctr q) ts)) in *.
  assert (DL : length (nth (o_knl o) (drive_fmm (fst TV) (snd TV) (length (q_ctr q)) (user_ttc (length (q_ctr q)) a) (seq 0 (q_nquad q)) nknl) []) = length (q_ctr q) + total ts)
    by (apply (drive_length _ FA HA KN)).
  exists x. eexists. split; [exact PX|]. split; [exact R|]. pose proof (total_firstn_S ts NL) as TS. fold x in TS. pose proof (total_firstn_le ts (S n)) as TL. split.
  - rewrite slice_length by (rewrite DL; lia). lia.
  - intros i I. rewrite slice_nth by lia. rewrite <- SD. exact (@fmm_value q near SO ts a nknl (o_knl o) n i FA HA KN NL I).
Qed.
Print Assumptions fmm_outputs.

(** It succeeds unless there is a reason not to. *)
Theorem fmm_succeeds q near points nknl outs :
  source_ok q near ->
  ((exists res, exec_fmm q points nknl outs = Ok res) <->
   2 * length (q_src q) = length (q_ctr q)
   /\ forall o, In o outs -> exists x, points (o_tgt o) = Ok x /\ o_knl o < nknl
        /\ forall p, In p x -> ~ failing_pt q (limit_side (o_limit o)) p).
Proof.
  intros SO. split.
  - intros (res & H). destruct (exec_fmm_inv _ _ _ _ H) as (d & ts & a & G & GI & HA & _ & F).
    pose proof (associate_all_spec SO ts) as S. cbv zeta in S. rewrite HA in S. destruct S as (L & N & S). split; [exact N|].
    intros o I. destruct (Forall2_In_l F I) as (r & _ & n & _ & NL & PX & SD & KN & _). eexists. split; [exact PX|]. split; [exact KN|].
    intros p Ip. apply In_nth with (d := []) in Ip. destruct Ip as (i & Hi & Ei).
    assert (J := offset_lt ts NL Hi). specialize (S _ J). rewrite (all_sides_nth ts NL Hi), (all_pts_nth ts NL Hi) in S. unfold nth_pt in S. rewrite Ei, SD in S.
    destruct (nth (total (firstn n ts) + i) a None) as [c|]; [eapply not_failing; apply S|apply not_close_not_failing; exact S].
  - intros (N & HO). assert (PO : forall o, In o outs -> exists x, points (o_tgt o) = Ok x) by (intros o I; destruct (HO o I) as (x & X & _); eauto).
    destruct (@gather_ok points outs PO [] []) as ([d ts] & G). unfold exec_fmm. rewrite G. cbn [bind].
    assert (G0 : ginv points [] []) by (unfold ginv; cbn; repeat split; try constructor; intros; lia).
    destruct (gather_inv outs G0 G) as (GI & _ & A & B). destruct GI as (_ & GS & GL & GP).
    assert (NF : forall i, i < length (all_pts ts) -> ~ failing_pt q (nth i (all_sides ts) 0%Z) (nth_pt (all_pts ts) i)).
    { intros i I. destruct (offset_split ts I) as (k & j & K & J & ->). rewrite (all_sides_nth ts K J), (all_pts_nth ts K J).
      assert (KD : k < length d) by lia. destruct (GP k KD) as (P1 & P2). destruct (B (fst (nth k d ((0, None), 0)))) as [[]|(o & Io & Eo)]; [apply in_map; apply nth_In; exact KD|].
      rewrite <- Eo in P1, P2. cbn [gkey fst snd] in P1, P2. destruct (HO o Io) as (x & X & _ & F). rewrite X in P1. injection P1 as P1. rewrite P2. apply F. rewrite P1. apply nth_In. exact J. }
    pose proof (associate_all_spec SO ts) as S. cbv zeta in S. destruct (associate_all q ts) as [a|fl fa|e].
    + destruct (q_fmm q (target_points (q_ctr q) ts)) as [T V].
      assert (NU : existsb (fun c => (c =? -2)%Z) (user_ttc (length (q_ctr q)) a) = false) by apply user_ttc_no_failed. rewrite NU.
      apply mapM_total. intros o I. assert (K := A o I). destruct (lookup_key d (o_tgt o, o_limit o)) as [n|] eqn:LK; [|exfalso; apply lookup_None in LK; exact (LK K)].
      destruct (HO o I) as (x & _ & KN & _). assert (X : nth_error (drive_fmm T V (length (q_ctr q)) (user_ttc (length (q_ctr q)) a) (seq 0 (q_nquad q)) nknl) (o_knl o) <> None).
      { apply nth_error_Some. unfold drive_fmm. rewrite map_length, seq_length. exact KN. }
      destruct (nth_error _ (o_knl o)); [eauto|congruence].
    + destruct S as (i & I & F). exfalso. exact (NF i I F).
    + destruct S as (_ & [S|(i & I & F)]); [congruence|]. exfalso. exact (NF i I F).
Qed.
Print Assumptions fmm_succeeds.

(** * C42: direct evaluation *)
Theorem direct_outputs q near self points nknl outs res :
  source_ok q near -> exec_direct q self points nknl outs = Ok res ->
  length res = length outs
  /\ forall j o, nth_error outs j = Some o -> exists x pot,
       points (o_tgt o) = Ok x /\ nth_error res j = Some (Some (o_name o, pot)) /\ length pot = length x
       /\ if self (o_tgt o)
          then exists z, o_limit o = Some z /\ z <> 0%Z /\ forall i, i < length x ->
                 nth i pot [] = full_potential (o_knl o) (seq 0 (q_nquad q)) (q_nquad q) (Own i z) i
          else forall i, i < length x -> value_ok q x (o_knl o) (limit_side (o_limit o)) (nth_pt x i) (nth i pot [])
                 /\ (Z.abs (limit_side (o_limit o)) = 1%Z -> close_pt q (nth_pt x i)).
Proof.
  intros SO H. destruct (exec_direct_inv _ _ _ _ _ H) as (L & F). split; [exact L|]. intros j o E. destruct (F j o E) as (v & R & V & Z).
  unfold out_value in V. destruct (self (o_tgt o)) eqn:S.
  - destruct (self_value_spec _ _ _ _ V) as (x & X & _ & LV & FV). exists x, v. split; [exact X|]. split; [exact R|]. split; [exact LV|].
    destruct (Z eq_refl) as (z & LZ & NZ). exists z. split; [exact LZ|]. split; [exact NZ|]. intros i I. rewrite (FV i I), LZ. reflexivity.
  - destruct (other_value_spec SO _ _ _ V) as (x & X & _ & LV & _ & FV). exists x, v. split; [exact X|]. split; [exact R|]. split; [exact LV|exact FV].
Qed.
Print Assumptions direct_outputs.

Theorem direct_succeeds q near self points nknl outs :
  source_ok q near -> 2 * length (q_src q) = length (q_ctr q) ->
  ((exists res, exec_direct q self points nknl outs = Ok res) <->
   forall o, In o outs -> exists x, points (o_tgt o) = Ok x /\ o_knl o < nknl
     /\ if self (o_tgt o) then exists z, o_limit o = Some z /\ z <> 0%Z
        else (forall p, In p x -> ~ failing_pt q (limit_side (o_limit o)) p)
          /\ (Z.abs (limit_side (o_limit o)) = 1%Z -> forall p, In p x -> close_pt q p)).
Proof.
  intros SO N. split.
  - intros (res & H) o I. apply In_nth_error in I. destruct I as (j & E). destruct (exec_direct_inv _ _ _ _ _ H) as (L & F). destruct (F j o E) as (v & R & V & Z).
    unfold out_value in V. destruct (self (o_tgt o)) eqn:S.
    + destruct (self_value_spec _ _ _ _ V) as (x & X & K & _). exists x. split; [exact X|]. split; [exact K|]. apply Z. reflexivity.
    + destruct (other_value_spec SO _ _ _ V) as (x & X & K & LV & _ & FV). exists x. split; [exact X|]. split; [exact K|]. split.
      * intros p Ip. apply In_nth with (d := []) in Ip. destruct Ip as (i & Hi & Ei). destruct (FV i Hi) as ((u & r & _ & _ & RO & _) & _).
        unfold nth_pt in RO. rewrite Ei in RO. destruct r as [|c|]; cbn in RO; [apply not_close_not_failing; exact RO|eapply not_failing; apply RO|contradiction].
      * intros Z1 p Ip. apply In_nth with (d := []) in Ip. destruct Ip as (i & Hi & Ei). destruct (FV i Hi) as (_ & C). rewrite <- Ei. apply C. exact Z1.
  - intros HO. unfold exec_direct.
    assert (IC : forall i o, In (i, o) (combine (seq 0 (length outs)) outs) -> In o outs) by (intros i o I; eapply in_combine_r; exact I).
    destruct (@partition_total q self (combine (seq 0 (length outs)) outs)) with (gs := @nil ((nat * option Z) * list (nat * output))) (go := @nil ((nat * option Z) * list (nat * output))) as ([gs go] & P).
    { intros [i o] I S. cbn [snd] in *. destruct (HO o (IC i o I)) as (x & _ & _ & C). rewrite S in C. exact C. }
    rewrite P. cbn [bind fst snd]. assert (NN : nonempty []) by (intros k l []).
    assert (EE := P). apply partition_nonempty in EE; [|exact NN|exact NN]. destruct EE as (E1 & E2).
    apply (@partition_spec q self points) in P; [|intros k l []|intros k l []]. destruct P as (K1 & K2 & M1 & M2 & LZ).
    assert (R1 : exists r1, mapM (exec_self (q_nquad q) nknl points) gs = Ok r1).
    { apply mapM_total. intros [[t l] os] I.
      assert (MB : forall i o, In (i, o) os -> (t, l) = gkey o /\ exists x, points (o_tgt o) = Ok x /\ o_knl o < nknl).
      { intros i o J. split; [eapply K1; [exact I|exact J]|]. assert (Y : In (i, o) (members gs)) by (unfold members; apply in_flat_map; exists ((t, l), os); split; [exact I|exact J]).
        apply M1 in Y. destruct Y as [[]|[Y _]]. destruct (HO o (IC i o Y)) as (x & X & KN & _). eauto. }
      assert (NE := E1 _ _ I). destruct os as [|[i0 o0] os']; [congruence|]. destruct (MB i0 o0 (or_introl eq_refl)) as (KE & x & X & _).
      apply exec_self_total with (x := x); [exact NE|]. intros i o J. destruct (MB i o J) as (KE' & x' & X' & KN). split; [exact KE'|]. split; [|exact KN].
      rewrite KE in KE'. unfold gkey in KE'. injection KE' as ET _. rewrite <- ET. exact X. }
    assert (R2 : exists r2, mapM (exec_other q nknl points) go = Ok r2).
    { apply mapM_total. intros [[t l] os] I. apply exec_other_total; [eapply E2; exact I|]. intros i o J. split; [eapply K2; [exact I|exact J]|].
      assert (Y : In (i, o) (members go)) by (unfold members; apply in_flat_map; exists ((t, l), os); split; [exact I|exact J]).
      apply M2 in Y. destruct Y as [[]|[Y S]]. cbn [snd] in S. destruct (HO o (IC i o Y)) as (x & X & KN & C). rewrite S in C. destruct C as (C1 & C2).
      eapply other_value_total; eauto. }
    destruct R1 as (r1 & ->). destruct R2 as (r2 & ->). cbn [bind]. eauto.
Qed.
Print Assumptions direct_succeeds.

(** Both executors agree on targets other than the source's own nodes, if no target has two
    equally good centers. *)
Theorem direct_agrees_with_fmm q near self points nknl outs res res' :
  source_ok q near -> (forall x, fmm_at q x) -> exec_direct q self points nknl outs = Ok res -> exec_fmm q points nknl outs = Ok res' ->
  forall j o x, nth_error outs j = Some o -> self (o_tgt o) = false -> points (o_tgt o) = Ok x ->
  (forall p c c', In p x -> chosen_pt q (limit_side (o_limit o)) p c -> chosen_pt q (limit_side (o_limit o)) p c' -> c = c') ->
  exists pot pot' P, nth_error res j = Some (Some (o_name o, pot)) /\ nth_error res' j = Some (o_name o, pot')
    /\ length pot = length x /\ length pot' = length x
    /\ forall i, i < length x -> exists r u, nth_pt P u = nth_pt x i
         /\ Permutation (nth i pot []) (full_potential (o_knl o) (seq 0 (q_nquad q)) (q_nquad q) r i)
         /\ Permutation (nth i pot' []) (full_potential (o_knl o) (seq 0 (q_nquad q)) (q_nquad q) r u).
Proof.
  intros SO FA HD HF j o x E S X U. destruct (@fmm_outputs q near points nknl outs res' SO HF) as (_ & P & _ & FF). destruct (FF (FA P) j o E) as (x' & pot' & X' & R' & L' & V'). assert (x' = x) by congruence. subst x'.
  destruct (exec_direct_inv _ _ _ _ _ HD) as (_ & FD). destruct (FD j o E) as (pot & R & V & _). unfold out_value in V. rewrite S in V.
  pose proof V as V0. destruct (other_value_spec SO _ _ _ V) as (x2 & X2 & _ & L & _ & VD). assert (x2 = x) by congruence. subst x2.
  exists pot, pot', P. split; [exact R|]. split; [exact R'|]. split; [exact L|]. split; [exact L'|]. intros i I.
  destruct (other_value_at SO _ _ _ V X I) as (r & RO & PD).
  destruct (V' i I) as (u' & r' & _ & PU' & RO' & PF).
  assert (Er : r = r').
  { assert (IP : In (nth_pt x i) x) by (apply nth_In; exact I).
    destruct r as [|c|], r' as [|c'|]; cbn in RO, RO'; try contradiction; try reflexivity; try (exfalso; tauto). f_equal. eapply U; [exact IP|apply RO|apply RO']. }
  subst r'. exists r, u'. split; [exact PU'|]. split; [exact PD|exact PF].
Qed.
Print Assumptions direct_agrees_with_fmm.

(** * C55: the requested side *)
Theorem forced_limit_side q near points nknl outs res :
  source_ok q near -> (forall x, fmm_at q x) -> exec_fmm q points nknl outs = Ok res ->
  (forall s, (0 <= q_tunnel q s)%Q) -> (forall p, (dv_dist (q_dev q) p p == 0)%Q) ->
  forall j o z x pot i,
  nth_error outs j = Some o -> o_limit o = Some z -> Z.abs z = 1%Z ->
  points (o_tgt o) = Ok x -> nth_error res j = Some (o_name o, pot) -> i < length x ->
  In (nth_pt x i) (q_src q) ->
  exists c u, c < length (q_ctr q) /\ side_of c = z
    /\ (dv_dist (q_dev q) (nth_pt x i) (nth_pt (q_ctr q) c) <= reach (q_radius q) (q_tol q) c)%Q
    /\ Permutation (nth i pot []) (full_potential (o_knl o) (seq 0 (q_nquad q)) (q_nquad q) (Via c) u).
Proof.
  intros SO FA H TN D0 j o z x pot i E LZ Z1 X R I IS. destruct (@fmm_outputs q near points nknl outs res SO H) as (_ & P & _ & F).
  destruct (F (FA P) j o E) as (x' & pot' & X' & R' & _ & V). assert (x' = x) by congruence. assert (pot' = pot) by congruence. subst x' pot'.
  destruct (V i I) as (u & r & _ & _ & RO & PM).
  assert (CL : close_pt q (nth_pt x i)).
  { apply In_nth with (d := []) in IS. destruct IS as (s & Hs & Es). exists s. split; [exact Hs|]. unfold nth_pt at 1. rewrite Es. cbn [nth_pt nth]. rewrite D0. apply TN. }
  destruct r as [|c|]; cbn in RO; [contradiction| |contradiction]. destruct RO as (_ & ((HC & AL & DS) & _) & _). exists c, u. split; [exact HC|]. split; [|split; [exact DS|exact PM]].
  rewrite LZ in AL. unfold allowed in AL. cbn [limit_side] in AL. unfold side_of in *. destruct (Nat.even c); lia.
Qed.
Print Assumptions forced_limit_side.

(** * Concrete settings *)

(** One box for everything. *)
Definition one_tree (P : list pt) : btree :=
  BT (nth_pt P) (fun u => u) (fun j => j) (fun b => if b =? 0 then seq 0 (length P) else []) (fun _ => []) (fun _ => 0).
Definition one_dev : device := Dev ex_dist (fun _ _ _ => 0%Q) (fun _ _ _ => [0]).
Definition one_fmm (nsrc n : nat) : ftree * ftrav :=
  (FT nsrc n (fun j => j) (fun i => i) (seq 0 nsrc) (seq 0 n) 1 (fun _ => seq 0 nsrc) (fun _ => seq 0 n) [(0, 1)] (fun _ => seq 0 nsrc) (fun _ => [0]),
   TR [0] (fun _ => [0]) (fun _ => []) [] (fun _ => [])).
Lemma one_tree_ok P : tree_ok P (one_tree P).
Proof.
  split; cbn; auto. intros [|b] j; cbn; [rewrite in_seq; split; [intros H; split; [lia|reflexivity]|intros [H _]; lia]|split; [contradiction|intros [_ H]; discriminate]].
Qed.
Lemma one_queries_ok P : queries_ok one_dev (fun _ _ => 0%Q) P (one_tree P).
Proof. split; cbn; intros; [apply Qle_refl|left; reflexivity]. Qed.
Lemma one_fmm_ok nsrc n : fmm_ok (fst (one_fmm nsrc n)) (snd (one_fmm nsrc n)).
Proof.
  split; cbn.
  - apply Permutation_refl.
  - intros u U. rewrite seq_nth by exact U. reflexivity.
  - apply Permutation_refl.
  - intros j J. rewrite seq_nth by exact J. reflexivity.
  - intros b i _ I. apply in_seq in I. lia.
  - intros i I. exists 0. split; [lia|]. split; [left; reflexivity|]. split; [apply in_seq; lia|]. intros b' B _. lia.
  - split; [repeat constructor; intros []|]. intros b [<-|[]]. lia.
  - intros b B. assert (b = 0) by lia. subst b. reflexivity.
  - contradiction.
  - intros k K. unfold sources_near, sources_smaller, sources_far. cbn. rewrite !app_nil_r. apply Permutation_refl.
Qed.

(** A node at 0 with centers at -1 and 1; three quadrature nodes. *)
Definition exq : qsource :=
  QS [[0%Q]] [[-(1)]; [1]]%Q ex_discr (fun _ => 1%Q) (fun _ => 1%Q) 0 one_dev (fun n => seq 0 n)
     (fun x => one_tree (particles [[0%Q]] [[-(1)]; [1]]%Q [x])) 3 (fun x => one_fmm 3 (length x)).
Lemma exq_ok : source_ok exq (fun _ _ => 0%Q).
Proof.
  split; cbn.
  - intros x. apply one_tree_ok.
  - intros x. apply one_queries_ok.
  - exact ex_sym.
  - intros c. unfold reach. reflexivity.
  - split; [repeat constructor|reflexivity].
  - intros n. apply Permutation_refl.
Qed.
Lemma exq_fmm : forall x, fmm_at exq x.
Proof. intros x. split; [apply one_fmm_ok|]. split; reflexivity. Qed.
(** Target 0: the node itself; target 1: a point at 1/2 and one at 10. *)
Definition ex_points (t : nat) : result (list pt) :=
  match t with 0 => Ok [[0%Q]] | 1 => Ok [[(1#2)%Q]; [10%Q]] | _ => Err KeyError end.
Definition ex_outs : list output :=
  [Out "a" 0 0 (Some 1%Z); Out "b" 1 1 None; Out "c" 0 0 (Some (-1)%Z); Out "d" 1 1 (Some 2%Z); Out "e" 0 1 None].
Definition src3 (k : nat) (r : route) (u : nat) : list contr := [Contr k 0 0 r u; Contr k 1 1 r u; Contr k 2 2 r u].
Example fmm_example : exec_fmm exq ex_points 2 ex_outs
  = Ok [("a"%string, [src3 0 (Via 1) 2]); ("b"%string, [src3 1 (Via 1) 3; src3 1 Point 4]); ("c"%string, [src3 0 (Via 0) 5]);
        ("d"%string, [src3 1 (Via 1) 6; src3 1 Point 7]); ("e"%string, [src3 0 (Via 1) 3; src3 0 Point 4])].
Proof. vm_compute. reflexivity. Qed.
Example direct_example : exec_direct exq (fun t => t =? 0) ex_points 2 ex_outs
  = Ok (map Some [("a"%string, [src3 0 (Own 0 1) 0]); ("b"%string, [src3 1 (Via 1) 0; src3 1 Point 1]); ("c"%string, [src3 0 (Own 0 (-1)) 0]);
        ("d"%string, [src3 1 (Via 1) 0; src3 1 Point 1]); ("e"%string, [src3 0 (Via 1) 0; src3 0 Point 1])]).
Proof. vm_compute. reflexivity. Qed.
Example forced_limit_side_applies : exists c u, side_of c = (-1)%Z
  /\ Permutation (src3 0 (Via 0) 5) (full_potential 0 (seq 0 3) 3 (Via c) u).
Proof.
  destruct (@forced_limit_side exq (fun _ _ => 0%Q) ex_points 2 ex_outs _ exq_ok exq_fmm fmm_example) with (j := 2) (o := Out "c" 0 0 (Some (-1)%Z)) (z := (-1)%Z) (x := [[0%Q]]) (pot := [src3 0 (Via 0) 5]) (i := 0)
    as (c & u & _ & S & _ & P); try reflexivity.
  - intros s. cbn. lra.
  - intros p. change (Qabs (px p - px p) == 0)%Q. setoid_replace (px p - px p)%Q with 0%Q by ring. reflexivity.
  - cbn. lia.
  - left. reflexivity.
  - exists c, u. split; [exact S|exact P].
Qed.
Example direct_agrees_applies : exists pot pot' P, length pot = 2 /\ length pot' = 2
  /\ forall i, i < 2 -> exists r u, nth_pt P u = nth_pt [[(1#2)%Q]; [10%Q]] i
    /\ Permutation (nth i pot []) (full_potential 1 (seq 0 3) 3 r i) /\ Permutation (nth i pot' []) (full_potential 1 (seq 0 3) 3 r u).
Proof.
  destruct (@direct_agrees_with_fmm exq (fun _ _ => 0%Q) (fun t => t =? 0) ex_points 2 ex_outs _ _ exq_ok exq_fmm direct_example fmm_example 1 (Out "b" 1 1 None) [[(1#2)%Q]; [10%Q]])
    as (pot & pot' & P & _ & _ & L & L' & F); try reflexivity.
  - intros p c c' Ip C C'.
    assert (X : forall c, chosen_pt exq 0 p c -> c = 1).
    { intros c0 ((A & B) & D). destruct A as (Hc & _ & Hd). cbn in Hc.
      destruct Ip as [<- | [<- | []]]; destruct c0 as [|[|c0]]; try lia; exfalso; apply Hd; reflexivity. }
    rewrite (X c C), (X c' C'). reflexivity.
  - exists pot, pot', P. split; [exact L|]. split; [exact L'|exact F].
Qed.

(** A tree with all kinds of lists: 4 sources, center 0, targets 1 (through the center) and 2. *)
Definition tree5 : ftree :=
  FT 4 3 (fun j => nth j [2; 0; 3; 1] 0) (fun i => nth i [2; 0; 1] 0) [2; 0; 3; 1] [1; 2; 0] 5
    (fun b => match b with 1 => [0] | 3 => [1; 2] | 4 => [3] | _ => [] end)
    (fun b => match b with 1 => [0; 1] | 4 => [2] | _ => [] end)
    [(0, 1); (1, 2); (3, 2)]
    (fun b => match b with 0 => [0; 1; 2; 3] | 1 => [0] | 2 => [1; 2; 3] | 3 => [1; 2] | _ => [3] end)
    (fun b => match b with 1 => [1; 0] | 3 => [3; 2; 0] | _ => [4; 2; 0] end).
Definition trav5 : ftrav :=
  TR [1; 4] (fun k => match k with 0 => [1] | _ => [4] end)
    (fun b => match b with 2 => [1] | 4 => [3] | _ => [] end)
    [([], fun _ => []); ([0], fun _ => [3])] (fun b => match b with 1 => [4] | _ => [] end).
Definition ttc5 : list Z := [-1; 0; -1]%Z.
Lemma tree5_ok : fmm_ok tree5 trav5.
Proof.
  split; cbn.
  - apply NoDup_Permutation_bis; [repeat constructor; cbn; intuition lia|cbn; lia|intros x; cbn; tauto].
  - intros u U. destruct u as [|[|[|u]]]; [reflexivity..|lia].
  - apply NoDup_Permutation_bis; [repeat constructor; cbn; intuition lia|cbn; lia|intros x; cbn; tauto].
  - intros j J. destruct j as [|[|[|[|j]]]]; [reflexivity..|lia].
  - intros b i B I. destruct b as [|[|[|[|[|b]]]]]; cbn in I; intuition lia.
  - intros i I. destruct i as [|[|[|i]]]; [exists 1|exists 1|exists 4|lia]; (split; [lia|]; split; [cbn; tauto|]; split; [cbn; tauto|]);
      intros b' B' I'; destruct b' as [|[|[|[|[|b']]]]]; cbn in I'; intuition lia.
  - split; [repeat constructor; cbn; intuition lia|]. intros b [<- | [<- | []]]; lia.
  - intros b B. destruct b as [|[|[|[|[|b]]]]]; [reflexivity..|lia].
  - intros lev [<- | [<- | []]]; (split; [repeat constructor; cbn; tauto|]); cbn; intuition lia.
  - intros k K. unfold sources_near, sources_smaller, sources_far. destruct k as [|[|k]]; cbn; [| |lia];
      (apply NoDup_Permutation_bis; [repeat constructor; cbn; intuition lia|cbn; lia|intros x; cbn; tauto]).
Qed.
Lemma ttc5_ok : ttc_ok 1 3 ttc5.
Proof.
  split; [reflexivity|]. split; [lia|]. split; [intros u U; assert (u = 0) by lia; subst u; reflexivity|].
  intros u U1 U2. destruct u as [|[|[|u]]]; [lia|right; exists 0; split; [lia|reflexivity]|left; reflexivity|lia].
Qed.
Example drive_example : drive_fmm tree5 trav5 1 ttc5 [10; 11; 12; 13] 1
  = [[ []; map (fun s => Contr 0 (10 + s) s (Via 0) 1) [2; 0; 3; 1];
       map (fun s => Contr 0 (10 + s) s Point 2) [2; 0; 3; 1] ]].
Proof. vm_compute. reflexivity. Qed.
Example fmm_potentials_applies : Permutation (nth 1 (nth 0 (drive_fmm tree5 trav5 1 ttc5 [10; 11; 12; 13] 1) []) []) (full_potential 0 [10; 11; 12; 13] 4 (Via 0) 1).
Proof. apply (fmm_potentials [10; 11; 12; 13] tree5_ok ttc5_ok (le_n 1)); cbn; lia. Qed.
Example incidence_example : global_centers 1 ttc5 = [0] /\ center_targets tree5 ttc5 0 = [2] /\ non_qbx_targets tree5 1 ttc5 = [0].
Proof. repeat split. Qed.
Example layout_example : target_points [[0%Q]] [([[1%Q]; [2%Q]], 1%Z); ([[3%Q]], 0%Z)] = [[0%Q]; [1%Q]; [2%Q]; [3%Q]]
  /\ side_preferences 1 [([[1%Q]; [2%Q]], 1%Z); ([[3%Q]], 0%Z)] = [0; 1; 1; 0]%Z /\ discr_starts 1 [([[1%Q]; [2%Q]], 1%Z); ([[3%Q]], 0%Z)] = [1; 3; 4].
Proof. repeat split. Qed.

(** * C56: what the documentation promises about forced limits *)

(** "To allow potential evaluation at the target to succeed even if no applicable QBX center is
    found use +-2." *)
Theorem optional_limit_succeeds_refuted :
  ~ (forall q near points nknl outs, source_ok q near -> (forall x, fmm_at q x) -> 2 * length (q_src q) = length (q_ctr q) ->
       (forall o, In o outs -> (exists x, points (o_tgt o) = Ok x) /\ o_knl o < nknl /\ exists z, o_limit o = Some z /\ Z.abs z = 2%Z) ->
       exists res, exec_fmm q points nknl outs = Ok res).
Proof.
  intros H. destruct (H exq (fun _ _ => 0%Q) ex_points 1 [Out "a" 0 1 (Some (-2)%Z)] exq_ok exq_fmm eq_refl) as (res & E).
  - intros o [<- | []]. cbn. split; [eauto|]. split; [lia|]. exists (-2)%Z. auto.
  - revert E. vm_compute. discriminate.
Qed.
Print Assumptions optional_limit_succeeds_refuted.
(** ... in fact the association's exception is raised, also by direct evaluation. *)
Example optional_limit_outcome :
  exec_fmm exq ex_points 1 [Out "a" 0 1 (Some (-2)%Z)] = Err TargetAssociationFailed
  /\ exec_direct exq (fun _ => false) ex_points 1 [Out "a" 0 1 (Some (-2)%Z)] = Err TargetAssociationFailed.
Proof. split; vm_compute; reflexivity. Qed.

(** "Evaluation at a target with a value of +-1 will fail if no QBX center is found." *)
Theorem forced_limit_fails_refuted :
  ~ (forall q near points nknl outs res, source_ok q near -> (forall x, fmm_at q x) -> exec_fmm q points nknl outs = Ok res ->
       forall o x, In o outs -> points (o_tgt o) = Ok x -> o_limit o = Some 1%Z ->
       forall p, In p x -> exists c, chosen_pt q 1 p c).
Proof.
  intros H. destruct (H exq (fun _ _ => 0%Q) ex_points 1 [Out "a" 0 1 (Some 1%Z)] [("a"%string, [src3 0 (Via 1) 2; src3 0 Point 3])] exq_ok exq_fmm) with (o := Out "a" 0 1 (Some 1%Z)) (x := [[(1#2)%Q]; [10%Q]]) (p := [10%Q]) as (c & C).
  - vm_compute. reflexivity.
  - left. reflexivity.
  - reflexivity.
  - reflexivity.
  - right. left. reflexivity.
  - destruct C as ((A & _) & _). destruct A as (Hc & _ & Hd). cbn in Hc. destruct c as [|[|c]]; [| |lia]; apply Hd; reflexivity.
Qed.
Print Assumptions forced_limit_fails_refuted.
(** Direct evaluation keeps the promise. *)
Theorem forced_limit_direct_partial q near self points nknl outs res :
  source_ok q near -> exec_direct q self points nknl outs = Ok res ->
  forall o x z, In o outs -> self (o_tgt o) = false -> points (o_tgt o) = Ok x -> o_limit o = Some z -> Z.abs z = 1%Z ->
  forall p, In p x -> exists c, chosen_pt q z p c /\ side_of c = z.
Proof.
  intros SO H o x z Io S X LZ Z1 p Ip. apply In_nth_error in Io. destruct Io as (j & E). destruct (@direct_outputs q near self points nknl outs res SO H) as (_ & F).
  destruct (F j o E) as (x' & pot & X' & _ & _ & V). assert (x' = x) by congruence. subst x'. rewrite S in V.
  apply In_nth with (d := []) in Ip. destruct Ip as (i & Hi & Ei). destruct (V i Hi) as ((u & r & _ & _ & RO & _) & C). rewrite LZ in *. cbn [limit_side] in *.
  specialize (C Z1). unfold nth_pt in *. rewrite Ei in *. destruct r as [|c|]; cbn in RO; [contradiction| |contradiction]. exists c. split; [apply RO|].
  destruct RO as (_ & ((_ & AL & _) & _) & _). unfold allowed in AL. unfold side_of in *. destruct (Nat.even c); lia.
Qed.
Print Assumptions forced_limit_direct_partial.
