From Coq Require Import QArith Permutation Ring.
From Verif Require Import Base RefineModel AssocModel CollModel FmmModel FmmSpec FmmProofs FmmProofs2 FmmProps MatModel MatSpec CostModel CostSpec CostProofs CostProofs2.
Open Scope string_scope. Open Scope list_scope. Open Scope nat_scope.

(** * Both implementations count what happens, center by center *)

(** Numbers of coefficients of expansions in [dim] dimensions: a factor of p+1 for each
    dimension, and one factor less for those that use the PDE. *)
Theorem numbers_of_coefficients (R : rops) (dim : nat) (p : R) (ps : list R) : 0 < dim ->
  let a := make_xlat R false dim p ps in let b := make_xlat R true dim p ps in
  x_ncoeffs_qbx a = rmul R (radd R p (r1 R)) (x_ncoeffs_qbx b)
  /\ Forall2 (fun q n => fst n = rmul R (radd R q (r1 R)) (snd n)) ps (combine (x_ncoeffs_fmm a) (x_ncoeffs_fmm b))
  /\ length (x_ncoeffs_fmm a) = length ps /\ length (x_ncoeffs_fmm b) = length ps
  /\ (dim = 1 -> x_ncoeffs_qbx b = r1 R /\ forall n, In n (x_ncoeffs_fmm b) -> n = r1 R).
Proof.
  intros H a b. destruct dim as [|d]; [lia|]. unfold a, b, make_xlat. cbn [x_ncoeffs_qbx x_ncoeffs_fmm Nat.sub]. rewrite Nat.sub_0_r.
  split; [reflexivity|]. split; [induction ps; cbn; constructor; auto|]. rewrite !map_length. split; [reflexivity|]. split; [reflexivity|].
  intros E. injection E as ->. split; [reflexivity|]. intros n I. apply in_map_iff in I. destruct I as (x & <- & _). reflexivity.
Qed.
Print Assumptions numbers_of_coefficients.

Theorem cost_vectorised_counts (R : rops) (T : ftree) (V : ftrav) (level : nat -> nat) (nc : nat) (ttc : list Z) :
  lawful R -> fmm_ok T V -> (forall b, In b (tr_target_boxes V) -> NoDup (ft_box_tgt T b)) -> ttc_ok nc (ft_ntgt T) ttc ->
  backend_ok T V level nc ttc (vec_backend R T V level nc ttc).
Proof. intros [Rth _] OK BT HT. apply vec_ok; assumption. Qed.
Print Assumptions cost_vectorised_counts.

Theorem cost_reference_counts (R : rops) (T : ftree) (V : ftrav) (level : nat -> nat) (nc : nat) (ttc : list Z) :
  lawful R -> fmm_ok T V -> ttc_ok nc (ft_ntgt T) ttc ->
  backend_ok T V level nc ttc (py_backend R T V level nc ttc).
Proof. intros [Rth _] OK HT. apply py_ok; assumption. Qed.
Print Assumptions cost_reference_counts.

Lemma per_box_unique (R : rops) V (a b : list R) spec : per_box R V a spec -> per_box R V b spec -> a = b.
Proof.
  intros [La Ha] [Lb Hb]. apply nth_ext with (d := r0 R) (d' := r0 R); [congruence|]. intros k K. rewrite La in K.
  specialize (Ha k K). specialize (Hb k K). unfold rnth in *. congruence.
Qed.
Lemma form_cong (R : rops) T V level nc ttc (B B' : backend R) : backend_ok T V level nc ttc B -> backend_ok T V level nc ttc B' ->
  (forall c nd, length nd = length (tr_target_boxes V) -> p_form B c nd = p_form B' c nd)
  /\ (forall c, p_m2q B c = p_m2q B' c) /\ (forall c, p_l2q B c = p_l2q B' c) /\ (forall c, p_eval B c = p_eval B' c)
  /\ (forall c nd, length nd = length (tr_target_boxes V) -> p_eval_ts B c nd = p_eval_ts B' c nd).
Proof.
  intros (A1 & A2 & A3 & A4 & A5) (B1 & B2 & B3 & B4 & B5).
  split; [intros c nd L; eapply per_box_unique; [apply A1|apply B1]; exact L|].
  split; [intros c; eapply per_box_unique; [apply A2|apply B2]|].
  split; [intros c; eapply per_box_unique; [apply A3|apply B3]|].
  split; [intros c; eapply per_box_unique; [apply A4|apply B4]|].
  intros c nd L; eapply per_box_unique; [apply A5|apply B5]; exact L.
Qed.

(** Costs per box and per stage from the two implementations are the same. *)
Theorem cost_backends_agree (R : rops) (T : ftree) (V : ftrav) (level : nat -> nat) (nc : nat) (ttc : list Z)
    (e2e : R -> R -> R) (rsqrt : R -> R) (use_ts : bool) (x : xlat R) (nlevels : nat) (ndirect : list nat) (ps : list (string * R)) :
  lawful R -> fmm_ok T V -> (forall b, In b (tr_target_boxes V) -> NoDup (ft_box_tgt T b)) -> ttc_ok nc (ft_ntgt T) ttc ->
  length ndirect = length (tr_target_boxes V) ->
  (forall base, qbx_cost_per_box V e2e rsqrt (vec_backend R T V level nc ttc) use_ts x nlevels ndirect ps base
              = qbx_cost_per_box V e2e rsqrt (py_backend R T V level nc ttc) use_ts x nlevels ndirect ps base)
  /\ (forall base, qbx_cost_per_stage e2e rsqrt (vec_backend R T V level nc ttc) use_ts x nlevels ndirect ps base
              = qbx_cost_per_stage e2e rsqrt (py_backend R T V level nc ttc) use_ts x nlevels ndirect ps base).
Proof.
  intros Law OK BT HT L.
  destruct (form_cong _ _ _ _ _ _ _ _ (cost_vectorised_counts R T V level nc ttc Law OK BT HT) (cost_reference_counts R T V level nc ttc Law OK HT)) as (F1 & F2 & F3 & F4 & F5).
  split; intros base; [unfold qbx_cost_per_box|unfold qbx_cost_per_stage]; destruct (cost_factors _ _ _ _ _) as [k|e]; cbn [bind]; try reflexivity;
    destruct base as [res|e]; cbn [bind]; try reflexivity; rewrite F2, F3, F4; rewrite ?F1, ?F5 by exact L; reflexivity.
Qed.
Print Assumptions cost_backends_agree.

(** * Per-stage totals are the sums over the boxes *)
Lemma array_total_asum (R : rops) : ring_theory (r0 R) (r1 R) (radd R) (rmul R) (rsub R) (ropp R) eq -> forall a, asum R a = array_total R a.
Proof.
  intros Rth a. unfold asum. rewrite (fold_radd R Rth). unfold array_total, lsum. apply (Radd_0_l Rth).
Qed.
Lemma dset_new (R : rops) (d : list (string * R)) k v : dget String.eqb d k = None -> dset String.eqb d k v = d ++ [(k, v)].
Proof.
  induction d as [|[k' v'] d IH]; cbn; intros H; [reflexivity|]. destruct (String.eqb k k'); [discriminate|]. rewrite IH by exact H. reflexivity.
Qed.
Lemma dget_dset_s (R : rops) (d : list (string * R)) k v k' : dget String.eqb (dset String.eqb d k v) k' = if String.eqb k' k then Some v else dget String.eqb d k'.
Proof.
  induction d as [|[k0 v0] d IH]; cbn; [reflexivity|]. destruct (String.eqb k k0) eqn:E; cbn.
  - apply String.eqb_eq in E. subst k0. destruct (String.eqb k' k); reflexivity.
  - rewrite IH. destruct (String.eqb k' k0) eqn:E'; [|reflexivity]. apply String.eqb_eq in E'. subst k0. rewrite String.eqb_sym in E. rewrite E. reflexivity.
Qed.
Section Totals.
Variable R : rops.
Variable Rth : ring_theory (r0 R) (r1 R) (radd R) (rmul R) (rsub R) (ropp R) eq.
Add Ring Rr3 : Rth.
Lemma dict_total_app d k v : dict_total R (d ++ [(k, v)]) = radd R (dict_total R d) v.
Proof. unfold dict_total, lsum. induction d as [|[k' v'] d IH]; cbn; [ring|]. rewrite IH. ring. Qed.
Lemma lsum_combine_nth A (ixs : list nat) (l : list A) d : length ixs = length l -> forall (f : nat * A -> R),
  lsum R (combine ixs l) f = lsum R (seq 0 (length l)) (fun i => f (nth i ixs 0, nth i l d)).
Proof.
  revert ixs. induction l as [|x l IH]; intros [|i ixs] L f; cbn in L; try lia; [reflexivity|].
  cbn [combine length seq]. unfold lsum. cbn [fold_right nth]. f_equal. rewrite <- seq_shift. rewrite <- (map_id (combine ixs l)).
  specialize (IH ixs (eq_add_S _ _ L) f). unfold lsum in IH. rewrite map_id, IH. generalize (seq 0 (length l)). intros s. induction s as [|j s IHs]; cbn; [reflexivity|]. rewrite IHs. reflexivity.
Qed.
Lemma add_at_all_length (a : list R) ixs vs : length (add_at_all R a ixs vs) = length a.
Proof. unfold add_at_all. apply scatter_length. Qed.
Lemma add_at_all_total (a : list R) ixs vs : NoDup ixs -> (forall i, In i ixs -> i < length a) -> length vs = length ixs ->
  array_total R (add_at_all R a ixs vs) = radd R (array_total R a) (array_total R vs).
Proof.
  intros ND B L. rewrite <- !(array_total_asum R Rth). rewrite <- !(lsum_seq_nth R Rth). rewrite add_at_all_length.
  rewrite (lsum_ext R _ _ (fun i => radd R (rnth R a i) (lsum R (seq 0 (length vs)) (fun k => if nth k ixs 0 =? i then rnth R vs k else r0 R)))).
  - rewrite (lsum_add R Rth). f_equal. rewrite (lsum_swap R Rth). apply lsum_ext. intros k K. apply in_seq in K.
    rewrite (lsum_ext R _ _ (fun i => if i =? nth k ixs 0 then rnth R vs k else r0 R)) by (intros i _; rewrite Nat.eqb_sym; reflexivity).
    apply (lsum_single R Rth). apply B. apply nth_In. lia.
  - intros i Hi. apply in_seq in Hi. unfold add_at_all. destruct (in_dec Nat.eq_dec i ixs) as [Y|N].
    + apply In_nth with (d := 0) in Y. destruct Y as (k & K & E). unfold rnth at 1. rewrite <- E at 1. rewrite scatter_nth; [|exact ND|rewrite map_length, combine_length; lia|exact K|rewrite E; lia].
      rewrite (@nth_map_d (nat * R) R _ _ k (0, r0 R) (r0 R)) by (rewrite combine_length; lia). rewrite combine_nth by lia. rewrite E. f_equal.
      rewrite (lsum_ext R _ _ (fun j => if j =? k then rnth R vs k else r0 R)).
      * symmetry. apply (lsum_single R Rth). lia.
      * intros j J. apply in_seq in J. destruct (nth j ixs 0 =? i) eqn:Ej.
        -- apply Nat.eqb_eq in Ej. assert (j = k) by (apply (NoDup_nth_inj ND); [lia|exact K|congruence]). subst j. rewrite Nat.eqb_refl. reflexivity.
        -- assert (X : (j =? k) = false) by (apply Nat.eqb_neq; intros ->; apply Nat.eqb_neq in Ej; congruence). rewrite X. reflexivity.
    + unfold rnth at 1. rewrite scatter_other by exact N. fold (rnth R a i). rewrite (lsum_zero R Rth); [ring|].
      intros k K. apply in_seq in K. destruct (nth k ixs 0 =? i) eqn:E; [|reflexivity]. exfalso. apply N. apply Nat.eqb_eq in E. rewrite <- E. apply nth_In. lia.
Qed.
End Totals.

(** boxtree's contract: the totals of its per-box and its per-stage costs agree, and it does not
    use the QBX stage names. *)
Theorem cost_stages_sum_boxes (R : rops) (T : ftree) (V : ftrav) (level : nat -> nat) (nc : nat) (ttc : list Z)
    (e2e : R -> R -> R) (rsqrt : R -> R) (B : backend R) (use_ts : bool) (x : xlat R) (nlevels : nat) (ndirect : list nat)
    (ps : list (string * R)) (base_boxes : list R) (base_stages : list (string * R)) (boxes : list R) (stages : list (string * R)) :
  lawful R -> fmm_ok T V -> backend_ok T V level nc ttc B -> length ndirect = length (tr_target_boxes V) ->
  length base_boxes = ft_nboxes T -> array_total R base_boxes = dict_total R base_stages ->
  (forall s, In s qbx_stages -> dget String.eqb base_stages s = None) ->
  qbx_cost_per_box V e2e rsqrt B use_ts x nlevels ndirect ps (Ok base_boxes) = Ok boxes ->
  qbx_cost_per_stage e2e rsqrt B use_ts x nlevels ndirect ps (Ok base_stages) = Ok stages ->
  length boxes = ft_nboxes T /\ array_total R boxes = dict_total R stages.
Proof.
  intros [Rth _] OK (B1 & B2 & B3 & B4 & B5) Ln Lb Tot Fresh HB HS.
  unfold qbx_cost_per_box in HB. unfold qbx_cost_per_stage in HS. destruct (cost_factors _ _ _ _ _) as [k|e]; [|discriminate]. cbn [bind] in HB, HS.
  injection HB as HB. injection HS as HS. destruct (fo_target_boxes OK) as [ND BB].
  set (first := if use_ts then p_eval_ts B (k_p2p_tsqbx k) ndirect else p_form B (k_p2qbxl k) ndirect) in *.
  assert (L1 : length first = length (tr_target_boxes V)) by (unfold first; destruct use_ts; [apply B5|apply B1]; exact Ln).
  assert (L2 := proj1 (B2 (k_m2qbxl k))). assert (L3 := proj1 (B3 (k_l2qbxl k))). assert (L4 := proj1 (B4 (k_qbxl2p k))).
  split; [rewrite <- HB, !add_at_all_length; exact Lb|].
  rewrite <- HB. rewrite !(add_at_all_total R Rth) by (try exact ND; try assumption; rewrite ?add_at_all_length, Lb; exact BB).
  set (fk := if use_ts then "eval_target_specific_qbx_locals" else "form_global_qbx_locals").
  assert (HS' : stages = (((base_stages ++ [(fk, asum R first)]) ++ [("translate_box_multipoles_to_qbx_local", asum R (p_m2q B (k_m2qbxl k)))])
      ++ [("translate_box_local_to_qbx_local", asum R (p_l2q B (k_l2qbxl k)))]) ++ [("eval_qbx_expansions", asum R (p_eval B (k_qbxl2p k)))]).
  { assert (E0 : (if use_ts then dset String.eqb base_stages "eval_target_specific_qbx_locals" (asum R (p_eval_ts B (k_p2p_tsqbx k) ndirect))
        else dset String.eqb base_stages "form_global_qbx_locals" (asum R (p_form B (k_p2qbxl k) ndirect))) = dset String.eqb base_stages fk (asum R first))
      by (unfold fk, first; destruct use_ts; reflexivity).
    cbn zeta in HS. rewrite E0 in HS. rewrite <- HS.
    assert (F1 : dget String.eqb base_stages fk = None) by (unfold fk; destruct use_ts; apply Fresh; cbn; tauto).
    rewrite dset_new.
    - rewrite dset_new.
      + rewrite dset_new.
        * rewrite dset_new by exact F1. reflexivity.
        * rewrite dget_dset_s. unfold fk. destruct use_ts; apply Fresh; cbn; tauto.
      + rewrite !dget_dset_s. unfold fk. destruct use_ts; cbn [String.eqb]; apply Fresh; cbn; tauto.
    - rewrite !dget_dset_s. unfold fk. destruct use_ts; apply Fresh; cbn; tauto. }
  rewrite HS'. rewrite !(dict_total_app R Rth), !(array_total_asum R Rth), Tot. reflexivity.
Qed.
Print Assumptions cost_stages_sum_boxes.

(** * Calibration parameters *)
Lemma param_Ok (R : rops) (ps : list (string * R)) p c : param R ps p = Ok c -> dget String.eqb ps p = Some c.
Proof. unfold param. destruct (dget String.eqb ps p); intros H; [injection H as ->; reflexivity|discriminate]. Qed.
Lemma mapM_all_ok A B (f : A -> result B) (g : A -> B) l : (forall x, f x = Ok (g x)) -> mapM f l = Ok (map g l).
Proof. intros H. induction l as [|x l IH]; cbn; [reflexivity|]. rewrite H. cbn [bind]. rewrite IH. reflexivity. Qed.
Lemma mapM_all_err A B (f : A -> result B) e l : (forall x, f x = Err e) -> l <> [] -> mapM f l = Err e.
Proof. intros H N. destruct l; [contradiction|]. cbn. rewrite H. reflexivity. Qed.
Definition base_factors (R : rops) (e2e : R -> R -> R) (rsqrt : R -> R) (x : xlat R) (nlevels : nat) : factors R :=
  let lev := map (fun l => e2e (rnth R (x_ncoeffs_fmm x) l) (x_ncoeffs_qbx x)) (seq 0 nlevels) in
  Factors R (x_ncoeffs_qbx x) lev lev (x_ncoeffs_qbx x) (rsqrt (x_ncoeffs_qbx x)).
Lemma factors_scale (R : rops) e2e rsqrt (x : xlat R) nlevels ps k : 0 < nlevels -> cost_factors e2e rsqrt x nlevels ps = Ok k ->
  exists c1 c2 c3 c4 c5, dget String.eqb ps "c_p2qbxl" = Some c1 /\ dget String.eqb ps "c_m2qbxl" = Some c2 /\ dget String.eqb ps "c_l2qbxl" = Some c3
    /\ dget String.eqb ps "c_qbxl2p" = Some c4 /\ dget String.eqb ps "c_p2p_tsqbx" = Some c5
    /\ let b := base_factors R e2e rsqrt x nlevels in
       k = Factors R (rmul R c1 (k_p2qbxl b)) (map (rmul R c2) (k_m2qbxl b)) (map (rmul R c3) (k_l2qbxl b)) (rmul R c4 (k_qbxl2p b)) (rmul R c5 (k_p2p_tsqbx b)).
Proof.
  intros NL H. unfold cost_factors in H. assert (NE : seq 0 nlevels <> []) by (destruct nlevels; [lia|discriminate]).
  destruct (param R ps "c_p2qbxl") as [c1|e] eqn:E1; [|discriminate]. cbn [bind] in H.
  destruct (param R ps "c_m2qbxl") as [c2|e] eqn:E2.
  2: { rewrite (mapM_all_err _ _ _ e) in H; [discriminate|reflexivity|exact NE]. }
  rewrite (mapM_all_ok _ _ _ (fun l => rmul R c2 (e2e (rnth R (x_ncoeffs_fmm x) l) (x_ncoeffs_qbx x)))) in H by reflexivity. cbn [bind] in H.
  destruct (param R ps "c_l2qbxl") as [c3|e] eqn:E3.
  2: { rewrite (mapM_all_err _ _ _ e) in H; [discriminate|reflexivity|exact NE]. }
  rewrite (mapM_all_ok _ _ _ (fun l => rmul R c3 (e2e (rnth R (x_ncoeffs_fmm x) l) (x_ncoeffs_qbx x)))) in H by reflexivity. cbn [bind] in H.
  destruct (param R ps "c_qbxl2p") as [c4|e] eqn:E4; [|discriminate]. cbn [bind] in H.
  destruct (param R ps "c_p2p_tsqbx") as [c5|e] eqn:E5; [|discriminate]. cbn [bind] in H. injection H as <-.
  exists c1, c2, c3, c4, c5. split; [apply param_Ok; exact E1|]. split; [apply param_Ok; exact E2|]. split; [apply param_Ok; exact E3|].
  split; [apply param_Ok; exact E4|]. split; [apply param_Ok; exact E5|]. cbn [base_factors k_p2qbxl k_m2qbxl k_l2qbxl k_qbxl2p k_p2p_tsqbx]. rewrite !map_map. reflexivity.
Qed.

Section Scale.
Variable R : rops.
Variable Rth : ring_theory (r0 R) (r1 R) (radd R) (rmul R) (rsub R) (ropp R) eq.
Add Ring Rr4 : Rth.
Variables (T : ftree) (V : ftrav) (level : nat -> nat) (nc : nat) (ttc : list Z).
Lemma per_box_total a spec : per_box R V a spec -> asum R a = lsum R (seq 0 (length (tr_target_boxes V))) spec.
Proof. intros [L H]. rewrite <- (lsum_seq_nth R Rth), L. apply lsum_ext. intros k K. apply in_seq in K. apply H. lia. Qed.
Lemma scale_total (f : R -> list R) spec c x : per_box R V (f (rmul R c x)) (spec (rmul R c x)) -> per_box R V (f x) (spec x) ->
  (forall k, spec (rmul R c x) k = rmul R c (spec x k)) -> asum R (f (rmul R c x)) = rmul R c (asum R (f x)).
Proof. intros H1 H2 E. rewrite (per_box_total _ _ H1), (per_box_total _ _ H2), <- (lsum_mul_l R Rth). apply lsum_ext. intros k _. apply E. Qed.
Lemma rnth_scale c (a : list R) l : rnth R (map (rmul R c) a) l = rmul R c (rnth R a l).
Proof.
  unfold rnth. destruct (lt_dec l (length a)) as [H|H]; [apply nth_map_d; exact H|].
  rewrite !nth_overflow by (rewrite ?map_length; lia). ring.
Qed.
Lemma spec_form_scale c x nd k : spec_form R T V nc ttc (rmul R c x) nd k = rmul R c (spec_form R T V nc ttc x nd k).
Proof. unfold spec_form. rewrite <- (lsum_mul_l R Rth). apply lsum_ext. intros. ring. Qed.
Lemma spec_eval_scale c x k : spec_eval R T V nc ttc (rmul R c x) k = rmul R c (spec_eval R T V nc ttc x k).
Proof. unfold spec_eval. rewrite <- (lsum_mul_l R Rth). apply lsum_ext. intros. ring. Qed.
Lemma spec_eval_ts_scale c x nd k : spec_eval_ts R T V nc ttc (rmul R c x) nd k = rmul R c (spec_eval_ts R T V nc ttc x nd k).
Proof. unfold spec_eval_ts. rewrite <- (lsum_mul_l R Rth). apply lsum_ext. intros. ring. Qed.
Lemma spec_l2q_scale c x k : spec_l2q R T V level nc ttc (map (rmul R c) x) k = rmul R c (spec_l2q R T V level nc ttc x k).
Proof. unfold spec_l2q. rewrite <- (lsum_mul_l R Rth). apply lsum_ext. intros. apply rnth_scale. Qed.
Lemma spec_m2q_scale c x k : spec_m2q R T V nc ttc (map (rmul R c) x) k = rmul R c (spec_m2q R T V nc ttc x k).
Proof.
  unfold spec_m2q. rewrite <- (lsum_mul_l R Rth). apply lsum_ext. intros ? _. rewrite <- (lsum_mul_l R Rth). apply lsum_ext. intros l _. cbn zeta.
  rewrite <- (lsum_mul_l R Rth). apply lsum_ext. intros m _. destruct (_ =? k); [rewrite rnth_scale|]; ring.
Qed.
Lemma unit_get b p : In p (map snd stage_to_param) -> dget String.eqb (unit_params R b) p = Some (r1 R).
Proof.
  intros I. unfold unit_params, dupdate. cbn [fold_left fst snd]. rewrite !dget_dset_s.
  cbn in I. repeat (destruct I as [<-|I]; [cbn; reflexivity|]). destruct I.
Qed.
End Scale.

(** The parameter named for a stage scales exactly that stage: its cost is the parameter times
    the cost under unit parameters.  All other entries are the base class's. *)
Theorem calibration_scales_own_stage (R : rops) (T : ftree) (V : ftrav) (level : nat -> nat) (nc : nat) (ttc : list Z)
    (e2e : R -> R -> R) (rsqrt : R -> R) (B : backend R) (use_ts : bool) (x : xlat R) (nlevels : nat) (ndirect : list nat)
    (ps base base1 units r ru : list (string * R)) :
  lawful R -> backend_ok T V level nc ttc B -> length ndirect = length (tr_target_boxes V) -> 0 < nlevels ->
  qbx_cost_per_stage e2e rsqrt B use_ts x nlevels ndirect ps (Ok base) = Ok r ->
  qbx_cost_per_stage e2e rsqrt B use_ts x nlevels ndirect (unit_params R units) (Ok base1) = Ok ru ->
  let unused := if use_ts then "form_global_qbx_locals" else "eval_target_specific_qbx_locals" in
  (forall s p, In (s, p) stage_to_param -> s <> unused ->
     exists c v, dget String.eqb ps p = Some c /\ dget String.eqb ru s = Some v /\ dget String.eqb r s = Some (rmul R c v))
  /\ (forall s, ~ In s qbx_stages \/ s = unused -> dget String.eqb r s = dget String.eqb base s).
Proof.
  intros [Rth _] (B1 & B2 & B3 & B4 & B5) Ln NL HR HU unused. unfold qbx_cost_per_stage in HR, HU.
  destruct (cost_factors e2e rsqrt x nlevels ps) as [k|e] eqn:FK; [|discriminate].
  destruct (cost_factors e2e rsqrt x nlevels (unit_params R units)) as [ku|e] eqn:FU; [|discriminate]. cbn [bind] in HR, HU.
  injection HR as HR. injection HU as HU.
  destruct (factors_scale _ _ _ _ _ _ _ NL FK) as (c1 & c2 & c3 & c4 & c5 & P1 & P2 & P3 & P4 & P5 & EK). clear FK.
  destruct (factors_scale _ _ _ _ _ _ _ NL FU) as (d1 & d2 & d3 & d4 & d5 & Q1 & Q2 & Q3 & Q4 & Q5 & EU). clear FU.
  rewrite unit_get in Q1, Q2, Q3, Q4, Q5 by (cbn; tauto). injection Q1 as <-. injection Q2 as <-. injection Q3 as <-. injection Q4 as <-. injection Q5 as <-.
  set (b := base_factors R e2e rsqrt x nlevels) in *. cbn zeta in EK, EU. destruct k as [k1 k2 k3 k4 k5], ku as [u1 u2 u3 u4 u5].
  cbn [k_p2qbxl k_m2qbxl k_l2qbxl k_qbxl2p k_p2p_tsqbx] in *.
  assert (One : forall z : R, rmul R (r1 R) z = z) by (apply (Rmul_1_l Rth)).
  assert (OneM : forall l : list R, map (rmul R (r1 R)) l = l) by (intros l; rewrite (map_ext _ (fun z => z) One); apply map_id).
  rewrite !One, !OneM in EU. injection EU as EU1 EU2 EU3 EU4 EU5. injection EK as EK1 EK2 EK3 EK4 EK5.
  rewrite <- EU1 in EK1. rewrite <- EU2 in EK2. rewrite <- EU3 in EK3. rewrite <- EU4 in EK4. rewrite <- EU5 in EK5.
  clear EU1 EU2 EU3 EU4 EU5 b.
  assert (S1 : asum R (p_form B k1 ndirect) = rmul R c1 (asum R (p_form B u1 ndirect))).
  { rewrite EK1. apply (scale_total R Rth V (fun z => p_form B z ndirect) (fun z => spec_form R T V nc ttc z ndirect)); [apply B1; exact Ln|apply B1; exact Ln|]. intros kk. apply (spec_form_scale R Rth). }
  assert (S5 : asum R (p_eval_ts B k5 ndirect) = rmul R c5 (asum R (p_eval_ts B u5 ndirect))).
  { rewrite EK5. apply (scale_total R Rth V (fun z => p_eval_ts B z ndirect) (fun z => spec_eval_ts R T V nc ttc z ndirect)); [apply B5; exact Ln|apply B5; exact Ln|]. intros kk. apply (spec_eval_ts_scale R Rth). }
  assert (S4 : asum R (p_eval B k4) = rmul R c4 (asum R (p_eval B u4))).
  { rewrite EK4. apply (scale_total R Rth V (fun z => p_eval B z) (fun z => spec_eval R T V nc ttc z)); [apply B4|apply B4|]. intros kk. apply (spec_eval_scale R Rth). }
  assert (S2 : asum R (p_m2q B k2) = rmul R c2 (asum R (p_m2q B u2))).
  { rewrite EK2. rewrite (per_box_total R Rth V _ _ (B2 (map (rmul R c2) u2))), (per_box_total R Rth V _ _ (B2 u2)), <- (lsum_mul_l R Rth). apply lsum_ext. intros kk _. apply (spec_m2q_scale R Rth). }
  assert (S3 : asum R (p_l2q B k3) = rmul R c3 (asum R (p_l2q B u3))).
  { rewrite EK3. rewrite (per_box_total R Rth V _ _ (B3 (map (rmul R c3) u3))), (per_box_total R Rth V _ _ (B3 u3)), <- (lsum_mul_l R Rth). apply lsum_ext. intros kk _. apply (spec_l2q_scale R Rth). }
  rewrite S1, S2, S3, S4, S5 in HR. cbn zeta in HR, HU. rewrite <- HR, <- HU. clear HR HU.
  split.
  - intros s p I NU. cbn in I. unfold unused in NU. destruct use_ts;
      (destruct I as [I|[I|[I|[I|[I|[]]]]]]; injection I as <- <-; try (exfalso; apply NU; reflexivity);
       rewrite !dget_dset_s; cbn [String.eqb Ascii.eqb Bool.eqb andb]; do 2 eexists; (split; [eassumption|split; reflexivity])).
  - intros s H.
    assert (NE : forall t, In t qbx_stages -> t <> unused -> String.eqb s t = false).
    { intros t It Nt. apply String.eqb_neq. intros ->. destruct H as [H|H]; [exact (H It)|exact (Nt H)]. }
    rewrite !dget_dset_s. unfold unused in *.
    rewrite (NE "eval_qbx_expansions"), (NE "translate_box_local_to_qbx_local"), (NE "translate_box_multipoles_to_qbx_local")
      by (try (cbn; tauto); destruct use_ts; discriminate).
    destruct use_ts; rewrite dget_dset_s; [rewrite (NE "eval_target_specific_qbx_locals")|rewrite (NE "form_global_qbx_locals")]; try reflexivity; try (cbn; tauto); discriminate.
Qed.
Print Assumptions calibration_scales_own_stage.

(** A missing parameter is an error, whichever variant of QBX is used. *)
Theorem calibration_missing_parameter (R : rops) (V : ftrav) (e2e : R -> R -> R) (rsqrt : R -> R) (B : backend R) (use_ts : bool) (x : xlat R)
    (nlevels : nat) (ndirect : list nat) (ps : list (string * R)) (s p : string) :
  0 < nlevels -> In (s, p) stage_to_param -> dget String.eqb ps p = None ->
  (forall base, qbx_cost_per_stage e2e rsqrt B use_ts x nlevels ndirect ps base = Err UnknownVariable)
  /\ (forall base, qbx_cost_per_box V e2e rsqrt B use_ts x nlevels ndirect ps base = Err UnknownVariable).
Proof.
  intros NL I E. assert (F : cost_factors e2e rsqrt x nlevels ps = Err UnknownVariable).
  { destruct (cost_factors e2e rsqrt x nlevels ps) as [k|e] eqn:F.
    - exfalso. destruct (factors_scale _ _ _ _ _ _ _ NL F) as (c1 & c2 & c3 & c4 & c5 & P1 & P2 & P3 & P4 & P5 & _).
      cbn in I. destruct I as [I|[I|[I|[I|[I|[]]]]]]; injection I as <- <-; congruence.
    - assert (Q : forall q e', param R ps q = Err e' -> e' = UnknownVariable) by (intros q e'; unfold param; destruct (dget String.eqb ps q); congruence).
      unfold cost_factors in F. destruct (param R ps "c_p2qbxl") as [c1|e1] eqn:E1; cbn [bind] in F; [|injection F as <-; f_equal; eapply Q; eassumption].
      assert (NE : seq 0 nlevels <> []) by (destruct nlevels; [lia|discriminate]).
      destruct (param R ps "c_m2qbxl") as [c2|e2] eqn:E2.
      2: { rewrite (mapM_all_err _ _ _ e2) in F by (try reflexivity; exact NE). cbn [bind] in F. injection F as <-. f_equal. eapply Q; eassumption. }
      rewrite (mapM_all_ok _ _ _ (fun l => rmul R c2 (e2e (rnth R (x_ncoeffs_fmm x) l) (x_ncoeffs_qbx x)))) in F by reflexivity. cbn [bind] in F.
      destruct (param R ps "c_l2qbxl") as [c3|e3] eqn:E3.
      2: { rewrite (mapM_all_err _ _ _ e3) in F by (try reflexivity; exact NE). cbn [bind] in F. injection F as <-. f_equal. eapply Q; eassumption. }
      rewrite (mapM_all_ok _ _ _ (fun l => rmul R c3 (e2e (rnth R (x_ncoeffs_fmm x) l) (x_ncoeffs_qbx x)))) in F by reflexivity. cbn [bind] in F.
      destruct (param R ps "c_qbxl2p") as [c4|e4] eqn:E4; cbn [bind] in F; [|injection F as <-; f_equal; eapply Q; eassumption].
      destruct (param R ps "c_p2p_tsqbx") as [c5|e5] eqn:E5; cbn [bind] in F; [discriminate|injection F as <-; f_equal; eapply Q; eassumption]. }
  split; intros base; [unfold qbx_cost_per_stage|unfold qbx_cost_per_box]; rewrite F; reflexivity.
Qed.
Print Assumptions calibration_missing_parameter.

(** * Kernel-specific calibration groups by source kernels *)
Lemma fset_eqb_spec a b : fset_eqb a b = true <-> same_set a b.
Proof.
  assert (G : forall x l, existsb (Nat.eqb x) l = true <-> In x l).
  { intros x l. rewrite existsb_exists. split; [intros (y & Y & E); apply Nat.eqb_eq in E; subst; exact Y|intros Y; exists x; split; [exact Y|apply Nat.eqb_refl]]. }
  unfold fset_eqb, same_set. rewrite andb_true_iff, !forallb_forall. split.
  - intros [H1 H2] x. split; intros I; apply G; [apply H1|apply H2]; exact I.
  - intros H. split; intros x I; apply G; apply H; exact I.
Qed.
Lemma fset_sym a b : fset_eqb a b = fset_eqb b a.
Proof. unfold fset_eqb. apply andb_comm. Qed.
Lemma fset_trans a b c : fset_eqb a b = true -> fset_eqb a c = fset_eqb b c.
Proof.
  intros H. apply eq_true_iff_eq. rewrite !fset_eqb_spec in *. unfold same_set in *. split; intros G x; rewrite <- G; [symmetry|]; apply H.
Qed.
Lemma fset_refl a : fset_eqb a a = true.
Proof. apply fset_eqb_spec. intros x. tauto. Qed.
Lemma dget_dset_f A (d : list (list nat * A)) k v k' : dget fset_eqb (dset fset_eqb d k v) k' = if fset_eqb k' k then Some v else dget fset_eqb d k'.
Proof.
  induction d as [|[k0 v0] d IH]; cbn; [reflexivity|]. destruct (fset_eqb k k0) eqn:E; cbn.
  - rewrite (fset_sym k' k), (fset_sym k' k0). rewrite (fset_trans k k0 k' E). destruct (fset_eqb k0 k'); reflexivity.
  - rewrite IH. destruct (fset_eqb k' k0) eqn:E'; [|reflexivity]. rewrite (fset_trans k' k0 k E'), (fset_sym k0 k), E. reflexivity.
Qed.
Lemma dget_find (M : Type) (d : list (cstmt * M)) s :
  dget cstmt_eqb d s = match find (fun e => cstmt_eqb s (fst e)) d with Some e => Some (snd e) | None => None end.
Proof. induction d as [|[k v] d IH]; cbn; [reflexivity|]. destruct (cstmt_eqb s k); [reflexivity|exact IH]. Qed.

Section Group.
Variable M : Type.
(** Processed measurements: source kernels, modeled and measured cost. *)
Definition rel_inv (g : list (list nat * (list M * list M))) (h : list (list nat * (M * M))) : Prop :=
  forall k, dget fset_eqb g k = match filter (fun x => fset_eqb k (fst x)) h with
                                | [] => None
                                | l => Some (map (fun x => fst (snd x)) l, map (fun x => snd (snd x)) l)
                                end.
Definition hist_case (model real : list (cstmt * M)) : list (option M * (cstmt * M)) :=
  map (fun sr => (match find (fun e => cstmt_eqb (fst sr) (fst e)) model with Some e => Some (snd e) | None => None end, sr)) real.
Lemma rel_step g h k m r : rel_inv g h ->
  rel_inv (dset fset_eqb g k (fst (match dget fset_eqb g k with Some x => x | None => ([], []) end) ++ [m],
                              snd (match dget fset_eqb g k with Some x => x | None => ([], []) end) ++ [r])) (h ++ [(k, (m, r))]).
Proof.
  intros H k'. rewrite dget_dset_f, filter_app. cbn [filter fst]. destruct (fset_eqb k' k) eqn:E.
  - assert (X : dget fset_eqb g k = dget fset_eqb g k').
    { rewrite !H. replace (filter (fun x : list nat * (M * M) => fset_eqb k (fst x)) h) with (filter (fun x : list nat * (M * M) => fset_eqb k' (fst x)) h); [reflexivity|].
      apply filter_ext. intros x. apply fset_trans. exact E. }
    rewrite X, H. destruct (filter (fun x => fset_eqb k' (fst x)) h) as [|y l]; [reflexivity|]. cbn [fst snd app map].
    rewrite !map_app. reflexivity.
  - rewrite app_nil_r. apply H.
Qed.
Lemma group_case_err model real e : fold_left (fun acc sr =>
      do g <- acc;
      let '(s, r) := sr in
      match dget cstmt_eqb model s with
      | None => Err AssertionError
      | Some m =>
        let k := cs_source_kernels s in
        let '(ms, rs) := match dget fset_eqb g k with Some x => x | None => ([], []) end in
        Ok (dset fset_eqb g k (ms ++ [m], rs ++ [r]))
      end) real (Err e) = (Err e : result (list (list nat * (list M * list M)))).
Proof. induction real as [|sr real IH]; cbn; [reflexivity|exact IH]. Qed.
Lemma group_case_spec model real : forall g h, rel_inv g h ->
  match group_case g model real with
  | Ok g' => exists l, Forall2 (fun (sr : cstmt * M) y => fst y = cs_source_kernels (fst sr) /\ snd (snd y) = snd sr /\ dget cstmt_eqb model (fst sr) = Some (fst (snd y))) real l /\ rel_inv g' (h ++ l)
  | Err e => e = AssertionError /\ exists sr, In sr real /\ dget cstmt_eqb model (fst sr) = None
  end.
Proof.
  induction real as [|[s r] real IH]; intros g h H.
  - cbn. exists []. split; [constructor|rewrite app_nil_r; exact H].
  - unfold group_case. cbn [fold_left bind]. destruct (dget cstmt_eqb model s) as [m|] eqn:E.
    + pose proof (rel_step g h (cs_source_kernels s) m r H) as H'. cbn zeta.
      destruct (match dget fset_eqb g (cs_source_kernels s) with Some x => x | None => ([], []) end) as [ms rs]. cbn [fst snd] in H'.
      specialize (IH _ _ H'). unfold group_case in IH. destruct (fold_left _ real _) as [g'|e].
      * destruct IH as (l & F & I). exists ((cs_source_kernels s, (m, r)) :: l). split; [constructor; [cbn; auto|exact F]|]. rewrite <- app_assoc in I. exact I.
      * destruct IH as (-> & sr & I & N). split; [reflexivity|]. exists sr. split; [right; exact I|exact N].
    + rewrite group_case_err. split; [reflexivity|]. exists (s, r). split; [left; reflexivity|exact E].
Qed.
Lemma samples_case (models : list (cstmt * M)) real l k :
  Forall2 (fun (sr : cstmt * M) y => fst y = cs_source_kernels (fst sr) /\ snd (snd y) = snd sr /\ dget cstmt_eqb models (fst sr) = Some (fst (snd y))) real l ->
  map (fun sr => (match find (fun e => cstmt_eqb (fst sr) (fst e)) models with Some e => Some (snd e) | None => None end, snd sr))
        (filter (fun sr => fset_eqb k (cs_source_kernels (fst sr))) real)
  = map (fun y : list nat * (M * M) => (Some (fst (snd y)), snd (snd y))) (filter (fun y => fset_eqb k (fst y)) l).
Proof.
  induction 1 as [|sr y real l (E1 & E2 & E3) F IH]; [reflexivity|]. cbn [filter]. rewrite E1.
  destruct (fset_eqb k (cs_source_kernels (fst sr))); [|exact IH]. cbn [map]. rewrite IH, E2, <- dget_find, E3. reflexivity.
Qed.
Lemma group_cases_spec models : forall reals g h, rel_inv g h -> length models = length reals ->
  match group_cases g models reals with
  | Ok g' => exists l, rel_inv g' (h ++ l) /\ (forall k, samples models reals k = map (fun y : list nat * (M * M) => (Some (fst (snd y)), snd (snd y))) (filter (fun y => fset_eqb k (fst y)) l))
             /\ (forall m r sr, In (m, r) (combine models reals) -> In sr r -> dget cstmt_eqb m (fst sr) <> None)
  | Err e => e = AssertionError /\ exists m r sr, In (m, r) (combine models reals) /\ In sr r /\ dget cstmt_eqb m (fst sr) = None
  end.
Proof.
  induction models as [|m models IH]; intros [|r reals] g h H L; try discriminate L.
  - cbn. exists []. split; [rewrite app_nil_r; exact H|]. split; [reflexivity|tauto].
  - cbn [group_cases]. pose proof (group_case_spec m r g h H) as G. destruct (group_case g m r) as [g1|e].
    + destruct G as (l1 & F & I1). cbn [bind]. specialize (IH reals g1 (h ++ l1) I1 (eq_add_S _ _ L)). destruct (group_cases g1 models reals) as [g'|e].
      * destruct IH as (l & I & S & N). exists (l1 ++ l). split; [rewrite app_assoc; exact I|]. split.
        -- intros k. unfold samples. cbn [combine flat_map fst snd]. rewrite filter_app, map_app. f_equal; [apply samples_case; exact F|apply S].
        -- intros m' r' sr [E|In'] Is.
           ++ injection E as <- <-. destruct (SymProofs.Forall2_In_l F Is) as (y & _ & _ & _ & E). rewrite E. discriminate.
           ++ eapply N; eassumption.
      * destruct IH as (-> & m' & r' & sr & I & J & N). split; [reflexivity|]. exists m', r', sr. split; [right; exact I|auto].
    + destruct G as (-> & sr & I & N). cbn [bind]. split; [reflexivity|]. exists m, r, sr. split; [left; reflexivity|auto].
Qed.
End Group.

(** The parameters returned for a set of kernels are estimated from the measurements of exactly
    the statements whose source kernels form that set, over all cases and in order; an
    assertion fails exactly if the numbers of cases differ or a measured statement was not
    modeled. *)
Theorem calibration_groups_by_source_kernels (M P : Type) (est : list M -> list M -> P) (models reals : list (list (cstmt * M))) :
  match estimate est models reals with
  | Ok d => length models = length reals
      /\ forall k, match dget fset_eqb d k with
                   | Some p => exists ms rs, samples models reals k = combine (map Some ms) rs /\ length ms = length rs /\ ms <> [] /\ p = est ms rs
                   | None => samples models reals k = []
                   end
  | Err e => e = AssertionError
      /\ (length models <> length reals
          \/ exists m r sr, In (m, r) (combine models reals) /\ In sr r /\ forall e, In e m -> cs_id (fst e) <> cs_id (fst sr))
  end.
Proof.
  unfold estimate. destruct (length models =? length reals) eqn:L.
  2: { split; [reflexivity|]. left. apply Nat.eqb_neq. exact L. }
  apply Nat.eqb_eq in L.
  assert (H0 : rel_inv M [] []) by (intros k; reflexivity).
  pose proof (group_cases_spec M models reals [] [] H0 L) as G. destruct (group_cases [] models reals) as [g|e]; cbn [bind].
  - destruct G as (l & I & S & _). split; [exact L|]. intros k.
    assert (E : dget fset_eqb (map (fun '(k0, (ms, rs)) => (k0, est ms rs)) g) k = match dget fset_eqb g k with Some (ms, rs) => Some (est ms rs) | None => None end).
    { clear. induction g as [|[k0 [ms rs]] g IH]; cbn; [reflexivity|]. destruct (fset_eqb k k0); [reflexivity|exact IH]. }
    rewrite E, I. rewrite S. cbn [app]. destruct (filter (fun y : list nat * (M * M) => fset_eqb k (fst y)) l) as [|y f]; [reflexivity|].
    exists (map (fun x => fst (snd x)) (y :: f)), (map (fun x => snd (snd x)) (y :: f)). split; [|split; [rewrite !map_length; reflexivity|split; [discriminate|reflexivity]]].
    clear. induction (y :: f) as [|z l IH]; cbn; [reflexivity|]. f_equal. exact IH.
  - destruct G as (-> & m & r & sr & I & J & N). split; [reflexivity|]. right. exists m, r, sr. split; [exact I|]. split; [exact J|].
    intros e Ie E. rewrite dget_find in N. destruct (find _ m) eqn:F; [discriminate|]. pose proof (find_none _ _ F _ Ie) as X. cbn in X. unfold cstmt_eqb in X. apply Nat.eqb_neq in X. congruence.
Qed.
Print Assumptions calibration_groups_by_source_kernels.

(** * What cost_per_stage and cost_per_box report *)

(** They never report anything: no layer potential statement appears in the result. *)
Theorem cost_report_is_empty_refuted (M P : Type) (cal : calib P) (u : P) (code : list (cstmt * bool)) (r : list (cstmt * M) * list (cstmt * M)) :
  run_cost M cal u code = Ok r -> r = ([], []).
Proof.
  unfold run_cost. assert (G : forall st, fold_left (fun acc sd => do st <- acc; exec_cost_insn (M := M) cal u (snd sd) st (fst sd)) code (Ok st) = Ok st
      \/ exists e, fold_left (fun acc sd => do st <- acc; exec_cost_insn (M := M) cal u (snd sd) st (fst sd)) code (Ok st) = Err e).
  { induction code as [|sd code IH]; intros st; [left; reflexivity|]. cbn [fold_left bind].
    assert (X : exec_cost_insn cal u (snd sd) st (fst sd) = Ok st \/ exists e, exec_cost_insn cal u (snd sd) st (fst sd) = Err e).
    { unfold exec_cost_insn. destruct (match cal with ConstantOne _ => _ | PerKernel _ => _ end); cbn [bind]; [|right; eauto].
      destruct (cost_model_insn (snd sd)); cbn [bind]; [|right; eauto]. destruct (dget _ _ _); [right; eauto|left; reflexivity]. }
    destruct X as [X|[e X]]; rewrite X; [apply IH|right].
    exists e. clear. induction code as [|sd' code IH]; [reflexivity|exact IH]. }
  destruct (G (CState [] [])) as [E|[e E]]; rewrite E; cbn [bind]; [intros H; injection H as <-; reflexivity|discriminate].
Qed.
Print Assumptions cost_report_is_empty_refuted.

(** Parameters estimated from a statement's own measurements are not found again for it as soon
    as its source kernels and target kernels differ. *)
Theorem calibration_lookup_fails_refuted (M P : Type) (est : list M -> list M -> P) (u : P) (s : cstmt) (m r : M) (d : list (list nat * P)) :
  estimate est [[(s, m)]] [[(s, r)]] = Ok d -> ~ same_set (cs_source_kernels s) (cs_target_kernels s) ->
  run_cost M (PerKernel d) u [(s, false)] = Err KeyError.
Proof.
  intros H N. unfold estimate in H. cbn [length Nat.eqb group_cases group_case fold_left bind dget combine] in H. unfold cstmt_eqb in H. rewrite Nat.eqb_refl in H. cbn [dget bind app dset map] in H.
  injection H as <-. unfold run_cost. cbn [fold_left bind fst snd]. unfold exec_cost_insn. cbn [dget].
  destruct (fset_eqb (cs_target_kernels s) (cs_source_kernels s)) eqn:E; [|reflexivity].
  exfalso. apply N. apply fset_eqb_spec. rewrite fset_sym. exact E.
Qed.
Print Assumptions calibration_lookup_fails_refuted.
(** The double layer: kernel 0 is the derivative of kernel 1. *)
Definition dlp : cstmt := CStmt 7 [0] [1].
Example calibration_lookup_fails_applies : exists d, estimate (fun ms rs : list nat => (ms, rs)) [[(dlp, 3)]] [[(dlp, 5)]] = Ok d
  /\ ~ same_set (cs_source_kernels dlp) (cs_target_kernels dlp).
Proof. eexists. split; [reflexivity|]. intros H. destruct (H 0) as [H1 _]. destruct H1 as [X|[]]; [left; reflexivity|discriminate X]. Qed.
Example cost_report_applies : run_cost nat (ConstantOne nat) 1 [(dlp, false); (CStmt 8 [2] [2], false)] = Ok ([], []).
Proof. reflexivity. Qed.
Example groups_example : estimate (fun ms rs : list nat => (ms, rs))
    [[(dlp, 3); (CStmt 8 [2] [2], 4)]; [(CStmt 9 [0] [1], 10)]] [[(dlp, 5); (CStmt 8 [2] [2], 6)]; [(CStmt 9 [0] [1], 20)]]
  = Ok [([0], ([3; 10], [5; 20])); ([2], ([4], [6]))].
Proof. reflexivity. Qed.

(** * The theorems apply *)
Definition ZC : rops := mk_rops 0%Z 1%Z Z.add Z.mul Z.sub Z.opp (fun z => z) Z.eqb.
Lemma ZC_lawful : lawful ZC.
Proof. split; [exact InitialRing.Zth|]. intros a b. apply Z.eqb_eq. Qed.
Lemma tree5_nodup : forall b, In b (tr_target_boxes trav5) -> NoDup (ft_box_tgt tree5 b).
Proof. intros b [<- | [<- | []]]; cbn; repeat constructor; cbn; intuition lia. Qed.
Definition level5 (b : nat) : nat := nth b [0; 1; 1; 2; 2] 0.
Definition xlat5 : xlat ZC := @Xlat ZC 9%Z [4%Z; 9%Z; 16%Z].
Definition params5 : list (string * ZC) :=
  [("c_p2qbxl", 2%Z); ("c_m2qbxl", 3%Z); ("c_l2qbxl", 5%Z); ("c_qbxl2p", 7%Z); ("c_p2p_tsqbx", 11%Z)].
Example stage_example :
  qbx_cost_per_stage (R := ZC) Z.mul Z.sqrt (vec_backend ZC tree5 trav5 level5 1 ttc5) false xlat5 3 [3; 1] params5 (Ok [("eval_direct", 100%Z)])
  = Ok [("eval_direct", 100%Z); ("form_global_qbx_locals", 54%Z); ("translate_box_multipoles_to_qbx_local", 243%Z);
        ("translate_box_local_to_qbx_local", 405%Z); ("eval_qbx_expansions", 63%Z)].
Proof. vm_compute. reflexivity. Qed.
Example box_example :
  qbx_cost_per_box trav5 (R := ZC) Z.mul Z.sqrt (py_backend ZC tree5 trav5 level5 1 ttc5) false xlat5 3 [3; 1] params5 (Ok [0%Z; 60%Z; 0%Z; 0%Z; 40%Z])
  = Ok [0%Z; 825%Z; 0%Z; 0%Z; 40%Z].
Proof. vm_compute. reflexivity. Qed.
Example agree_applies :
  qbx_cost_per_stage (R := ZC) Z.mul Z.sqrt (py_backend ZC tree5 trav5 level5 1 ttc5) true xlat5 3 [3; 1] params5 (Ok [("eval_direct", 100%Z)])
  = Ok [("eval_direct", 100%Z); ("eval_target_specific_qbx_locals", 99%Z); ("translate_box_multipoles_to_qbx_local", 243%Z);
        ("translate_box_local_to_qbx_local", 405%Z); ("eval_qbx_expansions", 63%Z)].
Proof.
  destruct (cost_backends_agree ZC tree5 trav5 level5 1 ttc5 Z.mul Z.sqrt true xlat5 3 [3; 1] params5 ZC_lawful tree5_ok tree5_nodup ttc5_ok eq_refl) as [_ H].
  rewrite <- H. vm_compute. reflexivity.
Qed.
Example sums_applies : array_total ZC [0%Z; 825%Z; 0%Z; 0%Z; 40%Z] = 865%Z.
Proof.
  assert (Fr : forall s, In s qbx_stages -> dget String.eqb [("eval_direct", 100%Z : ZC)] s = None)
    by (intros s I; cbn in I; repeat (destruct I as [<-|I]; [reflexivity|]); destruct I).
  pose proof (fun H => cost_stages_sum_boxes ZC tree5 trav5 level5 1 ttc5 Z.mul Z.sqrt (py_backend ZC tree5 trav5 level5 1 ttc5) false xlat5 3 [3; 1] params5
    [0%Z; 60%Z; 0%Z; 0%Z; 40%Z] [("eval_direct", 100%Z)] [0%Z; 825%Z; 0%Z; 0%Z; 40%Z]
    [("eval_direct", 100%Z); ("form_global_qbx_locals", 54%Z); ("translate_box_multipoles_to_qbx_local", 243%Z);
        ("translate_box_local_to_qbx_local", 405%Z); ("eval_qbx_expansions", 63%Z)]
    ZC_lawful tree5_ok (cost_reference_counts ZC tree5 trav5 level5 1 ttc5 ZC_lawful tree5_ok ttc5_ok)
    eq_refl eq_refl eq_refl Fr box_example H) as X.
  rewrite (proj2 (X ltac:(vm_compute; reflexivity))). reflexivity.
Qed.
Example calibration_applies : exists c v, dget String.eqb params5 "c_m2qbxl" = Some c /\ c = 3%Z /\ v = 81%Z
  /\ qbx_cost_per_stage (R := ZC) Z.mul Z.sqrt (vec_backend ZC tree5 trav5 level5 1 ttc5) false xlat5 3 [3; 1] (unit_params ZC []) (Ok [])
     = Ok [("form_global_qbx_locals", 27%Z); ("translate_box_multipoles_to_qbx_local", v);
        ("translate_box_local_to_qbx_local", 81%Z); ("eval_qbx_expansions", 9%Z)].
Proof. exists 3%Z, 81%Z. vm_compute. repeat split. Qed.

(** Exactly when a run succeeds (it then reports nothing): no source evaluates directly, and
    there are parameters under each statement's set of *target* kernels. *)
Theorem cost_run_succeeds_iff_partial (M P : Type) (cal : calib P) (u : P) (code : list (cstmt * bool)) :
  run_cost M cal u code = Ok ([], []) <->
  forall s direct, In (s, direct) code ->
    direct = false /\
    match cal with
    | ConstantOne _ => True
    | PerKernel d => exists k p, In (k, p) d /\ same_set k (cs_target_kernels s)
    end.
Proof.
  assert (ONE : forall s direct, exec_cost_insn (M := M) cal u direct (CState [] []) s = Ok (CState [] []) <->
     (direct = false /\ match cal with ConstantOne _ => True | PerKernel d => exists k p, In (k, p) d /\ same_set k (cs_target_kernels s) end)).
  { intros s direct. unfold exec_cost_insn. destruct cal as [|d].
    - cbn [bind]. destruct direct; cbn [cost_model_insn bind modeled_cost dget]; split; try discriminate; auto; intros [X _]; discriminate.
    - assert (G : (exists p, dget fset_eqb d (cs_target_kernels s) = Some p) <-> exists k p, In (k, p) d /\ same_set k (cs_target_kernels s)).
      { induction d as [|[k p] d IH]; cbn [dget].
        - split; [intros [p X]; discriminate|intros (k & p & [] & _)].
        - destruct (fset_eqb (cs_target_kernels s) k) eqn:E.
          + split; [intros _; exists k, p; split; [now left|apply fset_eqb_spec; rewrite fset_sym; exact E]|eauto].
          + rewrite IH. split; intros (k' & p' & I & SS); exists k', p'; (split; [|exact SS]); [now right|].
            destruct I as [I|I]; [|exact I]. exfalso. injection I as -> ->. apply fset_eqb_spec in SS. rewrite fset_sym in SS. congruence. }
      destruct (dget fset_eqb d (cs_target_kernels s)) as [p|]; cbn [bind].
      + destruct direct; cbn [cost_model_insn bind modeled_cost dget]; split; try discriminate; auto; try (intros [X _]; discriminate).
        intros _. split; [reflexivity|]. apply G. eauto.
      + split; [discriminate|]. intros [_ X]. apply G in X. destruct X as [p X]. discriminate. }
  unfold run_cost.
  assert (ERR : forall l e, fold_left (fun acc sd => do st <- acc; exec_cost_insn (M := M) cal u (snd sd) st (fst sd)) l (Err e) = Err e)
    by (induction l as [|sd l IH]; intros e; [reflexivity|exact (IH e)]).
  induction code as [|[s direct] code IH].
  - cbn. split; [intros _ s d []|reflexivity].
  - cbn [fold_left bind fst snd]. destruct (exec_cost_insn cal u direct (CState [] []) s) as [st|e] eqn:E.
    + assert (st = CState [] []).
      { unfold exec_cost_insn in E. destruct (match cal with ConstantOne _ => _ | PerKernel _ => _ end); cbn [bind] in E; [|discriminate].
        destruct (cost_model_insn direct); cbn [bind] in E; [|discriminate]. cbn [modeled_cost dget] in E. congruence. }
      subst st. rewrite IH. apply ONE in E. split.
      * intros H s' d' [X|X]; [injection X as <- <-; exact E|exact (H s' d' X)].
      * intros H s' d' X. apply H. now right.
    + rewrite ERR. cbn [bind]. split; [discriminate|]. intros H. exfalso.
      specialize (H s direct (or_introl eq_refl)). apply ONE in H. congruence.
Qed.
Print Assumptions cost_run_succeeds_iff_partial.
(** A single-layer statement with parameters for its kernel: the run succeeds. *)
Example cost_run_applies : run_cost nat (PerKernel [([4; 2], 7)]) 1 [(CStmt 8 [5] [2; 4], false)] = Ok ([], []).
Proof.
  apply cost_run_succeeds_iff_partial. intros s d [X|[]]. injection X as <- <-. split; [reflexivity|].
  exists [4; 2], 7. split; [now left|]. intros x. cbn. tauto.
Qed.
