(** Proofs about QxModel, continued: relation to FmmModel, inputs of the tree, logs. *)
From Coq Require Import QArith Permutation.
From Verif Require Import Base RefineModel RefineSpec AssocModel AssocSpec FmmModel FmmSpec FmmProofs FmmProofs2 FmmProofs3 FmmProofs4 FmmProps QxModel QxSpec QxProofs.
Set Implicit Arguments.
Open Scope nat_scope.

(** ** Target gathering *)
Lemma gather_same W (obj : nat -> result nat) outs : forall d ts,
  gather_targets (fun t => do x <- obj t; Ok (w_pts W x)) outs d (map (fun e : nat * Z => (w_pts W (fst e), snd e)) ts)
  = match gather obj outs d ts with Ok r => Ok (fst r, map (fun e : nat * Z => (w_pts W (fst e), snd e)) (snd r)) | Err e => Err e end.
Proof.
  induction outs as [|o outs IH]; intros d ts; cbn [gather gather_targets]; [reflexivity|].
  destruct (lookup_key d (o_tgt o, o_limit o)); [apply IH|]. destruct (obj (o_tgt o)) as [x|e]; cbn [Base.bind]; [|reflexivity].
  rewrite <- IH. f_equal; [|rewrite map_app; reflexivity]. rewrite map_length. reflexivity.
Qed.
Definition points_at (W : world) (b : bexpr) (t : nat) : result (list pt) := do x <- b_obj b t; Ok (w_pts W x).

(** ** The FMM of FmmModel *)
Definition with_fmm (q : qsource) (T : ftree) (V : ftrav) : qsource :=
  QS (q_src q) (q_ctr q) (q_discr q) (q_tunnel q) (q_radius q) (q_tol q) (q_dev q) (q_order q) (q_tree q) (q_nquad q)
    (fun x => if length x =? ft_ntgt T then (T, V) else one_fmm (q_nquad q) (length x)).
Lemma with_fmm_ok q T V near : source_ok q near -> source_ok (with_fmm q T V) near.
Proof. intros [A B D E F G]. constructor; assumption. Qed.
Lemma with_fmm_at q T V x : fmm_ok T V -> ft_nsrc T = q_nquad q -> fmm_at (with_fmm q T V) x.
Proof.
  intros O N. unfold fmm_at. cbn [with_fmm q_fmm q_nquad]. destruct (length x =? ft_ntgt T) eqn:E.
  - apply Nat.eqb_eq in E. cbn. auto.
  - split; [apply one_fmm_ok|]. cbn. auto.
Qed.
Definition pots (r : list (string * list (list contr))) : list (string * value) := map (fun e => (fst e, Pot (snd e))) r.
Lemma pick_same numbers starts p (nm : string) outs : forall r,
  mapM (pick_output numbers starts p) outs = Ok r ->
  exists r0, mapM (fun o =>
        match lookup_key numbers (o_tgt o, o_limit o) with
        | None => Err KeyError
        | Some n => match nth_error p (o_knl o) with
          | None => Err IndexError
          | Some p => Ok (o_name o, slice p (nth n starts 0) (nth (n + 1) starts 0)) end
        end) outs = Ok r0 /\ r = pots r0.
Proof.
  induction outs as [|o outs IH]; intros r H; cbn [mapM] in *; [injection H as <-; exists []; auto|].
  unfold pick_output at 1 in H. destruct (lookup_key numbers (o_tgt o, o_limit o)) as [n|]; [|discriminate].
  destruct (nth_error p (o_knl o)) as [v|]; [|discriminate]. cbn [Base.bind] in H.
  destruct (mapM (pick_output numbers starts p) outs) as [r'|]; [|discriminate]. cbn [Base.bind] in H. injection H as <-.
  destruct (IH r' eq_refl) as (r0 & E & ->). rewrite E. cbn [Base.bind]. eexists. split; [reflexivity|]. reflexivity.
Qed.

Lemma sum_length (ts : list (list pt * Z)) : length (concat (map fst ts)) = list_sum (map (@length pt) (map fst ts)).
Proof. induction ts as [|[x z] ts IH]; cbn; [reflexivity|]. rewrite app_length, IH. reflexivity. Qed.
Lemma assoc_length q ts a : associate_all q ts = Associated a -> length a = length (concat (map fst ts)).
Proof.
  unfold associate_all. rewrite skip_points. unfold associate, build_tree. destruct (2 * _ =? _); [|discriminate]. unfold list_sum. cbn [map fst fold_right q_ntgt]. rewrite Nat.add_0_r. set (n := length (concat (map fst ts))). clearbody n.
  destruct (negb _); [intros E; injection E as <-; apply repeat_length|]. destruct (target_flags _); [|discriminate].
  destruct (existsb _ _); [destruct (flat_map _ _); discriminate|]. intros E. injection E as <-. rewrite !map_length, seq_length. reflexivity.
Qed.
Section Rel.
Variable W : world.
Variable C : settings.

Lemma oval A B (o : outcome A) (f : A -> outcome B) r : obind o f = Val r -> exists a, o = Val a /\ f a = Val r.
Proof. destruct o; cbn; [eauto|discriminate]. Qed.
Lemma olift_val A (r : result A) a : olift r = Val a -> r = Ok a.
Proof. destruct r; cbn; [intros E; injection E as ->; reflexivity|discriminate]. Qed.
Lemma p_raise_val o : p_raise o = Val tt -> o = None.
Proof. destruct o; [discriminate|reflexivity]. Qed.

(** What a successful prefix means. *)
Lemma pre_inv i b x : p_pre W C i b = Val x -> exists numbers tgts T V a,
  let k := GK (b_places b) (i_src i) tgts in
  x = (numbers, k, T, V, user_ttc (length (q_ctr (source_of W k))) a)
  /\ gather (b_obj b) (i_outs i) [] [] = Ok (numbers, tgts)
  /\ i_strengths i = None /\ i_args i = None
  /\ associate_all (source_of W k) (points_of W k) = Associated a
  /\ p_tree W C k = Val T /\ p_trav W C k = Val V
  /\ exists base, base_kernel W (i_skn i) = Ok base /\ p_indep W C (i_skn i) (i_tkn i) = Val tt
     /\ (c_backend C = "sumpy"%string -> c_tsqbx C <> Some true /\ w_invariant W base = true).
Proof.
  intros H. unfold p_pre in H. apply oval in H. destruct H as ([numbers tgts] & G & H). apply olift_val in G. cbn [fst snd] in H. cbn zeta in H.
  set (k := GK (b_places b) (i_src i) tgts) in *. cbn [obind] in H.
  apply oval in H. destruct H as ([] & S & H). apply p_raise_val in S.
  apply oval in H. destruct H as (base & B & H). apply olift_val in B.
  apply oval in H. destruct H as (T & TR & H).
  apply oval in H. destruct H as ([] & A & H). apply p_raise_val in A.
  apply oval in H. destruct H as ([] & I & H).
  apply oval in H. destruct H as (V & WR & H).
  apply oval in H. destruct H as (t & TT & H). destruct (existsb _ t); [discriminate|]. injection H as <-.
  pose proof TT as TA. apply p_ttc_at in TA. destruct TA as (a & AS & ->).
  exists numbers, tgts, T, V, a. fold k. split; [reflexivity|]. repeat (split; [assumption|]).
  assert (TV : p_trav W C k = Val V /\ (c_backend C = "sumpy"%string -> c_tsqbx C <> Some true /\ w_invariant W base = true)).
  { unfold p_wrangler in WR. destruct (String.eqb (c_backend C) "sumpy") eqn:SB.
    - destruct (c_tsqbx C) as [[|]|]; [discriminate| |]; (destruct (w_invariant W base) eqn:IV; [|discriminate]); (split; [exact WR|]); intros _; split; congruence.
    - split; [exact WR|]. intros X. rewrite X in SB. discriminate. }
  split; [apply TV|]. exists base. split; [exact B|]. split; [exact I|]. apply TV.
Qed.

(** The inputs of the tree builder. *)
Lemma nth_repeat' A (x d : A) n i : i < n -> nth i (repeat x n) d = x.
Proof. revert i. induction n as [|n IH]; intros [|i] H; cbn; try lia; [reflexivity|]. apply IH. lia. Qed.
Lemma args_inputs k a : args_at W C k a -> exists assoc,
  associate_all (source_of W k) (points_of W k) = Associated assoc
  /\ tree_inputs (c_extent C) (source_of W k) (points_of W k) assoc a.
Proof.
  intros (t & ws & (assoc & AS & ->) & R & ->). exists assoc. split; [exact AS|].
  set (q := source_of W k) in *. set (ts := points_of W k) in *. set (nc := length (q_ctr q)) in *.
  rewrite target_points_eq in R |- *. set (P := q_ctr q ++ concat (map fst ts)) in *.
  assert (LP : length P = nc + length (concat (map fst ts))) by (unfold P; rewrite app_length; reflexivity).
  unfold refine_weights in R. destruct (length (user_ttc nc assoc) =? _) eqn:LE; [|discriminate]. injection R as <-. apply Nat.eqb_eq in LE.
  set (nq := q_nquad q) in *. set (sp := if length P =? 0 then 0 else nq + length P - length P) in *.
  assert (SP : sp <= nq + length P) by (unfold sp; destruct (length P =? 0); lia).
  set (u := map (fun c => if (c =? -1)%Z then 1%Z else 0%Z) (user_ttc nc assoc)).
  assert (LU : length u = nq + length P - sp) by (unfold u; rewrite map_length; exact LE).
  assert (E : write_slice (write_slice (repeat 0%Z (nq + length P)) 0 (repeat 1%Z sp)) sp u = repeat 1%Z sp ++ u).
  { replace (nq + length P) with (sp + (nq + length P - sp)) by lia. rewrite repeat_app'.
    assert (E1 : write_slice (repeat 0%Z sp ++ repeat 0%Z (nq + length P - sp)) 0 (repeat 1%Z sp) = repeat 1%Z sp ++ repeat 0%Z (nq + length P - sp)).
    { exact (@write_slice_app Z [] (repeat 0%Z sp) (repeat 0%Z (nq + length P - sp)) (repeat 1%Z sp) ltac:(rewrite !repeat_length; reflexivity)). }
    rewrite E1. pose proof (@write_slice_app Z (repeat 1%Z sp) (repeat 0%Z (nq + length P - sp)) [] u) as E2. rewrite !repeat_length, !app_nil_r in E2. exact (E2 LU). }
  rewrite E.
  assert (UL : length (user_ttc nc assoc) = nc + length assoc) by (unfold user_ttc; rewrite app_length, repeat_length, map_length; reflexivity).
  assert (LA : length assoc = length (concat (map fst ts))) by (apply (assoc_length _ _ AS)).
  assert (SQ : sp = nq).
  { unfold sp in LE |- *. destruct (length P =? 0) eqn:Z; [|lia]. apply Nat.eqb_eq in Z. lia. }
  assert (U1 : u = repeat 1%Z nc ++ map (fun c => match c with None => 1%Z | Some _ => 0%Z end) assoc).
  { unfold u, user_ttc. rewrite map_app. f_equal; [clear; induction nc as [|m IH]; cbn; [reflexivity|f_equal; exact IH]|]. rewrite map_map. apply map_ext. intros [c|]; [|reflexivity].
    cbn [z_of]. destruct (Z.of_nat c =? -1)%Z eqn:X; [apply Z.eqb_eq in X; lia|reflexivity]. }
  constructor; cbn [ta_nsrc ta_targets ta_weights ta_radii].
  - reflexivity.
  - reflexivity.
  - rewrite app_length, repeat_length, LU. lia.
  - intros i I. rewrite SQ, U1, app_assoc, <- repeat_app'. rewrite app_nth1 by (rewrite repeat_length; exact I). apply nth_repeat'. exact I.
  - intros i I. rewrite SQ, U1, app_assoc, <- repeat_app'. rewrite app_nth2 by (rewrite repeat_length; unfold nc; lia). rewrite repeat_length.
    replace (nq + length (q_ctr q) + i - (nq + nc)) with i by (unfold nc; lia). rewrite (@nth_map_d _ _ _ assoc i None 0%Z) by lia. reflexivity.
  - unfold target_radii. destruct (c_extent C); [|reflexivity]. split; [reflexivity|].
    assert (ER : write_slice (repeat 0%Q (length P)) 0 (map (q_radius q) (seq 0 (length (q_ctr q)))) = map (q_radius q) (seq 0 nc) ++ repeat 0%Q (length (concat (map fst ts)))).
    { rewrite LP, repeat_app'. exact (@write_slice_app Q [] (repeat 0%Q nc) (repeat 0%Q (length (concat (map fst ts)))) (map (q_radius q) (seq 0 nc)) ltac:(rewrite map_length, seq_length, repeat_length; reflexivity)). }
    rewrite ER. split; [rewrite app_length, map_length, seq_length, repeat_length; lia|]. split.
    + intros c Hc. fold nc in Hc. rewrite app_nth1 by (rewrite map_length, seq_length; exact Hc). rewrite (@nth_map_d _ _ (q_radius q) (seq 0 nc) c 0 0%Q) by (rewrite seq_length; exact Hc). rewrite seq_nth by exact Hc. reflexivity.
    + intros v Hv. fold nc in Hv. rewrite app_nth2 by (rewrite map_length, seq_length; exact Hv). apply nth_rep.
Qed.

Lemma tree_facts k T V : p_tree W C k = Val T -> p_trav W C k = Val V -> builder_ok W (c_extent C) ->
  fmm_ok T V /\ ft_ntgt T = length (target_points (q_ctr (source_of W k)) (points_of W k)) /\ ft_nsrc T = q_nquad (source_of W k).
Proof.
  intros TR TV B. unfold p_trav in TV. rewrite TR in TV. cbn in TV. injection TV as <-. apply p_tree_at in TR. destruct TR as (a & A & ->).
  destruct (args_inputs A) as (assoc & _ & I). destruct (B a (ti_weights I)) as (O & N1 & N2). split; [exact O|].
  rewrite N1, N2, target_points_eq, (ti_targets I), (ti_nsrc I). auto.
Qed.
Lemma finish_exec i b x r : builder_ok W (c_extent C) -> p_pre W C i b = Val x -> finish W Exec i x = Ok r ->
  let q := w_q W (b_places b) (i_src i) in
  exists T V r0, fmm_ok T V /\ ft_nsrc T = q_nquad q
    /\ exec_fmm (with_fmm q T V) (points_at W b) (length (i_tkn i)) (i_outs i) = Ok r0 /\ r = pots r0.
Proof.
  intros B P F. cbv zeta. destruct (pre_inv _ _ P) as (numbers & tgts & T & V & a & X). cbv zeta in X. set (k := GK (b_places b) (i_src i) tgts) in *.
  destruct X as (-> & G & _ & _ & AS & TR & TV & _). destruct (@tree_facts k T V TR TV B) as (O & N1 & N2). change (source_of W k) with (w_q W (b_places b) (i_src i)) in *. set (q := w_q W (b_places b) (i_src i)) in *.
  exists T, V. unfold exec_fmm. pose proof (gather_same W (b_obj b) (i_outs i) [] []) as GS. rewrite G in GS. cbn [fst snd map] in GS. fold (points_at W b) in GS.
  change (fun t => do x <- b_obj b t; Ok (w_pts W x)) with (points_at W b) in GS. rewrite GS. cbn [Base.bind].
  change (map (fun e : nat * Z => (w_pts W (fst e), snd e)) tgts) with (points_of W k) in *.
  change (associate_all (with_fmm q T V) (points_of W k)) with (associate_all q (points_of W k)). rewrite AS. cbn [with_fmm q_fmm q_ctr q_nquad]. rewrite N1, Nat.eqb_refl.
  rewrite user_ttc_no_failed. unfold finish in F. change (source_of W k) with q in F. cbn [driver] in F.
  destruct (pick_same _ _ _ EmptyString _ F) as (r0 & E & ->). exists r0. split; [exact O|]. split; [exact N2|]. split; [exact E|reflexivity].
Qed.

(** Both drivers pick the same slices. *)
Lemma pick_cost numbers starts p p' outs : length p = length p' -> forall r,
  mapM (pick_output numbers starts p) outs = Ok r ->
  exists r', mapM (pick_output numbers starts p') outs = Ok r'
    /\ Forall2 (fun e e' => fst e = fst e') r r'.
Proof.
  intros L. induction outs as [|o outs IH]; intros r H; cbn [mapM] in *; [injection H as <-; exists []; split; [reflexivity|constructor]|].
  unfold pick_output at 1 in H. unfold pick_output at 1. destruct (lookup_key numbers (o_tgt o, o_limit o)) as [n|]; [|discriminate].
  destruct (nth_error p (o_knl o)) as [v|] eqn:E; [|discriminate]. cbn [Base.bind] in H.
  assert (K : o_knl o < length p') by (rewrite <- L; apply nth_error_Some; congruence). destruct (nth_error p' (o_knl o)) as [v'|] eqn:E'; [|apply nth_error_None in E'; lia].
  destruct (mapM (pick_output numbers starts p) outs) as [r1|]; [|discriminate]. cbn [Base.bind] in H. injection H as <-.
  destruct (IH r1 eq_refl) as (r2 & E2 & F). rewrite E2. cbn [Base.bind]. eexists. split; [reflexivity|]. constructor; [reflexivity|exact F].
Qed.

(** ** Direct execution *)
Lemma other_same i b g v : p_other W i b g = Val v -> exec_other (w_q W (b_places b) (i_src i)) (length (i_tkn i)) (points_at W b) g = Ok v.
Proof.
  destruct g as [[t l] os]. unfold p_other, exec_other, points_at. intros H.
  apply oval in H. destruct H as (x & B & H). apply olift_val in B. rewrite B. cbn [Base.bind obind] in *.
  apply oval in H. destruct H as (ttc & T & H). unfold p_ttc in T. cbn [source_of points_of k_tgts k_places k_name map fst snd] in *.
  change (source_of W (GK (b_places b) (i_src i) [(x, match l with Some z => z | None => 0%Z end)])) with (w_q W (b_places b) (i_src i)) in *.
  change (points_of W (GK (b_places b) (i_src i) [(x, match l with Some z => z | None => 0%Z end)])) with [(w_pts W x, match l with Some z => z | None => 0%Z end)] in T.
  destruct (associate_all _ _) as [a| |]; try discriminate. injection T as <-.
  destruct (_ && _); [discriminate|]. apply olift_val in H. exact H.
Qed.
Lemma omap_mapM A B (f : A -> outcome B) (g : A -> result B) l r : (forall a v, f a = Val v -> g a = Ok v) -> omap f l = Val r -> mapM g l = Ok r.
Proof.
  intros F. revert r. induction l as [|a l IH]; intros r H; cbn in *; [injection H as <-; reflexivity|].
  apply oval in H. destruct H as (y & Y & H). apply oval in H. destruct H as (ys & YS & H). injection H as <-. rewrite (F _ _ Y). cbn. rewrite (IH _ YS). reflexivity.
Qed.
Definition dpots (r : list (option (string * list (list contr)))) : list (option (string * value)) :=
  map (option_map (fun e => (fst e, Pot (snd e)))) r.
Lemma direct_same i b r : p_direct W i b = Val r ->
  exists r0, exec_direct (w_q W (b_places b) (i_src i)) (b_self b) (points_at W b) (length (i_tkn i)) (i_outs i) = Ok r0 /\ r = dpots r0.
Proof.
  unfold p_direct, exec_direct. intros H.
  apply oval in H. destruct H as ([] & _ & H). apply oval in H. destruct H as ([] & _ & H). apply oval in H. destruct H as ([] & _ & H).
  apply oval in H. destruct H as (gs & G & H). apply olift_val in G. rewrite G. cbn [Base.bind].
  apply oval in H. destruct H as (bs & _ & H). apply oval in H. destruct H as (r1 & R1 & H). apply olift_val in R1. change (target_nodes W b) with (points_at W b) in R1. rewrite R1. cbn [Base.bind].
  apply oval in H. destruct H as (r2 & R2 & H). injection H as <-. rewrite (omap_mapM _ _ _ (fun g v => @other_same i b g v) R2). cbn [Base.bind]. eexists. split; [reflexivity|]. reflexivity.
Qed.
End Rel.
