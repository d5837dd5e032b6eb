From Coq Require Import QArith Qcanon Permutation.
From Verif Require Import Base RefineModel AssocModel AssocSpec FmmModel FmmSpec FmmProofs FmmProofs2 FmmProofs3 FmmProofs4 FmlModel FmlSpec FmlProofs2 FmlProofs3 FmlProofs4 MatModel CostModel
  KrnModel KrnSpec KrnProofs KrnProofs2 KrnProofs3 KrnProofs4 AkModel AkSpec AkProofs AkProofs4 DkModel DkSpec DkProofs DkProofs2.
Set Implicit Arguments.
Open Scope string_scope. Open Scope list_scope. Open Scope nat_scope.

Lemma mapR_iff A B (f : A -> result B -> Prop) (g : A -> result B) l : (forall x r, In x l -> (f x r <-> r = g x)) ->
  forall out, mapR f l out <-> out = mapM g l.
Proof.
  induction l as [|x l IH]; intros H out; cbn [mapR mapM]; [tauto|].
  assert (IH' := IH (fun y r I => H y r (or_intror I))). clear IH. split.
  - intros (r & F & E). apply (H x r (or_introl eq_refl)) in F. subst r. destruct (g x) as [y|e]; [|exact E]. destruct E as (rs & M & ->).
    apply IH' in M. subst rs. cbn [bind]. destruct (mapM g l); reflexivity.
  - intros ->. exists (g x). split; [apply (H x _ (or_introl eq_refl)); reflexivity|]. destruct (g x) as [y|e]; [|reflexivity].
    exists (mapM g l). split; [apply IH'; reflexivity|]. cbn [bind]. destruct (mapM g l); reflexivity.
Qed.
Lemma mapM_rmap A B C (f : A -> result B) (h : B -> C) l : mapM (fun x => rmap h (f x)) l = rmap (map h) (mapM f l).
Proof.
  induction l as [|x l IH]; cbn [mapM rmap map]; [reflexivity|]. rewrite IH. destruct (f x) as [y|e]; cbn [bind rmap]; [|reflexivity].
  destruct (mapM f l); reflexivity.
Qed.
Lemma mapM_ext_in A B (f g : A -> result B) l : (forall x, In x l -> f x = g x) -> mapM f l = mapM g l.
Proof.
  induction l as [|x l IH]; intros H; cbn [mapM]; [reflexivity|]. rewrite (H x (or_introl eq_refl)), IH; [reflexivity|]. intros y I. apply H. right. exact I.
Qed.
Lemma put_map A B (h : A -> B) l : forall res, put_results (map (option_map h) res) (map (fun '(i, v) => (i, h v)) l) = map (option_map h) (put_results res l).
Proof.
  unfold put_results. induction l as [|(i, v) l IH]; intros res; cbn [map fold_left]; [reflexivity|]. rewrite <- IH. f_equal.
  clear. revert i; induction res as [|r res IH]; intros [|i]; cbn; try reflexivity. f_equal. apply IH.
Qed.

Section Exec.
Variable junk : nat.
Variable q : qsource.
Variable nb : list pt -> nat.
Variable points : nat -> result (list pt).
Variable nknl : nat.
Variable near : pt -> pt -> Q.
Hypothesis SO : source_ok q near.
Hypothesis HB : forall x, boxes_ok (q_dev q) (nb x) (q_tree q x).
Hypothesis HQ : 0 < q_nquad q.
Notation nc := (length (q_ctr q)).

Lemma associate_all_iff ts a : dev_associate_all junk q nb ts a <-> a = associate_all q ts.
Proof.
  unfold dev_associate_all, associate_all. cbv zeta. set (pts := skipn nc (target_points (q_ctr q) ts)).
  apply associate_iff.
  - cbn [map fst]. apply (so_tree SO).
  - apply HB.
  - cbn [map fst list_sum fold_right]. rewrite Nat.add_0_r. apply (so_order SO).
Qed.

Definition lift1 (x : nat * (string * list (list contr))) : nat * (string * list (list (option contr))) :=
  (fst x, with_somes (snd x)).
Lemma dev_self_eq g : dev_self q points nknl g = rmap (map lift1) (exec_self (q_nquad q) nknl points g).
Proof.
  unfold dev_self. destruct (exec_self _ _ _ _) as [l|e]; cbn [bind rmap]; [|reflexivity]. f_equal. apply map_ext. intros (i, (n, p)). reflexivity.
Qed.
Lemma dev_named_eq tt x io : length tt = length x -> dev_named nknl (sub_final q nknl tt x) io
  = rmap lift1 (named nknl (fun k => apply_on_subset (q_nquad q) tt k (p2p (q_nquad q) x k)) io).
Proof.
  intros HL. destruct io as (i, o). unfold dev_named, named. destruct (Nat.ltb_spec (o_knl o) nknl) as [L|L]; [|reflexivity]. cbn [rmap]. unfold lift1, with_somes. cbn [fst snd].
  do 3 f_equal. unfold sub_final. rewrite map_map.
  assert (LP : length (apply_on_subset (q_nquad q) tt (o_knl o) (p2p (q_nquad q) x (o_knl o))) = length x).
  { assert (E : forall l a, length (fold_left (fun a i => set_nth a i (eval (o_knl o) (all_sources (q_nquad q)) (Via (Z.to_nat (nth i tt (-1)%Z))) i)) l a) = length a).
    { induction l as [|j l IH]; intros a; cbn [fold_left]; [reflexivity|]. rewrite IH. apply set_nth_length. }
    unfold apply_on_subset. rewrite E. unfold p2p. rewrite map_length. apply seq_length. }
  apply nth_ext with (d := []) (d' := []); [unfold some_rows; rewrite !map_length, seq_length; auto|].
  intros t Ht. rewrite map_length, seq_length in Ht. rewrite (@nth_map_d _ _ _ (seq 0 (length x)) t 0 []) by (rewrite seq_length; exact Ht). rewrite seq_nth by exact Ht. cbn [plus].
  unfold sub_row. rewrite (@nth_map_d _ _ _ (seq 0 nknl) (o_knl o) 0 [None]) by (rewrite seq_length; exact L). rewrite seq_nth by exact L. cbn [plus].
  unfold some_rows. rewrite (@nth_map_d _ _ (map Some) _ t [] []) by lia. reflexivity.
Qed.
Lemma other_iff g out : dev_other junk q nb points nknl g out <-> out = rmap (map lift1) (exec_other q nknl points g).
Proof.
  destruct g as [[t l] os]. unfold dev_other, exec_other. set (lim := match l with Some z => z | None => 0%Z end). destruct (points t) as [x|e]; cbn [bind rmap]; [|tauto].
  assert (EX : forall (P : assoc_outcome -> Prop), (exists a, dev_associate_all junk q nb [(x, lim)] a /\ P a) <-> P (associate_all q [(x, lim)])).
  { intros P. split; [intros (a & A & H); apply associate_all_iff in A; subst; exact H|]. intros H. eexists. split; [apply associate_all_iff; reflexivity|exact H]. }
  rewrite EX. clear EX. destruct (associate_all q [(x, lim)]) as [a| |] eqn:A; cbn [rmap]; try tauto.
  destruct (single_assoc SO _ _ A) as (La & _ & S).
  set (tt := skipn nc (user_ttc nc a)).
  assert (Et : tt = map z_of a).
  { unfold tt, user_ttc. rewrite skipn_app, skipn_all2, repeat_length, Nat.sub_diag by (rewrite repeat_length; lia). reflexivity. }
  assert (HL : length tt = length x) by (rewrite Et, map_length; exact La).
  assert (HC : forall i, i < length x -> (0 <= nth i tt (-1))%Z -> Z.to_nat (nth i tt (-1)%Z) < nc).
  { intros i Hi P. rewrite Et in P |- *. rewrite (@nth_map_d _ _ z_of a i None) in P |- * by lia. specialize (S i Hi). destruct (nth i a None) as [c|]; cbn [z_of] in *; [|lia].
    rewrite Nat2Z.id. destruct S as (_ & S). eapply chosen_lt. exact S. }
  assert (EN : forall (P : nat -> list nat -> Prop), (exists count numbers, dev_numbers junk tt count numbers /\ P count numbers) <-> P (length (qbx_tgt_numbers tt)) (qbx_tgt_numbers tt)).
  { intros P. split; [intros (c & n & N & H); apply numbers_iff in N; destruct N as (-> & ->); exact H|]. intros H. eexists. eexists. split; [apply numbers_iff; split; reflexivity|exact H]. }
  rewrite EN. clear EN. destruct ((Z.abs lim =? 1)%Z && (length (qbx_tgt_numbers tt) <? length x)); cbn [rmap]; [tauto|].
  assert (ER : forall (P : list (list (list (option contr))) -> Prop), (exists rows, dev_subset junk q nknl tt x (qbx_tgt_numbers tt) rows /\ P rows) <-> P (sub_final q nknl tt x)).
  { intros P. split; [intros (r & R & H); apply (@subset_iff junk q nknl tt x HQ HL HC) in R; subst r; exact H|]. intros H. eexists. split; [apply (@subset_iff junk q nknl tt x HQ HL HC); reflexivity|exact H]. }
  rewrite ER. clear ER. rewrite <- mapM_rmap.
  rewrite (@mapM_ext_in _ _ (dev_named nknl (sub_final q nknl tt x)) (fun io => rmap lift1 (named nknl (fun k => apply_on_subset (q_nquad q) tt k (p2p (q_nquad q) x k)) io))); [tauto|].
  intros io _. apply dev_named_eq. exact HL.
Qed.
Lemma direct_iff self outs out : dev_exec_direct junk q nb points nknl self outs out
  <-> out = rmap (map (option_map with_somes)) (exec_direct q self points nknl outs).
Proof.
  unfold dev_exec_direct, exec_direct. destruct (partition_outputs _ _ _ _) as [gs|e]; cbn [bind rmap]; [|tauto].
  rewrite (@mapM_ext_in _ _ (dev_self q points nknl) (fun g => rmap (map lift1) (exec_self (q_nquad q) nknl points g))) by (intros g _; apply dev_self_eq).
  rewrite mapM_rmap. destruct (mapM (exec_self (q_nquad q) nknl points) (fst gs)) as [r1|e]; cbn [bind rmap]; [|tauto].
  assert (M := @mapR_iff _ _ (dev_other junk q nb points nknl) (fun g => rmap (map lift1) (exec_other q nknl points g)) (snd gs) (fun g r _ => other_iff g r)).
  assert (EX : forall (P : result (list (list (nat * (string * list (list (option contr)))))) -> Prop), (exists r2, mapR (dev_other junk q nb points nknl) (snd gs) r2 /\ P r2)
    <-> P (rmap (map (map lift1)) (mapM (exec_other q nknl points) (snd gs)))).
  { intros P. rewrite <- mapM_rmap. split; [intros (r & R & H); apply M in R; subst r; exact H|]. intros H. eexists. split; [apply M; reflexivity|exact H]. }
  rewrite EX. clear EX M. destruct (mapM (exec_other q nknl points) (snd gs)) as [r2|e]; cbn [bind rmap]; [|tauto].
  assert (LC : forall r, concat (map (map lift1) r) = map (fun '(i, v) => (i, with_somes v)) (concat r)).
  { intros r. rewrite concat_map. f_equal. apply map_ext. intros l. apply map_ext. intros (i, v). reflexivity. }
  rewrite !LC. replace (repeat None (length outs)) with (map (option_map with_somes) (repeat None (length outs))).
  - rewrite !put_map. tauto.
  - clear. induction (length outs); cbn; f_equal; assumption.
Qed.

Variable bxs : list pt -> boxes * boxes.
Hypothesis FA : forall x, fmm_at q x.
Hypothesis LO : forall x, levels_ok (fst (q_fmm q x)) (snd (q_fmm q x)).
Hypothesis AO : forall x, arrays_ok (fst (q_fmm q x)) (snd (q_fmm q x)) (fst (bxs x)) (snd (bxs x)).
Lemma slice_map A B (f : A -> B) l a b : slice (map f l) a b = map f (slice l a b).
Proof. unfold slice. rewrite skipn_map, firstn_map. reflexivity. Qed.
Lemma fmm_iff outs out : dev_exec_fmm junk q nb bxs points nknl outs out <-> out = rmap (map with_somes) (exec_fmm q points nknl outs).
Proof.
  unfold dev_exec_fmm, exec_fmm. destruct (gather_targets points outs [] []) as [(numbers, ts)|e]; cbn [bind rmap]; [|tauto].
  assert (EX : forall (P : assoc_outcome -> Prop), (exists a, dev_associate_all junk q nb ts a /\ P a) <-> P (associate_all q ts)).
  { intros P. split; [intros (a & A & H); apply associate_all_iff in A; subst; exact H|]. intros H. eexists. split; [apply associate_all_iff; reflexivity|exact H]. }
  rewrite EX. clear EX. destruct (associate_all q ts) as [a| |] eqn:A; cbn [rmap]; try tauto.
  set (P := target_points (q_ctr q) ts). destruct (FA P) as (F1 & F2 & F3). assert (F4 := LO P). assert (F5 := AO P).
  destruct (q_fmm q P) as (T, V). cbn [fst snd] in *.
  destruct (existsb (fun c => (c =? -2)%Z) (user_ttc nc a)); cbn [rmap]; [tauto|].
  assert (HT : ttc_ok nc (ft_ntgt T) (user_ttc nc a)).
  { rewrite F2. unfold P. rewrite target_points_eq, app_length. exact (user_ttc_ok SO _ A). }
  assert (EX : forall (R : list (list (list (option contr))) -> Prop), (exists pots, drive_dev junk T V nc (user_ttc nc a) (fst (bxs P)) (snd (bxs P)) (seq 0 (q_nquad q)) nknl pots /\ R pots)
    <-> R (map (map (map Some)) (drive_fmm T V nc (user_ttc nc a) (seq 0 (q_nquad q)) nknl))).
  { intros R. split; [intros (p & D & H); apply (drive_iff junk nknl F1 F4 HT F5) in D; subst p; exact H|]. intros H. eexists. split; [apply (drive_iff junk nknl F1 F4 HT F5); reflexivity|exact H]. }
  rewrite EX. clear EX. rewrite <- mapM_rmap.
  match goal with |- out = mapM ?f _ <-> out = mapM ?g _ => rewrite (@mapM_ext_in _ _ f g); [tauto|] end.
  intros o _. destruct (lookup_key numbers (o_tgt o, o_limit o)) as [k|]; [|reflexivity]. rewrite nth_error_map.
  destruct (nth_error (drive_fmm T V nc (user_ttc nc a) (seq 0 (q_nquad q)) nknl) (o_knl o)) as [p|]; cbn [option_map rmap]; [|reflexivity].
  unfold with_somes. cbn [fst snd]. unfold some_rows. rewrite slice_map. reflexivity.
Qed.
End Exec.
