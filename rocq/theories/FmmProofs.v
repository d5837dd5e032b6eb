From Coq Require Import QArith Permutation.
From Verif Require Import Base RefineModel AssocModel FmmModel FmmSpec.
Set Implicit Arguments.
Open Scope nat_scope.

(** * Arrays *)
Lemma nth_skipn A (l : list A) n i d : nth i (skipn n l) d = nth (n + i) l d.
Proof.
  revert l. induction n as [|n IH]; intros [|x l]; cbn; try reflexivity; [destruct i; reflexivity|apply IH].
Qed.
Lemma nth_rep A (x : A) n i : nth i (repeat x n) x = x.
Proof. revert i. induction n as [|n IH]; intros [|i]; cbn; auto. Qed.
Lemma set_nth_length A (a : list A) : forall i v, length (set_nth a i v) = length a.
Proof. induction a as [|x a IH]; intros [|i] v; cbn; auto. Qed.
Lemma nth_set_nth A (a : list A) : forall i v j d,
  nth j (set_nth a i v) d = if (j =? i) && (i <? length a) then v else nth j a d.
Proof.
  induction a as [|x a IH]; intros i v j d.
  - cbn. rewrite andb_false_r. destruct i; reflexivity.
  - destruct i as [|i], j as [|j]; cbn [set_nth nth length]; try reflexivity.
    rewrite IH. cbn [Nat.eqb]. destruct (j =? i); [|reflexivity]. reflexivity.
Qed.

Section Writes.
Variables X A : Type.
Variable wr : X -> option (nat * A).
Definition write_step (a : list A) (x : X) : list A := match wr x with Some (i, v) => set_nth a i v | None => a end.
Lemma writes_length l : forall a, length (fold_left write_step l a) = length a.
Proof.
  induction l as [|x l IH]; intros a; cbn; [reflexivity|]. rewrite IH. unfold write_step. destruct (wr x) as [[i v]|]; [apply set_nth_length|reflexivity].
Qed.
Lemma writes_none l j d : forall a, (forall x v, In x l -> wr x <> Some (j, v)) -> nth j (fold_left write_step l a) d = nth j a d.
Proof.
  induction l as [|x l IH]; intros a H; cbn; [reflexivity|]. rewrite IH by (intros y v I; apply H; right; exact I).
  unfold write_step. destruct (wr x) as [[i v]|] eqn:E; [|reflexivity]. rewrite nth_set_nth.
  destruct (j =? i) eqn:J; [|reflexivity]. apply Nat.eqb_eq in J. subst i. exfalso. exact (H x v (or_introl eq_refl) E).
Qed.
Lemma writes_some l j d v : forall a, j < length a ->
  (forall x v', In x l -> wr x = Some (j, v') -> v' = v) ->
  (nth j a d = v \/ exists x, In x l /\ wr x = Some (j, v)) ->
  nth j (fold_left write_step l a) d = v.
Proof.
  induction l as [|x l IH]; intros a L U H; cbn.
  - destruct H as [H|(x & [] & _)]. exact H.
  - assert (LX : length (write_step a x) = length a) by (unfold write_step; destruct (wr x) as [[i w]|]; [apply set_nth_length|reflexivity]).
    apply IH; [rewrite LX; exact L|intros y v' I; apply U; right; exact I|].
    destruct (wr x) as [[i w]|] eqn:E.
    + destruct (Nat.eq_dec i j) as [->|N].
      * left. unfold write_step. rewrite E, nth_set_nth, Nat.eqb_refl. replace (j <? length a) with true by (symmetry; apply Nat.ltb_lt; exact L). cbn [andb]. apply (U x w); [left; reflexivity|exact E].
      * destruct H as [H|(y & [->|I] & Ey)].
        -- left. unfold write_step. rewrite E, nth_set_nth. assert (J : (j =? i) = false) by (apply Nat.eqb_neq; congruence). rewrite J. exact H.
        -- rewrite E in Ey. congruence.
        -- right. exists y. auto.
    + destruct H as [H|(y & [->|I] & Ey)].
      * left. unfold write_step. rewrite E. exact H.
      * congruence.
      * right. exists y. auto.
Qed.
End Writes.

Lemma combine_nth_In A B (l : list A) (l' : list B) k da db : k < length l -> length l = length l' -> In (nth k l da, nth k l' db) (combine l l').
Proof.
  intros K L. rewrite <- combine_nth by exact L. apply nth_In. rewrite combine_length. lia.
Qed.
Lemma In_combine_nth A B (l : list A) : forall (l' : list B) x y da db, In (x, y) (combine l l') -> exists k, k < length l /\ k < length l' /\ nth k l da = x /\ nth k l' db = y.
Proof.
  induction l as [|a l IH]; intros [|b l'] x y da db I; cbn in I; try contradiction. destruct I as [E|I].
  - injection E as -> ->. exists 0. cbn. repeat split; lia.
  - destruct (IH l' x y da db I) as (k & A1 & A2 & A3 & A4). exists (S k). cbn. repeat split; auto; lia.
Qed.
Lemma NoDup_nth_inj (l : list nat) : NoDup l -> forall k k', k < length l -> k' < length l -> nth k l 0 = nth k' l 0 -> k = k'.
Proof. intros N. apply NoDup_nth. exact N. Qed.

Lemma scatter_writes A (a : list A) ixs vs :
  scatter a ixs vs = fold_left (write_step (fun p : nat * A => Some p)) (combine ixs vs) a.
Proof.
  unfold scatter. revert a. induction (combine ixs vs) as [|[i v] l IH]; intros a; cbn; [reflexivity|]. apply IH.
Qed.
Lemma scatter_length A (a : list A) ixs vs : length (scatter a ixs vs) = length a.
Proof. rewrite scatter_writes. apply writes_length. Qed.
Lemma scatter_nth A (a : list A) ixs vs k d : NoDup ixs -> length vs = length ixs -> k < length ixs -> nth k ixs 0 < length a ->
  nth (nth k ixs 0) (scatter a ixs vs) d = nth k vs d.
Proof.
  intros ND L K B. rewrite scatter_writes. apply writes_some; [exact B| |].
  - intros [i v] v' I E. injection E as -> ->. apply In_combine_nth with (da := 0) (db := d) in I. destruct I as (k' & K1 & K2 & E1 & E2).
    apply (NoDup_nth_inj ND K1 K) in E1. subst k'. symmetry. exact E2.
  - right. exists (nth k ixs 0, nth k vs d). split; [apply combine_nth_In; [exact K|congruence]|reflexivity].
Qed.
Lemma scatter_other A (a : list A) ixs vs j d : ~ In j ixs -> nth j (scatter a ixs vs) d = nth j a d.
Proof.
  intros N. rewrite scatter_writes. apply writes_none. intros [i v] v' I E. injection E as -> ->. apply N. eapply in_combine_l; eauto.
Qed.

Lemma write_slice_app A (x y z vs : list A) : length vs = length y -> write_slice (x ++ y ++ z) (length x) vs = x ++ vs ++ z.
Proof.
  intros L. unfold write_slice. rewrite firstn_app, firstn_all, Nat.sub_diag. cbn [firstn]. rewrite app_nil_r. f_equal. f_equal.
  rewrite skipn_app, skipn_all2 by lia. cbn [app]. replace (length x + length vs - length x) with (length y) by lia.
  rewrite skipn_app, skipn_all, Nat.sub_diag. reflexivity.
Qed.

(** * Targets *)
Definition total (ts : list (list pt * Z)) : nat := list_sum (map (fun t => length (fst t)) ts).
Lemma total_cons x z ts : total ((x, z) :: ts) = length x + total ts.
Proof. reflexivity. Qed.
Lemma discr_starts_length n ts : length (discr_starts n ts) = S (length ts).
Proof. revert n. induction ts as [|[x z] ts IH]; intros n; cbn; [reflexivity|]. rewrite IH. reflexivity. Qed.
Lemma discr_starts_nth ts : forall n k, k <= length ts -> nth k (discr_starts n ts) 0 = n + total (firstn k ts).
Proof.
  induction ts as [|[x z] ts IH]; intros n k K; cbn in K.
  - replace k with 0 by lia. cbn. lia.
  - destruct k as [|k]; [cbn; unfold total; cbn; lia|]. cbn [discr_starts nth firstn]. rewrite IH by lia. unfold total. cbn [map list_sum fold_right fst]. apply Nat.add_assoc || (rewrite Nat.add_assoc; reflexivity) || (symmetry; apply Nat.add_assoc).
Qed.
Lemma ntargets_total n ts : ntargets n ts = n + total ts.
Proof.
  unfold ntargets. assert (L := discr_starts_length n ts).
  assert (E : last (discr_starts n ts) 0 = nth (length ts) (discr_starts n ts) 0).
  { clear L. revert n. induction ts as [|[x z] ts IH]; intros n; [reflexivity|]. cbn [discr_starts length nth]. rewrite <- IH.
    destruct ts as [|[x' z'] ts]; reflexivity. }
  rewrite E, discr_starts_nth by lia. rewrite firstn_all. reflexivity.
Qed.
Lemma total_concat ts : length (concat (map (@fst (list pt) Z) ts)) = total ts.
Proof. unfold total. induction ts as [|[x z] ts IH]; cbn; [reflexivity|]. rewrite app_length. f_equal. exact IH. Qed.

Lemma fold_left_ext' A B (f g : A -> B -> A) l : (forall a b, f a b = g a b) -> forall a, fold_left f l a = fold_left g l a.
Proof. intros H. induction l as [|x l IH]; intros a; cbn; [reflexivity|]. rewrite H. apply IH. Qed.
Lemma repeat_app' A (x : A) n m : repeat x (n + m) = repeat x n ++ repeat x m.
Proof. apply repeat_app. Qed.

Lemma write_all A (f : list pt * Z -> list A) (Hf : forall t, length (f t) = length (fst t)) (z : A) ts : forall pre n, length pre = n ->
  fold_left (fun a '(start, t) => write_slice a start (f t)) (combine (discr_starts n ts) ts) (pre ++ repeat z (total ts))
  = pre ++ flat_map f ts.
Proof.
  induction ts as [|[x s] ts IH]; intros pre n L.
  - cbn. rewrite app_nil_r. destruct n; reflexivity.
  - cbn [discr_starts combine fold_left flat_map]. rewrite total_cons, repeat_app'. rewrite <- L. rewrite (@write_slice_app A pre (repeat z (length x)) (repeat z (total ts)) (f (x, s))).
    + rewrite app_assoc. rewrite IH by (rewrite app_length, Hf; cbn; lia). rewrite app_assoc. reflexivity.
    + rewrite repeat_length. apply Hf.
Qed.
Lemma target_points_eq centers ts : target_points centers ts = centers ++ concat (map fst ts).
Proof.
  unfold target_points. rewrite ntargets_total, repeat_app'.
  assert (E : write_slice (repeat [] (length centers) ++ repeat [] (total ts)) 0 centers = centers ++ repeat (@nil Q) (total ts)).
  { exact (@write_slice_app pt [] (repeat [] (length centers)) (repeat [] (total ts)) centers (eq_sym (repeat_length _ _))). }
  rewrite E. rewrite <- flat_map_concat_map.
  rewrite <- (@write_all pt fst (fun _ => eq_refl) [] ts centers (length centers) eq_refl).
  apply fold_left_ext'. intros a [start [x s]]. reflexivity.
Qed.
Lemma side_preferences_eq nc ts : side_preferences nc ts = repeat 0%Z nc ++ flat_map (fun t => repeat (snd t) (length (fst t))) ts.
Proof.
  unfold side_preferences. rewrite ntargets_total, repeat_app'.
  rewrite <- (@write_all Z (fun t => repeat (snd t) (length (fst t))) (fun t => repeat_length _ _) 0%Z ts (repeat 0%Z nc) nc (repeat_length _ _)).
  apply fold_left_ext'. intros a [start [x s]]. reflexivity.
Qed.

Lemma NoDup_snd_filter A (f : A * nat -> bool) (l : list (A * nat)) : NoDup (map snd l) -> NoDup (map snd (filter f l)).
Proof.
  induction l as [|x l IH]; cbn; intros H; [constructor|]. inversion H; subst. destruct (f x); cbn; [|auto]. constructor; [|auto].
  intros I. apply H2. apply in_map_iff in I. destruct I as (y & E & I). apply filter_In in I. apply in_map_iff. exists y. tauto.
Qed.
Lemma map_snd_combine_seq A (l : list A) : map snd (combine l (seq 0 (length l))) = seq 0 (length l).
Proof.
  assert (G : forall m, map snd (combine l (seq m (length l))) = seq m (length l)).
  { induction l as [|x l IH]; intros m; cbn; [reflexivity|]. rewrite IH. reflexivity. }
  apply G.
Qed.

(** * Incidence *)
Section Inc.
Variable T : ftree.
Variable V : ftrav.
Hypothesis OK : fmm_ok T V.
Variable nc : nat.
Variable ttc : list Z.
Hypothesis HT : ttc_ok nc (ft_ntgt T) ttc.
Let n := ft_ntgt T.
Let sorted u := nth u (ft_sorted T) 0.

Lemma sorted_length : length (ft_sorted T) = n.
Proof. rewrite (Permutation_length (fo_sorted OK)), seq_length. reflexivity. Qed.
Lemma sorted_NoDup : NoDup (ft_sorted T).
Proof. apply (Permutation_NoDup (Permutation_sym (fo_sorted OK))). apply seq_NoDup. Qed.
Lemma sorted_lt u : u < n -> sorted u < n.
Proof.
  intros H. assert (I : In (sorted u) (ft_sorted T)) by (apply nth_In; rewrite sorted_length; exact H).
  apply (Permutation_in _ (fo_sorted OK)) in I. apply in_seq in I. unfold n. lia.
Qed.
Lemma tgt_pt_inv i : i < n -> ft_tgt_pt T i < n /\ sorted (ft_tgt_pt T i) = i.
Proof.
  intros H. assert (I : In i (ft_sorted T)) by (apply (Permutation_in _ (Permutation_sym (fo_sorted OK))); apply in_seq; unfold n in H; lia).
  apply In_nth with (d := 0) in I. destruct I as (u & Hu & E). rewrite sorted_length in Hu. fold (sorted u) in E. subst i.
  assert (E : ft_tgt_pt T (sorted u) = u) by (exact (fo_tgt_pt OK Hu)). rewrite E. split; [exact Hu|reflexivity].
Qed.
Lemma ttc_length : length ttc = n.
Proof. apply HT. Qed.

Lemma scatter_tree A (z : A) (vs : list A) d i : length vs = n -> i < n ->
  nth i (scatter (repeat z n) (ft_sorted T) vs) d = nth (ft_tgt_pt T i) vs d.
Proof.
  intros L H. destruct (tgt_pt_inv H) as [P E]. rewrite <- E at 1. unfold sorted. apply scatter_nth.
  - apply sorted_NoDup.
  - rewrite sorted_length. exact L.
  - rewrite sorted_length. exact P.
  - rewrite repeat_length. apply sorted_lt. exact P.
Qed.
Lemma tree_ttc_nth i : i < n -> nth i (tree_ttc T ttc) 0%Z = nth (ft_tgt_pt T i) ttc 0%Z.
Proof. intros H. unfold tree_ttc. rewrite ttc_length. apply scatter_tree; [apply ttc_length|exact H]. Qed.
Lemma tree_ttc_length : length (tree_ttc T ttc) = n.
Proof. unfold tree_ttc. rewrite scatter_length, repeat_length. apply ttc_length. Qed.

Lemma In_center_targets c i : In i (center_targets T ttc c) <-> i < n /\ nth (ft_tgt_pt T i) ttc 0%Z = Z.of_nat c.
Proof.
  unfold center_targets, filtered_pairs. rewrite in_map_iff. split.
  - intros ([c' i'] & E & I). cbn in E. subst i'. apply filter_In in I. destruct I as [I C]. cbn in C. apply Nat.eqb_eq in C. subst c'.
    apply in_map_iff in I. destruct I as ([z i'] & E & I). injection E as E1 E2. subst i'. apply filter_In in I. destruct I as [I P]. cbn in P. apply Z.leb_le in P.
    apply In_combine_nth with (da := 0%Z) (db := 0) in I. destruct I as (k & K1 & K2 & F1 & F2). rewrite seq_length in K2. rewrite seq_nth in F2 by exact K2. cbn in F2. subst k.
    rewrite tree_ttc_length in K1. split; [exact K1|]. rewrite tree_ttc_nth in F1 by exact K1. lia.
  - intros [H E]. exists (c, i). split; [reflexivity|]. apply filter_In. split; [|cbn; apply Nat.eqb_refl].
    apply in_map_iff. exists (Z.of_nat c, i). split; [f_equal; lia|]. apply filter_In. split; [|cbn; apply Z.leb_le; lia].
    rewrite <- E, <- tree_ttc_nth by exact H.
    replace i with (nth i (seq 0 (length (tree_ttc T ttc))) 0) at 2 by (rewrite seq_nth; [reflexivity|rewrite tree_ttc_length; exact H]).
    apply combine_nth_In; [rewrite tree_ttc_length; exact H|rewrite seq_length; reflexivity].
Qed.
Lemma center_targets_NoDup c : NoDup (center_targets T ttc c).
Proof.
  unfold center_targets. apply NoDup_snd_filter. unfold filtered_pairs. rewrite map_map.
  rewrite map_ext with (g := snd) by (intros [z i]; reflexivity).
  apply NoDup_snd_filter. rewrite map_snd_combine_seq. apply seq_NoDup.
Qed.

Lemma center_is_used_spec c : c < nc -> (nth c (center_is_used nc ttc) false = true <-> exists u, nc <= u /\ u < n /\ nth u ttc 0%Z = Z.of_nat c).
Proof.
  intros Hc. set (wr := fun z : Z => if (0 <=? z)%Z then Some (Z.to_nat z, true) else None).
  assert (E : center_is_used nc ttc = fold_left (write_step wr) (skipn nc ttc) (repeat false nc)).
  { unfold center_is_used. generalize (repeat false nc). induction (skipn nc ttc) as [|z l IH]; intros a; cbn; [reflexivity|].
    rewrite IH. unfold write_step, wr. destruct (0 <=? z)%Z; reflexivity. }
  rewrite E. clear E.
  assert (SK : forall z, In z (skipn nc ttc) <-> exists u, nc <= u /\ u < n /\ nth u ttc 0%Z = z).
  { intros z. split.
    - intros I. apply In_nth with (d := 0%Z) in I. destruct I as (k & K & E). rewrite skipn_length, ttc_length in K.
      exists (nc + k). rewrite nth_skipn in E. split; [lia|]. split; [lia|exact E].
    - intros (u & U1 & U2 & E). replace z with (nth (u - nc) (skipn nc ttc) 0%Z) by (rewrite nth_skipn; replace (nc + (u - nc)) with u by lia; exact E).
      apply nth_In. rewrite skipn_length, ttc_length. lia. }
  split.
  - intros H. destruct (in_dec Z.eq_dec (Z.of_nat c) (skipn nc ttc)) as [I|N]; [apply SK; exact I|]. exfalso.
    rewrite writes_none in H; [rewrite nth_rep in H; discriminate|].
    intros z v I W. unfold wr in W. destruct (0 <=? z)%Z eqn:P; [|discriminate]. apply Z.leb_le in P. injection W as W _. apply N. replace (Z.of_nat c) with z by lia. exact I.
  - intros H. apply SK in H. apply writes_some; [rewrite repeat_length; exact Hc| |].
    + intros z v I W. unfold wr in W. destruct (0 <=? z)%Z; [|discriminate]. congruence.
    + right. exists (Z.of_nat c). split; [exact H|]. unfold wr. assert (P : (0 <=? Z.of_nat c)%Z = true) by (apply Z.leb_le; lia). rewrite P, Nat2Z.id. reflexivity.
Qed.
Lemma In_global_centers c : In c (global_centers nc ttc) <-> exists u, nc <= u /\ u < n /\ nth u ttc 0%Z = Z.of_nat c.
Proof.
  unfold global_centers. rewrite filter_In, in_seq. split.
  - intros [H U]. apply center_is_used_spec; [lia|exact U].
  - intros (u & U1 & U2 & E). assert (Hc : c < nc).
    { destruct HT as (_ & _ & _ & H). destruct (H u U1 U2) as [E'|(c' & C' & E')]; lia. }
    split; [lia|]. apply center_is_used_spec; [exact Hc|]. eauto.
Qed.
Lemma global_centers_NoDup : NoDup (global_centers nc ttc).
Proof. apply NoDup_filter. apply seq_NoDup. Qed.

Lemma non_qbx_flags_nth u : u < n -> nth u (non_qbx_flags nc ttc) false = (nc <=? u) && (nth u ttc 0 =? -1)%Z.
Proof.
  intros H. assert (NL : nc <= n) by apply HT. unfold non_qbx_flags, write_slice. cbn [firstn app]. rewrite repeat_length.
  destruct (nc <=? u) eqn:C.
  - apply Nat.leb_le in C. rewrite app_nth2 by (rewrite repeat_length; exact C). rewrite repeat_length, nth_skipn.
    replace (0 + nc + (u - nc)) with u by lia.
    rewrite nth_indep with (d' := (0 =? -1)%Z) by (rewrite map_length, ttc_length; exact H). rewrite map_nth with (f := fun c => (c =? -1)%Z). reflexivity.
  - apply Nat.leb_gt in C. rewrite app_nth1 by (rewrite repeat_length; exact C). rewrite nth_rep. reflexivity.
Qed.
Lemma non_qbx_flags_length : length (non_qbx_flags nc ttc) = n.
Proof.
  assert (NL : nc <= n) by apply HT. unfold non_qbx_flags, write_slice. cbn [firstn app]. rewrite app_length, repeat_length, skipn_length, map_length, ttc_length. lia.
Qed.
Lemma In_non_qbx i : In i (non_qbx_targets T nc ttc) <-> i < n /\ nc <= ft_tgt_pt T i /\ nth (ft_tgt_pt T i) ttc 0%Z = (-1)%Z.
Proof.
  unfold non_qbx_targets. rewrite filter_In, in_seq, ttc_length. split.
  - intros [H F]. assert (L : i < n) by lia. rewrite scatter_tree in F by (try apply non_qbx_flags_length; exact L).
    destruct (tgt_pt_inv L) as [P _]. rewrite non_qbx_flags_nth in F by exact P. apply andb_true_iff in F. destruct F as [F1 F2].
    apply Nat.leb_le in F1. apply Z.eqb_eq in F2. auto.
  - intros (L & F1 & F2). split; [lia|]. rewrite scatter_tree by (try apply non_qbx_flags_length; exact L).
    destruct (tgt_pt_inv L) as [P _]. rewrite non_qbx_flags_nth by exact P. apply andb_true_iff. split; [apply Nat.leb_le; exact F1|apply Z.eqb_eq; exact F2].
Qed.
Lemma non_qbx_NoDup : NoDup (non_qbx_targets T nc ttc).
Proof. apply NoDup_filter. apply seq_NoDup. Qed.

(** * Centers and boxes *)
Lemma utt_nth i : i < n -> nth i (user_target_from_tree_target T) 0 = ft_tgt_pt T i.
Proof.
  intros H. unfold user_target_from_tree_target. rewrite sorted_length. rewrite scatter_tree by (try apply seq_length; exact H).
  destruct (tgt_pt_inv H) as [P _]. rewrite seq_nth by exact P. reflexivity.
Qed.
Lemma b2tb_nth k : k < length (tr_target_boxes V) -> nth (nth k (tr_target_boxes V) 0) (box_to_target_box T V) 0 = k.
Proof.
  intros K. destruct (fo_target_boxes OK) as [ND B]. unfold box_to_target_box. rewrite scatter_nth.
  - rewrite seq_nth by exact K. reflexivity.
  - exact ND.
  - apply seq_length.
  - exact K.
  - rewrite repeat_length. apply B. apply nth_In. exact K.
Qed.
(** The target box number of center [c]. *)
Lemma ctb_spec c : c < nc -> exists k, k < length (tr_target_boxes V) /\ nth c (center_to_target_box T V nc) 0 = k
  /\ In (sorted c) (ft_box_tgt T (nth k (tr_target_boxes V) 0)).
Proof.
  intros Hc. assert (NL : nc <= n) by apply HT. assert (Hn : c < n) by lia.
  destruct (fo_in_one_box OK) with (i := sorted c) as (b & Hb & Tb & Ib & Ub); [apply sorted_lt; exact Hn|].
  apply In_nth with (d := 0) in Tb. destruct Tb as (k & K & Ek). exists k. split; [exact K|]. split; [|rewrite Ek; exact Ib].
  set (wr := fun p : nat * nat => let u := nth (snd p) (user_target_from_tree_target T) 0 in
      if u <? nc then Some (u, nth (fst p) (box_to_target_box T V) 0) else None).
  assert (E : center_to_target_box T V nc = fold_left (write_step wr) (flat_map (fun b => map (pair b) (ft_box_tgt T b)) (seq 0 (ft_nboxes T))) (repeat 0 nc)).
  { unfold center_to_target_box. generalize (repeat 0 nc). induction (seq 0 (ft_nboxes T)) as [|b0 l IH]; intros a; cbn [fold_left flat_map]; [reflexivity|].
    rewrite IH, fold_left_app. f_equal. generalize a. induction (ft_box_tgt T b0) as [|i l0 IH0]; intros a0; cbn [fold_left map]; [reflexivity|].
    rewrite IH0. f_equal. unfold write_step, wr. cbn [fst snd]. destruct (_ <? nc); reflexivity. }
  rewrite E. apply writes_some; [rewrite repeat_length; exact Hc| |].
  - intros [b' i'] v I W. apply in_flat_map in I. destruct I as (b0 & B0 & I). apply in_map_iff in I. destruct I as (i0 & E0 & I0). injection E0 as -> ->.
    apply in_seq in B0. assert (BL : b' < ft_nboxes T) by lia. assert (IL := fo_box_tgt OK _ BL I0). fold n in IL.
    unfold wr in W. cbn [fst snd] in W. rewrite utt_nth in W by exact IL. destruct (_ <? nc); [|discriminate]. injection W as W1 W2.
    assert (Ei : sorted c = i') by (rewrite <- W1; apply tgt_pt_inv; exact IL). subst i'. apply Ub in I0; [|exact BL]. subst b'.
    rewrite <- W2, <- Ek. apply b2tb_nth. exact K.
  - right. exists (b, sorted c). split.
    + apply in_flat_map. exists b. split; [apply in_seq; lia|]. apply in_map. exact Ib.
    + unfold wr. cbn [fst snd]. rewrite utt_nth by (apply sorted_lt; exact Hn). unfold sorted. rewrite (fo_tgt_pt OK Hn).
      apply Nat.ltb_lt in Hc. rewrite Hc. rewrite <- Ek at 1. rewrite b2tb_nth by exact K. reflexivity.
Qed.
Lemma ctb_length : length (center_to_target_box T V nc) = nc.
Proof.
  unfold center_to_target_box. assert (G : forall l a, length (fold_left (fun a b =>
      fold_left (fun a i => let u := nth i (user_target_from_tree_target T) 0 in
          if u <? nc then set_nth a u (nth b (box_to_target_box T V) 0) else a) (ft_box_tgt T b) a) l a) = length a).
  { induction l as [|b l IH]; intros a; cbn [fold_left]; [reflexivity|]. rewrite IH. generalize a.
    induction (ft_box_tgt T b) as [|i l0 IH0]; intros a0; cbn [fold_left]; [reflexivity|]. rewrite IH0. cbn zeta. destruct (_ <? nc); [apply set_nth_length|reflexivity]. }
  rewrite G. apply repeat_length.
Qed.
End Inc.
