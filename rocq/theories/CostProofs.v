From Coq Require Import QArith Permutation.
From Verif Require Import Base RefineModel AssocModel CollModel FmmModel FmmSpec FmmProofs FmmProofs2 MatModel MatSpec CostModel CostSpec.
Set Implicit Arguments.
Open Scope nat_scope.

Lemma list_sum_perm l l' : Permutation l l' -> list_sum l = list_sum l'.
Proof. induction 1; cbn; try reflexivity; try (unfold list_sum in *; lia). Qed.
Lemma fold_left_sum A (f : A -> nat) l : forall s, fold_left (fun s i => s + f i) l s = s + list_sum (map f l).
Proof. induction l as [|x l IH]; intros s; cbn; [lia|]. rewrite IH. unfold list_sum. lia. Qed.
Lemma list_sum_zero A (f : A -> nat) l : (forall x, In x l -> f x = 0) -> list_sum (map f l) = 0.
Proof. induction l as [|x l IH]; intros H; cbn; [reflexivity|]. rewrite (H x (or_introl eq_refl)). apply IH. intros y I. apply H. right. exact I. Qed.
Lemma filter_split_perm A (p : A -> bool) l : Permutation l (filter p l ++ filter (fun x => negb (p x)) l).
Proof.
  induction l as [|x l IH]; cbn; [constructor|]. destruct (p x); cbn; [constructor; exact IH|].
  apply Permutation_cons_app. exact IH.
Qed.
(** A sum over a list whose nonzero terms are the images of another. *)
Lemma sum_transfer (f : nat -> nat) (g : nat -> nat) box l :
  NoDup box -> NoDup (map g l) -> (forall x, In x l -> In (g x) box) -> (forall i, In i box -> ~ In i (map g l) -> f i = 0) ->
  list_sum (map f box) = list_sum (map (fun x => f (g x)) l).
Proof.
  intros NB NL I Z. rewrite <- (map_map g f).
  set (p := fun i => existsb (Nat.eqb i) (map g l)).
  assert (Hp : forall i, p i = true <-> In i (map g l)).
  { intros i. unfold p. rewrite existsb_exists. split; [intros (y & Y & E); apply Nat.eqb_eq in E; subst; exact Y|intros Y; exists i; split; [exact Y|apply Nat.eqb_refl]]. }
  rewrite (list_sum_perm (Permutation_map f (filter_split_perm p box))). rewrite map_app, list_sum_app.
  rewrite (@list_sum_zero nat f (filter (fun x => negb (p x)) box)).
  - rewrite Nat.add_0_r. apply list_sum_perm. apply Permutation_map. apply NoDup_Permutation; [apply NoDup_filter; exact NB|exact NL|].
    intros i. rewrite filter_In, Hp. split; [tauto|]. intros H. split; [|exact H]. apply in_map_iff in H. destruct H as (x & E & X). subst i. apply I. exact X.
  - intros i Hi. apply filter_In in Hi. destruct Hi as [B N]. apply Z; [exact B|]. intros M. apply Hp in M. rewrite M in N. discriminate.
Qed.
Lemma filter_filter' A (p q : A -> bool) l : filter p (filter q l) = filter (fun x => q x && p x) l.
Proof. induction l as [|x l IH]; cbn; [reflexivity|]. destruct (q x); cbn; [destruct (p x); rewrite IH; reflexivity|exact IH]. Qed.

Lemma NoDup_app_l A (l l' : list A) : NoDup (l ++ l') -> NoDup l.
Proof.
  induction l as [|x l IH]; cbn; intros H; [constructor|]. inversion H; subst. constructor; [|auto]. intros I. apply H2. apply in_or_app. left. exact I.
Qed.

Section Geo.
Variable T : ftree.
Variable V : ftrav.
Hypothesis OK : fmm_ok T V.
Hypothesis BT : forall b, In b (tr_target_boxes V) -> NoDup (ft_box_tgt T b).
Variable nc : nat.
Variable ttc : list Z.
Hypothesis HT : ttc_ok nc (ft_ntgt T) ttc.
Let n := ft_ntgt T.
Let sorted u := nth u (ft_sorted T) 0.

Lemma nc_le : nc <= n.
Proof. apply HT. Qed.
Lemma in_box_In b i : in_box T b i = true <-> In i (ft_box_tgt T b).
Proof.
  unfold in_box. rewrite existsb_exists. split; [intros (y & Y & E); apply Nat.eqb_eq in E; subst; exact Y|intros Y; exists i; split; [exact Y|apply Nat.eqb_refl]].
Qed.
Lemma sorted_inj c c' : c < n -> c' < n -> sorted c = sorted c' -> c = c'.
Proof. intros H H' E. apply (NoDup_nth_inj (sorted_NoDup OK)); [rewrite (sorted_length OK); exact H|rewrite (sorted_length OK); exact H'|exact E]. Qed.

(** Box of a center. *)
Lemma ctb_box c k : c < nc -> k < length (tr_target_boxes V) ->
  (nth c (center_to_target_box T V nc) 0 = k <-> In (sorted c) (ft_box_tgt T (nth k (tr_target_boxes V) 0))).
Proof.
  intros Hc K. destruct (ctb_spec OK HT Hc) as (k' & K' & E & I). destruct (fo_target_boxes OK) as [ND B].
  split; [intros <-; rewrite <- E in I; exact I|].
  intros J. assert (Hn : sorted c < n) by (apply (sorted_lt OK); pose proof nc_le; lia).
  destruct (fo_in_one_box OK Hn) as (b & Hb & _ & _ & U).
  assert (E1 := U _ (B _ (nth_In _ 0 K)) J). assert (E2 := U _ (B _ (nth_In _ 0 K')) I).
  rewrite E. apply (NoDup_nth_inj ND K' K). congruence.
Qed.
Lemma In_served c u : In u (served T nc ttc c) <-> nc <= u /\ u < n /\ nth u ttc 0%Z = Z.of_nat c.
Proof. unfold served. rewrite filter_In, in_seq, Z.eqb_eq. pose proof nc_le. unfold n in *. split; intros; [intuition lia|intuition lia]. Qed.
Lemma served_nonempty c : negb (length (served T nc ttc c) =? 0) = true <-> exists u, nc <= u /\ u < n /\ nth u ttc 0%Z = Z.of_nat c.
Proof.
  split.
  - intros H. destruct (served T nc ttc c) as [|u l] eqn:E; [discriminate|]. exists u. apply In_served. rewrite E. left. reflexivity.
  - intros (u & U). apply In_served in U. destruct (served T nc ttc c); [destruct U|reflexivity].
Qed.
Lemma global_eq : global_centers nc ttc = filter (fun c => negb (length (served T nc ttc c) =? 0)) (seq 0 nc).
Proof.
  unfold global_centers. apply filter_ext_in. intros c I. apply in_seq in I.
  apply eq_true_iff_eq. rewrite (center_is_used_spec T HT) by lia. rewrite served_nonempty. reflexivity.
Qed.
Lemma centers_in_eq k : k < length (tr_target_boxes V) ->
  filter (fun c => nth c (center_to_target_box T V nc) 0 =? k) (global_centers nc ttc) = centers_in T V nc ttc k.
Proof.
  intros K. rewrite global_eq, filter_filter'. unfold centers_in. apply filter_ext_in. intros c I. apply in_seq in I. f_equal.
  apply eq_true_iff_eq. rewrite Nat.eqb_eq, in_box_In. apply ctb_box; [lia|exact K].
Qed.

(** The weight array. *)
Lemma fill_nth (ixs : list nat) i : forall a, i < length a ->
  nth i (fold_left (fun a j => set_nth a j 1) ixs a) 0 = if existsb (Nat.eqb i) ixs then 1 else nth i a 0.
Proof.
  induction ixs as [|j l IH]; intros a L; cbn; [reflexivity|]. rewrite IH by (rewrite set_nth_length; exact L).
  rewrite nth_set_nth. destruct (existsb (Nat.eqb i) l); [destruct (i =? j); reflexivity|].
  rewrite orb_false_r. destruct (i =? j) eqn:E; [|reflexivity]. apply Nat.eqb_eq in E. subst j. replace (i <? length a) with true by (symmetry; apply Nat.ltb_lt; exact L). reflexivity.
Qed.
Lemma fill_length (ixs : list nat) : forall a, length (fold_left (fun a j => set_nth a j 1) ixs a) = length a.
Proof. induction ixs as [|j l IH]; intros a; cbn; [reflexivity|]. rewrite IH. apply set_nth_length. Qed.

Definition wts (weights : option (list nat)) (c : nat) : nat := match weights with None => 1 | Some ws => nth c ws 0 end.
Lemma weight_center weights c : c < nc -> match weights with Some ws => length ws = nc | None => True end ->
  nth (sorted c) (center_weight T nc ttc weights) 0 = if negb (length (served T nc ttc c) =? 0) then wts weights c else 0.
Proof.
  intros Hc L. pose proof nc_le as NL. unfold center_weight.
  set (ixs := map (fun c0 => nth c0 (ft_sorted T) 0) (global_centers nc ttc)).
  set (a := fold_left (fun a i => set_nth a i 1) ixs (repeat 0 (ft_ntgt T))).
  assert (S0 : sorted c < n) by (apply (sorted_lt OK); fold n; lia).
  assert (A : nth (sorted c) a 0 = if negb (length (served T nc ttc c) =? 0) then 1 else 0).
  { unfold a. rewrite fill_nth by (rewrite repeat_length; exact S0). rewrite nth_rep.
    assert (E : existsb (Nat.eqb (sorted c)) ixs = negb (length (served T nc ttc c) =? 0)).
    { apply eq_true_iff_eq. rewrite existsb_exists. unfold ixs. rewrite global_eq. split.
      - intros (y & Y & E). apply Nat.eqb_eq in E. subst y. apply in_map_iff in Y. destruct Y as (c' & E & Y). apply filter_In in Y. destruct Y as [Y1 Y2]. apply in_seq in Y1.
        apply sorted_inj in E; [subst; exact Y2|lia|lia].
      - intros E. exists (sorted c). split; [|apply Nat.eqb_refl]. apply in_map_iff. exists c. split; [reflexivity|]. apply filter_In. split; [apply in_seq; lia|exact E]. }
    rewrite E. reflexivity. }
  destruct weights as [ws|]; [|cbn [wts]; exact A]. cbn [wts].
  assert (LS : length (ft_sorted T) = n) by apply (sorted_length OK).
  assert (NF : nth c (firstn nc (ft_sorted T)) 0 = sorted c).
  { unfold sorted. rewrite <- (firstn_skipn nc (ft_sorted T)) at 2. rewrite app_nth1; [reflexivity|]. rewrite firstn_length, LS. lia. }
  assert (LF : length (firstn nc (ft_sorted T)) = nc) by (rewrite firstn_length, LS; lia).
  assert (LC : length (combine (firstn nc (ft_sorted T)) ws) = nc) by (rewrite combine_length, LF, L; lia).
  rewrite <- NF. rewrite scatter_nth.
  - rewrite (@nth_map_d (nat * nat) nat _ _ c (0, 0) 0) by (rewrite LC; exact Hc).
    rewrite combine_nth by (rewrite LF, L; reflexivity). rewrite NF, A. destruct (negb _); lia.
  - assert (ND := sorted_NoDup OK). rewrite <- (firstn_skipn nc (ft_sorted T)) in ND. exact (NoDup_app_l _ _ ND).
  - rewrite map_length, LC, LF. reflexivity.
  - rewrite LF. exact Hc.
  - rewrite NF. unfold a. rewrite fill_length, repeat_length. exact S0.
Qed.
Lemma weight_other weights i : i < n -> nc <= ft_tgt_pt T i -> match weights with Some ws => length ws = nc | None => True end ->
  nth i (center_weight T nc ttc weights) 0 = 0.
Proof.
  intros Hi Hc L. pose proof nc_le as NL. unfold center_weight.
  set (ixs := map (fun c0 => nth c0 (ft_sorted T) 0) (global_centers nc ttc)).
  assert (NI : forall c, c < nc -> i <> sorted c).
  { intros c C E. subst i. unfold sorted in Hc. rewrite (fo_tgt_pt OK) in Hc by (fold n; lia). lia. }
  assert (A : nth i (fold_left (fun a i => set_nth a i 1) ixs (repeat 0 (ft_ntgt T))) 0 = 0).
  { rewrite fill_nth by (rewrite repeat_length; exact Hi). rewrite nth_rep. destruct (existsb (Nat.eqb i) ixs) eqn:E; [|reflexivity]. exfalso.
    apply existsb_exists in E. destruct E as (y & Y & E). apply Nat.eqb_eq in E. subst y. unfold ixs in Y. apply in_map_iff in Y. destruct Y as (c & E & Y).
    rewrite global_eq in Y. apply filter_In in Y. destruct Y as [Y _]. apply in_seq in Y. apply (NI c); [lia|symmetry; exact E]. }
  destruct weights as [ws|]; [|exact A]. rewrite scatter_other; [exact A|].
  intros I. apply In_nth with (d := 0) in I. destruct I as (c & C & E). rewrite firstn_length, (sorted_length OK) in C. fold n in C.
  apply (NI c); [lia|]. rewrite <- E. unfold sorted. rewrite <- (firstn_skipn nc (ft_sorted T)) at 2. rewrite app_nth1; [reflexivity|]. rewrite firstn_length, (sorted_length OK). fold n. lia.
Qed.

Lemma nqbx_nth weights k : k < length (tr_target_boxes V) -> match weights with Some ws => length ws = nc | None => True end ->
  nth k (nqbx_centers_per_tgt_box T V nc ttc weights) 0 = list_sum (map (wts weights) (centers_in T V nc ttc k)).
Proof.
  intros K L. pose proof nc_le as NL. unfold nqbx_centers_per_tgt_box. rewrite (@nth_map_d nat nat _ _ k 0 0) by exact K.
  rewrite fold_left_sum. cbn [Nat.add]. set (b := nth k (tr_target_boxes V) 0).
  assert (Bin : In b (tr_target_boxes V)) by (apply nth_In; exact K).
  assert (Blt : b < ft_nboxes T) by (apply (fo_target_boxes OK); exact Bin).
  set (l := filter (fun c => in_box T b (sorted c)) (seq 0 nc)).
  rewrite (@sum_transfer (fun i => nth i (center_weight T nc ttc weights) 0) sorted (ft_box_tgt T b) l).
  - unfold centers_in, l. fold b. induction (seq 0 nc) as [|c s IH] eqn:E in |- *; [reflexivity|].
    assert (X : forall s, (forall c, In c s -> c < nc) -> list_sum (map (fun x => nth (sorted x) (center_weight T nc ttc weights) 0) (filter (fun c => in_box T b (sorted c)) s))
      = list_sum (map (wts weights) (filter (fun c => negb (length (served T nc ttc c) =? 0) && in_box T b (nth c (ft_sorted T) 0)) s))).
    { clear IH E s. induction s as [|c0 s IH]; intros H; [reflexivity|]. cbn [filter]. fold (sorted c0).
      assert (IH' := IH (fun c I => H c (or_intror I))). destruct (in_box T b (sorted c0)); [|rewrite andb_false_r; exact IH'].
      rewrite andb_true_r. cbn [map list_sum fold_right]. rewrite (@weight_center weights c0 (H c0 (or_introl eq_refl)) L).
      destruct (negb _); cbn [map list_sum fold_right]; unfold list_sum in IH'; rewrite IH'; reflexivity. }
    rewrite <- E. apply X. intros c' I. apply in_seq in I. lia.
  - apply BT. exact Bin.
  - assert (G : forall s, NoDup s -> (forall c, In c s -> c < n) -> NoDup (map sorted s)).
    { induction s as [|c s IH]; intros ND H; cbn; [constructor|]. inversion ND; subst. constructor; [|apply IH; [assumption|intros; apply H; right; assumption]].
      intros I. apply in_map_iff in I. destruct I as (c' & E & I). apply sorted_inj in E; [subst; contradiction|apply H; right; exact I|apply H; left; reflexivity]. }
    apply G; [apply NoDup_filter; apply seq_NoDup|]. intros c I. unfold l in I. apply filter_In in I. destruct I as [I _]. apply in_seq in I. lia.
  - intros c I. unfold l in I. apply filter_In in I. apply in_box_In. tauto.
  - intros i Ib NI. assert (Hi : i < n) by (exact (fo_box_tgt OK _ Blt Ib)). destruct (tgt_pt_inv OK Hi) as [P E].
    destruct (le_lt_dec nc (ft_tgt_pt T i)) as [C|C]; [apply weight_other; assumption|]. exfalso. apply NI. apply in_map_iff. exists (ft_tgt_pt T i). split; [exact E|].
    unfold l. apply filter_In. split; [apply in_seq; lia|]. apply in_box_In. unfold sorted. rewrite E. exact Ib.
Qed.
Lemma nqbx_length weights : length (nqbx_centers_per_tgt_box T V nc ttc weights) = length (tr_target_boxes V).
Proof. unfold nqbx_centers_per_tgt_box. apply map_length. Qed.

(** Numbers of targets. *)
Lemma center_targets_count c : c < nc -> length (center_targets T ttc c) = length (served T nc ttc c).
Proof.
  intros Hc. rewrite <- (map_length (ft_tgt_pt T)). apply Permutation_length. apply NoDup_Permutation.
  - assert (G : forall s, NoDup s -> (forall i, In i s -> i < n) -> NoDup (map (ft_tgt_pt T) s)).
    { induction s as [|i s IH]; intros ND H; cbn; [constructor|]. inversion ND; subst. constructor; [|apply IH; [assumption|intros; apply H; right; assumption]].
      intros I. apply in_map_iff in I. destruct I as (j & E & I). assert (X : i = j).
      { destruct (tgt_pt_inv OK (H i (or_introl eq_refl))) as [_ X1]. destruct (tgt_pt_inv OK (H j (or_intror I))) as [_ X2]. congruence. }
      subst. contradiction. }
    apply G; [apply center_targets_NoDup|]. intros i I. apply (In_center_targets OK HT) in I. tauto.
  - apply NoDup_filter. apply seq_NoDup.
  - intros u. rewrite in_map_iff, In_served. split.
    + intros (i & <- & I). apply (In_center_targets OK HT) in I. destruct I as [Hi E]. destruct (tgt_pt_inv OK Hi) as [P _]. split; [|split; [exact P|exact E]].
      destruct (le_lt_dec nc (ft_tgt_pt T i)) as [C|C]; [exact C|]. destruct HT as (_ & _ & H & _). rewrite (H _ C) in E. lia.
    + intros (U1 & U2 & E). exists (sorted u). split; [exact (fo_tgt_pt OK U2)|]. apply (In_center_targets OK HT).
      split; [apply (sorted_lt OK); exact U2|]. unfold sorted. rewrite (fo_tgt_pt OK U2). exact E.
Qed.
Lemma target_weights_nth c : c < nc -> nth c (target_weights T nc ttc) 0 = length (served T nc ttc c).
Proof.
  intros Hc. unfold target_weights. rewrite (@nth_map_d nat nat _ _ c 0 0) by (rewrite seq_length; exact Hc). rewrite seq_nth by exact Hc. apply center_targets_count. exact Hc.
Qed.
Lemma target_weights_length : length (target_weights T nc ttc) = nc.
Proof. unfold target_weights. rewrite map_length. apply seq_length. Qed.
Lemma In_centers_in k c : In c (centers_in T V nc ttc k) -> c < nc.
Proof. unfold centers_in. intros I. apply filter_In in I. destruct I as [I _]. apply in_seq in I. lia. Qed.

(** Compressed list 3. *)
Lemma list3_some lev c k : In lev (tr_smaller V) -> c < nc -> nth c (center_to_target_box T V nc) 0 = k -> k < length (tr_target_boxes V) ->
  match nth c (center_to_list3 T V nc lev) None with
  | Some m => m < length (fst lev) /\ nth m (fst lev) 0 = k
  | None => ~ In k (fst lev)
  end.
Proof.
  intros I Hc Ek K. destruct (fo_smaller OK _ I) as [ND B]. unfold center_to_list3.
  rewrite (@nth_map_d nat (option nat) _ _ c 0 None) by (rewrite ctb_length; exact Hc). rewrite Ek.
  destruct (in_dec Nat.eq_dec k (fst lev)) as [Y|N].
  - apply In_nth with (d := 0) in Y. destruct Y as (m & M & Em).
    assert (E : nth k (scatter (repeat None (length (tr_target_boxes V))) (fst lev) (map Some (seq 0 (length (fst lev))))) None = Some m).
    { rewrite <- Em at 1. rewrite scatter_nth; [|exact ND|rewrite map_length; apply seq_length|exact M|rewrite repeat_length, Em; exact K].
      rewrite (@nth_map_d nat (option nat) Some (seq 0 (length (fst lev))) m 0 None) by (rewrite seq_length; exact M). rewrite seq_nth by exact M. reflexivity. }
    rewrite E. auto.
  - rewrite scatter_other by exact N. rewrite nth_rep. exact N.
Qed.
End Geo.
