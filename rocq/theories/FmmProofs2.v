From Coq Require Import QArith Permutation.
From Verif Require Import Base RefineModel AssocModel FmmModel FmmSpec FmmProofs.
Set Implicit Arguments.
Open Scope nat_scope.

(** * Lists *)
Lemma flat_map_map A B C (f : B -> C) (g : A -> list B) l : flat_map (fun a => map f (g a)) l = map f (flat_map g l).
Proof. induction l as [|x l IH]; cbn; [reflexivity|]. rewrite map_app, IH. reflexivity. Qed.
Lemma flat_map_ext' A B (f g : A -> list B) l : (forall a, In a l -> f a = g a) -> flat_map f l = flat_map g l.
Proof. induction l as [|x l IH]; cbn; intros H; [reflexivity|]. rewrite H by auto. rewrite IH by auto. reflexivity. Qed.
Lemma flat_map_nil A B (f : A -> list B) l : (forall a, In a l -> f a = []) -> flat_map f l = [].
Proof. induction l as [|x l IH]; cbn; intros H; [reflexivity|]. rewrite H by auto. apply IH. auto. Qed.
Lemma flat_map_single A (f : nat -> list A) n k : k < n -> (forall j, j < n -> j <> k -> f j = []) -> flat_map f (seq 0 n) = f k.
Proof.
  intros K H. assert (E : seq 0 n = seq 0 k ++ k :: seq (S k) (n - S k)).
  { replace n with (k + S (n - S k)) at 1 by lia. rewrite seq_app. reflexivity. }
  rewrite E, flat_map_app. cbn [flat_map].
  rewrite (flat_map_nil f (seq 0 k)) by (intros a I; apply in_seq in I; apply H; lia).
  rewrite (flat_map_nil f (seq (S k) _)) by (intros a I; apply in_seq in I; apply H; lia).
  cbn [app]. apply app_nil_r.
Qed.
Lemma flat_map_unique A B (p : A -> bool) (x : list B) l : length (filter p l) = 1 -> flat_map (fun a => if p a then x else []) l = x.
Proof.
  induction l as [|a l IH]; cbn; intros H; [discriminate|]. destruct (p a) eqn:E.
  - cbn in H. rewrite flat_map_nil; [apply app_nil_r|]. intros b I. destruct (p b) eqn:Eb; [|reflexivity].
    assert (F : In b (filter p l)) by (apply filter_In; auto). destruct (filter p l); [contradiction|discriminate].
  - apply IH. exact H.
Qed.
Lemma add_arrays_map A (f g : A -> list contr) l : add_arrays (map f l) (map g l) = map (fun a => f a ++ g a) l.
Proof. unfold add_arrays. induction l as [|x l IH]; cbn; [reflexivity|]. rewrite IH. reflexivity. Qed.
Lemma add_arrays_nth a b i : length a = length b -> nth i (add_arrays a b) [] = nth i a [] ++ nth i b [].
Proof.
  unfold add_arrays. revert b i. induction a as [|x a IH]; intros [|y b] i L; try discriminate; [destruct i; reflexivity|].
  destruct i as [|i]; cbn; [reflexivity|]. apply IH. cbn in L. lia.
Qed.
Lemma nth_map_d A B (f : A -> B) l i da db : i < length l -> nth i (map f l) db = f (nth i l da).
Proof. intros H. rewrite nth_indep with (d' := f da) by (rewrite map_length; exact H). apply map_nth. Qed.

(** A loop of pointwise additions. *)
Lemma fold_appends X B L (col : L -> list B) (g : L -> B -> list X) (dB : B) levels : forall a c,
  c < length a -> (forall l, In l levels -> length (col l) = length a) ->
  nth c (fold_left (fun a l => map (fun '(e, b) => e ++ g l b) (combine a (col l))) levels a) []
  = nth c a [] ++ flat_map (fun l => g l (nth c (col l) dB)) levels.
Proof.
  induction levels as [|l levels IH]; intros a c Hc HL; cbn [fold_left flat_map]; [symmetry; apply app_nil_r|].
  assert (L0 : length (col l) = length a) by (apply HL; left; reflexivity).
  assert (L1 : length (map (fun '(e, b) => e ++ g l b) (combine a (col l))) = length a) by (rewrite map_length, combine_length; lia).
  rewrite IH.
  - rewrite (@nth_map_d (list X * B) (list X) _ (combine a (col l)) c ([], dB) []) by (rewrite combine_length; lia).
    rewrite combine_nth by congruence. rewrite app_assoc. reflexivity.
  - rewrite L1. exact Hc.
  - intros l' I. rewrite L1. apply HL. right. exact I.
Qed.
Lemma fold_appends_length X B L (col : L -> list B) (g : L -> B -> list X) levels : forall a,
  (forall l, In l levels -> length (col l) = length a) ->
  length (fold_left (fun a l => map (fun '(e, b) => e ++ g l b) (combine a (col l))) levels a) = length a.
Proof.
  induction levels as [|l levels IH]; intros a HL; cbn [fold_left]; [reflexivity|].
  assert (L0 : length (col l) = length a) by (apply HL; left; reflexivity).
  assert (L1 : length (map (fun '(e, b) => e ++ g l b) (combine a (col l))) = length a) by (rewrite map_length, combine_length; lia).
  rewrite IH; [exact L1|]. intros l' I. rewrite L1. apply HL. right. exact I.
Qed.

Section Drive.
Variable T : ftree.
Variable V : ftrav.
Hypothesis OK : fmm_ok T V.
Variable nc : nat.
Variable ttc : list Z.
Hypothesis HT : ttc_ok nc (ft_ntgt T) ttc.
Variable w : list nat.
Let n := ft_ntgt T.
Let tb k := nth k (tr_target_boxes V) 0.
Let sorted u := nth u (ft_sorted T) 0.

Definition srcs (k : nat) : list nat := sources_near T V k ++ sources_smaller T V k ++ sources_far T V (nth k (tr_target_boxes V) 0).

Lemma near_eq k : near_parts T V w k = map (part T w) (sources_near T V k).
Proof. unfold near_parts, sources_near, box_parts. apply flat_map_map. Qed.
Lemma mpoles_eq l : flat_map (mpole T w) l = map (part T w) (flat_map (ft_subtree T) l).
Proof. unfold mpole. apply flat_map_map. Qed.
Lemma smaller_eq k : smaller_parts T V w k = map (part T w) (sources_smaller T V k).
Proof.
  unfold smaller_parts, sources_smaller. rewrite <- flat_map_map. apply flat_map_ext'. intros lev _.
  rewrite <- flat_map_map. apply flat_map_ext'. intros m _. destruct (_ =? k); [apply mpoles_eq|reflexivity].
Qed.
Lemma far_eq b : locals T V w b = map (part T w) (sources_far T V b).
Proof.
  unfold locals, sources_far, local2, local4, box_parts. rewrite <- flat_map_map. apply flat_map_ext'. intros a _.
  rewrite map_app, mpoles_eq, flat_map_map. reflexivity.
Qed.
Lemma eval_app knl a b r t : eval knl a r t ++ eval knl b r t = eval knl (a ++ b) r t.
Proof. unfold eval. symmetry. apply map_app. Qed.

(** * Targets without centers *)
Lemma in_box_unique i : i < n -> exists k, k < length (tr_target_boxes V) /\ in_box T (tb k) i = true
  /\ forall k', k' < length (tr_target_boxes V) -> k' <> k -> in_box T (tb k') i = false.
Proof.
  intros H. destruct (fo_in_one_box OK H) as (b & Hb & Tb & Ib & Ub). apply In_nth with (d := 0) in Tb. destruct Tb as (k & K & Ek).
  destruct (fo_target_boxes OK) as [ND B]. exists k. split; [exact K|]. split.
  - unfold in_box. apply existsb_exists. exists i. split; [unfold tb; rewrite Ek; exact Ib|apply Nat.eqb_refl].
  - intros k' K' N. destruct (in_box T (tb k') i) eqn:E; [|reflexivity]. exfalso. unfold in_box in E. apply existsb_exists in E.
    destruct E as (i' & I' & E). apply Nat.eqb_eq in E. subst i'. apply Ub in I'; [|apply B; apply nth_In; exact K'].
    apply N. apply (NoDup_nth_inj ND K' K). unfold tb in I'. congruence.
Qed.
Definition nonqbx_entry (knl i : nat) : list contr :=
  let at_ s := flat_map (fun k => if in_box T (tb k) i then eval knl (s k) Point (ft_tgt_pt T i) else []) (seq 0 (length (tr_target_boxes V))) in
  (at_ (near_parts T V w) ++ at_ (smaller_parts T V w)) ++ at_ (fun k => locals T V w (tb k)).
Lemma non_qbx_potentials_eq knl : non_qbx_potentials T V nc ttc w knl = map (nonqbx_entry knl) (non_qbx_targets T nc ttc).
Proof. unfold non_qbx_potentials, eval_at_targets. rewrite !add_arrays_map. reflexivity. Qed.
Lemma nonqbx_entry_eq knl i : i < n -> exists k, k < length (tr_target_boxes V) /\ nonqbx_entry knl i = eval knl (map (part T w) (srcs k)) Point (ft_tgt_pt T i).
Proof.
  intros H. destruct (in_box_unique H) as (k & K & I1 & I2). exists k. split; [exact K|]. unfold nonqbx_entry.
  assert (G : forall s, flat_map (fun k => if in_box T (tb k) i then eval knl (s k) Point (ft_tgt_pt T i) else []) (seq 0 (length (tr_target_boxes V)))
     = eval knl (s k) Point (ft_tgt_pt T i)).
  { intros s. rewrite flat_map_single with (k := k); [rewrite I1; reflexivity|exact K|]. intros j J N. rewrite I2 by assumption. reflexivity. }
  rewrite !G, near_eq, smaller_eq, far_eq, !eval_app. unfold srcs. rewrite !map_app, app_assoc. reflexivity.
Qed.

(** * Expansions about the centers *)
Lemma form_nth c : In c (global_centers nc ttc) -> c < nc -> nth c (form_global_qbx_locals T V nc ttc w) [] = near_parts T V w (nth c (center_to_target_box T V nc) 0).
Proof.
  intros I Hc. unfold form_global_qbx_locals.
  set (wr := fun c : nat => Some (c, flat_map (box_parts T w) (tr_near V (nth c (center_to_target_box T V nc) 0)))).
  assert (E : forall l a, fold_left (fun a c => set_nth a c (flat_map (box_parts T w) (tr_near V (nth c (center_to_target_box T V nc) 0)))) l a
     = fold_left (write_step wr) l a) by (intros; apply fold_left_ext'; reflexivity).
  rewrite E. apply writes_some; [rewrite repeat_length; exact Hc| |].
  - intros x v _ W. injection W as -> <-. reflexivity.
  - right. exists c. split; [exact I|]. reflexivity.
Qed.
Lemma form_length : length (form_global_qbx_locals T V nc ttc w) = nc.
Proof.
  unfold form_global_qbx_locals. generalize (global_centers nc ttc). intros l.
  assert (G : forall a, length (fold_left (fun a c => set_nth a c (flat_map (box_parts T w) (tr_near V (nth c (center_to_target_box T V nc) 0)))) l a) = length a).
  { induction l as [|c l IH]; intros a; cbn [fold_left]; [reflexivity|]. rewrite IH. apply set_nth_length. }
  rewrite G. apply repeat_length.
Qed.

Lemma list3_length lev : length (center_to_list3 T V nc lev) = nc.
Proof. unfold center_to_list3. rewrite map_length. apply ctb_length. Qed.
Lemma list3_nth lev c k : In lev (tr_smaller V) -> c < nc -> nth c (center_to_target_box T V nc) 0 = k -> k < length (tr_target_boxes V) ->
  match nth c (center_to_list3 T V nc lev) None with Some m => flat_map (mpole T w) (snd lev m) | None => [] end
  = flat_map (fun m => if nth m (fst lev) 0 =? k then flat_map (mpole T w) (snd lev m) else []) (seq 0 (length (fst lev))).
Proof.
  intros I Hc Ek K. destruct (fo_smaller OK _ I) as [ND B]. unfold center_to_list3.
  rewrite (@nth_map_d nat (option nat) _ _ c 0 None) by (rewrite ctb_length; exact Hc). rewrite Ek.
  destruct (in_dec Nat.eq_dec k (fst lev)) as [Y|N].
  - apply In_nth with (d := 0) in Y. destruct Y as (m & M & Em).
    assert (E : nth k (scatter (repeat None (length (tr_target_boxes V))) (fst lev) (map Some (seq 0 (length (fst lev))))) None = Some m).
    { rewrite <- Em at 1. rewrite scatter_nth; [|exact ND|rewrite map_length; apply seq_length|exact M|rewrite repeat_length, Em; exact K].
      rewrite (@nth_map_d nat (option nat) Some (seq 0 (length (fst lev))) m 0 None) by (rewrite seq_length; exact M). rewrite seq_nth by exact M. reflexivity. }
    rewrite E. rewrite flat_map_single with (k := m); [rewrite Em, Nat.eqb_refl; reflexivity|exact M|].
    intros j J NJ. destruct (nth j (fst lev) 0 =? k) eqn:Ej; [|reflexivity]. exfalso. apply NJ. apply Nat.eqb_eq in Ej. apply (NoDup_nth_inj ND J M). congruence.
  - rewrite scatter_other by exact N. rewrite nth_rep. symmetry. apply flat_map_nil. intros m M. apply in_seq in M.
    destruct (nth m (fst lev) 0 =? k) eqn:Em; [|reflexivity]. exfalso. apply N. apply Nat.eqb_eq in Em. subst k. rewrite <- Em. apply nth_In. lia.
Qed.
Lemma m2qbxl_eq : m2qbxl T V nc w = fold_left (fun a lev => map (fun '(e, m) => e ++ match m with Some m => flat_map (mpole T w) (snd lev m) | None => [] end)
        (combine a (center_to_list3 T V nc lev))) (tr_smaller V) (repeat [] nc).
Proof.
  unfold m2qbxl. apply fold_left_ext'. intros a lev. apply map_ext. intros [e [m|]]; [reflexivity|symmetry; apply app_nil_r].
Qed.
Lemma m2qbxl_nth c k : c < nc -> nth c (center_to_target_box T V nc) 0 = k -> k < length (tr_target_boxes V) -> nth c (m2qbxl T V nc w) [] = smaller_parts T V w k.
Proof.
  intros Hc Ek K. rewrite m2qbxl_eq.
  pose proof (@fold_appends (nat * nat) (option nat) (list nat * (nat -> list nat)) (center_to_list3 T V nc)
     (fun lev m => match m with Some m => flat_map (mpole T w) (snd lev m) | None => [] end) None (tr_smaller V) (repeat [] nc) c) as F.
  etransitivity; [apply F; [rewrite repeat_length; exact Hc|intros l _; rewrite repeat_length; apply list3_length]|]. rewrite nth_rep. cbn [app].
  unfold smaller_parts. apply flat_map_ext'. intros lev I. apply list3_nth; assumption.
Qed.
Lemma m2qbxl_length : length (m2qbxl T V nc w) = nc.
Proof.
  rewrite m2qbxl_eq.
  pose proof (@fold_appends_length (nat * nat) (option nat) (list nat * (nat -> list nat)) (center_to_list3 T V nc)
     (fun lev m => match m with Some m => flat_map (mpole T w) (snd lev m) | None => [] end) (tr_smaller V) (repeat [] nc)) as F.
  etransitivity; [apply F; intros l _; rewrite repeat_length; apply list3_length|apply repeat_length].
Qed.

Lemma l2qbxl_eq : l2qbxl T V nc w = fold_left (fun a lev => map (fun '(e, k) => e ++ (if (fst lev <=? tb k) && (tb k <? fst lev + snd lev) then locals T V w (tb k) else []))
        (combine a (center_to_target_box T V nc))) (ft_levels T) (repeat [] nc).
Proof.
  unfold l2qbxl. apply fold_left_ext'. intros a [s l]. apply map_ext. intros [e k]. cbn [fst snd]. fold (tb k). cbn zeta.
  destruct ((s <=? tb k) && (tb k <? s + l)); [reflexivity|symmetry; apply app_nil_r].
Qed.
Lemma l2qbxl_nth c k : c < nc -> nth c (center_to_target_box T V nc) 0 = k -> k < length (tr_target_boxes V) -> nth c (l2qbxl T V nc w) [] = locals T V w (tb k).
Proof.
  intros Hc Ek K. rewrite l2qbxl_eq.
  pose proof (@fold_appends (nat * nat) nat (nat * nat) (fun _ => center_to_target_box T V nc)
     (fun lev k => if (fst lev <=? tb k) && (tb k <? fst lev + snd lev) then locals T V w (tb k) else []) 0 (ft_levels T) (repeat [] nc) c) as F.
  cbn beta in F. etransitivity; [apply F; [rewrite repeat_length; exact Hc|intros l _; rewrite repeat_length; apply ctb_length]|]. rewrite nth_rep. cbn [app].
  rewrite Ek. apply flat_map_unique with (p := fun lev => (fst lev <=? tb k) && (tb k <? fst lev + snd lev)).
  apply (fo_levels OK). apply (fo_target_boxes OK). apply nth_In. exact K.
Qed.
Lemma l2qbxl_length : length (l2qbxl T V nc w) = nc.
Proof.
  rewrite l2qbxl_eq.
  pose proof (@fold_appends_length (nat * nat) nat (nat * nat) (fun _ => center_to_target_box T V nc)
     (fun lev k => if (fst lev <=? tb k) && (tb k <? fst lev + snd lev) then locals T V w (tb k) else []) (ft_levels T) (repeat [] nc)) as F.
  cbn beta in F. etransitivity; [apply F; intros l _; rewrite repeat_length; apply ctb_length|apply repeat_length].
Qed.
Lemma qbx_expansions_nth c : c < nc -> In c (global_centers nc ttc) ->
  exists k, k < length (tr_target_boxes V) /\ nth c (qbx_expansions T V nc ttc w) [] = map (part T w) (srcs k).
Proof.
  intros Hc I. destruct (ctb_spec OK HT Hc) as (k & K & Ek & _). exists k. split; [exact K|]. unfold qbx_expansions.
  rewrite (@nth_map_d (expn * expn * expn) expn _ (combine (combine _ _) _) c ([], [], []) []) by (rewrite !combine_length, form_length, m2qbxl_length, l2qbxl_length; lia).
  rewrite combine_nth by (rewrite combine_length, form_length, m2qbxl_length, l2qbxl_length; lia).
  rewrite combine_nth by (rewrite form_length, m2qbxl_length; reflexivity).
  rewrite form_nth by assumption. rewrite Ek, (m2qbxl_nth Hc Ek K), (l2qbxl_nth Hc Ek K), near_eq, smaller_eq, far_eq.
  unfold srcs, tb. rewrite !map_app, app_assoc. reflexivity.
Qed.

(** * Evaluation of the expansions *)
Definition qbx_wr (knl : nat) (p : nat * nat) : option (nat * list contr) :=
  Some (snd p, eval knl (nth (fst p) (qbx_expansions T V nc ttc w) []) (Via (fst p)) (ft_tgt_pt T (snd p))).
Definition qbx_pairs : list (nat * nat) := flat_map (fun c => map (pair c) (center_targets T ttc c)) (global_centers nc ttc).
Lemma eval_qbx_eq knl : eval_qbx_expansions T V nc ttc w knl = fold_left (write_step (qbx_wr knl)) qbx_pairs (repeat [] n).
Proof.
  unfold eval_qbx_expansions, qbx_pairs. fold n. generalize (repeat (@nil contr) n). induction (global_centers nc ttc) as [|c l IH]; intros a; cbn [fold_left flat_map]; [reflexivity|].
  rewrite IH, fold_left_app. f_equal. clear IH. revert a. induction (center_targets T ttc c) as [|i l0 IH0]; intros a0; cbn [fold_left map]; [reflexivity|].
  rewrite IH0. f_equal.
Qed.
Lemma In_qbx_pairs c i : In (c, i) qbx_pairs <-> In c (global_centers nc ttc) /\ i < n /\ nth (ft_tgt_pt T i) ttc 0%Z = Z.of_nat c.
Proof.
  unfold qbx_pairs. rewrite in_flat_map. split.
  - intros (c' & C & I). apply in_map_iff in I. destruct I as (i' & E & I). injection E as -> ->. apply (In_center_targets OK HT) in I. auto.
  - intros (C & H). exists c. split; [exact C|]. apply in_map. apply (In_center_targets OK HT). exact H.
Qed.
Lemma eval_qbx_some knl i c : i < n -> nth (ft_tgt_pt T i) ttc 0%Z = Z.of_nat c -> In c (global_centers nc ttc) ->
  nth i (eval_qbx_expansions T V nc ttc w knl) [] = eval knl (nth c (qbx_expansions T V nc ttc w) []) (Via c) (ft_tgt_pt T i).
Proof.
  intros H E C. rewrite eval_qbx_eq. apply writes_some; [rewrite repeat_length; exact H| |].
  - intros [c' i'] v I W. apply In_qbx_pairs in I. destruct I as (_ & _ & E'). unfold qbx_wr in W. cbn [fst snd] in W. injection W as -> <-.
    assert (c' = c) by lia. subst c'. reflexivity.
  - right. exists (c, i). split; [apply In_qbx_pairs; auto|reflexivity].
Qed.
Lemma eval_qbx_none knl i : i < n -> nth (ft_tgt_pt T i) ttc 0%Z = (-1)%Z -> nth i (eval_qbx_expansions T V nc ttc w knl) [] = [].
Proof.
  intros H E. rewrite eval_qbx_eq, writes_none; [apply nth_rep|]. intros [c i'] v I W. apply In_qbx_pairs in I. destruct I as (_ & _ & E').
  unfold qbx_wr in W. cbn [fst snd] in W. injection W as -> _. lia.
Qed.
Lemma eval_qbx_length knl : length (eval_qbx_expansions T V nc ttc w knl) = n.
Proof. rewrite eval_qbx_eq, writes_length. apply repeat_length. Qed.

(** * Everything together *)
Definition nonqbx_all (knl : nat) := scatter (repeat [] n) (non_qbx_targets T nc ttc) (non_qbx_potentials T V nc ttc w knl).
Lemma nonqbx_all_in knl i : In i (non_qbx_targets T nc ttc) -> nth i (nonqbx_all knl) [] = nonqbx_entry knl i.
Proof.
  intros I. assert (H := I). apply (In_non_qbx OK HT) in H. destruct H as (H & _). unfold nonqbx_all. apply In_nth with (d := 0) in I. destruct I as (m & M & E).
  rewrite <- E at 1. rewrite scatter_nth.
  - rewrite non_qbx_potentials_eq. rewrite (@nth_map_d _ _ _ _ m 0 []) by exact M. rewrite E. reflexivity.
  - apply non_qbx_NoDup.
  - rewrite non_qbx_potentials_eq, map_length. reflexivity.
  - exact M.
  - rewrite repeat_length, E. exact H.
Qed.
Lemma nonqbx_all_out knl i : ~ In i (non_qbx_targets T nc ttc) -> nth i (nonqbx_all knl) [] = [].
Proof. intros N. unfold nonqbx_all. rewrite scatter_other by exact N. apply nth_rep. Qed.

Lemma reorder_nth knl u : u < n -> nth u (reorder_potentials T V nc ttc w knl) []
  = nth (sorted u) (nonqbx_all knl) [] ++ nth (sorted u) (eval_qbx_expansions T V nc ttc w knl) [].
Proof.
  intros H. unfold reorder_potentials. rewrite (@nth_map_d _ _ _ (ft_sorted T) u 0 []) by (rewrite (sorted_length OK); exact H).
  rewrite add_arrays_nth; [reflexivity|]. rewrite scatter_length, repeat_length, eval_qbx_length. reflexivity.
Qed.
Lemma reorder_length knl : length (reorder_potentials T V nc ttc w knl) = n.
Proof. unfold reorder_potentials. rewrite map_length. apply (sorted_length OK). Qed.

Lemma tgt_sorted u : u < n -> ft_tgt_pt T (sorted u) = u.
Proof. intros H. apply (fo_tgt_pt OK H). Qed.

Lemma reorder_center knl u : u < nc -> nth u (reorder_potentials T V nc ttc w knl) [] = [].
Proof.
  intros H. destruct HT as (_ & NL & HC & _). assert (Hu : u < n) by (unfold n; lia). rewrite reorder_nth by exact Hu.
  rewrite nonqbx_all_out.
  - rewrite eval_qbx_none; [reflexivity|apply (sorted_lt OK); exact Hu|]. rewrite tgt_sorted by exact Hu. apply HC. exact H.
  - intros I. apply (In_non_qbx OK HT) in I. rewrite tgt_sorted in I by exact Hu. lia.
Qed.
Lemma reorder_target knl u : nc <= u -> u < n -> exists k, k < length (tr_target_boxes V) /\
  nth u (reorder_potentials T V nc ttc w knl) [] = eval knl (map (part T w) (srcs k)) (route_of (nth u ttc 0%Z)) u.
Proof.
  intros H Hu. rewrite reorder_nth by exact Hu. assert (SL := sorted_lt OK Hu). fold (sorted u) in SL. fold n in SL.
  destruct HT as (_ & _ & _ & HA). destruct (HA u H Hu) as [E|(c & C & E)].
  - rewrite nonqbx_all_in.
    + rewrite eval_qbx_none; [|exact SL|rewrite tgt_sorted by exact Hu; exact E]. rewrite app_nil_r.
      destruct (nonqbx_entry_eq knl SL) as (k & K & F). exists k. split; [exact K|]. etransitivity; [exact F|]. fold (sorted u). rewrite tgt_sorted by exact Hu. rewrite E. reflexivity.
    + apply (In_non_qbx OK HT). rewrite tgt_sorted by exact Hu. auto.
  - assert (G : In c (global_centers nc ttc)) by (eapply (In_global_centers); [exact HT|]; exists u; auto).
    rewrite nonqbx_all_out.
    + rewrite (eval_qbx_some knl) with (c := c); [|exact SL|rewrite tgt_sorted by exact Hu; exact E|exact G].
      destruct (@qbx_expansions_nth c C G) as (k & K & F). exists k. split; [exact K|]. cbn [app]. rewrite F, tgt_sorted by exact Hu. rewrite E.
      unfold route_of. assert (N : (Z.of_nat c =? -1)%Z = false) by (apply Z.eqb_neq; lia). rewrite N, Nat2Z.id. reflexivity.
    + intros I. apply (In_non_qbx OK HT) in I. rewrite tgt_sorted in I by exact Hu. lia.
Qed.
End Drive.

Lemma parts_perm T V (OK : fmm_ok T V) sw k : k < length (tr_target_boxes V) ->
  Permutation (map (part T (map (fun u => nth u sw 0) (ft_user_src T))) (srcs T V k)) (map (fun s => (nth s sw 0, s)) (seq 0 (ft_nsrc T))).
Proof.
  intros K. eapply Permutation_trans; [apply Permutation_map; apply (fo_cover OK K)|].
  eapply Permutation_trans; [|apply Permutation_map; apply (fo_user_src OK)].
  assert (L : length (ft_user_src T) = ft_nsrc T) by (rewrite (Permutation_length (fo_user_src OK)); apply seq_length).
  assert (E : map (part T (map (fun u => nth u sw 0) (ft_user_src T))) (seq 0 (ft_nsrc T)) = map (fun s => (nth s sw 0, s)) (ft_user_src T)).
  { apply nth_ext with (d := (0, 0)) (d' := (0, 0)); [rewrite !map_length, seq_length; congruence|].
    intros j J. rewrite map_length, seq_length in J.
    rewrite (@nth_map_d _ _ _ _ j 0 (0, 0)) by (rewrite seq_length; exact J). rewrite seq_nth by exact J. cbn [plus].
    rewrite (@nth_map_d _ _ _ (ft_user_src T) j 0 (0, 0)) by (rewrite L; exact J).
    unfold part. rewrite (@nth_map_d _ _ _ (ft_user_src T) j 0 0) by (rewrite L; exact J). rewrite (fo_src_pt OK J). reflexivity. }
  rewrite E. apply Permutation_refl.
Qed.

Lemma drive_fmm_nth T V nc ttc sw nknl knl : knl < nknl ->
  nth knl (drive_fmm T V nc ttc sw nknl) [] = reorder_potentials T V nc ttc (map (fun u => nth u sw 0) (ft_user_src T)) knl.
Proof.
  intros K. unfold drive_fmm. rewrite (@nth_map_d _ _ _ (seq 0 nknl) knl 0 []) by (rewrite seq_length; exact K). rewrite seq_nth by exact K. reflexivity.
Qed.
