From Coq Require Import QArith Permutation Ring.
From Verif Require Import Base RefineModel AssocModel CollModel FmmModel FmmSpec FmmProofs FmmProofs2 MatModel MatSpec CostModel CostSpec CostProofs.
Set Implicit Arguments.
Open Scope nat_scope.

Section Sums.
Variable R : rops.
Variable Rth : ring_theory (r0 R) (r1 R) (radd R) (rmul R) (rsub R) (ropp R) eq.
Add Ring Rr : Rth.
Local Notation "0r" := (r0 R).

Lemma rnat_add a b : rnat R (a + b) = radd R (rnat R a) (rnat R b).
Proof. induction a as [|a IH]; cbn; [ring|]. rewrite IH. ring. Qed.
Lemma rnat_mul a b : rnat R (a * b) = rmul R (rnat R a) (rnat R b).
Proof. induction a as [|a IH]; cbn; [ring|]. rewrite rnat_add, IH. ring. Qed.
Lemma lsum_ext A (l : list A) (f g : A -> R) : (forall x, In x l -> f x = g x) -> lsum R l f = lsum R l g.
Proof. unfold lsum. induction l as [|x l IH]; intros H; cbn; [reflexivity|]. rewrite H by (left; reflexivity). rewrite IH; [reflexivity|]. intros y I. apply H. right. exact I. Qed.
Lemma lsum_mul_r A (l : list A) (f : A -> R) c : lsum R l (fun x => rmul R (f x) c) = rmul R (lsum R l f) c.
Proof. unfold lsum. induction l as [|x l IH]; cbn; [ring|]. rewrite IH. ring. Qed.
Lemma lsum_mul_l A (l : list A) (f : A -> R) c : lsum R l (fun x => rmul R c (f x)) = rmul R c (lsum R l f).
Proof. unfold lsum. induction l as [|x l IH]; cbn; [ring|]. rewrite IH. ring. Qed.
Lemma lsum_add A (l : list A) (f g : A -> R) : lsum R l (fun x => radd R (f x) (g x)) = radd R (lsum R l f) (lsum R l g).
Proof. unfold lsum. induction l as [|x l IH]; cbn; [ring|]. rewrite IH. ring. Qed.
Lemma lsum_zero A (l : list A) (f : A -> R) : (forall x, In x l -> f x = 0r) -> lsum R l f = 0r.
Proof. unfold lsum. induction l as [|x l IH]; intros H; cbn; [reflexivity|]. rewrite H by (left; reflexivity). rewrite IH; [ring|]. intros y I. apply H. right. exact I. Qed.
Lemma lsum_const A (l : list A) c : lsum R l (fun _ => c) = rmul R (rnat R (length l)) c.
Proof. unfold lsum. induction l as [|x l IH]; cbn; [ring|]. rewrite IH. ring. Qed.
Lemma lsum_nat A (l : list A) (w : A -> nat) : lsum R l (fun x => rnat R (w x)) = rnat R (list_sum (map w l)).
Proof. unfold lsum. induction l as [|x l IH]; cbn; [reflexivity|]. rewrite IH, <- rnat_add. reflexivity. Qed.
Lemma lsum_swap A B (l : list A) (l' : list B) (f : A -> B -> R) :
  lsum R l (fun x => lsum R l' (f x)) = lsum R l' (fun y => lsum R l (fun x => f x y)).
Proof.
  unfold lsum at 1. induction l as [|x l IH]; cbn [fold_right].
  - symmetry. apply lsum_zero. reflexivity.
  - rewrite IH, <- lsum_add. reflexivity.
Qed.
Lemma lsum_filter A (p : A -> bool) (l : list A) (f : A -> R) :
  lsum R (filter p l) f = lsum R l (fun x => if p x then f x else 0r).
Proof. unfold lsum. induction l as [|x l IH]; cbn; [reflexivity|]. destruct (p x); cbn; rewrite IH; [reflexivity|ring]. Qed.
Lemma fold_radd l : forall s, fold_left (radd R) l s = radd R s (fold_right (radd R) 0r l).
Proof. induction l as [|x l IH]; intros s; cbn; [ring|]. rewrite IH. ring. Qed.
Lemma lsum_seq_nth (a : list R) : lsum R (seq 0 (length a)) (rnth R a) = asum R a.
Proof.
  unfold asum. rewrite fold_radd. transitivity (fold_right (radd R) 0r a); [|ring].
  assert (G : forall pre, fold_right (fun x s => radd R (rnth R (pre ++ a) x) s) 0r (seq (length pre) (length a)) = fold_right (radd R) 0r a).
  { induction a as [|x a IH]; intros pre; cbn [length seq fold_right]; [reflexivity|]. f_equal.
    - unfold rnth. rewrite app_nth2 by lia. rewrite Nat.sub_diag. reflexivity.
    - specialize (IH (pre ++ [x])). rewrite app_length, <- app_assoc in IH. cbn [length app] in IH. rewrite Nat.add_1_r in IH. exact IH. }
  exact (G []).
Qed.
Lemma lsum_single (k n : nat) (v : R) : k < n -> lsum R (seq 0 n) (fun i => if i =? k then v else 0r) = v.
Proof.
  intros K. replace n with (k + S (n - k - 1)) by lia. rewrite seq_app. unfold lsum. rewrite fold_right_app. cbn [seq fold_right Nat.add].
  rewrite Nat.eqb_refl.
  assert (Z : forall l, (forall i, In i l -> i <> k) -> forall s, fold_right (fun x s => radd R (if x =? k then v else 0r) s) s l = s).
  { induction l as [|i l IH]; intros H s; cbn; [reflexivity|]. rewrite IH by (intros j J; apply H; right; exact J).
    assert (E : (i =? k) = false) by (apply Nat.eqb_neq; apply H; left; reflexivity). rewrite E. ring. }
  rewrite (Z (seq (S k) _)) by (intros i I; apply in_seq in I; lia). rewrite Z by (intros i I; apply in_seq in I; lia). ring.
Qed.

(** Accumulating loops. *)
Lemma add_at_length a i v : length (add_at R a i v) = length a.
Proof. apply set_nth_length. Qed.
Lemma add_at_nth a i v k : k < length a -> rnth R (add_at R a i v) k = radd R (rnth R a k) (if i =? k then v else 0r).
Proof.
  intros K. unfold rnth, add_at. rewrite nth_set_nth. rewrite (Nat.eqb_sym k i). destruct (i =? k) eqn:E; cbn [andb]; [|ring].
  apply Nat.eqb_eq in E. subst i. replace (k <? length a) with true by (symmetry; apply Nat.ltb_lt; exact K). reflexivity.
Qed.
Lemma acc_length A (g : A -> nat) (v : A -> R) l : forall a, length (fold_left (fun a x => add_at R a (g x) (v x)) l a) = length a.
Proof. induction l as [|x l IH]; intros a; cbn; [reflexivity|]. rewrite IH. apply add_at_length. Qed.
Lemma acc_nth A (g : A -> nat) (v : A -> R) l k : forall a, k < length a ->
  rnth R (fold_left (fun a x => add_at R a (g x) (v x)) l a) k = radd R (rnth R a k) (lsum R (filter (fun x => g x =? k) l) v).
Proof.
  induction l as [|x l IH]; intros a K; cbn [fold_left filter]; [unfold lsum; cbn; ring|].
  rewrite IH by (rewrite add_at_length; exact K). rewrite add_at_nth by exact K. destruct (g x =? k); unfold lsum; cbn; ring.
Qed.
Lemma rnth_repeat n k : rnth R (repeat 0r n) k = 0r.
Proof. apply nth_rep. Qed.
(** A loop of loops. *)
Lemma outer_length A (f : A -> list R -> list R) l : (forall x a, In x l -> length (f x a) = length a) ->
  forall a, length (fold_left (fun a x => f x a) l a) = length a.
Proof. induction l as [|x l IH]; intros H a; cbn; [reflexivity|]. rewrite IH by (intros; apply H; right; assumption). apply H. left. reflexivity. Qed.
Lemma outer_nth A (f : A -> list R -> list R) (c : A -> R) l k n : (forall x a, In x l -> length (f x a) = length a) ->
  (forall x a, In x l -> length a = n -> rnth R (f x a) k = radd R (rnth R a k) (c x)) ->
  forall a, length a = n -> rnth R (fold_left (fun a x => f x a) l a) k = radd R (rnth R a k) (lsum R l c).
Proof.
  induction l as [|x l IH]; intros HL HN a La; cbn [fold_left]; [unfold lsum; cbn; ring|].
  rewrite IH; [|intros; apply HL; right; assumption|intros; apply HN; [right; assumption|assumption]|rewrite HL; [exact La|left; reflexivity]].
  rewrite HN by (try (left; reflexivity); exact La). unfold lsum. cbn. ring.
Qed.
Lemma fold_left_pair_ext A B C (f : C -> A * B -> C) (g : A * B -> C -> C) l : (forall a x, f a x = g x a) -> forall a, fold_left f l a = fold_left (fun a x => g x a) l a.
Proof. intros H. induction l as [|x l IH]; intros a; cbn; [reflexivity|]. rewrite H. apply IH. Qed.
Lemma lsum_combine_seq A (l : list A) (d : A) (f : nat * A -> R) :
  lsum R (combine (seq 0 (length l)) l) f = lsum R (seq 0 (length l)) (fun i => f (i, nth i l d)).
Proof.
  assert (G : forall pre, lsum R (combine (seq (length pre) (length l)) l) f = lsum R (seq (length pre) (length l)) (fun i => f (i, nth i (pre ++ l) d))).
  { induction l as [|x l IH]; intros pre; [reflexivity|]. cbn [length seq combine]. unfold lsum in *. cbn [fold_right]. f_equal.
    - rewrite app_nth2 by lia. rewrite Nat.sub_diag. reflexivity.
    - specialize (IH (pre ++ [x])). rewrite app_length in IH. cbn [length] in IH. rewrite Nat.add_1_r in IH. rewrite IH. rewrite <- app_assoc. reflexivity. }
  exact (G []).
Qed.
End Sums.

Section Agree.
Variable R : rops.
Variable Rth : ring_theory (r0 R) (r1 R) (radd R) (rmul R) (rsub R) (ropp R) eq.
Add Ring Rr2 : Rth.
Variable T : ftree.
Variable V : ftrav.
Variable level : nat -> nat.
Hypothesis OK : fmm_ok T V.
Hypothesis BT : forall b, In b (tr_target_boxes V) -> NoDup (ft_box_tgt T b).
Variable nc : nat.
Variable ttc : list Z.
Hypothesis HT : ttc_ok nc (ft_ntgt T) ttc.
Local Notation ntb := (length (tr_target_boxes V)).
Local Notation cin := (centers_in T V nc ttc).
Local Notation "0r" := (r0 R).

Lemma nqbx_count k : k < ntb -> nth k (nqbx_centers_per_tgt_box T V nc ttc None) 0 = length (cin k).
Proof.
  intros K. rewrite (nqbx_nth OK BT HT None K I). induction (cin k) as [|c l IH]; cbn; [reflexivity|]. f_equal. exact IH.
Qed.
Lemma nqbx_served k : k < ntb ->
  nth k (nqbx_centers_per_tgt_box T V nc ttc (Some (target_weights T nc ttc))) 0 = list_sum (map (fun c => length (served T nc ttc c)) (cin k)).
Proof.
  intros K. rewrite (nqbx_nth OK BT HT (Some (target_weights T nc ttc)) K (target_weights_length T nc ttc)). f_equal. apply map_ext_in. intros c I. cbn [wts].
  apply (target_weights_nth OK HT). apply In_centers_in in I. exact I.
Qed.

Lemma vec_form_ok cost nd : length nd = ntb -> per_box R V (vec_form_qbxl R T V nc ttc cost nd) (spec_form R T V nc ttc cost nd).
Proof.
  intros L. split; [unfold vec_form_qbxl; rewrite map_length, combine_length, nqbx_length, L; lia|].
  intros k K. unfold vec_form_qbxl, rnth. rewrite (@nth_map_d (nat * nat) R _ _ k (0, 0) 0r) by (rewrite combine_length, nqbx_length, L; lia).
  rewrite combine_nth by (rewrite nqbx_length, L; reflexivity). rewrite nqbx_count by exact K. unfold spec_form.
  rewrite (lsum_const R Rth), (rnat_mul R Rth). ring.
Qed.
Lemma vec_eval_ok cost : per_box R V (vec_eval_qbxl R T V nc ttc cost) (spec_eval R T V nc ttc cost).
Proof.
  split; [unfold vec_eval_qbxl; rewrite map_length; apply nqbx_length|].
  intros k K. unfold vec_eval_qbxl, rnth. rewrite (@nth_map_d nat R _ _ k 0 0r) by (rewrite nqbx_length; exact K).
  rewrite nqbx_served by exact K. unfold spec_eval. rewrite (lsum_mul_r R Rth), (lsum_nat R Rth). reflexivity.
Qed.
Lemma vec_eval_ts_ok cost nd : length nd = ntb -> per_box R V (vec_eval_ts_qbxl R T V nc ttc cost nd) (spec_eval_ts R T V nc ttc cost nd).
Proof.
  intros L. split; [unfold vec_eval_ts_qbxl; rewrite map_length, combine_length, nqbx_length, L; lia|].
  intros k K. unfold vec_eval_ts_qbxl, rnth. rewrite (@nth_map_d (nat * nat) R _ _ k (0, 0) 0r) by (rewrite combine_length, nqbx_length, L; lia).
  rewrite combine_nth by (rewrite nqbx_length, L; reflexivity). rewrite nqbx_served by exact K. unfold spec_eval_ts.
  rewrite (lsum_mul_r R Rth). f_equal. rewrite (rnat_mul R Rth), <- (lsum_nat R Rth), <- (lsum_mul_r R Rth). apply lsum_ext. intros c _. symmetry. apply (rnat_mul R Rth).
Qed.
Lemma vec_l2q_ok cost : per_box R V (vec_l2qbxl R T V level nc ttc cost) (spec_l2q R T V level nc ttc cost).
Proof.
  split; [unfold vec_l2qbxl; rewrite map_length, combine_length, nqbx_length; lia|].
  intros k K. unfold vec_l2qbxl. unfold rnth at 1. rewrite (@nth_map_d (nat * nat) R _ _ k (0, 0) 0r) by (rewrite combine_length, nqbx_length; lia).
  rewrite combine_nth by (rewrite nqbx_length; reflexivity). rewrite nqbx_count by exact K. unfold spec_l2q. rewrite (lsum_const R Rth). reflexivity.
Qed.
Lemma vec_m2q_ok cost : per_box R V (vec_m2qbxl R T V nc ttc cost) (spec_m2q R T V nc ttc cost).
Proof.
  unfold vec_m2qbxl. set (nq := nqbx_centers_per_tgt_box T V nc ttc None).
  rewrite (@fold_left_pair_ext _ _ _ _ (fun (x : nat * (list nat * (nat -> list nat))) a => vec_m2qbxl_level R nq (snd x) (rnth R cost (fst x)) a)) by (intros a [l lev]; reflexivity).
  assert (LL : forall x a, length (vec_m2qbxl_level R nq (snd x) (rnth R cost (fst x)) a) = length a) by (intros [l lev] a; apply acc_length).
  split; [rewrite outer_length; [apply repeat_length|intros; apply LL]|].
  intros k K. rewrite (@outer_nth R Rth _ _ (fun x => lsum R (seq 0 (length (fst (snd x)))) (fun m => if nth m (fst (snd x)) 0 =? k then rmul R (rnat R (nth k nq 0 * length (snd (snd x) m))) (rnth R cost (fst x)) else 0r)) _ k ntb).
  - rewrite rnth_repeat. unfold spec_m2q. rewrite (lsum_const R Rth). rewrite (@lsum_combine_seq R _ (tr_smaller V) ([], fun _ => [])). cbn [fst snd].
    rewrite <- (lsum_mul_l R Rth). match goal with |- radd R 0r ?x = _ => transitivity x; [ring|] end. apply lsum_ext. intros l _. rewrite <- (lsum_mul_l R Rth). apply lsum_ext. intros m _.
    destruct (_ =? k); [|ring]. unfold nq. rewrite nqbx_count by exact K. rewrite (rnat_mul R Rth). ring.
  - intros; apply LL.
  - intros [l lev] a I La. cbn [fst snd]. unfold vec_m2qbxl_level.
    rewrite (@acc_nth R Rth nat (fun i => nth i (fst lev) 0) (fun i => rmul R (rnat R (nth (nth i (fst lev) 0) nq 0 * length (snd lev i))) (rnth R cost l))) by lia.
    f_equal. rewrite (lsum_filter R Rth). apply lsum_ext. intros m _. destruct (nth m (fst lev) 0 =? k) eqn:E; [|reflexivity]. apply Nat.eqb_eq in E. rewrite E. reflexivity.
  - apply repeat_length.
Qed.

(** The reference loops. *)
Lemma global_lt c : In c (global_centers nc ttc) -> c < nc.
Proof. unfold global_centers. intros I. apply filter_In in I. destruct I as [I _]. apply in_seq in I. lia. Qed.
Lemma py_acc (v : nat -> R) k : k < ntb ->
  rnth R (fold_left (fun a c => add_at R a (ctb T V nc c) (v c)) (global_centers nc ttc) (repeat 0r ntb)) k = lsum R (cin k) v.
Proof.
  intros K. rewrite (@acc_nth R Rth nat (ctb T V nc) v) by (rewrite repeat_length; exact K). rewrite rnth_repeat.
  rewrite <- (centers_in_eq OK HT K). unfold ctb. ring.
Qed.
Lemma rnth_map (f : R -> R) a k : k < length a -> rnth R (map f a) k = f (rnth R a k).
Proof. intros K. unfold rnth. apply nth_map_d. exact K. Qed.
Lemma ctb_in k c : k < ntb -> In c (cin k) -> ctb T V nc c = k.
Proof. intros K I. rewrite <- (centers_in_eq OK HT K) in I. apply filter_In in I. destruct I as [_ I]. apply Nat.eqb_eq in I. exact I. Qed.

Lemma py_form_ok cost nd : length nd = ntb -> per_box R V (py_form_qbxl R T V nc ttc cost nd) (spec_form R T V nc ttc cost nd).
Proof.
  intros L. split; [unfold py_form_qbxl; rewrite map_length, acc_length; apply repeat_length|].
  intros k K. unfold py_form_qbxl. rewrite rnth_map by (rewrite acc_length, repeat_length; exact K).
  rewrite (@py_acc (fun c => rnat R (nth (ctb T V nc c) nd 0))) by exact K. rewrite <- (lsum_mul_r R Rth). apply lsum_ext. intros c I. rewrite (@ctb_in k c K I). reflexivity.
Qed.
Lemma py_eval_ok cost : per_box R V (py_eval_qbxl R T V nc ttc cost) (spec_eval R T V nc ttc cost).
Proof.
  split; [unfold py_eval_qbxl; rewrite map_length, acc_length; apply repeat_length|].
  intros k K. unfold py_eval_qbxl. rewrite rnth_map by (rewrite acc_length, repeat_length; exact K).
  rewrite (@py_acc (fun c => rnat R (nth c (target_weights T nc ttc) 0))) by exact K. rewrite <- (lsum_mul_r R Rth). apply lsum_ext. intros c I.
  rewrite (target_weights_nth OK HT) by (apply In_centers_in in I; exact I). reflexivity.
Qed.
Lemma py_eval_ts_ok cost nd : length nd = ntb -> per_box R V (py_eval_ts_qbxl R T V nc ttc cost nd) (spec_eval_ts R T V nc ttc cost nd).
Proof.
  intros L. split; [unfold py_eval_ts_qbxl; rewrite map_length, acc_length; apply repeat_length|].
  intros k K. unfold py_eval_ts_qbxl. rewrite rnth_map by (rewrite acc_length, repeat_length; exact K).
  rewrite (@py_acc (fun c => rnat R (nth (ctb T V nc c) nd 0 * nth c (target_weights T nc ttc) 0))) by exact K. rewrite <- (lsum_mul_r R Rth). apply lsum_ext. intros c I.
  rewrite (@ctb_in k c K I), (target_weights_nth OK HT) by (apply In_centers_in in I; exact I). rewrite Nat.mul_comm. reflexivity.
Qed.
Lemma py_l2q_ok cost : per_box R V (py_l2qbxl R T V level nc ttc cost) (spec_l2q R T V level nc ttc cost).
Proof.
  split; [unfold py_l2qbxl; rewrite acc_length; apply repeat_length|].
  intros k K. unfold py_l2qbxl. rewrite (@py_acc (fun c => rnth R cost (level (nth (ctb T V nc c) (tr_target_boxes V) 0)))) by exact K. apply lsum_ext. intros c I.
  rewrite (@ctb_in k c K I). reflexivity.
Qed.
Lemma py_m2q_ok cost : per_box R V (py_m2qbxl R T V nc ttc cost) (spec_m2q R T V nc ttc cost).
Proof.
  unfold py_m2qbxl.
  set (step := fun (x : nat * (list nat * (nat -> list nat))) a => fold_left (fun a c =>
          match nth c (center_to_list3 T V nc (snd x)) None with
          | None => a
          | Some i => add_at R a (ctb T V nc c) (rmul R (rnat R (length (snd (snd x) i))) (rnth R cost (fst x)))
          end) (global_centers nc ttc) a).
  rewrite (@fold_left_pair_ext _ _ _ _ step) by (intros a [l lev]; reflexivity).
  assert (LL : forall x a, length (step x a) = length a).
  { intros x a. unfold step. revert a. induction (global_centers nc ttc) as [|c g IH]; intros a; cbn [fold_left]; [reflexivity|]. rewrite IH. destruct (nth c _ None); [apply add_at_length|reflexivity]. }
  split; [rewrite outer_length; [apply repeat_length|intros; apply LL]|].
  intros k K. rewrite (@outer_nth R Rth _ _ (fun x => lsum R (cin k) (fun _ => lsum R (seq 0 (length (fst (snd x)))) (fun m => if nth m (fst (snd x)) 0 =? k then rmul R (rnat R (length (snd (snd x) m))) (rnth R cost (fst x)) else 0r))) _ k ntb).
  - rewrite rnth_repeat. unfold spec_m2q. rewrite (lsum_swap R Rth). rewrite (@lsum_combine_seq R _ (tr_smaller V) ([], fun _ => [])). cbn [fst snd]. ring.
  - intros; apply LL.
  - intros [l lev] a I La. cbn [fst snd]. assert (Il : In lev (tr_smaller V)) by (apply in_combine_r in I; exact I).
    rewrite <- (centers_in_eq OK HT K). rewrite (lsum_filter R Rth). fold (ctb T V nc).
    set (t := lsum R (seq 0 (length (fst lev))) _).
    assert (G : forall g, (forall c, In c g -> c < nc) -> forall a, length a = ntb ->
      rnth R (fold_left (fun a c => match nth c (center_to_list3 T V nc lev) None with None => a
          | Some i => add_at R a (ctb T V nc c) (rmul R (rnat R (length (snd lev i))) (rnth R cost l)) end) g a) k
      = radd R (rnth R a k) (lsum R g (fun c => if nth c (center_to_target_box T V nc) 0 =? k then t else 0r))).
    { induction g as [|c g IH]; intros Hg a0 L0; cbn [fold_left]; [unfold lsum; cbn; ring|].
      assert (Hc : c < nc) by (apply Hg; left; reflexivity).
      destruct (ctb_spec OK HT Hc) as (k' & K' & Ek & _).
      pose proof (list3_some OK lev Il Hc Ek K') as S3. fold (ctb T V nc c) in Ek |- *.
      rewrite IH; [|intros; apply Hg; right; assumption|destruct (nth c _ None); [rewrite add_at_length|]; exact L0].
      unfold lsum at 2. cbn [fold_right]. fold (ctb T V nc c). rewrite Ek.
      assert (E : rnth R (match nth c (center_to_list3 T V nc lev) None with None => a0 | Some i => add_at R a0 k' (rmul R (rnat R (length (snd lev i))) (rnth R cost l)) end) k
        = radd R (rnth R a0 k) (if k' =? k then t else 0r)).
      { destruct (nth c (center_to_list3 T V nc lev) None) as [m|].
        - destruct S3 as [M Em]. rewrite (add_at_nth R Rth) by lia. f_equal. destruct (k' =? k) eqn:Ekk; [|reflexivity]. apply Nat.eqb_eq in Ekk. subst k'. unfold t.
          destruct (fo_smaller OK _ Il) as [ND _].
          rewrite (@lsum_ext R nat _ _ (fun i => if i =? m then rmul R (rnat R (length (snd lev m))) (rnth R cost l) else 0r)).
          + symmetry. apply (lsum_single R Rth). exact M.
          + intros i J. apply in_seq in J. destruct (nth i (fst lev) 0 =? k) eqn:Ei.
            * apply Nat.eqb_eq in Ei. assert (i = m) by (apply (NoDup_nth_inj ND); [lia|exact M|congruence]). subst i. rewrite Nat.eqb_refl. reflexivity.
            * assert (X : (i =? m) = false) by (apply Nat.eqb_neq; intros ->; apply Nat.eqb_neq in Ei; congruence). rewrite X. reflexivity.
        - destruct (k' =? k) eqn:Ekk; [|ring]. apply Nat.eqb_eq in Ekk. subst k'. replace t with 0r; [ring|]. symmetry. unfold t. apply (lsum_zero R Rth).
          intros m M. apply in_seq in M. destruct (nth m (fst lev) 0 =? k) eqn:Em; [|reflexivity]. exfalso. apply S3. rewrite Ekk. apply Nat.eqb_eq in Em. replace k with (nth m (fst lev) 0) by exact Em. apply nth_In. lia. }
      rewrite E. unfold lsum. ring. }
    unfold step. cbn [fst snd]. apply G; [intros; apply global_lt; assumption|exact La].
  - apply repeat_length.
Qed.

Lemma vec_ok : backend_ok T V level nc ttc (vec_backend R T V level nc ttc).
Proof.
  unfold backend_ok, vec_backend; cbn [p_form p_m2q p_l2q p_eval p_eval_ts].
  split; [exact vec_form_ok|]. split; [exact vec_m2q_ok|]. split; [exact vec_l2q_ok|]. split; [exact vec_eval_ok|exact vec_eval_ts_ok].
Qed.
Lemma py_ok : backend_ok T V level nc ttc (py_backend R T V level nc ttc).
Proof.
  unfold backend_ok, py_backend; cbn [p_form p_m2q p_l2q p_eval p_eval_ts].
  split; [exact py_form_ok|]. split; [exact py_m2q_ok|]. split; [exact py_l2q_ok|]. split; [exact py_eval_ok|exact py_eval_ts_ok].
Qed.
End Agree.
