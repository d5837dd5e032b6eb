(** Algebra of skeletonization errors. *)
From Coq Require Import Ring.
From Verif Require Import Base IndexModel IndexSpec IndexProofs IndexProofs2 IndexProps MatModel MatProofs SymProofs SymProofs2 SkModel SkSpec SkProofs SkProofs2.
Set Implicit Arguments.
Open Scope nat_scope.

Section P3.
Variable R : rops.
Variable Rth : ring_theory (r0 R) (r1 R) (radd R) (rmul R) (rsub R) (ropp R) eq.
Add Ring Rr3 : Rth.
Notation "0r" := (r0 R). Notation "1r" := (r1 R).
Infix "+r" := (radd R) (at level 50, left associativity).
Infix "-r" := (rsub R) (at level 50, left associativity).
Infix "*r" := (rmul R) (at level 40, left associativity).
Notation rsum := (rsum R).
Notation sum_prod := (sum_prod R).

Lemma rsum_sub n (f g : nat -> R) : rsum n (fun i => f i -r g i) = rsum n f -r rsum n g.
Proof. induction n as [|n IH]; simpl; [ring|]. rewrite IH. ring. Qed.

(** Rows: a matrix B = T X restricted to the rows a and ps. *)
Lemma resid_rows (B T X : nat -> nat -> R) (ps : list nat) (La : nat -> R) n k a b :
  B a b = sum_prod n (T a) (fun q => X q b) ->
  (forall l, l < k -> B (nth l ps 0) b = sum_prod n (T (nth l ps 0)) (fun q => X q b)) ->
  B a b -r sum_prod k La (fun l => B (nth l ps 0) b)
  = sum_prod n (fun q => T a q -r sum_prod k La (fun l => T (nth l ps 0) q)) (fun q => X q b).
Proof.
  intros Ha Hl. unfold SkSpec.sum_prod in *. rewrite Ha.
  rewrite (@rsum_ext R k (fun l => La l *r B (nth l ps 0) b)
     (fun l => La l *r rsum n (fun q => T (nth l ps 0) q *r X q b))) by (intros l Hk; rewrite Hl; auto).
  rewrite (rsum_assoc R Rth). rewrite <- rsum_sub. apply rsum_ext. intros q Hq. ring.
Qed.
Lemma resid_cols (B Y S : nat -> nat -> R) (ps : list nat) (Rb : nat -> R) n k a b :
  B a b = sum_prod n (Y a) (fun q => S q b) ->
  (forall l, l < k -> B a (nth l ps 0) = sum_prod n (Y a) (fun q => S q (nth l ps 0))) ->
  B a b -r sum_prod k (fun l => B a (nth l ps 0)) Rb
  = sum_prod n (Y a) (fun q => S q b -r sum_prod k (fun l => S q (nth l ps 0)) Rb).
Proof.
  intros Ha Hl. unfold SkSpec.sum_prod in *. rewrite Ha.
  rewrite (@rsum_ext R k (fun l => B a (nth l ps 0) *r Rb l)
     (fun l => rsum n (fun q => Y a q *r S q (nth l ps 0)) *r Rb l)) by (intros l Hk; rewrite Hl; auto).
  rewrite <- (rsum_assoc R Rth). rewrite <- rsum_sub. apply rsum_ext. intros q Hq. ring.
Qed.

(** An exact decomposition reproduces the matrix. *)
Lemma exact_reproduces (A : mat R) k idx proj : id_shape R A k idx proj -> id_exact R A idx proj ->
  forall i j, i < mr A -> j < mc A ->
  el A i j = sum_prod (mr proj) (fun l => el A i (nth l idx 0)) (fun l => el (reconstruct R idx proj) l j).
Proof.
  intros (HP & Hk & Hm) Hx i j Hi Hj. destruct (@perm_idx _ _ HP) as (Hnd & Hl & Hin).
  apply Hin in Hj. destruct (In_nth _ _ 0 Hj) as (b & Hb & <-). rewrite Hl in Hb. unfold SkSpec.sum_prod.
  destruct (Nat.lt_ge_cases b (mr proj)) as [Hlt|Hge].
  - transitivity (rsum (mr proj) (fun l => (if b =? l then 1r else 0r) *r el A i (nth l idx 0))).
    + rewrite (rsum_eye R Rth) by exact Hlt. reflexivity.
    + apply rsum_ext. intros l Hl'. unfold reconstruct. cbn [el].
      rewrite find_pos_nth by (auto; lia). destruct (Nat.ltb_spec b (mr proj)); [|lia].
      destruct (b =? l); ring.
  - replace b with (mr proj + (b - mr proj)) by lia. rewrite Hx by lia. apply rsum_ext. intros l Hl'.
    rewrite reconstruct_tail by (auto; lia). reflexivity.
Qed.

(** Matrix products exist when the shapes match. *)
Lemma mmul_ok (a b : mat R) : mc a = mr b ->
  mmul R a b = Ok (Mt (mr a) (mc b) (fun i j => sum_prod (mc a) (el a i) (fun l => el b l j))).
Proof. intros H. unfold mmul. rewrite H, Nat.eqb_refl. reflexivity. Qed.

Lemma sub_selection_nth cl ps sk : sub_selection cl ps sk -> length sk = length ps /\
  forall l, l < length ps -> nth l ps 0 < length cl /\ nth l sk 0%Z = nth (nth l ps 0) cl 0%Z.
Proof.
  intros (_ & H). assert (Hl : length sk = length ps).
  { apply (f_equal (@length _)) in H. rewrite !map_length in H. auto. }
  split; [exact Hl|]. intros l Hl'.
  assert (E : nth_error cl (nth l ps 0) = Some (nth l sk 0%Z)).
  { transitivity (nth l (map (nth_error cl) ps) None).
    - rewrite (nth_indep _ None (nth_error cl 0)) by (rewrite map_length; exact Hl').
      rewrite map_nth. reflexivity.
    - rewrite H. rewrite (nth_indep _ None (Some 0%Z)) by (rewrite map_length; lia). apply map_nth. }
  split; [apply nth_error_Some; congruence|].
  symmetry. apply (nth_error_nth _ _ 0%Z E).
Qed.
End P3.
