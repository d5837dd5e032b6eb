(** Solutions of the recurrence. *)
From Coq Require Import Reals List Lra Lia.
From Coquelicot Require Import Coquelicot.
From Verif Require Import Base TsModel TsSpec TsProofs5 JfModel JfSpec.
Import ListNotations.
Set Implicit Arguments.
Open Scope R_scope.

Section Rec.
Variable z : C.
Lemma rec_pair u0 u1 n : rec_from z u0 u1 n = (solution_from z u0 u1 n, solution_from z u0 u1 (S n)).
Proof. unfold solution_from. cbn [rec_from]. destruct (rec_from z u0 u1 n). reflexivity. Qed.
Lemma solution_0 u0 u1 : solution_from z u0 u1 0 = u0. Proof. reflexivity. Qed.
Lemma solution_1 u0 u1 : solution_from z u0 u1 1 = u1. Proof. reflexivity. Qed.
Lemma solution_rec u0 u1 : bessel_rec z (solution_from z u0 u1).
Proof.
  intros n. unfold solution_from at 1. cbn [rec_from]. rewrite rec_pair. reflexivity.
Qed.
Lemma rec_ext u v : bessel_rec z u -> bessel_rec z v -> u 0%nat = v 0%nat -> u 1%nat = v 1%nat -> forall n, u n = v n.
Proof.
  intros Hu Hv E0 E1 n. enough (u n = v n /\ u (S n) = v (S n)) by tauto.
  induction n as [|n [IH1 IH2]]; [auto|]. split; [exact IH2|]. rewrite Hu, Hv, IH1, IH2. reflexivity.
Qed.
Lemma rec_comb a b u v : bessel_rec z u -> bessel_rec z v -> bessel_rec z (fun n => (a * u n + b * v n)%C).
Proof. intros Hu Hv n. rewrite Hu, Hv. ring. Qed.
Lemma lommel_rec : bessel_rec z (lommel z). Proof. apply solution_rec. Qed.
Lemma lommel'_rec : bessel_rec z (lommel' z). Proof. apply solution_rec. Qed.
(** Every solution is a combination of the two. *)
Lemma rec_lommel u : bessel_rec z u -> forall n, u n = (u 0%nat * lommel' z n + u 1%nat * lommel z n)%C.
Proof.
  intros Hu. apply rec_ext; [exact Hu|apply rec_comb; [apply lommel'_rec|apply lommel_rec]| |];
    unfold lommel, lommel'; rewrite ?solution_0, ?solution_1; ring.
Qed.
(** The Casoratian is constant. *)
Lemma casoratian u v : bessel_rec z u -> bessel_rec z v -> forall n, (u n * v (S n) - u (S n) * v n)%C = (u 0%nat * v 1%nat - u 1%nat * v 0%nat)%C.
Proof. intros Hu Hv. induction n as [|n IH]; [reflexivity|]. rewrite <- IH, Hu, Hv. ring. Qed.

(** The solution with the values 1 and 0 at [N - 1] and [N]. *)
Definition top_sol (N n : nat) : C := (lommel z N * lommel' z n - lommel' z N * lommel z n)%C.
Lemma top_rec N : bessel_rec z (top_sol N).
Proof. intros n. unfold top_sol. rewrite (lommel_rec n), (lommel'_rec n). ring. Qed.
Lemma top_N N : top_sol N N = RtoC 0. Proof. unfold top_sol. ring. Qed.
Lemma top_pred N : top_sol (S N) N = RtoC 1.
Proof.
  unfold top_sol. transitivity (lommel' z N * lommel z (S N) - lommel' z (S N) * lommel z N)%C; [ring|].
  rewrite (casoratian lommel'_rec lommel_rec). unfold lommel, lommel'. rewrite !solution_0, !solution_1. ring.
Qed.
Lemma top_0 N : top_sol N 0 = lommel z N.
Proof. unfold top_sol, lommel at 2, lommel' at 1. rewrite !solution_0. ring. Qed.
Lemma top_1 N : top_sol N 1 = (- lommel' z N)%C.
Proof. unfold top_sol, lommel at 2, lommel' at 1. rewrite !solution_1. ring. Qed.
Lemma top_down N m : (0 < m)%nat -> top_sol N (m - 1) = (RtoC (2 * INR m + 1) * (1 / z) * top_sol N m - top_sol N (m + 1))%C.
Proof.
  intros Hm. destruct m as [|m]; [lia|]. replace (S m - 1)%nat with m by lia. replace (S m + 1)%nat with (S (S m)) by lia.
  rewrite (top_rec N m), S_INR. replace (2 * (INR m + 1) + 1) with (2 * INR m + 3) by ring. unfold Cdiv. ring.
Qed.
(** What the normalised solution misses. *)
Lemma miss_0 N j : bessel_rec z j -> lommel z N <> RtoC 0 ->
  forall n, (top_sol N n * (j 0%nat / top_sol N 0))%C = (j n - j N * lommel z n / lommel z N)%C.
Proof.
  intros Hj Hl n. rewrite top_0, (rec_lommel Hj n), (rec_lommel Hj N). unfold top_sol. field. exact Hl.
Qed.
Lemma miss_1 N j : bessel_rec z j -> lommel' z N <> RtoC 0 ->
  forall n, (top_sol N n * (j 1%nat / top_sol N 1))%C = (j n - j N * lommel' z n / lommel' z N)%C.
Proof.
  intros Hj Hl n. rewrite top_1, (rec_lommel Hj n), (rec_lommel Hj N). unfold top_sol. field. split; [exact Hl|].
  intros E. apply Hl. transitivity (- - lommel' z N)%C; [ring|]. rewrite E. ring.
Qed.
End Rec.

(** ** Arrays *)
Lemma upd_length (A : Type) (a : list A) : forall i v, length (upd a i v) = length a.
Proof. induction a as [|x a IH]; intros [|i] v; cbn; auto. Qed.
Lemma upd_same (A : Type) (a : list A) : forall i v, (i < length a)%nat -> nth_error (upd a i v) i = Some v.
Proof. induction a as [|x a IH]; intros [|i] v H; cbn in *; try lia; [reflexivity|]. apply IH. lia. Qed.
Lemma upd_other (A : Type) (a : list A) : forall i k v, i <> k -> nth_error (upd a i v) k = nth_error a k.
Proof. induction a as [|x a IH]; intros [|i] [|k] v H; cbn; try reflexivity; try lia. apply IH. lia. Qed.
Lemma wr_in (A : Type) (a : list A) i v : (i < length a)%nat -> wr a i v = Fin (upd a i v).
Proof. intros H. unfold wr. destruct (Nat.ltb_spec i (length a)); [reflexivity|lia]. Qed.
Lemma wr_out (A : Type) (a : list A) i v : (length a <= i)%nat -> wr a i v = Fault.
Proof. intros H. unfold wr. destruct (Nat.ltb_spec i (length a)); [lia|reflexivity]. Qed.
Lemma rd_in (A : Type) (a : list A) i x : nth_error a i = Some x -> rd a i = Fin x.
Proof. intros H. unfold rd. rewrite H. reflexivity. Qed.
Lemma nth_some (A : Type) (a : list A) i : (i < length a)%nat -> exists x, nth_error a i = Some x.
Proof. intros H. destruct (nth_error a i) as [x|] eqn:E; [exists x; reflexivity|]. apply nth_error_None in E. lia. Qed.

Lemma fill_in (A : Type) (v : A) : forall fuel i a, (i + fuel <= length a)%nat ->
  exists a', fill v fuel i a = Fin a' /\ length a' = length a
    /\ forall k, nth_error a' k = if (i <=? k)%nat && (k <? i + fuel)%nat then Some v else nth_error a k.
Proof.
  induction fuel as [|fuel IH]; intros i a H; cbn [fill].
  - exists a. split; [reflexivity|]. split; [reflexivity|]. intros k. destruct (Nat.leb_spec i k), (Nat.ltb_spec k (i + 0)); cbn; try reflexivity; lia.
  - rewrite wr_in by lia. cbn [fbind]. destruct (IH (S i) (upd a i v)) as (a' & E & L & N); [rewrite upd_length; lia|].
    exists a'. split; [exact E|]. split; [rewrite L; apply upd_length|]. intros k. rewrite N.
    destruct (Nat.eq_dec k i) as [->|Hk].
    + rewrite upd_same by lia. destruct (Nat.leb_spec (S i) i), (Nat.leb_spec i i), (Nat.ltb_spec i (i + S fuel)); cbn; try lia; reflexivity.
    + rewrite upd_other by lia. destruct (Nat.leb_spec (S i) k), (Nat.leb_spec i k), (Nat.ltb_spec k (S i + fuel)), (Nat.ltb_spec k (i + S fuel)); cbn; try lia; reflexivity.
Qed.
Lemma fill_out (A : Type) (v : A) : forall fuel i a, (i <= length a)%nat -> (length a < i + fuel)%nat -> fill v fuel i a = Fault.
Proof.
  induction fuel as [|fuel IH]; intros i a H1 H2; [lia|]. cbn [fill]. destruct (Nat.lt_ge_cases i (length a)) as [L|L].
  - rewrite wr_in by exact L. cbn [fbind]. apply IH; rewrite upd_length; lia.
  - rewrite wr_out by exact L. reflexivity.
Qed.

Lemma scale_by_in c : forall fuel i a, (i + fuel <= length a)%nat ->
  exists a', scale_by c fuel i a = Fin a' /\ length a' = length a
    /\ forall k, nth_error a' k = if (i <=? k)%nat && (k <? i + fuel)%nat then option_map (fun x => (x * c)%C) (nth_error a k) else nth_error a k.
Proof.
  induction fuel as [|fuel IH]; intros i a H; cbn [scale_by].
  - exists a. split; [reflexivity|]. split; [reflexivity|]. intros k. destruct (Nat.leb_spec i k), (Nat.ltb_spec k (i + 0)); cbn; try reflexivity; lia.
  - destruct (@nth_some _ a i) as [x Hx]; [lia|]. rewrite (rd_in _ _ Hx). cbn [fbind]. rewrite wr_in by lia. cbn [fbind].
    destruct (IH (S i) (upd a i (x * c)%C)) as (a' & E & L & N); [rewrite upd_length; lia|].
    exists a'. split; [exact E|]. split; [rewrite L; apply upd_length|]. intros k. rewrite N.
    destruct (Nat.eq_dec k i) as [->|Hk].
    + rewrite upd_same by lia. rewrite Hx. destruct (Nat.leb_spec (S i) i), (Nat.leb_spec i i), (Nat.ltb_spec i (i + S fuel)); cbn; try lia; reflexivity.
    + rewrite upd_other by lia. destruct (Nat.leb_spec (S i) k), (Nat.leb_spec i k), (Nat.ltb_spec k (S i + fuel)), (Nat.ltb_spec k (i + S fuel)); cbn; try lia; reflexivity.
Qed.
