(** C133: the operators with which [lu] fails before it solves. *)
From Coq Require Import Reals.
From Coquelicot Require Import Complex.
From Verif Require Import Base LuModel LuSpec.
Set Implicit Arguments.

Lemma ext (A : Type) (l l' : list A) : (forall j, nth_error l j = nth_error l' j) -> l = l'.
Proof.
  revert l'. induction l as [|a l IH]; intros [|b l'] H; [reflexivity|discriminate (H 0)|discriminate (H 0)|].
  pose proof (H 0) as E. cbn in E. f_equal; [congruence|]. apply IH. intros j. exact (H (S j)).
Qed.

(** C133.  For an operator that is linear or not: the first unit vector to which it cannot be
    applied, or for which its result fits no column of the matrix (it has neither the number of
    rows nor length one), decides the exception: that of the operator or a ValueError. *)
Theorem lu_column_errors : forall solve op rhs show i u e,
  i < op_cols op -> length u = op_cols op ->
  (forall j, j < op_cols op -> nth_error u j = Some (RtoC (if j =? i then 1 else 0))) ->
  (forall j, j < i -> exists y, op_matvec op (unit_vec (op_cols op) j) = Ok y /\ (length y = op_rows op \/ length y = 1)) ->
  (op_matvec op u = Err e \/
   e = ValueError /\ exists y, op_matvec op u = Ok y /\ length y <> op_rows op /\ length y <> 1) ->
  lu solve op rhs show = Err e.
Proof.
  intros solve op rhs show i u e Hi Hu Hn Hb He. unfold lu, build_matrix.
  assert (u = unit_vec (op_cols op) i) as ->.
  { assert (L : length (unit_vec (op_cols op) i) = op_cols op) by (unfold unit_vec; rewrite map_length, seq_length; reflexivity).
    apply ext. intros j. destruct (Nat.lt_ge_cases j (op_cols op)) as [Hj|Hj].
    - rewrite (Hn j Hj). symmetry. unfold unit_vec. rewrite nth_error_map.
      replace (nth_error (seq 0 (op_cols op)) j) with (Some j).
      + cbn. destruct (j =? i); reflexivity.
      + symmetry. rewrite (nth_error_nth' _ 0) by (rewrite seq_length; exact Hj). rewrite seq_nth by exact Hj. reflexivity.
    - transitivity (@None C); [|symmetry]; apply nth_error_None; lia. }
  set (f := fun i0 => _).
  assert (Hf : f i = Err e).
  { unfold f. destruct He as [He|(-> & y & He & H1 & H2)]; rewrite He; [reflexivity|]. cbn [Verif.Base.bind]. unfold as_column.
    apply Nat.eqb_neq in H1. rewrite H1. destruct y as [|z [|z' y]]; [reflexivity| |reflexivity]. exfalso. apply H2. reflexivity. }
  assert (Hg : forall j, j < i -> exists c, f j = Ok c).
  { intros j Hj. destruct (Hb j Hj) as (y & Hy & Hl). unfold f. rewrite Hy. cbn [Verif.Base.bind]. unfold as_column.
    destruct (length y =? op_rows op) eqn:E; [eauto|]. apply Nat.eqb_neq in E.
    destruct Hl as [Hl|Hl]; [contradiction|]. destruct y as [|z [|z' y]]; try discriminate Hl. eauto. }
  replace (op_cols op) with (i + S (op_cols op - i - 1)) by lia.
  rewrite seq_app. cbn [seq Nat.add].
  assert (M : forall k n l, (forall j, k <= j < k + n -> exists c, f j = Ok c) ->
    f (k + n) = Err e -> mapM f (seq k n ++ (k + n) :: l) = Err e).
  { intros k n. revert k. induction n as [|n IH]; intros k l G E.
    - rewrite Nat.add_0_r in *. cbn. rewrite E. reflexivity.
    - cbn [seq app mapM]. destruct (G k) as (c & Ec); [lia|]. rewrite Ec. cbn [Verif.Base.bind].
      replace (k + S n) with (S k + n) in * by lia. rewrite IH; [reflexivity| |exact E]. intros j Hj. apply G. lia. }
  rewrite (M 0 i); [reflexivity| |exact Hf]. intros j Hj. apply Hg. lia.
Qed.
Print Assumptions lu_column_errors.

(** An operator of shape (3, 2) that returns two entries. *)
Example ex_bad_column : forall solve rhs,
  lu solve (LinOp 3 2 (fun v => Ok v)) rhs false = Err ValueError.
Proof.
  intros. apply lu_column_errors with (i := 0) (u := [RtoC 1; RtoC 0]); cbn; try lia; auto.
  - intros [|[|j]] Hj; try reflexivity. lia.
  - right. split; [reflexivity|]. eexists. split; [reflexivity|]. cbn. lia.
Qed.
(** One whose second application fails; the first is broadcast. *)
Example ex_error : forall solve rhs,
  lu solve (LinOp 3 2 (fun v => match v with z :: _ => if Ceq_dec z (RtoC 1) then Ok [z] else Err TypeError | [] => Ok [] end)) rhs false = Err TypeError.
Proof.
  intros. apply lu_column_errors with (i := 1) (u := [RtoC 0; RtoC 1]); cbn; try lia; auto.
  - intros [|[|j]] Hj; try reflexivity. lia.
  - intros [|j] Hj; [|lia]. destruct (Ceq_dec (RtoC 1) (RtoC 1)); [|contradiction]. eexists. split; [reflexivity|]. right. reflexivity.
  - left. destruct (Ceq_dec (RtoC 0) (RtoC 1)) as [E|E]; [|reflexivity]. exfalso. apply RtoC_inj in E. apply R1_neq_R0. auto.
Qed.
