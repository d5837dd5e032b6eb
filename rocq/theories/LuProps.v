(** Property C133.  Vocabulary: LuSpec.v. *)
From Coq Require Import Reals Lra.
From Coquelicot Require Import Complex.
From Verif Require Import Base LuModel LuSpec.
Set Implicit Arguments.

(** ** Columns *)
Section L.
Variable op : linop.
Hypothesis Hlin : linear op.
Notation n := (op_cols op).
Notation m := (op_rows op).

Lemma unit_length k i : length (unit_vec k i) = k.
Proof. unfold unit_vec. rewrite map_length, seq_length. reflexivity. Qed.

Definition col (i : nat) : vec := match op_matvec op (unit_vec n i) with Ok y => y | Err _ => [] end.
Lemma col_ok i : op_matvec op (unit_vec n i) = Ok (col i) /\ length (col i) = m.
Proof.
  destruct (proj1 Hlin (unit_vec n i) (unit_length _ _)) as (y & Hy & Hl).
  unfold col. rewrite Hy. auto.
Qed.

Lemma build_ok : build_matrix op = Ok (map col (seq 0 n)).
Proof.
  unfold build_matrix. induction (seq 0 n) as [|i l IH]; [reflexivity|]. cbn [mapM map].
  destruct (col_ok i) as [Hc Hl]. rewrite Hc. cbn [Verif.Base.bind]. unfold as_column at 1. rewrite Hl, Nat.eqb_refl. cbn [Verif.Base.bind].
  rewrite IH. reflexivity.
Qed.

Lemma mat_length : length (map col (seq 0 n)) = n.
Proof. rewrite map_length, seq_length. reflexivity. Qed.
Lemma mat_cols : Forall (fun c => length c = m) (map col (seq 0 n)).
Proof. apply Forall_forall. intros c H. apply in_map_iff in H. destruct H as (i & <- & _). apply col_ok. Qed.

(** ** Decomposition of a vector *)
Lemma at_vadd x y i : length x = length y -> at_ (vadd x y) i = Cplus (at_ x i) (at_ y i).
Proof.
  unfold at_, vadd. revert y i. induction x as [|a x IH]; intros [|b y] i H; try discriminate H.
  - destruct i; simpl; ring.
  - destruct i; simpl; [reflexivity|]. apply IH. injection H as H. exact H.
Qed.
Lemma at_vscale a x i : at_ (vscale a x) i = Cmult a (at_ x i).
Proof.
  unfold at_, vscale. revert i. induction x as [|b x IH]; intros i.
  - destruct i; simpl; ring.
  - destruct i; simpl; [reflexivity|]. apply IH.
Qed.
Lemma at_vzero k i : at_ (vzero k) i = RtoC 0.
Proof. unfold at_, vzero. revert i. induction k; intros i; destruct i; simpl; auto. Qed.
Lemma vadd_length x y : length x = length y -> length (vadd x y) = length x.
Proof. intros H. unfold vadd. rewrite map_length, combine_length, H. lia. Qed.
Lemma vscale_length a x : length (vscale a x) = length x.
Proof. apply map_length. Qed.
Lemma vzero_length k : length (vzero k) = k.
Proof. apply repeat_length. Qed.
Lemma at_unit k i j : j < k -> at_ (unit_vec k i) j = if j =? i then RtoC 1 else RtoC 0.
Proof.
  intros H. unfold at_, unit_vec.
  rewrite (nth_indep _ (RtoC 0) ((fun j => if j =? i then RtoC 1 else RtoC 0) 0%nat)) by (rewrite map_length, seq_length; exact H).
  rewrite (map_nth (fun j => if j =? i then RtoC 1 else RtoC 0)), seq_nth by exact H. reflexivity.
Qed.
Lemma at_ext x y : length x = length y -> (forall i, i < length x -> at_ x i = at_ y i) -> x = y.
Proof.
  unfold at_. revert y. induction x as [|a x IH]; intros [|b y] H Hi; try discriminate H; [reflexivity|].
  f_equal.
  - apply (Hi 0%nat). simpl. lia.
  - apply IH; [injection H as H; exact H|]. intros i Hl. apply (Hi (S i)). simpl. lia.
Qed.

(** The first [k] entries of [x], the rest zero. *)
Definition trunc (x : vec) (k : nat) : vec := map (fun j => if j <? k then at_ x j else RtoC 0) (seq 0 n).
Lemma trunc_length x k : length (trunc x k) = n.
Proof. unfold trunc. rewrite map_length, seq_length. reflexivity. Qed.
Lemma at_trunc x k j : j < n -> at_ (trunc x k) j = if j <? k then at_ x j else RtoC 0.
Proof.
  intros H. unfold at_ at 1, trunc.
  rewrite (nth_indep _ (RtoC 0) ((fun j => if j <? k then at_ x j else RtoC 0) 0%nat)) by (rewrite map_length, seq_length; exact H).
  rewrite (map_nth (fun j => if j <? k then at_ x j else RtoC 0)), seq_nth by exact H. reflexivity.
Qed.
Lemma trunc_all x : length x = n -> trunc x n = x.
Proof.
  intros H. apply at_ext; [rewrite trunc_length; auto|]. intros i Hi. rewrite trunc_length in Hi.
  rewrite at_trunc by exact Hi. apply Nat.ltb_lt in Hi. rewrite Hi. reflexivity.
Qed.
Lemma trunc_0 x : trunc x 0 = vscale (RtoC 0) (vzero n).
Proof.
  apply at_ext; [rewrite trunc_length, vscale_length, vzero_length; reflexivity|]. intros i Hi. rewrite trunc_length in Hi.
  rewrite at_trunc by exact Hi. rewrite at_vscale, at_vzero. simpl. ring.
Qed.
Lemma trunc_S x k : trunc x (S k) = vadd (trunc x k) (vscale (at_ x k) (unit_vec n k)).
Proof.
  apply at_ext.
  - rewrite vadd_length; rewrite ?trunc_length, ?vscale_length, ?unit_length; reflexivity.
  - intros i Hi. rewrite trunc_length in Hi.
    rewrite at_vadd by (rewrite trunc_length, vscale_length, unit_length; reflexivity).
    rewrite at_vscale, at_unit, !at_trunc by exact Hi.
    destruct (i <? k) eqn:E1; destruct (i =? k) eqn:E2; destruct (i <? S k) eqn:E3;
      rewrite ?Nat.ltb_lt, ?Nat.ltb_ge, ?Nat.eqb_eq, ?Nat.eqb_neq in *; try lia; subst; ring.
Qed.

(** The value of the operator on the first [k] entries. *)
Definition part (x : vec) (k : nat) (i : nat) : C :=
  fold_right Cplus (RtoC 0) (map (fun j => Cmult (at_ (col j) i) (at_ x j)) (seq 0 k)).
Lemma fold_snoc l z : fold_right Cplus (RtoC 0) (l ++ [z]) = Cplus (fold_right Cplus (RtoC 0) l) z.
Proof. induction l as [|a l IH]; simpl; [ring|]. rewrite IH. ring. Qed.

Lemma matvec_trunc x k : exists y, op_matvec op (trunc x k) = Ok y /\ length y = m /\
  forall i, at_ y i = part x k i.
Proof.
  induction k as [|k IH].
  - rewrite trunc_0. destruct (proj1 Hlin (vzero n) (vzero_length n)) as (y & Hy & Hl).
    exists (vscale (RtoC 0) y). split; [apply (proj2 (proj2 Hlin)); [apply vzero_length|exact Hy]|].
    split; [rewrite vscale_length; exact Hl|]. intros i. rewrite at_vscale. unfold part. simpl. ring.
  - destruct IH as (y & Hy & Hl & Hi). destruct (col_ok k) as [Hc Hcl].
    rewrite trunc_S. exists (vadd y (vscale (at_ x k) (col k))). split; [|split].
    + apply (proj1 (proj2 Hlin)); [apply trunc_length|rewrite vscale_length; apply unit_length|exact Hy|].
      apply (proj2 (proj2 Hlin)); [apply unit_length|exact Hc].
    + rewrite vadd_length; [exact Hl|]. rewrite vscale_length. congruence.
    + intros i. rewrite at_vadd by (rewrite vscale_length; congruence). rewrite at_vscale, Hi.
      unfold part. rewrite seq_S, map_app. cbn [map]. rewrite fold_snoc. simpl. ring.
Qed.

Lemma row_part x i : length x = n -> row_times (map col (seq 0 n)) x i = part x n i.
Proof.
  intros H. unfold row_times, part. f_equal.
  assert (G : forall k a l, length l = k -> map (fun p => Cmult (at_ (fst p) i) (snd p)) (combine (map col (seq a k)) l)
    = map (fun j => Cmult (at_ (col j) i) (at_ l (j - a))) (seq a k)).
  { clear x H. induction k as [|k IH]; intros a [|b l] H; try discriminate H; [reflexivity|].
    cbn [seq map combine fst snd]. rewrite Nat.sub_diag. f_equal. injection H as H. rewrite (IH (S a) l H).
    apply map_ext_in. intros j Hj. apply in_seq in Hj. f_equal. unfold at_.
    replace (j - a)%nat with (S (j - S a)) by lia. reflexivity. }
  rewrite (G n 0%nat x H). apply map_ext. intros j. rewrite Nat.sub_0_r. reflexivity.
Qed.

(** The matrix represents the operator. *)
Lemma matrix_is_operator x : length x = n -> exists y, op_matvec op x = Ok y /\ length y = m /\
  forall i, at_ y i = row_times (map col (seq 0 n)) x i.
Proof.
  intros H. destruct (matvec_trunc x n) as (y & Hy & Hl & Hi). rewrite trunc_all in Hy by exact H.
  exists y. split; [exact Hy|]. split; [exact Hl|]. intros i. rewrite Hi, row_part by exact H. reflexivity.
Qed.

Lemma null_iff : m = n -> (nonsingular op <-> forall x, ~ null_vector n (map col (seq 0 n)) x).
Proof.
  intros Hsq. split.
  - intros Hn x (Hl & Hne & Hz). apply Hne. apply Hn; [exact Hl|].
    destruct (matrix_is_operator x Hl) as (y & Hy & Hyl & Hyi). rewrite Hy. f_equal.
    apply at_ext; [rewrite vzero_length; exact Hyl|]. intros i Hi. rewrite Hyi, at_vzero. apply Hz. lia.
  - intros Hno x Hl Hx.
    assert (D : x = vzero n \/ x <> vzero n) by (destruct (list_eq_dec Ceq_dec x (vzero n)); auto).
    destruct D as [D|D]; [exact D|]. destruct (Hno x). split; [exact Hl|]. split; [exact D|].
    intros i Hi. destruct (matrix_is_operator x Hl) as (y & Hy & Hyl & Hyi). rewrite <- Hyi.
    rewrite Hx in Hy. injection Hy as <-. apply at_vzero.
Qed.
End L.

(** ** C133 *)
Section Lu.
Variable solve : solver.
Hypothesis Hsolve : solve_contract solve.

Lemma lu_eq op rhs show : linear op -> lu solve op rhs show =
  if (op_rows op =? 0) || (op_cols op =? 0) then Err ValueError else
  if show && negb (op_rows op =? op_cols op) then Err ValueError else
  solve (op_rows op) (op_cols op) (map (col op) (seq 0 (op_cols op))) rhs.
Proof. intros H. unfold lu. rewrite (build_ok H). reflexivity. Qed.
End Lu.

(** For a linear operator and a vector of the right length, [lu] returns exactly
    if the operator is square, nonsingular and not empty, with or without the plot
    of the spectrum; what it returns is the one solution; otherwise it raises
    LinAlgError. *)
Theorem lu_solves : forall solve, solve_contract solve ->
  forall op rhs show, linear op -> length rhs = op_rows op ->
  op_rows op = op_cols op -> 0 < op_cols op -> nonsingular op ->
  exists x, lu solve op rhs show = Ok x /\ length x = op_cols op /\ op_matvec op x = Ok rhs /\
    forall x', length x' = op_cols op -> op_matvec op x' = Ok rhs -> x' = x.
Proof.
  intros solve Hs op rhs show Hlin Hr Hsq Hpos Hns.
  pose proof (mat_length op) as ML. pose proof (mat_cols Hlin) as MC.
  destruct (Hs (op_rows op) (op_cols op) _ rhs ML MC) as (_ & _ & _ & H).
  destruct (H Hsq Hr) as (x & Hx & Hxl & Hxe).
  { apply null_iff; assumption. }
  exists x. split; [|split; [exact Hxl|]].
  - rewrite lu_eq by exact Hlin. rewrite Hsq, Nat.eqb_refl. destruct (op_cols op =? 0) eqn:E0; [apply Nat.eqb_eq in E0; lia|].
    simpl. rewrite andb_false_r. rewrite <- Hsq at 1. exact Hx.
  - destruct (matrix_is_operator Hlin x Hxl) as (y & Hy & Hyl & Hyi).
    assert (y = rhs) as ->.
    { apply at_ext; [congruence|]. intros i Hi. rewrite Hyi. apply Hxe. congruence. }
    split; [exact Hy|]. intros x' Hl' Hx'.
    assert (Hd : vadd x' (vscale (RtoC (-1)) x) = vzero (op_cols op)).
    { apply Hns; [rewrite vadd_length; rewrite ?vscale_length; congruence|].
      rewrite (proj1 (proj2 Hlin) x' (vscale (RtoC (-1)) x) rhs (vscale (RtoC (-1)) rhs) Hl');
        [|rewrite vscale_length; exact Hxl|exact Hx'|apply (proj2 (proj2 Hlin)); [exact Hxl|exact Hy]].
      f_equal. apply at_ext; [rewrite vadd_length, vzero_length; rewrite ?vscale_length; auto|].
      intros i _. rewrite at_vadd by (rewrite vscale_length; reflexivity). rewrite at_vscale, at_vzero.
      change (RtoC (-1)) with (RtoC (Ropp 1)). rewrite RtoC_opp. ring. }
    apply at_ext; [congruence|]. intros i Hi.
    assert (E : at_ (vadd x' (vscale (RtoC (-1)) x)) i = RtoC 0) by (rewrite Hd; apply at_vzero).
    rewrite at_vadd in E by (rewrite vscale_length; congruence). rewrite at_vscale in E.
    change (RtoC (-1)) with (RtoC (Ropp 1)) in E. rewrite RtoC_opp in E.
    replace (at_ x' i) with (Cplus (Cplus (at_ x' i) (Cmult (Copp (RtoC 1)) (at_ x i))) (at_ x i)) by ring.
    rewrite E. ring.
Qed.
Print Assumptions lu_solves.

Theorem lu_rejects_iff : forall solve, solve_contract solve ->
  forall op rhs show, linear op -> length rhs = op_rows op ->
  (lu solve op rhs show = Err ValueError <-> ~ (op_rows op = op_cols op /\ 0 < op_cols op /\ nonsingular op)) /\
  (forall e, lu solve op rhs show = Err e -> e = ValueError).
Proof.
  intros solve Hs op rhs show Hlin Hr.
  assert (A : ~ (op_rows op = op_cols op /\ 0 < op_cols op /\ nonsingular op) -> lu solve op rhs show = Err ValueError).
  { intros H. rewrite lu_eq by exact Hlin.
    destruct ((op_rows op =? 0) || (op_cols op =? 0)) eqn:E0; [reflexivity|].
    destruct (show && negb (op_rows op =? op_cols op)) eqn:E1; [reflexivity|].
    apply orb_false_iff in E0. destruct E0 as [Er Ec]. apply Nat.eqb_neq in Er, Ec.
    pose proof (mat_length op) as ML. pose proof (mat_cols Hlin) as MC.
    destruct (Hs (op_rows op) (op_cols op) _ rhs ML MC) as (H1 & _ & H3 & _).
    destruct (Nat.eq_dec (op_rows op) (op_cols op)) as [E|E]; [|exact (H1 E)].
    apply (H3 E). apply Classical_Pred_Type.not_all_not_ex. intros Hno. apply H.
    split; [exact E|]. split; [lia|]. apply null_iff; assumption. }
  split.
  - split; [|exact A]. intros He (H1 & H2 & H3).
    destruct (@lu_solves solve Hs op rhs show Hlin Hr H1 H2 H3) as (x & Hx & _). congruence.
  - intros e He. destruct (Classical_Prop.classic (op_rows op = op_cols op /\ 0 < op_cols op /\ nonsingular op)) as [(H1 & H2 & H3)|H].
    + destruct (@lu_solves solve Hs op rhs show Hlin Hr H1 H2 H3) as (x & Hx & _). congruence.
    + rewrite (A H) in He. congruence.
Qed.
Print Assumptions lu_rejects_iff.

(** A right-hand side of another length raises ValueError. *)
Theorem lu_wrong_length : forall solve, solve_contract solve ->
  forall op rhs show, linear op -> length rhs <> op_rows op -> lu solve op rhs show = Err ValueError.
Proof.
  intros solve Hs op rhs show Hlin Hr. rewrite lu_eq by exact Hlin.
  destruct ((op_rows op =? 0) || (op_cols op =? 0)); [reflexivity|].
  destruct (show && negb (op_rows op =? op_cols op)); [reflexivity|].
  exact (proj1 (proj2 (Hs _ _ _ rhs (mat_length op) (mat_cols Hlin))) Hr).
Qed.
Print Assumptions lu_wrong_length.

(** An error of the operator is passed on. *)
Theorem lu_operator_error : forall solve op rhs show e,
  0 < op_cols op -> op_matvec op (unit_vec (op_cols op) 0) = Err e -> lu solve op rhs show = Err e.
Proof.
  intros solve op rhs show e Hp He. unfold lu, build_matrix. destruct (op_cols op) as [|k]; [lia|].
  cbn [seq mapM]. rewrite He. reflexivity.
Qed.
Print Assumptions lu_operator_error.

(** ** Non-vacuity: doubling the two entries of a vector and exchanging them is
    linear and nonsingular, and there is a solver as in the contract. *)
Definition swap_op : linop := LinOp 2 2 (fun x => match x with
  | [a; b] => Ok [Cmult (RtoC 2) b; Cmult (RtoC 2) a] | _ => Err ValueError end).
Example swap_linear : linear swap_op /\ nonsingular swap_op.
Proof.
  split; [split; [|split]|].
  - intros [|a [|b [|c x]]] H; try discriminate H. simpl. eauto.
  - intros [|a [|b [|c x]]] [|a' [|b' [|c' x']]] y y' H H' E E'; try discriminate H; try discriminate H'.
    simpl in *. injection E as <-. injection E' as <-. unfold vadd. simpl. f_equal. f_equal; [ring|]. f_equal. ring.
  - intros s [|a [|b [|c x]]] y H E; try discriminate H. simpl in *. injection E as <-. unfold vscale. simpl.
    f_equal. f_equal; [ring|]. f_equal. ring.
  - intros [|a [|b [|c x]]] H E; try discriminate H. cbn [op_matvec op_rows op_cols swap_op vzero repeat] in *. unfold vzero in *. cbn [repeat] in *.
    assert (E1 : Cmult (RtoC 2) b = RtoC 0) by congruence. assert (E2 : Cmult (RtoC 2) a = RtoC 0) by congruence.
    assert (Z : forall z, Cmult (RtoC 2) z = RtoC 0 -> z = RtoC 0).
    { intros z Hz. replace z with (Cmult (Cinv (RtoC 2)) (Cmult (RtoC 2) z)).
      - rewrite Hz. ring.
      - field. intros F. apply RtoC_inj in F. lra. }
    rewrite (Z a E2), (Z b E1). reflexivity.
Qed.
