(** Laplace: impl.pyx's loops compute the truncated expansions. *)
From Coq Require Import Reals Lra Lia List.
From Coquelicot Require Import Coquelicot.
From Verif Require Import Base TsModel TsSpec TsLeg.
Import ListNotations.
Open Scope R_scope.

(** ** Arrays *)
Lemma upd_length A (a : list A) i v : length (upd a i v) = length a.
Proof. revert i; induction a; intros [|i]; simpl; auto. Qed.
Lemma upd_same A (a : list A) i v : (i < length a)%nat -> nth_error (upd a i v) i = Some v.
Proof. revert i; induction a; intros [|i]; simpl; intros; try lia; auto. apply IHa. lia. Qed.
Lemma upd_other A (a : list A) i k v : k <> i -> nth_error (upd a i v) k = nth_error a k.
Proof. revert i k; induction a; intros [|i] [|k]; simpl; intros; try congruence; auto. Qed.
Lemma wr_ok A (a : list A) i v : (i < length a)%nat -> wr a i v = Fin (upd a i v).
Proof. intros H. unfold wr. apply Nat.ltb_lt in H. now rewrite H. Qed.
Lemma wr_fault A (a : list A) i v : (length a <= i)%nat -> wr a i v = Fault.
Proof. intros H. unfold wr. apply Nat.ltb_ge in H. now rewrite H. Qed.

(** ** legvals *)
Lemma INR_SS j : INR (S (S j)) = INR j + 2. Proof. rewrite !S_INR. ring. Qed.

Definition dlen (d : option (list R)) (n : nat) : Prop := match d with None => True | Some d => (n < length d)%nat end.
Definition holds_to (a : list R) (f : nat -> R) (n : nat) : Prop := forall i, (i <= n)%nat -> nth_error a i = Some (f i).
Definition dholds (d : option (list R)) (x : R) (n : nat) : Prop :=
  match d with None => True | Some d => holds_to d (DP x) n end.
(** [a'] differs from [a] only up to index [n]. *)
Definition same_beyond (a a' : list R) (n : nat) : Prop :=
  length a' = length a /\ forall i, (n < i)%nat -> nth_error a' i = nth_error a i.
Definition dsame (d d' : option (list R)) (n : nat) : Prop :=
  match d, d' with None, None => True | Some a, Some a' => same_beyond a a' n | _, _ => False end.

Lemma leg_loop_ok x fuel : forall j vals derivs,
  (j + fuel < S (length vals))%nat ->
  match derivs with None => True | Some d => (j + fuel < S (length d))%nat end ->
  (2 <= j)%nat -> holds_to vals (P x) (j - 1) -> dholds derivs x (j - 1) ->
  exists vals' derivs', leg_loop x fuel j (P x (j - 2)) (P x (j - 1)) (DP x (j - 2)) (DP x (j - 1)) vals derivs
    = Fin (vals', derivs') /\ holds_to vals' (P x) (j + fuel - 1) /\ dholds derivs' x (j + fuel - 1) /\
    same_beyond vals vals' (j + fuel - 1) /\ dsame derivs derivs' (j + fuel - 1).
Proof.
  induction fuel as [|fuel IH]; intros j vals derivs Hv Hd Hj Hp Hq.
  - exists vals, derivs. replace (j + 0 - 1)%nat with (j - 1)%nat by lia.
    repeat split; auto. destruct derivs; simpl; repeat split; auto.
  - destruct j as [|[|j]]; try lia. cbn [leg_loop].
    replace (S (S j) - 2)%nat with j in * by lia. replace (S (S j) - 1)%nat with (S j) in * by lia.
    rewrite wr_ok by lia. cbn [fbind].
    set (pj := ((2 * INR (S (S j)) - 1) * x * P x (S j) - (INR (S (S j)) - 1) * P x j) / INR (S (S j))).
    assert (Ep : pj = P x (S (S j))).
    { unfold pj. rewrite P_SS, INR_SS. f_equal. ring. }
    set (dj := ((2 * INR (S (S j)) - 1) * (P x (S j) + x * DP x (S j)) - (INR (S (S j)) - 1) * DP x j) / INR (S (S j))).
    assert (Ed : dj = DP x (S (S j))).
    { unfold dj. rewrite DP_SS, INR_SS. f_equal. ring. }
    assert (Hw : exists d', wr_opt derivs (S (S j)) dj = Fin d' /\ dholds d' x (S (S j)) /\
              match d' with None => True | Some d => (S (S j) + S fuel < S (length d))%nat end /\
              dsame derivs d' (S (S j))).
    { destruct derivs as [d|]; cbn [wr_opt].
      - rewrite wr_ok by lia. cbn [fbind]. eexists. split; [reflexivity|]. cbn [dholds dsame]. split; [|split].
        + intros i Hi. destruct (Nat.eq_dec i (S (S j))) as [->|Hn].
          * rewrite upd_same by lia. now rewrite Ed.
          * rewrite upd_other by auto. apply Hq. lia.
        + now rewrite upd_length.
        + split; [apply upd_length|]. intros i Hi. apply upd_other. lia.
      - exists None. simpl; auto. }
    destruct Hw as (d' & Hw & Hdh & Hdl & Hds). rewrite Hw. cbn [fbind]. rewrite Ep, Ed.
    destruct (IH (S (S (S j))) (upd vals (S (S j)) (P x (S (S j)))) d') as (v2 & d2 & E & A1 & A2 & A3 & A4).
    + rewrite upd_length. lia.
    + destruct d'; auto. lia.
    + lia.
    + replace (S (S (S j)) - 1)%nat with (S (S j)) by lia. intros i Hi.
      destruct (Nat.eq_dec i (S (S j))) as [->|Hn].
      * apply upd_same. lia.
      * rewrite upd_other by auto. apply Hp. lia.
    + replace (S (S (S j)) - 1)%nat with (S (S j)) by lia. exact Hdh.
    + replace (S (S (S j)) - 2)%nat with (S j) in E by lia. replace (S (S (S j)) - 1)%nat with (S (S j)) in E by lia.
      exists v2, d2. split; [exact E|].
      replace (S (S j) + S fuel - 1)%nat with (S (S (S j)) + fuel - 1)%nat by lia.
      split; [exact A1|]. split; [exact A2|]. split.
      * destruct A3 as [L3 B3]. split; [now rewrite L3, upd_length|].
        intros i Hi. rewrite B3 by lia. apply upd_other. lia.
      * destruct derivs as [d|], d' as [d''|], d2 as [d2|]; simpl in *; try contradiction; auto.
        destruct A4 as [L4 B4]. destruct Hds as [L5 B5]. split; [congruence|].
        intros i Hi. rewrite B4 by lia. apply B5. lia.
Qed.

Lemma legvals_ok x n vals derivs : (n < length vals)%nat -> dlen derivs n ->
  exists vals' derivs', legvals x n vals derivs = Fin (vals', derivs') /\
    holds_to vals' (P x) n /\ dholds derivs' x n /\ same_beyond vals vals' n /\ dsame derivs derivs' n.
Proof.
  intros Hv Hd. unfold legvals. rewrite wr_ok by lia. cbn [fbind].
  assert (W : forall i (v : R) (d : option (list R)), (match d with None => True | Some a => (i < length a)%nat end) ->
            wr_opt d i v = Fin (match d with None => None | Some a => Some (upd a i v) end)).
  { intros i v [a|] Hl; simpl; auto. rewrite wr_ok by lia. reflexivity. }
  rewrite W by (destruct derivs; simpl in *; auto; lia). cbn [fbind].
  destruct (n =? 0)%nat eqn:E0.
  - apply Nat.eqb_eq in E0. subst n. do 2 eexists. split; [reflexivity|].
    assert (Hh : forall a, (0 < length a)%nat -> forall f v, v = f O -> holds_to (upd a 0 v) f 0).
    { intros a Ha f v -> i Hi. replace i with O by lia. now apply upd_same. }
    split; [now apply Hh|]. split; [destruct derivs; simpl in *; auto; apply Hh; auto; lia|].
    split; [split; [apply upd_length|]; intros; apply upd_other; lia|].
    destruct derivs; simpl in *; auto. split; [apply upd_length|]; intros; apply upd_other; lia.
  - apply Nat.eqb_neq in E0. rewrite wr_ok by (rewrite upd_length; lia). cbn [fbind].
    rewrite W by (destruct derivs; simpl in *; auto; rewrite upd_length; lia). cbn [fbind].
    set (v1 := upd (upd vals 0 1) 1 x).
    set (d1 := match (match derivs with Some a => Some (upd a 0 0) | None => None end) with
               | Some a => Some (upd a 1 1) | None => None end).
    assert (H1 : holds_to v1 (P x) 1).
    { intros [|[|i]] Hi; [| |lia]; unfold v1.
      - rewrite upd_other by lia. rewrite upd_same by lia. reflexivity.
      - rewrite upd_same by (rewrite upd_length; lia). reflexivity. }
    assert (H2 : dholds d1 x 1).
    { unfold d1. destruct derivs as [a|]; simpl in *; auto. intros [|[|i]] Hi; [| |lia].
      - rewrite upd_other by lia. rewrite upd_same by lia. reflexivity.
      - rewrite upd_same by (rewrite upd_length; lia). reflexivity. }
    assert (S1 : same_beyond vals v1 1).
    { unfold v1. split; [now rewrite !upd_length|]. intros i Hi. rewrite !upd_other by lia. reflexivity. }
    assert (S2 : dsame derivs d1 1).
    { unfold d1. destruct derivs as [a|]; simpl; auto. split; [now rewrite !upd_length|].
      intros i Hi. rewrite !upd_other by lia. reflexivity. }
    destruct (n =? 1)%nat eqn:E1.
    + apply Nat.eqb_eq in E1. subst n. exists v1, d1. auto.
    + apply Nat.eqb_neq in E1.
      destruct (leg_loop_ok x (n - 1) 2 v1 d1) as (v2 & d2 & E & A1 & A2 & A3 & A4).
      * unfold v1. rewrite !upd_length. lia.
      * unfold d1. destruct derivs; simpl in *; auto. rewrite !upd_length. lia.
      * lia.
      * exact H1.
      * exact H2.
      * simpl in E. replace (2 + (n - 1) - 1)%nat with n in * by lia.
        exists v2, d2. split; [exact E|]. split; [exact A1|]. split; [exact A2|]. split.
        -- destruct S1 as [L1 B1], A3 as [L3 B3]. split; [congruence|]. intros i Hi. rewrite B3 by lia. apply B1. lia.
        -- destruct derivs as [a|], d1 as [b|], d2 as [c|]; simpl in *; try contradiction; auto.
           destruct S2 as [L1 B1], A4 as [L3 B3]. split; [congruence|]. intros i Hi. rewrite B3 by lia. apply B1. lia.
Qed.

Lemma leg_loop_fault x fuel : forall j a b c d vals derivs, (j + fuel > length vals)%nat -> (j <= length vals)%nat ->
  (exists e, derivs = Some e /\ length e = length vals \/ derivs = None) ->
  leg_loop x fuel j a b c d vals derivs = Fault.
Proof.
  induction fuel as [|fuel IH]; intros j a b c d vals derivs H1 H2 H3; [lia|]. cbn [leg_loop].
  destruct (Nat.eq_dec j (length vals)) as [->|Hn].
  - rewrite wr_fault by lia. reflexivity.
  - rewrite wr_ok by lia. cbn [fbind].
    destruct H3 as [e [[-> He] | ->]]; cbn [wr_opt fbind].
    + rewrite wr_ok by lia. cbn [fbind]. apply IH; rewrite ?upd_length; try lia.
      eexists. left. split; [reflexivity|]. rewrite !upd_length. lia.
    + apply IH; rewrite ?upd_length; try lia. exists e. now right.
Qed.

Section Fixed.
Variable junk : nat -> R.
Lemma rbuf_length : length (rbuf junk) = BUFSIZE.
Proof. unfold rbuf. now rewrite map_length, seq_length. Qed.

Lemma legendre_buffers_ok x n : (n < BUFSIZE)%nat ->
  exists l d, legendre_buffers junk x n = Fin (l, d) /\ holds_to l (P x) n /\ holds_to d (DP x) n.
Proof.
  intros Hn. unfold legendre_buffers.
  destruct (legvals_ok x n (rbuf junk) (Some (rbuf junk))) as (v & d & E & A1 & A2 & A3 & A4);
    [rewrite rbuf_length; exact Hn | unfold dlen; rewrite rbuf_length; exact Hn|].
  rewrite E. cbn [fbind]. destruct d as [d|]; [|contradiction A4]. exists v, d. auto.
Qed.
Lemma legvals_fault x n vals derivs : (length vals <= n)%nat -> (2 <= length vals)%nat ->
  (derivs = None \/ exists d, derivs = Some d /\ length d = length vals) -> legvals x n vals derivs = Fault.
Proof.
  intros H H2 Hd. unfold legvals. rewrite wr_ok by lia. cbn [fbind].
  destruct Hd as [-> | [d [-> Hl]]]; cbn [wr_opt fbind].
  - destruct (Nat.eqb_spec n 0); [lia|]. rewrite wr_ok by (rewrite upd_length; lia). cbn [fbind].
    destruct (Nat.eqb_spec n 1); [lia|].
    apply leg_loop_fault; rewrite ?upd_length; try lia. exists []. now right.
  - rewrite wr_ok by lia. cbn [fbind].
    destruct (Nat.eqb_spec n 0); [lia|]. rewrite wr_ok by (rewrite upd_length; lia). cbn [fbind wr_opt].
    rewrite wr_ok by (rewrite upd_length; lia). cbn [fbind].
    destruct (Nat.eqb_spec n 1); [lia|].
    apply leg_loop_fault; rewrite ?upd_length; try lia.
    eexists. left. split; [reflexivity|]. rewrite !upd_length. lia.
Qed.
End Fixed.
