(** The contract of numpy.linalg.solve in LuSpec.v can be met: Gaussian elimination. *)
From Coq Require Import Reals Lra.
From Coquelicot Require Import Complex.
From Verif Require Import Base LuModel LuSpec LuProps.
Set Implicit Arguments.

Fixpoint csum (n : nat) (f : nat -> C) : C := match n with O => RtoC 0 | S n' => Cplus (csum n' f) (f n') end.
Lemma csum_ext n f g : (forall j, j < n -> f j = g j) -> csum n f = csum n g.
Proof. induction n as [|n IH]; intros H; simpl; [reflexivity|]. rewrite IH, H by auto. reflexivity. Qed.
Lemma csum_plus n f g : csum n (fun j => Cplus (f j) (g j)) = Cplus (csum n f) (csum n g).
Proof. induction n as [|n IH]; simpl; [ring|]. rewrite IH. ring. Qed.
Lemma csum_scale n c f : csum n (fun j => Cmult c (f j)) = Cmult c (csum n f).
Proof. induction n as [|n IH]; simpl; [ring|]. rewrite IH. ring. Qed.
Lemma csum_zero n f : (forall j, j < n -> f j = RtoC 0) -> csum n f = RtoC 0.
Proof. intros H. induction n as [|n IH]; simpl; [reflexivity|]. rewrite IH, H by auto. ring. Qed.

Definition pivot (n : nat) (f : nat -> C) : {p | p < n /\ f p <> RtoC 0} + {forall i, i < n -> f i = RtoC 0}.
Proof.
  induction n as [|n IH]; [right; intros; lia|].
  destruct IH as [(p & Hp & Hf)|H]; [left; exists p; auto|].
  destruct (Ceq_dec (f n) (RtoC 0)) as [E|E]; [right|left; exists n; auto].
  intros i Hi. destruct (Nat.eq_dec i n) as [->|D]; [exact E|apply H; lia].
Defined.

Definition skip (p i : nat) : nat := if i <? p then i else S i.
Lemma skip_lt p i n : p < S n -> i < n -> skip p i < S n.
Proof. unfold skip. destruct (i <? p) eqn:E; lia. Qed.
Lemma unskip p i n : p < S n -> i < S n -> i <> p -> exists i', i' < n /\ i = skip p i'.
Proof.
  intros Hp Hi Hne. destruct (lt_dec i p).
  - exists i. unfold skip. apply Nat.ltb_lt in l as E. rewrite E. split; [lia|reflexivity].
  - exists (i - 1)%nat. unfold skip. assert (E : (i - 1 <? p) = false) by (apply Nat.ltb_ge; lia). rewrite E. lia.
Qed.

(** Every square system has a null vector or a solution for every right-hand side. *)
Definition eliminate : forall n (a : nat -> nat -> C),
  {x : nat -> C | (exists j, j < n /\ x j <> RtoC 0) /\ forall i, i < n -> csum n (fun j => Cmult (a i j) (x j)) = RtoC 0}
  + ((forall b : nat -> C, {x : nat -> C | forall i, i < n -> csum n (fun j => Cmult (a i j) (x j)) = b i}) *
     (forall x : nat -> C, (forall i, i < n -> csum n (fun j => Cmult (a i j) (x j)) = RtoC 0) -> forall j, j < n -> x j = RtoC 0)).
Proof.
  induction n as [|n IH]; intros a; [right; split; [intros b; exists b; intros; lia|intros; lia]|].
  destruct (pivot (S n) (fun i => a i n)) as [(p & Hp & Hpn)|Hz].
  2:{ left. exists (fun j => if j =? n then RtoC 1 else RtoC 0). split.
      - exists n. split; [lia|]. rewrite Nat.eqb_refl. intros F. apply RtoC_inj in F. lra.
      - intros i Hi. simpl. rewrite Hz by exact Hi. rewrite csum_zero; [ring|].
        intros j Hj. replace (j =? n) with false by (symmetry; apply Nat.eqb_neq; lia). ring. }
  set (q := fun i => Cdiv (a i n) (a p n)).
  set (a' := fun i j => Cminus (a (skip p i) j) (Cmult (q (skip p i)) (a p j))).
  (* a solution of the reduced system gives one of the whole system *)
  assert (Hback : forall (b y : nat -> C),
    (forall i, i < n -> csum n (fun j => Cmult (a' i j) (y j)) = Cminus (b (skip p i)) (Cmult (q (skip p i)) (b p))) ->
    let x := fun j => if j =? n then Cdiv (Cminus (b p) (csum n (fun j => Cmult (a p j) (y j)))) (a p n) else y j in
    forall i, i < S n -> csum (S n) (fun j => Cmult (a i j) (x j)) = b i).
  { intros b y Hy x i Hi. cbn [csum].
    rewrite (@csum_ext n _ (fun j => Cmult (a i j) (y j))).
    2:{ intros j Hj. unfold x. replace (j =? n) with false by (symmetry; apply Nat.eqb_neq; lia). reflexivity. }
    unfold x. rewrite Nat.eqb_refl. destruct (Nat.eq_dec i p) as [->|Hne].
    - field. exact Hpn.
    - destruct (unskip Hp Hi Hne) as (i' & Hi' & ->). specialize (Hy i' Hi').
      assert (E : csum n (fun j => Cmult (a' i' j) (y j)) =
        Cminus (csum n (fun j => Cmult (a (skip p i') j) (y j))) (Cmult (q (skip p i')) (csum n (fun j => Cmult (a p j) (y j))))).
      { unfold a'. rewrite (@csum_ext n _ (fun j => Cplus (Cmult (a (skip p i') j) (y j)) (Cmult (Copp (q (skip p i'))) (Cmult (a p j) (y j))))) by (intros; ring).
        rewrite csum_plus, csum_scale. ring. }
      rewrite E in Hy.
      replace (csum n (fun j => Cmult (a (skip p i') j) (y j))) with
        (Cplus (Cminus (csum n (fun j => Cmult (a (skip p i') j) (y j))) (Cmult (q (skip p i')) (csum n (fun j => Cmult (a p j) (y j))))) (Cmult (q (skip p i')) (csum n (fun j => Cmult (a p j) (y j))))) by ring.
      rewrite Hy. unfold q. field. exact Hpn. }
  assert (Hred : forall y i, csum n (fun j => Cmult (a' i j) (y j)) =
        Cminus (csum n (fun j => Cmult (a (skip p i) j) (y j))) (Cmult (q (skip p i)) (csum n (fun j => Cmult (a p j) (y j))))).
  { intros y i. unfold a'. rewrite (@csum_ext n _ (fun j => Cplus (Cmult (a (skip p i) j) (y j)) (Cmult (Copp (q (skip p i))) (Cmult (a p j) (y j))))) by (intros; ring).
    rewrite csum_plus, csum_scale. ring. }
  destruct (IH a') as [(y & Hyj0 & Hy)|[Hall Hinj]].
  - left. eexists. split; [|apply (Hback (fun _ => RtoC 0) y)].
    + destruct Hyj0 as (j & Hj & Hyj). exists j. split; [lia|]. replace (j =? n) with false by (symmetry; apply Nat.eqb_neq; lia). exact Hyj.
    + intros i Hi. rewrite Hy by exact Hi. ring.
  - right. split.
    2:{ intros x Hx.
        assert (Hp0 := Hx p Hp). cbn [csum] in Hp0.
        assert (Hlow : forall j, j < n -> x j = RtoC 0).
        { apply Hinj. intros i Hi. rewrite Hred. assert (Hs := Hx (skip p i) (skip_lt Hp Hi)). cbn [csum] in Hs.
          replace (csum n (fun j => Cmult (a (skip p i) j) (x j))) with (Copp (Cmult (a (skip p i) n) (x n))).
          2:{ replace (csum n (fun j => Cmult (a (skip p i) j) (x j))) with
                (Cminus (Cplus (csum n (fun j => Cmult (a (skip p i) j) (x j))) (Cmult (a (skip p i) n) (x n))) (Cmult (a (skip p i) n) (x n))) by ring.
              rewrite Hs. ring. }
          replace (csum n (fun j => Cmult (a p j) (x j))) with (Copp (Cmult (a p n) (x n))).
          2:{ replace (csum n (fun j => Cmult (a p j) (x j))) with
                (Cminus (Cplus (csum n (fun j => Cmult (a p j) (x j))) (Cmult (a p n) (x n))) (Cmult (a p n) (x n))) by ring.
              rewrite Hp0. ring. }
          unfold q. field. exact Hpn. }
        intros j Hj. destruct (Nat.eq_dec j n) as [->|D]; [|apply Hlow; lia].
        rewrite csum_zero in Hp0 by (intros k Hk; rewrite Hlow by exact Hk; ring).
        replace (x n) with (Cdiv (Cplus (RtoC 0) (Cmult (a p n) (x n))) (a p n)) by (field; exact Hpn).
        rewrite Hp0. field. exact Hpn. }
    intros b. destruct (Hall (fun i => Cminus (b (skip p i)) (Cmult (q (skip p i)) (b p)))) as (y & Hy).
    eexists. apply (Hback b y). exact Hy.
Defined.

(** As a solver: matrices by columns. *)
Definition to_vec (n : nat) (x : nat -> C) : vec := map x (seq 0 n).
Definition gauss : solver := fun rows cols mat b =>
  if negb (rows =? cols) then Err ValueError else if negb (length b =? rows) then Err ValueError else
  match eliminate cols (fun i j => at_ (nth j mat []) i) with
  | inl _ => Err ValueError
  | inr s => Ok (to_vec cols (proj1_sig (fst s (at_ b)))) end.

Lemma at_to_vec n x j : j < n -> at_ (to_vec n x) j = x j.
Proof.
  intros H. unfold at_, to_vec. rewrite (nth_indep _ (RtoC 0) (x 0%nat)) by (rewrite map_length, seq_length; exact H).
  rewrite (map_nth x), seq_nth by exact H. reflexivity.
Qed.
Lemma fold_seq f : forall n, fold_right Cplus (RtoC 0) (map f (seq 0 n)) = csum n f.
Proof. induction n as [|n IH]; [reflexivity|]. rewrite seq_S, map_app. cbn [map]. rewrite fold_snoc, IH. reflexivity. Qed.
Lemma row_csum i : forall mat x, length x = length mat ->
  row_times mat x i = csum (length mat) (fun j => Cmult (at_ (nth j mat []) i) (at_ x j)).
Proof.
  intros mat x H. rewrite <- fold_seq. unfold row_times. f_equal.
  revert x H. induction mat as [|c mat IH]; intros [|b x] H; try discriminate H; [reflexivity|].
  cbn [length seq map combine fst snd]. f_equal. rewrite <- seq_shift, map_map. injection H as H.
  rewrite (IH x H). reflexivity.
Qed.

Theorem gauss_contract : solve_contract gauss.
Proof.
  intros rows cols mat b Hm HF. unfold gauss.
  split; [|split; [|split]].
  - intros H. apply Nat.eqb_neq in H. rewrite H. reflexivity.
  - intros H. destruct (negb (rows =? cols)); [reflexivity|]. apply Nat.eqb_neq in H. rewrite H. reflexivity.
  - intros <- (x & Hl & Hne & Hz). rewrite Nat.eqb_refl. cbn [negb].
    destruct (negb (length b =? rows)) eqn:E; [reflexivity|].
    match goal with |- context [eliminate ?n ?f] => destruct (eliminate n f) as [_|[s Hinj]]; [reflexivity|] end.
    exfalso. apply Hne. apply at_ext; [rewrite vzero_length; exact Hl|]. intros j Hj. rewrite at_vzero.
    apply (Hinj (at_ x)); [|rewrite <- Hl; exact Hj]. intros i Hi. rewrite <- (Hz i Hi), row_csum by (rewrite Hl; symmetry; exact Hm). unfold vec in *. rewrite Hm. reflexivity.
  - intros <- Hb Hno. rewrite Nat.eqb_refl, Hb, Nat.eqb_refl. cbn [negb].
    match goal with |- context [eliminate ?n ?f] => destruct (eliminate n f) as [(x & (j & Hj & Hx) & Hz)|[s Hinj]] end.
    + exfalso. apply (Hno (to_vec rows x)). split; [unfold to_vec; rewrite map_length, seq_length; reflexivity|]. split.
      * intros F. apply Hx. rewrite <- (@at_to_vec rows x j Hj), F. apply at_vzero.
      * intros i Hi. rewrite row_csum by (unfold to_vec; rewrite map_length, seq_length; symmetry; exact Hm). unfold vec in *. rewrite Hm.
        rewrite <- (Hz i Hi). apply csum_ext. intros k Hk. rewrite at_to_vec by exact Hk. reflexivity.
    + cbn [fst]. destruct (s (at_ b)) as (x & Hx). cbn [proj1_sig]. exists (to_vec rows x).
      split; [reflexivity|]. split; [unfold to_vec; rewrite map_length, seq_length; reflexivity|].
      intros i Hi. rewrite row_csum by (unfold to_vec; rewrite map_length, seq_length; symmetry; exact Hm). unfold vec in *. rewrite Hm.
      rewrite <- (Hx i Hi). apply csum_ext. intros k Hk. rewrite at_to_vec by exact Hk. reflexivity.
Qed.
Print Assumptions gauss_contract.

(** So the hypotheses of [lu_solves] hold together. *)
Example ex_lu : exists x, lu gauss swap_op [RtoC 2; RtoC 4] true = Ok x /\ x = [RtoC 2; RtoC 1].
Proof.
  destruct (lu_solves gauss_contract [RtoC 2; RtoC 4] true (proj1 swap_linear) eq_refl eq_refl (le_S _ _ (le_n 1)) (proj2 swap_linear))
    as (x & Hx & _ & _ & Hu). exists x. split; [exact Hx|]. symmetry. apply Hu; [reflexivity|].
  simpl. f_equal. f_equal; [rewrite <- RtoC_mult; f_equal; lra|]. f_equal. rewrite <- RtoC_mult. try (f_equal; lra).
Qed.
