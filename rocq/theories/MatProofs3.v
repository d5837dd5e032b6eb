(** Proofs about the matrix builder: assembly of the blocks. *)
From Verif Require Import Base SymProofs SymProofs2 MatModel MatSpec MatProofs.
Set Implicit Arguments.
Open Scope nat_scope.

Lemma firstn_S_sum l i : i < length l -> list_sum (firstn (S i) l) = list_sum (firstn i l) + nth i l 0.
Proof.
  revert i. induction l as [|a l IH]; simpl; intros i Hi; [lia|].
  destruct i as [|i]; [simpl; lia|]. specialize (IH i ltac:(lia)). simpl in *. lia.
Qed.
Lemma off_S l i : i < length l -> off l (S i) = off l i + nth i l 0.
Proof. apply firstn_S_sum. Qed.
Lemma off_mono l i j : i <= j -> off l i <= off l j.
Proof.
  unfold off. revert i j. induction l as [|a l IH]; intros i j H; [rewrite !firstn_nil; lia|].
  destruct i as [|i]; [simpl; lia|]. destruct j as [|j]; [lia|]. specialize (IH i j ltac:(lia)). simpl. lia.
Qed.
Lemma off_inj l i i' k : i < length l -> i' < length l -> k < nth i' l 0 ->
  off l i <= off l i' + k -> off l i' + k < off l (S i) -> i = i'.
Proof.
  intros Hi Hi' Hk H1 H2. destruct (Nat.lt_trichotomy i i') as [H|[H|H]]; [|exact H|].
  - pose proof (@off_mono l (S i) i' ltac:(lia)). lia.
  - pose proof (@off_mono l (S i') i ltac:(lia)). rewrite off_S in * by auto. lia.
Qed.
Lemma nth_cumsum0 l : forall a i, i <= length l -> nth i (cumsum0 a l) 0 = a + off l i.
Proof.
  unfold off. induction l as [|x l IH]; intros a i Hi; simpl in *.
  - replace i with 0 by lia. simpl. lia.
  - destruct i as [|i]; simpl; [lia|]. rewrite IH by lia. lia.
Qed.
Lemma last_cumsum0 l : forall a, last (cumsum0 a l) 0 = a + list_sum l.
Proof.
  induction l as [|x l IH]; intros a; simpl; [lia|]. specialize (IH (a + x)).
  destruct (cumsum0 (a + x) l) eqn:E; [destruct l; discriminate|]. rewrite IH. lia.
Qed.

Lemma single_valued_Ok l n : single_valued l = Ok n -> l <> [] /\ Forall (fun a => a = Some n) l.
Proof.
  revert n. induction l as [|[a|] l IH]; intros n H; simpl in H; try discriminate.
  split; [discriminate|]. destruct l as [|b l].
  - injection H as <-. repeat constructor.
  - apply bind_Ok in H. destruct H as [c [Hc H]]. destruct (Nat.eqb_spec a c) as [->|]; [|discriminate]. injection H as <-.
    constructor; [reflexivity|]. apply IH. exact Hc.
Qed.
Lemma single_valued_const l n : l <> [] -> Forall (fun a => a = Some n) l -> single_valued l = Ok n.
Proof.
  induction l as [|a l IH]; intros Hn HF; [contradiction|]. inversion HF; subst. simpl. destruct l as [|b l]; [reflexivity|].
  rewrite IH; [|discriminate|assumption]. simpl. rewrite Nat.eqb_refl. reflexivity.
Qed.

Lemma mapM_seq (B : Type) (f : nat -> result B) n bs (d : B) : mapM f (seq 0 n) = Ok bs ->
  length bs = n /\ forall i, i < n -> f i = Ok (nth i bs d).
Proof.
  intros H. pose proof (mapM_length _ _ H) as Hl. rewrite seq_length in Hl. split; [auto|]. intros i Hi.
  apply mapM_Ok_inv in H. 
  assert (G : forall l bs, Forall2 (fun x y => f x = Ok y) l bs -> forall i, i < length l -> f (nth i l 0) = Ok (nth i bs d)).
  { clear. induction 1 as [|x y l bs H1 H2 IH]; simpl; intros i Hi; [lia|]. destruct i; [exact H1|]. apply IH. lia. }
  specialize (G _ _ H i). rewrite seq_length, seq_nth in G by auto. auto.
Qed.
Lemma mapM_seq_Ok (B : Type) (f : nat -> result B) n bs (d : B) : length bs = n -> (forall i, i < n -> f i = Ok (nth i bs d)) -> mapM f (seq 0 n) = Ok bs.
Proof.
  intros Hl Hf. assert (G : forall l bs', length bs' = length l -> (forall i, i < length l -> f (nth i l 0) = Ok (nth i bs' d)) -> mapM f l = Ok bs').
  { clear. induction l as [|x l IH]; intros [|b bs] Hl Hf; simpl in *; try discriminate; [reflexivity|].
    rewrite (Hf 0 ltac:(lia)). simpl. rewrite (IH bs); [reflexivity|lia|]. intros i Hi. apply (Hf (S i)). lia. }
  apply G; rewrite seq_length; [auto|]. intros i Hi. rewrite seq_nth by auto. auto.
Qed.
Lemma mapM_nth (A B : Type) (f : A -> result B) l bs (da : A) (d : B) : mapM f l = Ok bs ->
  length bs = length l /\ forall i, i < length l -> f (nth i l da) = Ok (nth i bs d).
Proof.
  intros H. pose proof (mapM_length _ _ H) as Hl. split; [auto|].
  apply mapM_Ok_inv in H. clear Hl. induction H as [|x y l bs H1 H2 IH]; simpl; intros i Hi; [lia|].
  destruct i; [exact H1|]. apply IH. lia.
Qed.
Lemma mapM_nth_Ok (A B : Type) (f : A -> result B) l bs (da : A) (d : B) : length bs = length l ->
  (forall i, i < length l -> f (nth i l da) = Ok (nth i bs d)) -> mapM f l = Ok bs.
Proof.
  revert bs. induction l as [|x l IH]; intros [|b bs] Hl Hf; simpl in *; try discriminate; [reflexivity|].
  rewrite (Hf 0 ltac:(lia)). simpl. rewrite (IH bs); [reflexivity|lia|]. intros i Hi. apply (Hf (S i)). lia.
Qed.

Section Asm.
Variable R : rops.
Variable Req : forall a b : R, reqb R a b = true <-> a = b.
Notation "0r" := (r0 R).
Variable blocks : list (list (mval R)).
Variables rs cs : list nat.
Notation blk i j := (nth j (nth i blocks []) (MNum 0r)).

Section Fold.
Hypothesis Hshape : forall i j, i < length rs -> j < length cs ->
    match blk i j with
    | MNum c => c = 0r
    | MMat n m _ => n = nth i rs 0 /\ m = nth j cs 0
    | _ => False
    end.

Lemma assign_spec res i j : i < length rs -> j < length cs ->
  exists res', assign_block res (nth i (cumsum0 0 rs) 0) (nth (S i) (cumsum0 0 rs) 0) (nth j (cumsum0 0 cs) 0) (nth (S j) (cumsum0 0 cs) 0) (blk i j) = Ok res' /\
  forall i' j' k l, i' < length rs -> j' < length cs -> k < nth i' rs 0 -> l < nth j' cs 0 ->
    res' (off rs i' + k) (off cs j' + l) = if (i' =? i) && (j' =? j) then block_entry (blk i j) k l else res (off rs i' + k) (off cs j' + l).
Proof.
  intros Hi Hj. rewrite !nth_cumsum0 by lia. simpl plus. specialize (Hshape Hi Hj).
  assert (Hin : forall i' j' k l, i' < length rs -> j' < length cs -> k < nth i' rs 0 -> l < nth j' cs 0 ->
     (off rs i <=? off rs i' + k) && (off rs i' + k <? off rs (S i)) && (off cs j <=? off cs j' + l) && (off cs j' + l <? off cs (S j))
     = ((i' =? i) && (j' =? j))).
  { intros i' j' k l Hi' Hj' Hk Hl. apply eq_true_iff_eq. rewrite !andb_true_iff, !Nat.leb_le, !Nat.ltb_lt, !Nat.eqb_eq. split.
    - intros [[[H1 H2] H3] H4]. split; symmetry; eapply off_inj; eauto.
    - intros [-> ->]. rewrite !off_S by auto. lia. }
  destruct (blk i j) as [c|n f|n m f|] eqn:Eb; simpl in Hshape; try contradiction.
  - simpl. eexists; split; [reflexivity|]. intros i' j' k l Hi' Hj' Hk Hl. simpl. rewrite Hin by auto. subst c. reflexivity.
  - destruct Hshape as [-> ->]. simpl. rewrite (off_S rs), (off_S cs) by auto.
    replace (off rs i + nth i rs 0 - off rs i) with (nth i rs 0) by lia.
    replace (off cs j + nth j cs 0 - off cs j) with (nth j cs 0) by lia. rewrite !Nat.eqb_refl. simpl.
    eexists; split; [reflexivity|]. intros i' j' k l Hi' Hj' Hk Hl. simpl. rewrite <- (off_S rs), <- (off_S cs) by auto. rewrite Hin by auto.
    destruct ((i' =? i) && (j' =? j)) eqn:E; [|reflexivity]. apply andb_true_iff in E. rewrite !Nat.eqb_eq in E. destruct E as [-> ->].
    replace (off rs i + k - off rs i) with k by lia. replace (off cs j + l - off cs j) with l by lia. rewrite !bi_lt by auto. reflexivity.
Qed.

Definition assign_at res i j := assign_block res (nth i (cumsum0 0 rs) 0) (nth (S i) (cumsum0 0 rs) 0) (nth j (cumsum0 0 cs) 0) (nth (S j) (cumsum0 0 cs) 0) (blk i j).

Lemma inner_spec j L : j < length cs -> Forall (fun i => i < length rs) L -> forall res, exists res',
  foldM (fun res i => assign_at res i j) L res = Ok res' /\
  forall i' j' k l, i' < length rs -> j' < length cs -> k < nth i' rs 0 -> l < nth j' cs 0 ->
    res' (off rs i' + k) (off cs j' + l) = if (existsb (Nat.eqb i') L) && (j' =? j) then block_entry (blk i' j') k l else res (off rs i' + k) (off cs j' + l).
Proof.
  intros Hj. induction L as [|i L IH]; simpl; intros HF res.
  - exists res. auto.
  - inversion HF; subst. destruct (assign_spec res (i := i) (j := j)) as (r1 & E1 & H1'); auto.
    destruct (IH ltac:(assumption) r1) as (r2 & E2 & H2'). exists r2. split; [unfold assign_at at 1; rewrite E1; exact E2|].
    intros i' j' k l Hi' Hj' Hk Hl. rewrite H2', H1' by auto.
    destruct (Nat.eqb_spec i' i) as [->|]; simpl.
    + destruct (Nat.eqb_spec j' j) as [->|]; simpl; [|rewrite !andb_false_r; reflexivity]. destruct (existsb _ L); reflexivity.
    + reflexivity.
Qed.

Lemma outer_spec L : Forall (fun j => j < length cs) L -> forall res, exists res',
  foldM (fun res j => foldM (fun res i => assign_at res i j) (seq 0 (length rs)) res) L res = Ok res' /\
  forall i' j' k l, i' < length rs -> j' < length cs -> k < nth i' rs 0 -> l < nth j' cs 0 ->
    res' (off rs i' + k) (off cs j' + l) = if existsb (Nat.eqb j') L then block_entry (blk i' j') k l else res (off rs i' + k) (off cs j' + l).
Proof.
  induction L as [|j L IH]; simpl; intros HF res.
  - exists res. auto.
  - inversion HF; subst. destruct (@inner_spec j (seq 0 (length rs))) with (res := res) as (r1 & E1 & H1'); auto.
    { apply Forall_forall. intros i Hi. apply in_seq in Hi. lia. }
    destruct (IH ltac:(assumption) r1) as (r2 & E2 & H2'). exists r2. split; [rewrite E1; exact E2|].
    intros i' j' k l Hi' Hj' Hk Hl. rewrite H2', H1' by auto.
    assert (Hs : existsb (Nat.eqb i') (seq 0 (length rs)) = true).
    { apply existsb_exists. exists i'. split; [apply in_seq; lia | apply Nat.eqb_refl]. }
    rewrite Hs. simpl. destruct (Nat.eqb_spec j' j) as [->|]; simpl; [destruct (existsb _ L); reflexivity|reflexivity].
Qed.
End Fold.
End Asm.

Section Bmat.
Variable R : rops.
Variable Req : forall a b : R, reqb R a b = true <-> a = b.
Notation "0r" := (r0 R).

Lemma nth_row_default (blocks : list (list (mval R))) i j n d d' : (forall row, In row blocks -> length row = n) -> i < length blocks -> j < n ->
  nth j (nth i blocks []) d = nth j (nth i blocks []) d'.
Proof. intros H Hi Hj. apply nth_indep. rewrite (H (nth i blocks [])); [exact Hj | apply nth_In; exact Hi]. Qed.

Lemma nonzero_shape (v : mval R) : negb (is_zero v) = true -> v <> MNum 0r.
Proof. intros H ->. simpl in H. assert (E : reqb R 0r 0r = true) by (apply Req; reflexivity). rewrite E in H. discriminate. Qed.

Lemma col_of_nth (blocks : list (list (mval R))) j i : i < length blocks -> nth i (col_of j blocks) (MNum 0r) = nth j (nth i blocks []) (MNum 0r).
Proof. intros Hi. unfold col_of. rewrite (nth_indep _ _ (nth j [] (MNum 0r))); [|rewrite map_length; exact Hi]. apply (map_nth (fun row => nth j row (MNum 0r))). Qed.

Lemma bmat_rs_cs (blocks : list (list (mval R))) nc M : bmat nc blocks = Ok M -> (forall row, In row blocks -> length row = nc) ->
  exists rs cs, length cs = nc /\ block_shapes blocks rs cs /\ assembled blocks rs cs M /\
    (forall i, i < length rs -> exists j, j < nc /\ is_zero (nth j (nth i blocks []) MDof) = false) /\
    (forall j, j < nc -> exists i, i < length rs /\ is_zero (nth j (nth i blocks []) MDof) = false).
Proof.
  intros H Hrow. unfold bmat in H. apply bind_Ok in H. destruct H as [rs [Hrs H]]. apply bind_Ok in H. destruct H as [cs [Hcs H]].
  cbn zeta in H.
  apply mapM_nth with (da := []) (d := 0) in Hrs. destruct Hrs as [Lrs Hrs].
  apply mapM_seq with (d := 0) in Hcs. destruct Hcs as [Lcs Hcs].
  assert (Hr0 : forall i j, i < length rs -> j < nc -> is_zero (nth j (nth i blocks []) (MNum 0r)) = false -> shape0 (nth j (nth i blocks []) (MNum 0r)) = Some (nth i rs 0)).
  { intros i j Hi Hj Hz. specialize (Hrs i ltac:(lia)). apply single_valued_Ok in Hrs. destruct Hrs as [_ HF]. rewrite Forall_forall in HF. apply HF.
    apply in_map. apply filter_In. split; [|rewrite Hz; reflexivity]. apply nth_In. rewrite (Hrow (nth i blocks [])); [exact Hj|]. apply nth_In. lia. }
  assert (Hc0 : forall i j, i < length rs -> j < nc -> is_zero (nth j (nth i blocks []) (MNum 0r)) = false -> shape1 (nth j (nth i blocks []) (MNum 0r)) = Some (nth j cs 0)).
  { intros i j Hi Hj Hz. specialize (Hcs j Hj). apply single_valued_Ok in Hcs. destruct Hcs as [_ HF]. rewrite Forall_forall in HF. apply HF.
    apply in_map. apply filter_In. split; [|rewrite Hz; reflexivity]. rewrite <- col_of_nth by lia. apply nth_In. unfold col_of. rewrite map_length. lia. }
  assert (Hsh : forall i j, i < length rs -> j < length cs ->
    match nth j (nth i blocks []) (MNum 0r) with
    | MNum c => c = 0r
    | MMat n m _ => n = nth i rs 0 /\ m = nth j cs 0
    | _ => False
    end).
  { intros i j Hi Hj. rewrite Lcs in Hj. destruct (is_zero (nth j (nth i blocks []) (MNum 0r))) eqn:Z.
    - apply is_zero_inv in Z; [|exact Req]. rewrite Z. reflexivity.
    - specialize (Hr0 i j Hi Hj Z). specialize (Hc0 i j Hi Hj Z).
      destruct (nth j (nth i blocks []) (MNum 0r)) as [c|n f|n m f|]; simpl in Hr0, Hc0; try discriminate.
      injection Hr0 as ->. injection Hc0 as ->. auto. }
  assert (Hdef : forall i j, i < length rs -> j < nc -> nth j (nth i blocks []) MDof = nth j (nth i blocks []) (MNum 0r)).
  { intros i j Hi Hj. apply nth_row_default with (n := nc); [exact Hrow | lia | exact Hj]. }
  exists rs, cs. split; [exact Lcs|]. split; [|split; [|split]].
  - split; [lia|]. split; [intros row Hr; rewrite Lcs; auto|]. intros i j Hi Hj. rewrite Hdef by lia. apply Hsh; auto.
  - apply bind_Ok in H. destruct H as [f [Hf H]]. injection H as <-.
    destruct (@outer_spec R blocks rs cs Hsh (seq 0 nc)) with (res := fun _ _ : nat => 0r) as (f' & Hf' & Hspec).
    { apply Forall_forall. intros j Hj. apply in_seq in Hj. lia. }
    unfold assign_at in Hf'. rewrite <- Lrs in Hf.
    assert (f' = f) by congruence. subst f'. unfold assembled. simpl. rewrite !last_cumsum0. simpl. split; [reflexivity|]. split; [reflexivity|].
    intros i j k l Hi Hj Hk Hl. rewrite Hspec by auto. rewrite Hdef by lia.
    assert (E : existsb (Nat.eqb j) (seq 0 nc) = true). { apply existsb_exists. exists j. split; [apply in_seq; lia | apply Nat.eqb_refl]. }
    rewrite E. reflexivity.
  - intros i Hi. specialize (Hrs i ltac:(lia)). apply single_valued_Ok in Hrs. destruct Hrs as [Hne _].
    destruct (filter (fun v => negb (is_zero v)) (nth i blocks [])) as [|v l] eqn:Ef; [contradiction Hne; reflexivity|].
    assert (Hv : In v (filter (fun v => negb (is_zero v)) (nth i blocks []))) by (rewrite Ef; left; reflexivity).
    apply filter_In in Hv. destruct Hv as [Hv Hz]. apply (In_nth _ _ MDof) in Hv. destruct Hv as (j & Hj & <-).
    exists j. rewrite (Hrow (nth i blocks [])) in Hj by (apply nth_In; lia). split; [exact Hj|]. apply negb_true_iff. exact Hz.
  - intros j Hj. specialize (Hcs j Hj). apply single_valued_Ok in Hcs. destruct Hcs as [Hne _].
    destruct (filter (fun v => negb (is_zero v)) (col_of j blocks)) as [|v l] eqn:Ef; [contradiction Hne; reflexivity|].
    assert (Hv : In v (filter (fun v => negb (is_zero v)) (col_of j blocks))) by (rewrite Ef; left; reflexivity).
    apply filter_In in Hv. destruct Hv as [Hv Hz]. apply (In_nth _ _ (MNum 0r)) in Hv. destruct Hv as (i & Hi & <-).
    unfold col_of in Hi. rewrite map_length in Hi. exists i. split; [lia|]. rewrite Hdef by lia. rewrite <- col_of_nth by lia. apply negb_true_iff. exact Hz.
Qed.

Lemma bmat_total (blocks : list (list (mval R))) rs cs : block_shapes blocks rs cs ->
  (forall i, i < length rs -> exists j, j < length cs /\ is_zero (nth j (nth i blocks []) MDof) = false) ->
  (forall j, j < length cs -> exists i, i < length rs /\ is_zero (nth j (nth i blocks []) MDof) = false) ->
  exists M, bmat (length cs) blocks = Ok M.
Proof.
  intros (Lb & Hrow & Hsh) Hr Hc.
  assert (Hdef : forall i j, i < length rs -> j < length cs -> nth j (nth i blocks []) MDof = nth j (nth i blocks []) (MNum 0r)).
  { intros i j Hi Hj. apply nth_row_default with (n := length cs); [exact Hrow | lia | exact Hj]. }
  assert (Hsh' : forall i j, i < length rs -> j < length cs ->
    match nth j (nth i blocks []) (MNum 0r) with
    | MNum c => c = 0r
    | MMat n m _ => n = nth i rs 0 /\ m = nth j cs 0
    | _ => False
    end).
  { intros i j Hi Hj. rewrite <- Hdef by auto. apply Hsh; auto. }
  assert (H0 : is_zero (MNum 0r : mval R) = true) by (simpl; apply Req; reflexivity).
  unfold bmat.
  rewrite (@mapM_nth_Ok _ _ (fun row => single_valued (map (@shape0 R) (filter (fun v => negb (is_zero v)) row))) blocks rs [] 0); [|auto|].
  2:{ intros i Hi. rewrite Lb in Hi. apply single_valued_const.
      - destruct (Hr i Hi) as (j & Hj & Hz). intros E. apply map_eq_nil in E.
        assert (Hv : In (nth j (nth i blocks []) MDof) (filter (fun v => negb (is_zero v)) (nth i blocks []))).
        { apply filter_In. split; [|rewrite Hz; reflexivity]. apply nth_In. rewrite (Hrow (nth i blocks [])); [exact Hj|]. apply nth_In. lia. }
        rewrite E in Hv. destruct Hv.
      - apply Forall_forall. intros s Hs. apply in_map_iff in Hs. destruct Hs as (v & <- & Hv). apply filter_In in Hv. destruct Hv as [Hv Hz].
        apply (In_nth _ _ (MNum 0r)) in Hv. destruct Hv as (j & Hj & <-). rewrite (Hrow (nth i blocks [])) in Hj by (apply nth_In; lia).
        specialize (Hsh' i j Hi Hj). destruct (nth j (nth i blocks []) (MNum 0r)) as [c|n f|n m f|]; try contradiction.
        + subst c. rewrite H0 in Hz. discriminate.
        + destruct Hsh' as [-> _]. reflexivity. }
  cbn [bind].
  rewrite (@mapM_seq_Ok _ (fun j => single_valued (map (@shape1 R) (filter (fun v => negb (is_zero v)) (col_of j blocks)))) (length cs) cs 0); [|auto|].
  2:{ intros j Hj. apply single_valued_const.
      - destruct (Hc j Hj) as (i & Hi & Hz). intros E. apply map_eq_nil in E.
        assert (Hv : In (nth i (col_of j blocks) (MNum 0r)) (filter (fun v => negb (is_zero v)) (col_of j blocks))).
        { apply filter_In. split; [apply nth_In; unfold col_of; rewrite map_length; lia|]. rewrite col_of_nth by lia. rewrite <- Hdef by auto. rewrite Hz. reflexivity. }
        rewrite E in Hv. destruct Hv.
      - apply Forall_forall. intros s Hs. apply in_map_iff in Hs. destruct Hs as (v & <- & Hv). apply filter_In in Hv. destruct Hv as [Hv Hz].
        apply (In_nth _ _ (MNum 0r)) in Hv. destruct Hv as (i & Hi & <-). unfold col_of in Hi. rewrite map_length in Hi. rewrite col_of_nth in * by lia.
        specialize (Hsh' i j ltac:(lia) Hj). destruct (nth j (nth i blocks []) (MNum 0r)) as [c|n f|n m f|]; try contradiction.
        + subst c. rewrite H0 in Hz. discriminate.
        + destruct Hsh' as [_ ->]. reflexivity. }
  cbn [bind]. cbn zeta.
  destruct (@outer_spec R blocks rs cs Hsh' (seq 0 (length cs))) with (res := fun _ _ : nat => 0r) as (f' & Hf' & _).
  { apply Forall_forall. intros j Hj. apply in_seq in Hj. lia. }
  unfold assign_at in Hf'. rewrite <- Lb in Hf'. rewrite Hf'. simpl. eauto.
Qed.
End Bmat.
