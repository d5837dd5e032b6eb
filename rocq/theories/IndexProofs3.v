From Verif Require Import Base IndexModel IndexSpec IndexProofs IndexProofs2.
Set Implicit Arguments.
Open Scope Z_scope.

(** ** Given starts *)
Lemma starts_clusters : forall st s ixs,
  nth_error st 0 = Some s -> nth_error st (length st - 1) = Some (s + zlen ixs) ->
  (forall i a b, nth_error st i = Some a -> nth_error st (S i) = Some b -> a <= b) ->
  exists cs, concat cs = ixs /\ cumsum_from s (map (@zlen Z) cs) = st.
Proof.
  induction st as [|s0 st IH]; intros s ixs H0 Hl Hm; [discriminate|].
  simpl in H0. injection H0; intros ->. destruct st as [|s' st].
  - simpl in Hl. injection Hl; intros E. assert (ixs = []) by (destruct ixs; [reflexivity|unfold zlen in E; simpl in E; lia]).
    subst. exists []. auto.
  - assert (Hle : s <= s') by (apply (Hm 0%nat s s'); reflexivity).
    assert (Hmono : forall k a b, nth_error (s' :: st) k = Some b -> nth_error (s' :: st) 0 = Some a -> a <= b).
    { induction k as [|k IHk]; intros a b Hb Ha; [rewrite Ha in Hb; injection Hb; lia|].
      destruct (nth_error (s' :: st) k) as [c|] eqn:Ec.
      - specialize (IHk a c eq_refl Ha). assert (c <= b) by (apply (Hm (S k) c b); assumption). lia.
      - apply nth_error_None in Ec. assert (nth_error (s' :: st) (S k) = None) by (apply nth_error_None; lia). congruence. }
    replace (length (s :: s' :: st) - 1)%nat with (S (length (s' :: st) - 1)) in Hl by (simpl; lia).
    change (nth_error (s' :: st) (length (s' :: st) - 1) = Some (s + zlen ixs)) in Hl.
    assert (Hs' : s' <= s + zlen ixs) by (eapply Hmono; [exact Hl|reflexivity]).
    set (k := Z.to_nat (s' - s)).
    assert (Hk : (k <= length ixs)%nat) by (unfold k; unfold zlen in Hs'; lia).
    destruct (IH s' (skipn k ixs)) as (cs & E1 & E2).
    + reflexivity.
    + rewrite Hl. f_equal. unfold zlen. rewrite skipn_length. unfold k in *. lia.
    + intros i a b Ha Hb. apply (Hm (S i)); assumption.
    + exists (firstn k ixs :: cs). split.
      * simpl. rewrite E1. apply firstn_skipn.
      * simpl. f_equal. rewrite <- E2. f_equal. unfold zlen. rewrite firstn_length, Nat.min_l by exact Hk.
        unfold k. lia.
Qed.

Lemma mk_proper cs : proper_starts (starts (mk cs)) (zlen (concat cs)).
Proof.
  unfold mk. cbn [starts]. split; [|split].
  - unfold cumsum0. rewrite cumsum_nth by lia. reflexivity.
  - unfold cumsum0. rewrite cumsum_len, map_length. rewrite cumsum_nth by (rewrite map_length; lia).
    replace (S (length cs) - 1)%nat with (length (map (@zlen Z) cs)) by (rewrite map_length; lia).
    rewrite firstn_all. f_equal. rewrite il_total. reflexivity.
  - intros i a b Ha Hb.
    assert (Hi : (S i < S (length cs))%nat).
    { assert (E : nth_error (cumsum0 (map (@zlen Z) cs)) (S i) <> None) by congruence.
      apply nth_error_Some in E. unfold cumsum0 in E. rewrite cumsum_len, map_length in E. exact E. }
    unfold cumsum0 in *. rewrite cumsum_nth in Ha, Hb by (rewrite map_length; lia).
    rewrite sizes_nth in Hb by lia. injection Ha; injection Hb; intros. unfold zlen in *. lia.
Qed.

(** ** Sorting *)
Section Sort.
Variables (T K : Type) (key : list T -> K) (klt : K -> K -> bool).

Lemma heads_spec : forall (arys : list (list T)) row rest, heads arys = Some (row, rest) ->
  length row = length arys /\ length rest = length arys /\
  forall j a, nth_error arys j = Some a -> exists x a', a = x :: a' /\ nth_error row j = Some x /\ nth_error rest j = Some a'.
Proof.
  induction arys as [|a arys IH]; intros row rest H; simpl in H.
  - injection H; intros <- <-. repeat split; auto. intros [|j]; discriminate.
  - destruct a as [|x a]; [discriminate|]. destruct (heads (T := T) arys) as [[xs as']|]; [|discriminate].
    injection H; intros <- <-. destruct (IH _ _ eq_refl) as (H1 & H2 & H3). simpl.
    repeat split; try lia. intros [|j] b Hb; simpl in Hb.
    + injection Hb; intros <-. exists x, a. auto.
    + apply (H3 j b Hb).
Qed.
Lemma heads_some : forall arys, (forall a, In a arys -> a <> []) -> exists row rest, @heads T arys = Some (row, rest).
Proof.
  induction arys as [|a arys IH]; intros H; simpl; [eauto|].
  destruct a as [|x a]; [exfalso; apply (H []); [left|]; reflexivity|].
  destruct IH as (row & rest & ->); [intros; apply H; right; assumption|]. eauto.
Qed.

Lemma are_rows_cons row rest arys rows : heads arys = Some (row, rest) -> are_rows rest rows ->
  are_rows arys (@cons (list T) row rows).
Proof.
  intros Hh [R1 R2]. destruct (heads_spec _ Hh) as (L1 & L2 & L3). split.
  - intros a Ha. apply In_nth_error in Ha. destruct Ha as [j Hj].
    destruct (L3 j a Hj) as (x & a' & -> & _ & Hr). simpl. f_equal. apply R1. eapply nth_error_In; eauto.
  - intros [|i] r Hr; simpl in Hr.
    + injection Hr; intros <-. split; [exact L1|]. intros j a Ha.
      destruct (L3 j a Ha) as (x & a' & -> & -> & _). reflexivity.
    + destruct (R2 i r Hr) as [Q1 Q2]. split; [lia|]. intros j a Ha.
      destruct (L3 j a Ha) as (x & a' & -> & _ & Hr'). simpl. apply Q2. exact Hr'.
Qed.

Lemma zip_rows_spec : forall n arys,
  ((forall a, In a arys -> length a = n) -> exists rows, @zip_rows T n arys = Ok rows /\ length rows = n /\ are_rows arys rows) /\
  ((exists a, In a arys /\ length a <> n) -> @zip_rows T n arys = Err ValueError).
Proof.
  induction n as [|n IH]; intros arys; split; intros H; cbn [zip_rows].
  - assert (E : forallb (fun a : list T => match a with [] => true | _ => false end) arys = true).
    { apply forallb_forall. intros a Ha. apply H in Ha. destruct a; [reflexivity|discriminate]. }
    rewrite E. exists []. split; [reflexivity|]. split; [reflexivity|]. split; [exact H|].
    intros i r Hr. destruct i; discriminate.
  - assert (E : forallb (fun a : list T => match a with [] => true | _ => false end) arys = false).
    { destruct H as (a & Ha & Hl). apply not_true_is_false. intros E. rewrite forallb_forall in E.
      specialize (E a Ha). destruct a; [apply Hl; reflexivity|discriminate]. }
    rewrite E. reflexivity.
  - destruct (@heads_some arys) as (row & rest & Hh).
    { intros a Ha. apply H in Ha. destruct a; discriminate. }
    rewrite Hh. destruct (heads_spec _ Hh) as (L1 & L2 & L3).
    destruct (proj1 (IH rest)) as (rows & -> & Ln & Hr).
    { intros a' Ha'. apply In_nth_error in Ha'. destruct Ha' as [j Hj].
      destruct (nth_error arys j) as [a|] eqn:Ea.
      - destruct (L3 j a Ea) as (x & a'' & -> & _ & E2). rewrite E2 in Hj. injection Hj; intros <-.
        apply nth_error_In in Ea. apply H in Ea. simpl in Ea. lia.
      - exfalso. apply nth_error_None in Ea. assert (nth_error rest j <> None) by congruence.
        apply nth_error_Some in H0. lia. }
    simpl. exists (row :: rows). split; [reflexivity|]. split; [simpl; lia|]. apply (are_rows_cons _ Hh Hr).
  - destruct (heads (T := T) arys) as [[row rest]|] eqn:Hh; [|reflexivity].
    destruct (heads_spec _ Hh) as (L1 & L2 & L3). destruct H as (a & Ha & Hl).
    apply In_nth_error in Ha. destruct Ha as [j Hj]. destruct (L3 j a Hj) as (x & a' & -> & _ & E2).
    rewrite (proj2 (IH rest)); [reflexivity|]. exists a'. split; [eapply nth_error_In; eauto|].
    simpl in Hl. lia.
Qed.

Lemma are_rows_sym (a r : list (list T)) : are_rows a r -> are_rows r a.
Proof.
  intros [H1 H2]. split.
  - intros x Hx. apply In_nth_error in Hx. destruct Hx as [i Hi]. apply (H2 i x Hi).
  - intros i c Hc. split.
    + apply H1. eapply nth_error_In; eauto.
    + intros j row Hrow. symmetry. apply (proj2 (H2 j row Hrow)). exact Hc.
Qed.

Lemma insert_perm x : forall l, Permutation (x :: l) (insert key klt x l).
Proof.
  induction l as [|y l IH]; simpl; [reflexivity|]. destruct (klt (key y) (key x)); [|reflexivity].
  rewrite perm_swap. constructor. exact IH.
Qed.
Lemma sorted_perm : forall l, Permutation l (sorted key klt l).
Proof.
  induction l as [|x l IH]; simpl; [constructor|].
  rewrite <- insert_perm. constructor. exact IH.
Qed.

(** [klt] is a strict weak order. *)
Hypothesis klt_asym : forall a b, klt a b = true -> klt b a = false.
Hypothesis klt_ntrans : forall a b c, klt a b = false -> klt b c = false -> klt a c = false.

Definition in_order (x y : list T) : Prop := klt (key y) (key x) = false.
Lemma insert_sorted x : forall l, StronglySorted in_order l -> StronglySorted in_order (insert key klt x l).
Proof.
  induction l as [|y l IH]; intros H; simpl; [repeat constructor|].
  inversion H; subst. destruct (klt (key y) (key x)) eqn:E.
  - constructor; [apply IH; assumption|]. apply Forall_forall. intros z Hz.
    apply (Permutation_in _ (Permutation_sym (insert_perm x l))) in Hz. destruct Hz as [<-|Hz].
    + unfold in_order. apply klt_asym. exact E.
    + rewrite Forall_forall in H3. apply H3. exact Hz.
  - constructor; [exact H|]. constructor; [exact E|]. apply Forall_forall. intros z Hz.
    rewrite Forall_forall in H3. specialize (H3 z Hz). unfold in_order in *.
    eapply klt_ntrans; eauto.
Qed.
Lemma sorted_sorted : forall l, StronglySorted in_order (sorted key klt l).
Proof. induction l as [|x l IH]; simpl; [constructor|]. apply insert_sorted. exact IH. Qed.

(** rows with keys equivalent to that of [x] *)
Definition same_key (x y : list T) : bool := negb (klt (key x) (key y)) && negb (klt (key y) (key x)).
Lemma insert_stable z x : forall l,
  filter (same_key z) (insert key klt x l) = filter (same_key z) (x :: l).
Proof.
  induction l as [|y l IH]; [reflexivity|]. cbn [insert]. destruct (klt (key y) (key x)) eqn:E; [|reflexivity].
  cbn [filter]. rewrite IH. cbn [filter].
  destruct (same_key z x) eqn:Ex, (same_key z y) eqn:Ey; try reflexivity.
  exfalso. unfold same_key in *. apply andb_true_iff in Ex, Ey. rewrite !negb_true_iff in *.
  destruct Ex as [X1 X2], Ey as [Y1 Y2].
  rewrite (klt_ntrans Y2 X1) in E. discriminate.
Qed.
Lemma sorted_stable z : forall l, filter (same_key z) (sorted key klt l) = filter (same_key z) l.
Proof.
  induction l as [|x l IH]; [reflexivity|]. cbn [sorted fold_right]. rewrite insert_stable.
  cbn [filter]. unfold sorted in IH. rewrite IH. reflexivity.
Qed.
End Sort.
