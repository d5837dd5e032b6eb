(** C79: Stokes flow. *)
From Coq Require Import Ring QArith Qcanon.
From Verif Require Import Base MatModel MatProofs PdeModel PdeSpec PdeProofs PdeProps PdeProps2 SymProofs SymProofs2.
Set Implicit Arguments.
Open Scope string_scope. Open Scope list_scope. Open Scope nat_scope.

(** The tensors of the Stokeslet and the stresslet do not change when indices are exchanged. *)
Definition symmetric_tensors (W : world) : Prop :=
  (forall d i j tds l s t ka f,
     pot W (plain (KStokeslet d i j)) tds l s t ka f = pot W (plain (KStokeslet d j i)) tds l s t ka f) /\
  (forall d i j m tds l s t ka f,
     pot W (plain (KStresslet d i j m)) tds l s t ka f = pot W (plain (KStresslet d j i m)) tds l s t ka f) /\
  (forall d i j m tds l s t ka f,
     pot W (plain (KStresslet d i j m)) tds l s t ka f = pot W (plain (KStresslet d i m j)) tds l s t ka f).

(** Vectors of expressions, by component. *)
Definition at_ (W : world) (L : nat) (v : list pe) (c : nat) : W := ev W L L (nth c v (pint 0)).

(** Component [c] of the velocity (or, with [tds], of a derivative of it) due to a distribution
    [s] of Stokeslets, respectively of stresslets with directions [n]; and the pressures. *)
Section Flows.
Variable W : world.
Variables (dim : nat) (mu : string) (L : nat).
Definition single_flow (tds : list nat) (l : lim) (s : nat -> W) (c : nat) : W :=
  rsum W dim (fun i => pot W (plain (KStokeslet dim c i)) tds l L L [("mu", RUser mu)] (s i)).
Definition double_flow (tds : list nat) (l : lim) (s n : nat -> W) (c : nat) : W :=
  rsum W dim (fun i => rsum W dim (fun j =>
    pot W (plain (KStresslet dim c i j)) tds l L L [("mu", RUser mu)] (rmul W (n i) (s j)))).
Definition single_pressure (l : lim) (s : nat -> W) : W :=
  rsum W dim (fun i => pot W (plain (KLaplace dim)) [i] l L L [] (s i)).
Definition double_pressure (l : lim) (s n : nat -> W) : W :=
  rsum W dim (fun i => rsum W dim (fun j =>
    rmul W (rmul W (of_Z W 2) (w_var W mu)) (pot W (plain (KLaplace dim)) [i; j] l L L [] (rmul W (s i) (n j))))).
(** Traction, in direction [d], of a flow with pressure [p] and velocity gradient [du c j]. *)
Definition traction (p : W) (du : nat -> nat -> W) (d : nat -> W) (c : nat) : W :=
  radd W (ropp W (rmul W p (d c)))
    (rsum W dim (fun j => rmul W (rmul W (w_var W mu) (radd W (du c j) (du j c))) (d j))).
End Flows.

(** The supported dimensions. *)
Definition flow_dim (d : nat) : Prop := d = 2 \/ d = 3.

Lemma lt3 i d : flow_dim d -> i < d -> i = 0 \/ i = 1 \/ (i = 2 /\ d = 3).
Proof. intros [-> | ->]; lia. Qed.

Section C79.
Variable W : world.
Hypothesis OK : world_ok W.
Add Ring Wr5 : (wo_ring OK).

(** *** Sums *)
Definition lsum (l : list W) : W := fold_right (radd W) (r0 W) l.
Lemma lsum_app a b : lsum (a ++ b) = radd W (lsum a) (lsum b).
Proof. induction a; simpl; [ring|]. rewrite IHa. ring. Qed.
Lemma lsum_seq n f : lsum (map f (seq 0 n)) = rsum W n f.
Proof.
  induction n; [reflexivity|]. rewrite seq_S, map_app, lsum_app, IHn. simpl. ring.
Qed.
Lemma lsum_pairs n (f : nat -> nat -> W) : lsum (map (fun ij => f (fst ij) (snd ij)) (pairs n)) = rsum W n (fun i => rsum W n (f i)).
Proof.
  rewrite <- lsum_seq. unfold pairs. generalize (seq 0 n) at 2 3 as l. intros l.
  induction l; [reflexivity|]. simpl. rewrite map_app, lsum_app, IHl. f_equal.
  rewrite map_map. simpl. apply lsum_seq.
Qed.
Lemma accM_ev L ts xs : Forall2 (fun t x => forall e, t = Ok e -> ev W L L e = x) ts xs ->
  forall acc r, accM ts acc = Ok r -> 
   (match acc with Some a => exists e, r = Some e /\ ev W L L e = radd W (ev W L L a) (lsum xs)
    | None => match r with Some e => ev W L L e = lsum xs | None => ts = [] end end).
Proof.
  induction 1 as [|t x ts xs Ht _ IH]; intros acc r H; simpl in H.
  - injection H as <-. destruct acc; auto. eexists. split; [reflexivity|]. simpl. ring.
  - apply bind_Ok in H. destruct H as (e & He & H). apply IH in H. specialize (Ht e He).
    destruct acc as [a|].
    + destruct H as (e' & -> & H). eexists. split; [reflexivity|]. rewrite H. cbn [ev]. rewrite Ht. simpl. ring.
    + destruct H as (e' & -> & H). rewrite H, Ht. reflexivity.
Qed.
Lemma acc_sum_ev L A (f : A -> result pe) (F : A -> W) l e : acc_sum (map f l) = Ok e ->
  (forall a x, In a l -> f a = Ok x -> ev W L L x = F a) -> ev W L L e = lsum (map F l).
Proof.
  intros H HF. unfold acc_sum in H. apply bind_Ok in H. destruct H as (r & Hr & H).
  apply (@accM_ev L _ (map F l)) in Hr.
  - destruct r; [|discriminate]. injection H as ->. exact Hr.
  - clear -HF. induction l; simpl; constructor.
    + intros x Hx. apply HF; simpl; auto.
    + apply IHl. intros; apply HF; simpl; auto.
Qed.
Lemma accM_total ts acc : (forall t, In t ts -> exists e, t = Ok e) -> (acc <> None \/ ts <> []) -> exists e, accM ts acc = Ok (Some e).
Proof.
  revert acc; induction ts as [|t ts IH]; intros acc H Hn; simpl.
  - destruct acc; [eauto|]. destruct Hn as [Hn|Hn]; congruence.
  - destruct (H t) as (e & ->); [simpl; auto|]. cbn [bind]. apply IH; [intros; apply H; simpl; auto|left; discriminate].
Qed.
Lemma acc_sum_total ts : (forall t, In t ts -> exists e, t = Ok e) -> ts <> [] -> exists e, acc_sum ts = Ok e.
Proof. intros H Hn. unfold acc_sum. destruct (@accM_total ts None H) as (e & ->); auto. simpl. eauto. Qed.

Lemma in_pairs n i j : In (i, j) (pairs n) <-> i < n /\ j < n.
Proof.
  unfold pairs. rewrite in_flat_map. split.
  - intros (x & Hx & H). apply in_map_iff in H. destruct H as (y & [= <- <-] & Hy). apply in_seq in Hx, Hy. lia.
  - intros [Hi Hj]. exists i. split; [apply in_seq; lia|]. apply in_map_iff. exists j. split; auto. apply in_seq. lia.
Qed.

(** *** Finding the kernels *)
Lemma stokeslet_dict_iff d : (flow_dim d -> exists D, stokeslet_dict d = Ok D) /\ (~ flow_dim d -> stokeslet_dict d = Err ValueError).
Proof. unfold flow_dim. destruct d as [|[|[|[|d]]]]; split; simpl; intros H; eauto; exfalso; (lia || (apply H; auto)). Qed.
Lemma stresslet_dict_iff d : (flow_dim d -> exists D, stresslet_dict d = Ok D) /\ (~ flow_dim d -> stresslet_dict d = Err ValueError).
Proof. unfold flow_dim. destruct d as [|[|[|[|d]]]]; split; simpl; intros H; eauto; exfalso; (lia || (apply H; auto)). Qed.

Lemma stokeslet_lookup d D c i : stokeslet_dict d = Ok D -> c < d -> i < d -> exists k,
  klookup D (counts d [c; i]) = Ok k /\ kernel_args k = ["mu"] /\
  (symmetric_tensors W -> forall tds l s t ka f, pot W k tds l s t ka f = pot W (plain (KStokeslet d c i)) tds l s t ka f).
Proof.
  intros HD Hc Hi. assert (Hd : flow_dim d).
  { unfold flow_dim. destruct d as [|[|[|[|d]]]]; simpl in HD; try discriminate; auto. }
  destruct (lt3 Hd Hc) as [->|[->|[-> H3]]], (lt3 Hd Hi) as [->|[->|[-> H3']]]; destruct Hd as [-> | ->]; try lia;
  injection HD as <-; (eexists; split; [reflexivity|]); (split; [reflexivity|]); intros (HS & _); intros; auto.
Qed.
Lemma stresslet_lookup d D c i j : stresslet_dict d = Ok D -> c < d -> i < d -> j < d -> exists k,
  klookup D (counts d [c; i; j]) = Ok k /\ kernel_args k = ["mu"] /\
  (symmetric_tensors W -> forall tds l s t ka f, pot W k tds l s t ka f = pot W (plain (KStresslet d c i j)) tds l s t ka f).
Proof.
  intros HD Hc Hi Hj. assert (Hd : flow_dim d).
  { unfold flow_dim. destruct d as [|[|[|[|d]]]]; simpl in HD; try discriminate; auto. }
  destruct (lt3 Hd Hc) as [->|[->|[-> H3]]], (lt3 Hd Hi) as [->|[->|[-> H3']]], (lt3 Hd Hj) as [->|[->|[-> H3'']]];
  destruct Hd as [-> | ->]; try lia;
  injection HD as <-; (eexists; split; [reflexivity|]); (split; [reflexivity|]); intros (_ & H1 & H2); intros;
  try reflexivity;
  try (rewrite H1; reflexivity); try (rewrite H2; reflexivity);
  try (rewrite H1, H2; reflexivity); try (rewrite H2, H1; reflexivity); try (rewrite H1, H2, H1; reflexivity).
Qed.

Lemma vget_nth v i x : vget v i = Ok x -> nth i v (pint 0) = x /\ i < length v.
Proof.
  unfold vget. destruct (nth_error v i) eqn:E; [|discriminate]. intros [= <-]. split.
  - apply nth_error_nth. auto.
  - apply nth_error_Some. congruence.
Qed.
Lemma vget_total v i : i < length v -> exists x, vget v i = Ok x.
Proof. intros H. unfold vget. destruct (nth_error v i) eqn:E; eauto. apply nth_error_None in E. lia. Qed.

Lemma mapM_seq_nth A n (f : nat -> result A) v (z : A) : mapM f (seq 0 n) = Ok v ->
  length v = n /\ forall c, c < n -> f c = Ok (nth c v z).
Proof.
  intros H. assert (HL : length v = n) by (apply mapM_length in H; rewrite seq_length in H; auto).
  split; auto. intros c Hc. revert v n H HL c Hc.
  assert (G : forall n s v, mapM f (seq s n) = Ok v -> forall c, c < n -> f (s + c) = Ok (nth c v z)).
  { induction n; intros s v H c Hc; [lia|]. simpl in H. apply bind_Ok in H. destruct H as (a & Ha & H).
    apply bind_Ok in H. destruct H as (r & Hr & H). injection H as <-. destruct c; simpl.
    - rewrite Nat.add_0_r. auto.
    - specialize (IHn (S s) r Hr c). rewrite <- IHn by lia. f_equal. lia. }
  intros v n H _ c Hc. specialize (G n 0 v H c Hc). auto.
Qed.

Definition is_take (tk : pe -> result pe) (tds : list nat) : Prop :=
  forall k l s t ka a, tk (PLp k [] l s t ka a) = Ok (PLp k tds l s t ka a).
Lemma take_id : is_take (fun e => Ok e) []. Proof. intros k l s t ka a. reflexivity. Qed.
Lemma take_d i : is_take (dtake i) [i]. Proof. intros k l s t ka a. reflexivity. Qed.

Lemma stokeslet_terms_ev tk tds dim sg mu l L v : is_take tk tds -> symmetric_tensors W ->
  stokeslet_terms tk dim sg mu l = Ok v ->
  length v = dim /\ forall c, c < dim -> at_ W L v c = single_flow W dim mu L tds l (at_ W L sg) c.
Proof.
  intros Ht HS H. unfold stokeslet_terms in H. apply bind_Ok in H. destruct H as (D & HD & H).
  apply mapM_seq_nth with (z := pint 0) in H. destruct H as [HL H]. split; auto. intros c Hc.
  specialize (H c Hc). unfold at_ at 1. unfold single_flow. rewrite <- lsum_seq.
  apply (acc_sum_ev L _ _ _ H). intros i x Hi Hx. apply in_seq in Hi.
  destruct (@stokeslet_lookup dim D c i HD) as (k & Hk & Ha & Hp); [lia|lia|]. rewrite Hk in Hx. cbn [bind] in Hx.
  apply bind_Ok in Hx. destruct Hx as (s & Hs & Hx). apply bind_Ok in Hx. destruct Hx as (e & He & Hx).
  apply int_g_vec_Ok in He. subst e. rewrite Ht in Hx. injection Hx as <-. apply vget_nth in Hs. destruct Hs as [Hs _].
  cbn [ev]. rewrite <- (Hp HS). unfold pot. rewrite <- Hs. reflexivity.
Qed.

(** *** What the wrappers compute *)
Theorem stokeslet_apply_formula dim sg mu l L v : symmetric_tensors W -> stokeslet_apply dim sg mu l = Ok v ->
  length v = dim /\ forall c, c < dim -> at_ W L v c = single_flow W dim mu L [] l (at_ W L sg) c.
Proof. intros HS H. apply (@stokeslet_terms_ev (fun e => Ok e) [] dim sg mu l L v); auto using take_id. Qed.
Theorem stokeslet_derivative_formula dir dim sg mu l L v : symmetric_tensors W -> stokeslet_derivative dir dim sg mu l = Ok v ->
  length v = dim /\ forall c, c < dim -> at_ W L v c = single_flow W dim mu L [dir] l (at_ W L sg) c.
Proof. intros HS H. apply (@stokeslet_terms_ev (dtake dir) [dir] dim sg mu l L v); auto using take_d. Qed.

Theorem stokeslet_pressure_formula dim sg l L p : stokeslet_pressure dim sg l = Ok p ->
  ev W L L p = single_pressure W dim L l (at_ W L sg).
Proof.
  intros H. unfold stokeslet_pressure in H. apply bind_Ok in H. destruct H as (D & HD & H).
  unfold single_pressure. rewrite <- lsum_seq. apply (acc_sum_ev L _ _ _ H). intros i x _ Hx.
  apply bind_Ok in Hx. destruct Hx as (s & Hs & Hx). apply bind_Ok in Hx. destruct Hx as (e & He & Hx).
  apply int_g_vec_Ok in He. subst e. simpl in Hx. injection Hx as <-. apply vget_nth in Hs. destruct Hs as [Hs _].
  cbn [ev]. unfold pot, at_. rewrite Hs. reflexivity.
Qed.

Lemma stresslet_terms_ev tk tds dim sg nr mu l L v : is_take tk tds -> symmetric_tensors W ->
  stresslet_terms tk dim sg nr mu l = Ok v ->
  length v = dim /\ forall c, c < dim -> at_ W L v c = double_flow W dim mu L tds l (at_ W L sg) (at_ W L nr) c.
Proof.
  intros Ht HS H. unfold stresslet_terms in H. apply bind_Ok in H. destruct H as (D & HD & H).
  apply mapM_seq_nth with (z := pint 0) in H. destruct H as [HL H]. split; auto. intros c Hc.
  specialize (H c Hc). unfold at_ at 1. unfold double_flow. rewrite <- lsum_pairs.
  apply (acc_sum_ev L _ _ _ H). intros [i j] x Hi Hx. apply in_pairs in Hi. cbn [fst snd] in *.
  destruct (@stresslet_lookup dim D c i j HD) as (k & Hk & Ha & Hp); [lia|lia|lia|]. rewrite Hk in Hx. cbn [bind] in Hx.
  apply bind_Ok in Hx. destruct Hx as (d & Hd & Hx).
  apply bind_Ok in Hx. destruct Hx as (s & Hs & Hx). apply bind_Ok in Hx. destruct Hx as (e & He & Hx).
  apply int_g_vec_Ok in He. subst e. rewrite Ht in Hx. injection Hx as <-. apply vget_nth in Hs, Hd.
  cbn [ev]. rewrite <- (Hp HS). unfold pot, at_. rewrite (proj1 Hs), (proj1 Hd). reflexivity.
Qed.
Theorem stresslet_apply_formula dim sg nr mu l L v : symmetric_tensors W -> stresslet_apply dim sg nr mu l = Ok v ->
  length v = dim /\ forall c, c < dim -> at_ W L v c = double_flow W dim mu L [] l (at_ W L sg) (at_ W L nr) c.
Proof. intros HS H. apply (@stresslet_terms_ev (fun e => Ok e) [] dim sg nr mu l L v); auto using take_id. Qed.
Theorem stresslet_derivative_formula dir dim sg nr mu l L v : symmetric_tensors W -> stresslet_derivative dir dim sg nr mu l = Ok v ->
  length v = dim /\ forall c, c < dim -> at_ W L v c = double_flow W dim mu L [dir] l (at_ W L sg) (at_ W L nr) c.
Proof. intros HS H. apply (@stresslet_terms_ev (dtake dir) [dir] dim sg nr mu l L v); auto using take_d. Qed.

Lemma num_two : w_num W (NRat 2 1) = of_Z W 2.
Proof. pose proof (wo_rat OK 2 1) as H. simpl in H. simpl. rewrite <- H. ring. Qed.
Theorem stresslet_pressure_formula dim sg nr mu l L p : stresslet_pressure dim sg nr mu l = Ok p ->
  ev W L L p = double_pressure W dim mu L l (at_ W L sg) (at_ W L nr).
Proof.
  intros H. unfold stresslet_pressure in H. apply bind_Ok in H. destruct H as (D & HD & H).
  unfold double_pressure. rewrite <- lsum_pairs. apply (acc_sum_ev L _ _ _ H). intros [i j] x _ Hx. cbn [fst snd] in *.
  apply bind_Ok in Hx. destruct Hx as (s & Hs & Hx). apply bind_Ok in Hx. destruct Hx as (d & Hd & Hx).
  apply bind_Ok in Hx. destruct Hx as (e & He & Hx). apply int_g_vec_Ok in He. subst e. cbn [dtake bind] in Hx.
  injection Hx as <-. apply vget_nth in Hs, Hd.
  cbn [ev prat]. rewrite num_two. unfold pot, at_. rewrite (proj1 Hs), (proj1 Hd). reflexivity.
Qed.

(** The stress of a distribution of stresslets is that of its flow. *)
Theorem stresslet_stress_is_traction dim sg nr dir mu l L v : symmetric_tensors W ->
  stresslet_stress dim sg nr dir mu l = Ok v ->
  length v = dim /\ forall c, c < dim -> at_ W L v c =
    traction W dim mu (double_pressure W dim mu L l (at_ W L sg) (at_ W L nr))
      (fun a j => double_flow W dim mu L [j] l (at_ W L sg) (at_ W L nr) a) (at_ W L dir) c.
Proof.
  intros HS H. unfold stresslet_stress in H. apply bind_Ok in H. destruct H as (gr & Hg & H).
  apply mapM_seq_nth with (z := []) in Hg. destruct Hg as [HgL Hg].
  apply mapM_seq_nth with (z := pint 0) in H. destruct H as [HL H]. split; auto. intros c Hc.
  specialize (H c Hc). apply bind_Ok in H. destruct H as (dc & Hdc & H). apply bind_Ok in H. destruct H as (p & Hp & H).
  apply vget_nth in Hdc. destruct Hdc as [Hdc _].
  assert (G : forall j a g, j < dim -> a < dim ->
     match nth_error gr j with Some w => vget w a | None => Err IndexError end = Ok g ->
     ev W L L g = double_flow W dim mu L [j] l (at_ W L sg) (at_ W L nr) a).
  { intros j a g Hj Ha Hx. rewrite (nth_error_nth' gr [] ) in Hx by lia.
    apply vget_nth in Hx. destruct Hx as [Hx _]. specialize (Hg j Hj).
    destruct (@stresslet_derivative_formula j dim sg nr mu l L _ HS Hg) as [_ E]. rewrite <- (E a Ha). unfold at_. rewrite Hx. reflexivity. }
  assert (F : forall n x0 x, n <= dim -> fold_left (fun acc j => do a <- acc; do dj <- vget dir j;
      do g1 <- match nth_error gr j with Some w => vget w c | None => Err IndexError end;
      do g2 <- match nth_error gr c with Some w => vget w j | None => Err IndexError end;
      Ok (PAdd a (PMul (PMul dj (PVar mu)) (PAdd g1 g2)))) (seq 0 n) (Ok x0) = Ok x ->
      ev W L L x = radd W (ev W L L x0) (rsum W n (fun j => rmul W (rmul W (w_var W mu)
         (radd W (double_flow W dim mu L [j] l (at_ W L sg) (at_ W L nr) c) (double_flow W dim mu L [c] l (at_ W L sg) (at_ W L nr) j))) (at_ W L dir j)))).
  { induction n; intros x0 x Hn Hx.
    - injection Hx as <-. simpl. ring.
    - rewrite seq_S, fold_left_app in Hx. cbn [fold_left Nat.add] in Hx.
      apply bind_Ok in Hx. destruct Hx as (a & Ha & Hx). apply bind_Ok in Hx. destruct Hx as (dj & Hdj & Hx).
      apply bind_Ok in Hx. destruct Hx as (g1 & Hg1 & Hx). apply bind_Ok in Hx. destruct Hx as (g2 & Hg2 & Hx).
      injection Hx as <-. apply IHn in Ha; [|lia]. cbn [ev]. rewrite Ha. apply vget_nth in Hdj. destruct Hdj as [Hdj _].
      rewrite (G n c g1), (G c n g2) by (auto; lia). cbn [rsum].
      assert (ED : at_ W L dir n = ev W L L dj) by (unfold at_; rewrite Hdj; reflexivity). rewrite ED. ring. }
  unfold at_ at 1. rewrite (F dim _ _ (le_n _) H). unfold traction. cbn [ev].
  rewrite (@stresslet_pressure_formula dim sg nr mu l L p Hp). 
  assert (EC : at_ W L dir c = ev W L L dc) by (unfold at_; rewrite Hdc; reflexivity). rewrite EC. ring.
Qed.

(** That of Stokeslets is the stresslet tensor applied to the direction at the target; it is the
    stress of the flow if the tensors are related as stress and velocity. *)
Theorem stokeslet_stress_formula dim sg dir mu l L v : symmetric_tensors W -> stokeslet_stress dim sg dir mu l = Ok v ->
  length v = dim /\ forall c, c < dim -> at_ W L v c =
    rsum W dim (fun i => rsum W dim (fun j => rmul W (at_ W L dir i)
      (pot W (plain (KStresslet dim c i j)) [] l L L [("mu", RUser mu)] (at_ W L sg j)))).
Proof.
  intros HS H. unfold stokeslet_stress in H. apply bind_Ok in H. destruct H as (D0 & _ & H).
  apply bind_Ok in H. destruct H as (D & HD & H).
  apply mapM_seq_nth with (z := pint 0) in H. destruct H as [HL H]. split; auto. intros c Hc.
  specialize (H c Hc). unfold at_ at 1. rewrite <- lsum_pairs.
  apply (acc_sum_ev L _ _ _ H). intros [i j] x Hi Hx. apply in_pairs in Hi. cbn [fst snd] in *.
  destruct (@stresslet_lookup dim D c i j HD) as (k & Hk & Ha & Hp); [lia|lia|lia|]. rewrite Hk in Hx. cbn [bind] in Hx.
  apply bind_Ok in Hx. destruct Hx as (d & Hd & Hx).
  apply bind_Ok in Hx. destruct Hx as (s & Hs & Hx). apply bind_Ok in Hx. destruct Hx as (e & He & Hx).
  apply int_g_vec_Ok in He. subst e. injection Hx as <-. apply vget_nth in Hs, Hd.
  cbn [ev]. rewrite <- (Hp HS). unfold pot, at_. rewrite (proj1 Hs), (proj1 Hd). reflexivity.
Qed.

Definition stress_identity (dim : nat) (mu : string) (l : lim) (L : nat) : Prop := forall c i j f, c < dim -> i < dim -> j < dim ->
  let G a b m := pot W (plain (KStokeslet dim a b)) [m] l L L [("mu", RUser mu)] f in
  pot W (plain (KStresslet dim c i j)) [] l L L [("mu", RUser mu)] f
  = radd W (if c =? i then ropp W (pot W (plain (KLaplace dim)) [j] l L L [] f) else r0 W)
           (rmul W (w_var W mu) (radd W (G c j i) (G i j c))).

Lemma rsum_opp n (f : nat -> W) : rsum W n (fun i => ropp W (f i)) = ropp W (rsum W n f).
Proof. induction n; simpl; [ring|]. rewrite IHn. ring. Qed.
Lemma rsum_delta n c (f : nat -> W) : c < n -> rsum W n (fun i => if c =? i then f i else r0 W) = f c.
Proof.
  assert (Z : forall n, n <= c -> rsum W n (fun i => if c =? i then f i else r0 W) = r0 W).
  { induction n0; simpl; intros; auto. rewrite IHn0 by lia. destruct (Nat.eqb_spec c n0); [lia|]. ring. }
  induction n; intros H; [lia|]. simpl. destruct (Nat.eqb_spec c n).
  - subst. rewrite Z by lia. ring.
  - rewrite IHn by lia. ring.
Qed.

Theorem stokeslet_stress_is_traction dim sg dir mu l L v : symmetric_tensors W -> stress_identity dim mu l L ->
  stokeslet_stress dim sg dir mu l = Ok v ->
  length v = dim /\ forall c, c < dim -> at_ W L v c =
    traction W dim mu (single_pressure W dim L l (at_ W L sg))
      (fun a j => single_flow W dim mu L [j] l (at_ W L sg) a) (at_ W L dir) c.
Proof.
  intros HS HI H. apply stokeslet_stress_formula with (L := L) in H; auto. destruct H as [HL H]. split; auto.
  intros c Hc. rewrite (H c Hc). unfold traction, single_pressure, single_flow.
  set (d := at_ W L dir). set (s := at_ W L sg).
  transitivity (radd W
    (rsum W dim (fun i => if c =? i then rmul W (ropp W (rsum W dim (fun j => pot W (plain (KLaplace dim)) [j] l L L [] (s j)))) (d i) else r0 W))
    (rsum W dim (fun i => rmul W (rmul W (w_var W mu) (radd W
       (rsum W dim (fun j => pot W (plain (KStokeslet dim c j)) [i] l L L [("mu", RUser mu)] (s j)))
       (rsum W dim (fun j => pot W (plain (KStokeslet dim i j)) [c] l L L [("mu", RUser mu)] (s j))))) (d i)))).
  2:{ rewrite rsum_delta by auto. ring. }
  rewrite <- (rsum_add W (wo_ring OK)). apply rsum_ext. intros i Hi.
  rewrite <- (rsum_add W (wo_ring OK)).
  transitivity (rmul W (d i) (radd W
     (if c =? i then ropp W (rsum W dim (fun j => pot W (plain (KLaplace dim)) [j] l L L [] (s j))) else r0 W)
     (rmul W (w_var W mu) (rsum W dim (fun j => radd W (pot W (plain (KStokeslet dim c j)) [i] l L L [("mu", RUser mu)] (s j))
        (pot W (plain (KStokeslet dim i j)) [c] l L L [("mu", RUser mu)] (s j))))))).
  2:{ destruct (c =? i); ring. }
  rewrite (rsum_mul_l W (wo_ring OK)). f_equal.
  rewrite <- (rsum_mul_l W (wo_ring OK)).
  assert (E : (if c =? i then ropp W (rsum W dim (fun j => pot W (plain (KLaplace dim)) [j] l L L [] (s j))) else r0 W)
     = rsum W dim (fun j => if c =? i then ropp W (pot W (plain (KLaplace dim)) [j] l L L [] (s j)) else r0 W)).
  { destruct (c =? i).
    - symmetry. apply rsum_opp.
    - symmetry. apply (rsum_zero W (wo_ring OK)). auto. }
  rewrite E, <- (rsum_add W (wo_ring OK)). apply rsum_ext. intros j Hj. rewrite HI by auto. reflexivity.
Qed.

(** *** When they exist *)
Theorem stokes_wrappers_total dim sg nr dir mu l ax :
  (flow_dim dim -> length sg = dim -> length nr = dim -> length dir = dim ->
    (exists v, stokeslet_apply dim sg mu l = Ok v) /\ (exists v, stokeslet_derivative ax dim sg mu l = Ok v) /\
    (exists p, stokeslet_pressure dim sg l = Ok p) /\ (exists v, stokeslet_stress dim sg dir mu l = Ok v) /\
    (exists v, stresslet_apply dim sg nr mu l = Ok v) /\ (exists v, stresslet_derivative ax dim sg nr mu l = Ok v) /\
    (exists p, stresslet_pressure dim sg nr mu l = Ok p) /\ (exists v, stresslet_stress dim sg nr dir mu l = Ok v)) /\
  (~ flow_dim dim ->
    stokeslet_apply dim sg mu l = Err ValueError /\ stokeslet_derivative ax dim sg mu l = Err ValueError /\
    stokeslet_pressure dim sg l = Err ValueError /\ stokeslet_stress dim sg dir mu l = Err ValueError /\
    stresslet_apply dim sg nr mu l = Err ValueError /\ stresslet_derivative ax dim sg nr mu l = Err ValueError /\
    stresslet_pressure dim sg nr mu l = Err ValueError).
Proof.
  split.
  - intros Hd Hs Hn Hr. assert (H0 : 0 < dim) by (destruct Hd; lia).
    assert (Hne : forall A (f : nat -> A), map f (seq 0 dim) <> []) by (intros A f; destruct Hd as [-> | ->]; discriminate).
    assert (Hnp : forall A (f : nat * nat -> A), map f (pairs dim) <> []) by (intros A f; destruct Hd as [-> | ->]; discriminate).
    destruct (proj1 (stokeslet_dict_iff dim) Hd) as (D & HD). destruct (proj1 (stresslet_dict_iff dim) Hd) as (D' & HD').
    assert (IM : forall k a, kernel_args k = ["mu"] -> int_g_vec k a l DNone DNone (mu_args mu) = Ok (PLp k [] l DNone DNone (mu_args mu) a)).
    { intros k a Ha. apply int_g_vec_total. rewrite Ha. simpl. tauto. }
    assert (IL : forall a, int_g_vec (plain (KLaplace dim)) a l DNone DNone [] = Ok (PLp (plain (KLaplace dim)) [] l DNone DNone [] a)).
    { intros a. apply int_g_vec_total. simpl. tauto. }
    assert (A1 : forall tk tds, is_take tk tds -> exists v, stokeslet_terms tk dim sg mu l = Ok v).
    { intros tk tds Ht. unfold stokeslet_terms. rewrite HD. cbn [bind]. apply mapM_total. intros c Hc. apply in_seq in Hc.
      apply acc_sum_total; auto. intros t Hi. apply in_map_iff in Hi. destruct Hi as (i & <- & Hi). apply in_seq in Hi.
      destruct (@stokeslet_lookup dim D c i HD) as (k & -> & Ha & _); [lia|lia|]. cbn [bind].
      destruct (@vget_total sg i) as (s & ->); [lia|]. cbn [bind]. rewrite IM by auto. cbn [bind]. rewrite Ht. eauto. }
    assert (A2 : forall tk tds, is_take tk tds -> exists v, stresslet_terms tk dim sg nr mu l = Ok v).
    { intros tk tds Ht. unfold stresslet_terms. rewrite HD'. cbn [bind]. apply mapM_total. intros c Hc. apply in_seq in Hc.
      apply acc_sum_total; auto. intros t Hi. apply in_map_iff in Hi. destruct Hi as ([i j] & <- & Hi). apply in_pairs in Hi. cbn [fst snd].
      destruct (@stresslet_lookup dim D' c i j HD') as (k & -> & Ha & _); [lia|lia|lia|]. cbn [bind].
      destruct (@vget_total nr i) as (d & ->); [lia|]. cbn [bind].
      destruct (@vget_total sg j) as (s & ->); [lia|]. cbn [bind]. rewrite IM by auto. cbn [bind]. rewrite Ht. eauto. }
    assert (A3 : exists p, stresslet_pressure dim sg nr mu l = Ok p).
    { unfold stresslet_pressure. rewrite HD'. cbn [bind]. apply acc_sum_total; auto. intros t Hi.
      apply in_map_iff in Hi. destruct Hi as ([i j] & <- & Hi). apply in_pairs in Hi. cbn [fst snd].
      destruct (@vget_total sg i) as (s & ->); [lia|]. cbn [bind].
      destruct (@vget_total nr j) as (d & ->); [lia|]. cbn [bind]. rewrite IL. cbn [bind dtake]. eauto. }
    split; [apply (A1 _ _ take_id)|]. split; [apply (A1 _ _ (take_d ax))|]. split.
    { unfold stokeslet_pressure. rewrite HD. cbn [bind]. apply acc_sum_total; auto. intros t Hi.
      apply in_map_iff in Hi. destruct Hi as (i & <- & Hi). apply in_seq in Hi.
      destruct (@vget_total sg i) as (s & ->); [lia|]. cbn [bind]. rewrite IL. cbn [bind dtake]. eauto. }
    split.
    { unfold stokeslet_stress. rewrite HD, HD'. cbn [bind]. apply mapM_total. intros c Hc. apply in_seq in Hc.
      apply acc_sum_total; auto. intros t Hi. apply in_map_iff in Hi. destruct Hi as ([i j] & <- & Hi). apply in_pairs in Hi. cbn [fst snd].
      destruct (@stresslet_lookup dim D' c i j HD') as (k & -> & Ha & _); [lia|lia|lia|]. cbn [bind].
      destruct (@vget_total dir i) as (d & ->); [lia|]. cbn [bind].
      destruct (@vget_total sg j) as (s & ->); [lia|]. cbn [bind]. rewrite IM by auto. cbn [bind]. eauto. }
    split; [apply (A2 _ _ take_id)|]. split; [apply (A2 _ _ (take_d ax))|]. split; [exact A3|].
    unfold stresslet_stress.
    destruct (@mapM_total _ _ (fun i => stresslet_derivative i dim sg nr mu l) (seq 0 dim)) as (gr & Hg).
    { intros i _. apply (A2 _ _ (take_d i)). }
    rewrite Hg. cbn [bind]. apply mapM_seq_nth with (z := []) in Hg. destruct Hg as [HgL Hg].
    apply mapM_total. intros c Hc. apply in_seq in Hc.
    destruct (@vget_total dir c) as (dc & ->); [lia|]. cbn [bind]. destruct A3 as (p & ->). cbn [bind].
    assert (GL : forall i, i < dim -> length (nth i gr []) = dim).
    { intros i Hi. specialize (Hg i Hi). unfold stresslet_derivative, stresslet_terms in Hg.
      rewrite HD' in Hg. cbn [bind] in Hg. apply mapM_length in Hg. rewrite seq_length in Hg. auto. }
    assert (Ec : nth_error gr c = Some (nth c gr [])) by (apply nth_error_nth'; lia). rewrite Ec.
    set (x0 := PMul (PNeg dc) p). clearbody x0. revert x0.
    assert (Hsq : forall j, In j (seq 0 dim) -> j < dim) by (intros j Hj; apply in_seq in Hj; lia). revert Hsq.
    generalize (seq 0 dim) as js. induction js as [|j js IH]; intros Hj x0; [simpl; eauto|].
    cbn [fold_left bind].
    destruct (@vget_total dir j) as (dj & ->); [rewrite Hr; apply Hj; simpl; auto|]. cbn [bind].
    assert (Hjd : j < dim) by (apply Hj; simpl; auto).
    assert (Ej : nth_error gr j = Some (nth j gr [])) by (apply nth_error_nth'; lia). rewrite Ej.
    destruct (@vget_total (nth j gr []) c) as (g1 & ->); [rewrite GL; [lia|apply Hj; simpl; auto]|]. cbn [bind].
    destruct (@vget_total (nth c gr []) j) as (g2 & ->); [rewrite GL; [apply Hj; simpl; auto|lia]|]. cbn [bind].
    apply IH. intros; apply Hj; simpl; auto.
  - intros Hd. unfold stokeslet_apply, stokeslet_derivative, stokeslet_terms, stokeslet_pressure, stokeslet_stress,
      stresslet_apply, stresslet_derivative, stresslet_terms, stresslet_pressure.
    rewrite (proj2 (stokeslet_dict_iff dim) Hd), (proj2 (stresslet_dict_iff dim) Hd). repeat split; reflexivity.
Qed.

(** *** The exterior operators *)
Lemma vzip_at f (F : W -> W -> W) : (forall L x y, ev W L L (f x y) = F (ev W L L x) (ev W L L y)) ->
  forall a b r, vzip f a b = Ok r -> length b = length a /\ length r = length a /\
    forall L c, c < length a -> at_ W L r c = F (at_ W L a c) (at_ W L b c).
Proof.
  intros HF. induction a as [|x a IH]; intros [|y b] r H; simpl in H; try discriminate.
  - injection H as <-. simpl. split; [auto|]. split; [auto|]. intros; lia.
  - apply bind_Ok in H. destruct H as (r' & Hr & H). injection H as <-. apply IH in Hr. destruct Hr as (H1 & H2 & H3).
    simpl. split; [auto|]. split; [auto|]. intros L [|c] Hc; [apply HF|]. apply (H3 L c). lia.
Qed.
Lemma map_at (f : pe -> pe) (F : W -> W) L v c : (forall x, ev W L L (f x) = F (ev W L L x)) -> c < length v ->
  at_ W L (map f v) c = F (at_ W L v c).
Proof.
  intros HF Hc. unfold at_. rewrite (nth_indep _ (pint 0) (f (pint 0))) by (rewrite map_length; auto).
  rewrite map_nth. apply HF.
Qed.

(** Jump of the double layer with directions [n]; continuity is not needed, since the single
    layer is always taken from outside. *)
Definition stresslet_jump (dim : nat) (mu : string) (L : nat) (n : nat -> W) : Prop := forall s f c, c < dim ->
  (s = 1 \/ s = -1)%Z ->
  double_flow W dim mu L [] (LSide s) f n c = radd W (double_flow W dim mu L [] LAvg f n c) (signed W s (half W (f c))).

Theorem stokes_constructor ad side :
  ((side = 1 \/ side = -1)%Z -> flow_dim ad -> make_stokes ad side = Ok (mk_st ad side)) /\
  (~ (side = 1 \/ side = -1)%Z \/ ~ flow_dim ad -> make_stokes ad side = Err ValueError).
Proof.
  unfold make_stokes. split.
  - intros Hs Hd. replace ((side =? 1)%Z || (side =? -1)%Z) with true by (destruct Hs; subst; reflexivity).
    destruct (proj1 (stresslet_dict_iff ad) Hd) as (D & ->). destruct (proj1 (stokeslet_dict_iff ad) Hd) as (D' & ->). reflexivity.
  - intros H. destruct ((side =? 1)%Z || (side =? -1)%Z) eqn:E; [|reflexivity].
    destruct H as [H|H]; [exfalso; apply H; apply orb_true_iff in E; destruct E as [E|E]; apply Z.eqb_eq in E; auto|].
    rewrite (proj2 (stresslet_dict_iff ad) H). reflexivity.
Qed.

Lemma hk_at h sg nr mu l L o : symmetric_tensors W -> st_adim (hk_base h) = 2 -> hk_inner h sg nr mu l = Ok o ->
  length o = 2 /\ length sg = 2 /\ forall c, c < 2 -> at_ W L o c =
    radd W (double_flow W 2 mu L [] l (at_ W L sg) (at_ W L nr) c)
      (rmul W (w_num W (hk_eta h)) (rsub W
         (rmul W (rmul W (w_num W (hk_alpha h)) (rinv W (rmul W (of_Z W 2) (w_num W NPi)))) (w_int W 2 1 L (at_ W L sg c)))
         (single_flow W 2 mu L [] (slp_lim l 1) (fun i => rsub W (at_ W L sg i) (mean_of W 2 1 L (at_ W L sg i))) c))).
Proof.
  intros HS Had H. unfold hk_inner in H. rewrite Had in H. cbv zeta in H.
  apply bind_Ok in H. destruct H as (k & Hk & H). apply bind_Ok in H. destruct H as (st & Hst & H).
  apply bind_Ok in H. destruct H as (os & Hos & H).
  apply stresslet_apply_formula with (L := L) in Hk; auto. destruct Hk as [Lk Hk].
  apply stokeslet_apply_formula with (L := L) in Hst; auto. destruct Hst as [Lst Hst].
  apply (@vzip_at PSub (rsub W)) in Hos; [|reflexivity]. destruct Hos as (L1 & L2 & Hos).
  apply (@vzip_at PAdd (radd W)) in H; [|reflexivity]. destruct H as (L3 & L4 & H).
  rewrite !map_length in *. split; [lia|]. split; [lia|]. intros c Hc.
  rewrite H by lia. rewrite Hk by lia. f_equal.
  rewrite (@map_at _ (fun x => rmul W (w_num W (hk_eta h)) x)) by (auto; lia). f_equal.
  rewrite Hos by lia. rewrite Hst by lia. f_equal.
  - rewrite map_map. rewrite (@map_at _ (fun x => rmul W (rmul W (w_num W (hk_alpha h)) (rinv W (rmul W (of_Z W 2) (w_num W NPi)))) (w_int W 2 1 L x))).
    + reflexivity.
    + intros x. cbn [ev prat]. rewrite num_two. reflexivity.
    + lia.
  - unfold single_flow. apply rsum_ext. intros i Hi. f_equal.
    rewrite (@map_at _ (fun x => rsub W x (mean_of W 2 1 L x))); [reflexivity|reflexivity|lia].
Qed.

(** Hsiao-Kress: the integral equation says that the velocity has the given values on the
    boundary, approached from outside. *)
Theorem hsiao_kress_equation omega alpha eta h sg nr mu b L e v r :
  make_hk omega alpha eta = Ok h -> symmetric_tensors W -> stresslet_jump 2 mu L (at_ W L nr) ->
  hk_operator h sg nr mu = Ok e -> hk_velocity h sg nr mu (LSide 1) = Ok v -> hk_prepare_rhs h b mu = Ok r ->
  length e = 2 /\ length v = 2 /\ length r = 2 /\
  forall c, c < 2 -> (at_ W L e c = at_ W L r c <-> at_ W L v c = at_ W L b c).
Proof.
  intros Hh HS HJ He Hv Hr. unfold make_hk in Hh. cbn [make_stokes Z.eqb orb negb] in Hh. simpl in Hh.
  assert (Had : st_adim (hk_base h) = 2 /\ st_side (hk_base h) = 1%Z) by (injection Hh as <-; auto). destruct Had as [Had Hsd].
  unfold hk_operator in He. apply bind_Ok in He. destruct He as (o & Ho & He).
  unfold hk_velocity in Hv. apply bind_Ok in Hv. destruct Hv as (f & Hf & Hv). apply bind_Ok in Hv. destruct Hv as (o' & Ho' & Hv).
  unfold hk_prepare_rhs in Hr. apply bind_Ok in Hr. destruct Hr as (f' & Hf' & Hr). rewrite Hf in Hf'. injection Hf' as <-.
  apply (@vzip_at PSub (rsub W)) in He; [|reflexivity]. destruct He as (A1 & A2 & He).
  apply (@vzip_at PSub (rsub W)) in Hv; [|reflexivity]. destruct Hv as (B1 & B2 & Hv).
  apply (@vzip_at PAdd (radd W)) in Hr; [|reflexivity]. destruct Hr as (C1 & C2 & Hr).
  destruct (@hk_at h sg nr mu _ L o HS Had Ho) as (D1 & D2 & D3).
  destruct (@hk_at h sg nr mu _ L o' HS Had Ho') as (E1 & _ & E3).
  rewrite !map_length in *.
  assert (Lf : length f = 2).
  { unfold hk_farfield in Hf. rewrite Had in Hf. cbv zeta in Hf.
    unfold stokeslet_apply, stokeslet_terms in Hf. apply bind_Ok in Hf. destruct Hf as (DD & _ & Hf). apply mapM_length in Hf. rewrite seq_length in Hf. auto. }
  split; [lia|]. split; [lia|]. split; [lia|]. intros c Hc.
  rewrite He, Hv, Hr by lia. rewrite D3, E3 by auto. cbn [slp_lim].
  rewrite (@map_at _ (fun x => ropp W (signed W 1 (half W x)))) by (try lia; intros x; rewrite Hsd; apply (ev_jump OK)).
  rewrite (@map_at PNeg (ropp W)) by (auto; lia).
  rewrite (HJ 1%Z) by auto.
  set (J := signed W 1 (half W (at_ W L sg c))). set (K := double_flow W 2 mu L [] LAvg _ _ c). set (S := rmul W (w_num W (hk_eta h)) _).
  set (Fc := at_ W L f c). set (B := at_ W L b c). clearbody J K S Fc B. split; intros E.
  - transitivity (rsub W (rsub W (ropp W J) (radd W K S)) Fc); [ring|]. rewrite E. ring.
  - rewrite <- E. ring.
Qed.

Theorem hebeker_equation eta h sg nr mu b L e v :
  make_heb eta = Ok h -> symmetric_tensors W -> stresslet_jump 3 mu L (at_ W L nr) -> length b = 3 ->
  heb_operator h sg nr mu = Ok e -> heb_velocity h sg nr mu (LSide 1) = Ok v ->
  length e = 3 /\ length v = 3 /\
  forall c, c < 3 -> (at_ W L e c = at_ W L b c <-> at_ W L v c = at_ W L b c) /\
    at_ W L v c = ropp W (radd W (double_flow W 3 mu L [] (LSide 1) (at_ W L sg) (at_ W L nr) c)
                         (rmul W (w_num W (hb_eta h)) (single_flow W 3 mu L [] (LSide 1) (at_ W L sg) c))).
Proof.
  intros Hh HS HJ Hb He Hv. unfold make_heb in Hh. simpl in Hh.
  assert (Had : st_adim (hb_base h) = 3 /\ st_side (hb_base h) = 1%Z) by (injection Hh as <-; auto). destruct Had as [Had Hsd].
  assert (A : forall l o, heb_inner h sg nr mu l = Ok o -> length o = 3 /\ forall c, c < 3 -> at_ W L o c =
     radd W (double_flow W 3 mu L [] l (at_ W L sg) (at_ W L nr) c)
       (rmul W (w_num W (hb_eta h)) (single_flow W 3 mu L [] (slp_lim l 1) (at_ W L sg) c))).
  { intros l o H. unfold heb_inner in H. rewrite Had, Hsd in H. cbv zeta in H.
    apply bind_Ok in H. destruct H as (k & Hk & H). apply bind_Ok in H. destruct H as (st & Hst & H).
    apply stresslet_apply_formula with (L := L) in Hk; auto. destruct Hk as [Lk Hk].
    apply stokeslet_apply_formula with (L := L) in Hst; auto. destruct Hst as [Lst Hst].
    apply (@vzip_at PAdd (radd W)) in H; [|reflexivity]. destruct H as (L3 & L4 & H). rewrite !map_length in *.
    split; [lia|]. intros c Hc. rewrite H, Hk by lia. f_equal.
    rewrite (@map_at _ (fun x => rmul W (w_num W (hb_eta h)) x)) by (auto; lia). rewrite Hst by lia. reflexivity. }
  unfold heb_operator in He. apply bind_Ok in He. destruct He as (o & Ho & He).
  unfold heb_velocity in Hv. apply bind_Ok in Hv. destruct Hv as (o' & Ho' & Hv). injection Hv as <-.
  apply (@vzip_at PSub (rsub W)) in He; [|reflexivity]. destruct He as (A1 & A2 & He).
  destruct (A _ _ Ho) as [D1 D3]. destruct (A _ _ Ho') as [E1 E3]. rewrite !map_length in *.
  split; [lia|]. split; [lia|]. intros c Hc.
  rewrite He by lia. rewrite D3 by auto. cbn [slp_lim] in *.
  rewrite (@map_at _ (fun x => ropp W (signed W 1 (half W x)))) by (try lia; intros x; rewrite Hsd; apply (ev_jump OK)).
  rewrite (@map_at PNeg (ropp W)) by (auto; lia). rewrite E3 by auto. split; [|reflexivity].
  rewrite (HJ 1%Z) by auto.
  set (J := signed W 1 (half W (at_ W L sg c))). set (K := double_flow W 3 mu L [] LAvg _ _ c). set (S := rmul W (w_num W (hb_eta h)) _).
  clearbody J K S. split; intros E; rewrite <- E; ring.
Qed.
(** The representation of Hsiao and Kress, at any targets on the source. *)
Theorem hsiao_kress_velocity omega alpha eta h sg nr mu l L v : make_hk omega alpha eta = Ok h -> symmetric_tensors W ->
  hk_velocity h sg nr mu l = Ok v ->
  hk_alpha h = (match alpha with Some a => a | None => NInt 1 end) /\ hk_eta h = (match eta with Some a => a | None => NInt 1 end) /\
  forall c, c < 2 -> at_ W L v c = rsub W
    (ropp W (single_flow W 2 mu L [] l (fun i => rmul W (ropp W (at_ W L omega i)) (rinv W (w_int W 2 1 L (of_Z W 1)))) c))
    (radd W (double_flow W 2 mu L [] l (at_ W L sg) (at_ W L nr) c)
      (rmul W (w_num W (hk_eta h)) (rsub W
         (rmul W (rmul W (w_num W (hk_alpha h)) (rinv W (rmul W (of_Z W 2) (w_num W NPi)))) (w_int W 2 1 L (at_ W L sg c)))
         (single_flow W 2 mu L [] (match l with LAvg => LSide 1 | _ => l end) (fun i => rsub W (at_ W L sg i) (mean_of W 2 1 L (at_ W L sg i))) c)))).
Proof.
  intros Hh HS Hv. unfold make_hk in Hh. cbn [make_stokes Z.eqb orb negb] in Hh. simpl in Hh.
  assert (Had : st_adim (hk_base h) = 2 /\ hk_omega h = omega) by (injection Hh as <-; auto). destruct Had as [Had Hom].
  split; [injection Hh as <-; reflexivity|]. split; [injection Hh as <-; reflexivity|]. clear Hh. intros c Hc.
  unfold hk_velocity in Hv. apply bind_Ok in Hv. destruct Hv as (f & Hf & Hv). apply bind_Ok in Hv. destruct Hv as (o' & Ho' & Hv).
  apply (@vzip_at PSub (rsub W)) in Hv; [|reflexivity]. destruct Hv as (B1 & B2 & Hv).
  destruct (@hk_at h sg nr mu _ L o' HS Had Ho') as (E1 & _ & E3). rewrite !map_length in *.
  unfold hk_farfield in Hf. rewrite Had, Hom in Hf. cbv zeta in Hf.
  assert (Lw : 2 <= length omega).
  { unfold stokeslet_apply, stokeslet_terms in Hf. apply bind_Ok in Hf. destruct Hf as (D & HD & Hf).
    apply mapM_seq_nth with (z := pint 0) in Hf. destruct Hf as [_ Hf]. specialize (Hf 0 ltac:(lia)).
    simpl in HD. injection HD as <-. destruct omega as [|w0 [|w1 om]]; try discriminate Hf. simpl. lia. }
  apply stokeslet_apply_formula with (L := L) in Hf; auto. destruct Hf as [Lf Hf].
  rewrite Hv by lia. rewrite (@map_at PNeg (ropp W)) by (auto; lia). rewrite Hf, E3 by lia. f_equal.
  f_equal. unfold single_flow. apply rsum_ext. intros i Hi. f_equal.
  rewrite (@map_at _ (fun x => rmul W (ropp W x) (rinv W (w_int W 2 1 L (of_Z W 1))))); [reflexivity| |lia].
  intros x. cbn [ev pint]. rewrite (wo_int OK). reflexivity.
Qed.

Theorem stokes_operators_total omega alpha eta eta' sg nr b mu l sg3 nr3 :
  length omega = 2 -> length sg = 2 -> length nr = 2 -> length b = 2 -> length sg3 = 3 -> length nr3 = 3 ->
  exists h h', make_hk omega alpha eta = Ok h /\ make_heb eta' = Ok h' /\
    (exists e, hk_operator h sg nr mu = Ok e) /\ (exists v, hk_velocity h sg nr mu l = Ok v) /\
    (exists r, hk_prepare_rhs h b mu = Ok r) /\
    (exists e, heb_operator h' sg3 nr3 mu = Ok e) /\ (exists v, heb_velocity h' sg3 nr3 mu l = Ok v).
Proof.
  intros Hom Hs Hn Hb Hs3 Hn3. eexists _, _. split; [reflexivity|]. split; [reflexivity|].
  destruct omega as [|w0 [|w1 [|? ?]]]; try discriminate Hom.
  destruct sg as [|s0 [|s1 [|? ?]]]; try discriminate Hs. destruct nr as [|n0 [|n1 [|? ?]]]; try discriminate Hn.
  destruct b as [|b0 [|b1 [|? ?]]]; try discriminate Hb.
  destruct sg3 as [|t0 [|t1 [|t2 [|? ?]]]]; try discriminate Hs3. destruct nr3 as [|m0 [|m1 [|m2 [|? ?]]]]; try discriminate Hn3.
  split; [eexists; reflexivity|]. split; [eexists; reflexivity|]. split; [eexists; reflexivity|]. split; [eexists; reflexivity|]. eexists; reflexivity.
Qed.
End C79.

(** *** The hypotheses are met *)
Lemma pw_symmetric vars : symmetric_tensors (pw vars).
Proof.
  split; [|split]; intros; unfold pot; cbn [pw w_lp rl_kernel rl_tds rl_lim rl_src rl_tgt]; destruct (s =? t); try reflexivity;
  unfold table; cbn [kbase kdirs plain].
  - destruct tds as [|m [|? ?]]; try reflexivity.
    + rewrite (Nat.mul_comm i j). replace (1 + i + j) with (1 + j + i) by lia. reflexivity.
    + rewrite Nat.max_comm. reflexivity.
  - destruct tds as [|n [|? ?]]; try reflexivity.
    + replace (1 + i + j + m) with (1 + j + i + m) by lia. rewrite (Nat.eqb_sym i j).
      replace ((i =? 0) && (j =? m) || (j =? 0) && (i =? m)) with ((j =? 0) && (i =? m) || (i =? 0) && (j =? m)) by apply orb_comm.
      reflexivity.
    + replace (i + j + m + n) with (j + i + m + n) by lia. reflexivity.
  - destruct tds as [|n [|? ?]]; try reflexivity.
    + replace (1 + i + j + m) with (1 + i + m + j) by lia. rewrite (Nat.eqb_sym j m).
      rewrite <- !orb_assoc. rewrite (orb_comm ((j =? 0) && (i =? m))). reflexivity.
    + replace (i + j + m + n) with (i + m + j + n) by lia. reflexivity.
Qed.
Definition sg2 : list pe := [PVar "u"; PVar "v"].
Definition nr2 : list pe := [PNormal 2 0 DNone; PNormal 2 1 DNone].
Definition sg3 : list pe := [PVar "u"; PVar "v"; PNum (NInt 2)].
Definition nr3 : list pe := [PNormal 3 0 DNone; PNormal 3 1 DNone; PNormal 3 2 DNone].
Lemma cst0_circ c f : circ c (rmul PairR (cst 0) f) = r0 PairR.
Proof. destruct f. unfold circ. simpl. unfold lift2, cst; simpl. change (Q2Qc 0) with 0%Qc. f_equal; ring. Qed.
Lemma cst1_mul f : rmul PairR (cst 1) f = f.
Proof. destruct f. simpl. unfold lift2, cst; simpl. change (Q2Qc 1) with 1%Qc. f_equal; ring. Qed.
Lemma pw_stresslet_jump vars d g (n : nat -> F2) : flow_dim d -> n 0 = cst 1 -> n 1 = cst 0 -> n 2 = cst 0 ->
  stresslet_jump (pw vars) d "mu" g n.
Proof.
  intros Hd N0 N1 N2 s f c Hc Hs. unfold double_flow. change (wR (pw vars)) with PairR in *.
  assert (R0 : forall l i, i <> 0 -> i < d -> rsum PairR d (fun j => pot (pw vars) (plain (KStresslet d c i j)) [] l g g [("mu", RUser "mu")] (rmul PairR (n i) (f j))) = r0 PairR).
  { intros l i Hi Hid. apply (rsum_zero PairR PairR_ring). intros j Hj. rewrite pw_pot.
    assert (E : n i = cst 0) by (destruct Hd as [-> | ->]; destruct i as [|[|[|?]]]; auto; lia).
    change (wR (pw vars)) with PairR in *. rewrite E. apply cst0_circ. }
  assert (S1 : forall (F : nat -> F2), (forall i, i <> 0 -> i < d -> F i = r0 PairR) -> rsum PairR d F = F 0).
  { intros F HF. destruct Hd as [-> | ->]; simpl; rewrite ?(HF 1), ?(HF 2) by lia; destruct (F 0); simpl; unfold lift2, cst; simpl;
    change (Q2Qc 0) with 0%Qc; f_equal; ring. }
  rewrite (S1 (fun i => rsum PairR d (fun j => pot (pw vars) (plain (KStresslet d c i j)) [] (LSide s) g g [("mu", RUser "mu")] (rmul PairR (n i) (f j))))) by (intros; apply R0; auto).
  rewrite (S1 (fun i => rsum PairR d (fun j => pot (pw vars) (plain (KStresslet d c i j)) [] LAvg g g [("mu", RUser "mu")] (rmul PairR (n i) (f j))))) by (intros; apply R0; auto).
  rewrite pw_jump by auto. change (wR (pw vars)) with PairR.
  assert (T : forall l, rsum PairR d (fun j => pot (pw vars) (plain (KStresslet d c 0 j)) [] l g g [("mu", RUser "mu")] (rmul PairR (n 0) (f j)))
     = rsum PairR d (fun j => circ (table (plain (KStresslet d c 0 j)) [] l true) (f j))).
  { intros l. apply rsum_ext. intros j _. rewrite pw_pot. change (wR (pw vars)) with PairR. rewrite N0, cst1_mul. reflexivity. }
  rewrite !T.
  assert (Hx : forall j, circ (table (plain (KStresslet d c 0 j)) [] (LSide s) true) (f j)
     = radd PairR (circ (table (plain (KStresslet d c 0 j)) [] LAvg true) (f j)) (if c =? j then circ (inject_Z s / 2, 0)%Q (f j) else r0 PairR)).
  { intros j. unfold table; cbn [kbase kdirs plain].
    replace ((c =? 0) && (0 =? j) || (0 =? 0) && (c =? j) || (j =? 0) && (c =? 0)) with (c =? j).
    2:{ destruct c, j; simpl; try reflexivity. symmetry. apply orb_false_r. }
    destruct (c =? j).
    - rewrite circ_add. apply circ_ext; [|reflexivity]. destruct Hs as [-> | ->]; cbn [side_of]; field.
    - rewrite (circ_zero (f j)), circ_add. apply circ_ext; [|reflexivity]. destruct Hs as [-> | ->]; cbn [side_of]; ring. }
  transitivity (rsum PairR d (fun j => radd PairR (circ (table (plain (KStresslet d c 0 j)) [] LAvg true) (f j))
     (if c =? j then circ (inject_Z s / 2, 0)%Q (f j) else r0 PairR))); [apply rsum_ext; intros; apply Hx|].
  rewrite (rsum_add PairR PairR_ring). apply (f_equal (radd PairR _)).
  apply (@rsum_delta (pw vars) (pw_ok vars) d c (fun j => circ (inject_Z s / 2, 0)%Q (f j)) Hc).
Qed.
Example ex_hsiao_kress : let W := pw vs in
  symmetric_tensors W /\ stresslet_jump W 2 "mu" 0 (at_ W 0 nr2) /\
  exists h e v r, make_hk [PNum (NInt 8); PNum (NInt 16)] None None = Ok h /\
    hk_operator h sg2 nr2 "mu" = Ok e /\ hk_velocity h sg2 nr2 "mu" (LSide 1) = Ok v /\ hk_prepare_rhs h sg2 "mu" = Ok r /\
    q2 (at_ W 0 e 0) = (-29 # 3, -17 # 3)%Q.
Proof.
  cbv zeta. split; [apply pw_symmetric|]. split; [apply pw_stresslet_jump; [left|..]; reflexivity|].
  eexists _, _, _, _. split; [reflexivity|]. split; [vm_compute; reflexivity|]. split; [vm_compute; reflexivity|]. split; [vm_compute; reflexivity|].
  vm_compute. reflexivity.
Qed.
Example ex_hebeker : let W := pw vs in
  stresslet_jump W 3 "mu" 0 (at_ W 0 nr3) /\
  exists h e v, make_heb None = Ok h /\
    heb_operator h sg3 nr3 "mu" = Ok e /\ heb_velocity h sg3 nr3 "mu" (LSide 1) = Ok v /\
    q2 (at_ W 0 e 0) = (-55 # 2, -19 # 2)%Q /\ q2 (at_ W 0 v 0) = (-55 # 2, -19 # 2)%Q.
Proof.
  cbv zeta. split; [apply pw_stresslet_jump; [right|..]; reflexivity|].
  eexists _, _, _. split; [reflexivity|]. split; [vm_compute; reflexivity|]. split; [vm_compute; reflexivity|].
  vm_compute. split; reflexivity.
Qed.
(** On the average the tensors of this world satisfy the relation of stress and velocity. *)
Example ex_stress_identity : let W := pw vs in
  stress_identity W 2 "mu" LAvg 0 /\
  (exists v w, stokeslet_stress 2 sg2 nr2 "mu" LAvg = Ok v /\ stresslet_stress 2 sg2 nr2 nr2 "mu" LAvg = Ok w /\
     q2 (at_ W 0 v 0) = (8, 0)%Q /\ q2 (at_ W 0 w 0) = (-4, 28)%Q).
Proof.
  cbv zeta. split.
  - intros c i j f Hc Hi Hj. cbv zeta. rewrite !pw_pot. change (w_var (pw vs) "mu") with (cst 1). change (wR (pw vs)) with PairR. rewrite cst1_mul.
    rewrite (circ_zero f).
    destruct c as [|[|c]]; [| |lia]; (destruct i as [|[|i]]; [| |lia]); (destruct j as [|[|j]]; [| |lia]);
    unfold table; cbn [kbase kdirs plain Nat.eqb]; rewrite ?circ_opp, !circ_add; apply circ_ext; vm_compute; reflexivity.
  - eexists _, _. split; [vm_compute; reflexivity|]. split; [vm_compute; reflexivity|]. vm_compute. split; reflexivity.
Qed.

Print Assumptions stokeslet_apply_formula.
Print Assumptions stokeslet_derivative_formula.
Print Assumptions stokeslet_pressure_formula.
Print Assumptions stresslet_apply_formula.
Print Assumptions stresslet_derivative_formula.
Print Assumptions stresslet_pressure_formula.
Print Assumptions stresslet_stress_is_traction.
Print Assumptions stokeslet_stress_formula.
Print Assumptions stokeslet_stress_is_traction.
Print Assumptions stokes_wrappers_total.
Print Assumptions stokes_constructor.
Print Assumptions hsiao_kress_equation.
Print Assumptions hebeker_equation.
Print Assumptions hsiao_kress_velocity.
Print Assumptions stokes_operators_total.
