From Verif Require Import Base DofModel SymModel SymSpec SymProofs SymProofs2 ProxyModel ProxySpec.
From Coq Require Import QArith_base Ring.
Set Implicit Arguments.

Lemma has_intg_false e : has_intg e = false <-> operator_free e.
Proof.
  induction e as [h cs IH] using sexpr_ind'. rewrite Forall_forall in IH. split.
  - intros H g cs' Ho. apply occurs_inv in Ho. destruct Ho as [E|(c & Hc & Ho)].
    + assert (X : h = HIntG g) by congruence. subst h. discriminate H.
    + assert (X : has_intg c = false).
      { destruct (has_intg c) eqn:E; [|reflexivity].
        assert (existsb has_intg cs = true) by (apply existsb_exists; eauto).
        destruct h; simpl in H; congruence. }
      apply IH in X; [|exact Hc]. exact (X _ _ Ho).
  - intros H. assert (X : existsb has_intg cs = false).
    { destruct (existsb has_intg cs) eqn:E; [|reflexivity]. apply existsb_exists in E.
      destruct E as (c & Hc & E). assert (F : has_intg c = false).
      { apply IH; [exact Hc|]. intros g cs' Ho. apply (H g cs'). eapply occurs_child; eauto. }
      congruence. }
    destruct h; simpl; try exact X. exfalso. eapply H. apply occ_here.
Qed.
Lemma has_intg_true e : has_intg e = true <-> ~ operator_free e.
Proof. rewrite <- has_intg_false. destruct (has_intg e); split; congruence. Qed.

Lemma is_number_free e : is_number e = true -> has_intg e = false.
Proof. destruct e as [h [|]]; destruct h; simpl; congruence. Qed.
Lemma is_one_free e : is_one e = true -> has_intg e = false.
Proof. destruct e as [h [|]]; destruct h; simpl; congruence. Qed.
Lemma is_zero_free e : is_zero e = true -> has_intg e = false.
Proof. destruct e as [h [|]]; destruct h; simpl; congruence. Qed.

Lemma existsb_app' {A} (f : A -> bool) a b : existsb f (a ++ b) = existsb f a || existsb f b.
Proof. apply existsb_app. Qed.

Lemma flat_sum_intg n : forall q d,
  existsb has_intg (flat_sum n q d) = existsb has_intg d || existsb has_intg q.
Proof.
  induction n as [|n IH]; intros q d; cbn [flat_sum]; [apply existsb_app|].
  destruct q as [|x q]; [cbn [existsb]; rewrite orb_false_r; reflexivity|].
  cbn [existsb]. destruct (is_zero x) eqn:Z.
  - rewrite IH, (is_zero_free _ Z). reflexivity.
  - assert (G : existsb has_intg (flat_sum n q (d ++ [x]))
                = existsb has_intg d || (has_intg x || existsb has_intg q)).
    { rewrite IH, existsb_app. cbn [existsb]. rewrite orb_false_r, orb_assoc. reflexivity. }
    destruct x as [h cs]. destruct h; try exact G.
    rewrite IH, existsb_app. cbn [has_intg]. rewrite (orb_comm (existsb has_intg q)). reflexivity.
Qed.
Lemma flattened_sum_intg l : has_intg (flattened_sum l) = existsb has_intg l.
Proof.
  unfold flattened_sum. generalize (flat_sum_intg (sizes l) l []).
  destruct (flat_sum (sizes l) l []) as [|x [|y r]]; cbn [existsb orb]; intros H;
    rewrite <- H; [reflexivity|rewrite orb_false_r; reflexivity|reflexivity].
Qed.

(** Expressions produced by the collector: sums, products, nonzero numbers, common
    subexpressions over layer potentials. *)
Fixpoint good (e : sexpr) : bool :=
  match e with
  | Node (HIntG _) _ => true
  | Node (HConst c) [] => negb (Qeq_bool c q0)
  | Node HSum cs | Node HProd cs => forallb good cs
  | Node (HCse _ _) [x] => good x
  | _ => false
  end.

Lemma flat_sum_good n : forall q d, forallb good q = true -> forallb good d = true ->
  forallb good (flat_sum n q d) = true.
Proof.
  induction n as [|n IH]; intros q d Hq Hd; cbn [flat_sum]; [rewrite forallb_app, Hd, Hq; reflexivity|].
  destruct q as [|x q]; [exact Hd|]. cbn [forallb] in Hq. apply andb_true_iff in Hq.
  destruct Hq as [Hx Hq]. destruct (is_zero x); [auto|].
  assert (G : forallb good (flat_sum n q (d ++ [x])) = true).
  { apply IH; [exact Hq|]. rewrite forallb_app. cbn [forallb]. rewrite Hd, Hx. reflexivity. }
  destruct x as [h cs]; destruct h; try exact G.
  apply IH; [|exact Hd]. rewrite forallb_app, Hq. exact Hx.
Qed.

Lemma flat_prod_good n : forall q d, forallb good q = true -> forallb good d = true ->
  exists r, flat_prod n q d = Some r /\ forallb good r = true
    /\ existsb has_intg r = existsb has_intg d || existsb has_intg q.
Proof.
  induction n as [|n IH]; intros q d Hq Hd; cbn [flat_prod].
  { eexists. split; [reflexivity|]. rewrite forallb_app, Hd, Hq. split; [reflexivity|apply existsb_app]. }
  destruct q as [|x q].
  { eexists. split; [reflexivity|]. split; [exact Hd|]. cbn [existsb]. rewrite orb_false_r. reflexivity. }
  cbn [forallb] in Hq. apply andb_true_iff in Hq. destruct Hq as [Hx Hq].
  destruct (is_zero x) eqn:Z.
  { destruct x as [h [|c cs]]; destruct h; simpl in Z; try discriminate.
    simpl in Hx. rewrite Z in Hx. discriminate. }
  destruct (is_one x) eqn:O.
  { destruct (IH q d Hq Hd) as (r & E & G & X). exists r. repeat split; auto.
    rewrite X. cbn [existsb]. rewrite (is_one_free _ O). reflexivity. }
  assert (G : exists r, flat_prod n q (d ++ [x]) = Some r /\ forallb good r = true
    /\ existsb has_intg r = existsb has_intg d || existsb has_intg (x :: q)).
  { destruct (IH q (d ++ [x]) Hq) as (r & E & G & X).
    - rewrite forallb_app. cbn [forallb]. rewrite Hd, Hx. reflexivity.
    - exists r. repeat split; auto. rewrite X, existsb_app. cbn [existsb].
      rewrite orb_false_r, orb_assoc. reflexivity. }
  destruct x as [h cs]; destruct h; try exact G.
  destruct (IH (q ++ cs) d) as (r & E & G' & X); [|exact Hd|].
  - rewrite forallb_app, Hq. exact Hx.
  - exists r. repeat split; auto. rewrite X, existsb_app. cbn [existsb has_intg].
    rewrite (orb_comm (existsb has_intg q)). reflexivity.
Qed.

Lemma flattened_product_good l : forallb good l = true -> existsb has_intg l = true ->
  good (flattened_product l) = true /\ has_intg (flattened_product l) = true.
Proof.
  intros G X. unfold flattened_product.
  destruct (flat_prod_good (sizes l) l [] G eq_refl) as (r & -> & G' & X').
  cbn [existsb orb] in X'. rewrite X in X'.
  destruct r as [|x [|y r]]; cbn [existsb] in X'; [discriminate| |].
  - rewrite orb_false_r in X'. cbn [forallb] in G'. rewrite andb_true_r in G'. auto.
  - split; [exact G'|exact X'].
Qed.

Lemma flattened_sum_good l : forallb good l = true -> existsb has_intg l = true ->
  good (flattened_sum l) = true.
Proof.
  intros G X. unfold flattened_sum. generalize (flat_sum_intg (sizes l) l []).
  generalize (flat_sum_good (sizes l) l [] G eq_refl).
  destruct (flat_sum (sizes l) l []) as [|x [|y r]]; intros G' X'.
  - cbn in X'. congruence.
  - cbn [forallb] in G'. rewrite andb_true_r in G'. exact G'.
  - exact G'.
Qed.

(** A product of numbers alone contains no layer potential. *)
Lemma flat_prod_intg n : forall q d r, flat_prod n q d = Some r ->
  existsb has_intg r = existsb has_intg d || existsb has_intg q.
Proof.
  induction n as [|n IH]; intros q d r E; cbn [flat_prod] in E.
  { assert (r = d ++ q) by congruence. subst. apply existsb_app. }
  destruct q as [|x q].
  { assert (r = d) by congruence. subst. cbn [existsb]. rewrite orb_false_r. reflexivity. }
  destruct (is_zero x) eqn:Z; [discriminate|].
  destruct (is_one x) eqn:O.
  { rewrite (IH _ _ _ E). cbn [existsb]. rewrite (is_one_free _ O). reflexivity. }
  assert (G : flat_prod n q (d ++ [x]) = Some r ->
    existsb has_intg r = existsb has_intg d || existsb has_intg (x :: q)).
  { intros E'. rewrite (IH _ _ _ E'), existsb_app. cbn [existsb].
    rewrite orb_false_r, orb_assoc. reflexivity. }
  destruct x as [h cs]; destruct h; try (apply G; exact E).
  rewrite (IH _ _ _ E), existsb_app. cbn [existsb has_intg].
  rewrite (orb_comm (existsb has_intg q)). reflexivity.
Qed.
Lemma flattened_product_free l : existsb has_intg l = false -> has_intg (flattened_product l) = false.
Proof.
  intros H. unfold flattened_product. destruct (flat_prod (sizes l) l []) as [r|] eqn:E; [|reflexivity].
  apply flat_prod_intg in E. cbn [existsb orb] in E. rewrite H in E.
  destruct r as [|x [|y r]]; [reflexivity| |exact E]. cbn [existsb] in E. rewrite orb_false_r in E. exact E.
Qed.

Lemma filter_none {A} (f : A -> bool) l : (forall x, In x l -> f x = false) -> filter f l = [].
Proof.
  induction l as [|a l IH]; simpl; intros H; [reflexivity|].
  rewrite (H a) by auto. apply IH. auto.
Qed.
Lemma existsb_false_all {A} (f : A -> bool) l : (forall x, In x l -> f x = false) -> existsb f l = false.
Proof.
  induction l as [|a l IH]; simpl; intros H; [reflexivity|].
  rewrite (H a) by auto. apply IH. auto.
Qed.

(** Expressions without layer potentials. *)
Lemma mapM_total' {A B : Type} (f : A -> result B) (P : B -> Prop) xs :
  (forall x, In x xs -> exists y, f x = Ok y /\ P y) ->
  exists ys, mapM f xs = Ok ys /\ Forall P ys.
Proof.
  induction xs as [|x xs IH]; simpl; intros H; [exists []; auto|].
  destruct (H x (or_introl eq_refl)) as (y & -> & Py).
  destruct IH as (ys & -> & Pys); [auto|]. exists (y :: ys). simpl. auto.
Qed.

Lemma collect_free e : operator_free e -> exists e', collect e = Ok e' /\ has_intg e' = false.
Proof.
  induction e as [h cs IH] using sexpr_ind'. rewrite Forall_forall in IH. intros F.
  assert (K : forall c, In c cs -> exists c', collect c = Ok c' /\ has_intg c' = false).
  { intros c Hc. apply IH; [exact Hc|]. intros g cs' Ho. apply (F g cs'). eapply occurs_child; eauto. }
  assert (Y : exists cs', mapM collect cs = Ok cs' /\ Forall (fun c' => has_intg c' = false) cs')
    by (apply mapM_total'; exact K).
  destruct Y as (cs' & E & NF). rewrite Forall_forall in NF.
  assert (D : forall h', (forall g, h' <> HIntG g) -> has_intg (Node h' cs') = false).
  { intros h' Hn. assert (X : existsb has_intg cs' = false) by (apply existsb_false_all; auto).
    destruct h'; simpl; try exact X. exfalso. eapply Hn. reflexivity. }
  destruct h; simpl collect;
    try (rewrite E; cbn [bind]; eexists; split; [reflexivity|apply D; congruence]; fail).
  - rewrite E. cbn [bind]. eexists. split; [reflexivity|].
    rewrite flattened_sum_intg. rewrite (filter_none _ _ NF). reflexivity.
  - assert (Y : exists cs2, mapM (fun c => if is_number c then Ok c else collect c) cs = Ok cs2
              /\ Forall (fun c' => has_intg c' = false) cs2).
    { apply mapM_total'. intros c Hc. destruct (is_number c) eqn:N; [|apply K; exact Hc].
      exists c. split; [reflexivity|apply is_number_free; exact N]. }
    destruct Y as (cs2 & E2 & NF2). rewrite Forall_forall in NF2. rewrite E2. cbn [bind].
    rewrite (filter_none _ _ NF2). cbn [length Nat.leb]. eexists. split; [reflexivity|].
    apply flattened_product_free. rewrite app_nil_r. apply existsb_false_all.
    intros x Hx. apply filter_In in Hx. apply is_number_free. tauto.
  - exfalso. eapply F. apply occ_here.
Qed.

(** Induction on combinations, with hypotheses for the terms of sums. *)
Fixpoint combination_ind' (P : sexpr -> list (list Q * sexpr) -> Prop)
  (f1 : forall g cs, P (Node (HIntG g) cs) [([], Node (HIntG g) cs)])
  (f2 : forall e, operator_free e -> P e [])
  (f3 : forall cs tss, Forall2 combination cs tss -> Forall2 P cs tss -> P (Node HSum cs) (concat tss))
  (f4 : forall l1 x l2 ts, combination x ts -> P x ts -> ~ operator_free x ->
     Forall operator_free (l1 ++ l2) -> Forall (fun c => ~ c == q0) (numbers (l1 ++ l2)) ->
     P (Node HProd (l1 ++ x :: l2)) (map (fun t => (numbers (l1 ++ l2) ++ fst t, snd t)) ts))
  (f5 : forall p s x ts, combination x ts -> P x ts -> ~ operator_free x -> P (Node (HCse p s) [x]) ts)
  e ts (H : combination e ts) : P e ts :=
  match H with
  | cb_intg g cs => f1 g cs
  | cb_other F => f2 _ F
  | cb_sum F => f3 _ _ F
      ((fix go cs tss (F : Forall2 combination cs tss) : Forall2 P cs tss :=
          match F with
          | Forall2_nil _ => Forall2_nil P
          | Forall2_cons _ _ h t => Forall2_cons _ _ (combination_ind' f1 f2 f3 f4 f5 h) (go _ _ t)
          end) _ _ F)
  | cb_prod l1 l2 hx nx hf hn => f4 l1 _ l2 _ hx (combination_ind' f1 f2 f3 f4 f5 hx) nx hf hn
  | cb_cse p s hx nx => f5 p s _ _ hx (combination_ind' f1 f2 f3 f4 f5 hx) nx
  end.

Lemma free_child h cs c : operator_free (Node h cs) -> In c cs -> operator_free c.
Proof. intros F Hc g cs' Ho. apply (F g cs'). eapply occurs_child; eauto. Qed.

Lemma combination_free e ts : combination e ts -> operator_free e -> ts = [].
Proof.
  intros H. induction H using combination_ind'; intros F.
  - exfalso. eapply F. apply occ_here.
  - reflexivity.
  - assert (Q : forall c, In c cs -> operator_free c) by (intros c Hc; eapply free_child; eauto).
    clear F H. induction H0 as [|c t cs' tss' A B IHB]; [reflexivity|]. cbn [concat].
    rewrite A by (apply Q; left; reflexivity). apply IHB. intros c' Hc'. apply Q. right. exact Hc'.
  - exfalso. apply H0. eapply free_child; [exact F|]. apply in_or_app. right. left. reflexivity.
  - exfalso. apply H0. eapply free_child; [exact F|]. left. reflexivity.
Qed.

Section Values.
Variable R : cring.
Variable J : head -> list (cr R) -> cr R.
Hypothesis HJ : arithmetic_interpretation R J.
Add Ring Rr : (cr_ring R).
Notation "x + y" := (cradd R x y).
Notation "x * y" := (crmul R x y).
Definition sum (l : list (cr R)) : cr R := fold_right (cradd R) (cr0 R) l.
Definition prod (l : list (cr R)) : cr R := fold_right (crmul R) (cr1 R) l.
Lemma sum_app a b : sum (a ++ b) = sum a + sum b.
Proof. induction a as [|x a IH]; simpl; [ring|]. rewrite IH. ring. Qed.
Lemma prod_app a b : prod (a ++ b) = prod a * prod b.
Proof. induction a as [|x a IH]; simpl; [ring|]. rewrite IH. ring. Qed.

Section Phi.
Variable phi : sexpr -> cr R.
Notation lv := (leaf_value R J phi).

Lemma lv_zero e : is_zero e = true -> lv e = cr0 R.
Proof.
  destruct HJ as (_ & _ & J0 & _). destruct e as [h [|]]; destruct h; simpl; try discriminate.
  intros H. apply J0. apply Qeq_bool_iff. exact H.
Qed.
Lemma lv_one e : is_one e = true -> lv e = cr1 R.
Proof.
  destruct HJ as (_ & _ & _ & J1 & _). destruct e as [h [|]]; destruct h; simpl; try discriminate.
  intros H. apply J1. apply Qeq_bool_iff. exact H.
Qed.
Lemma lv_sum cs : lv (Node HSum cs) = sum (map lv cs).
Proof. destruct HJ as (JS & _). simpl. apply JS. Qed.
Lemma lv_prod cs : lv (Node HProd cs) = prod (map lv cs).
Proof. destruct HJ as (_ & JP & _). simpl. apply JP. Qed.

Lemma flat_sum_value n : forall q d, sum (map lv (flat_sum n q d)) = sum (map lv d) + sum (map lv q).
Proof.
  induction n as [|n IH]; intros q d; cbn [flat_sum].
  { rewrite map_app, sum_app. reflexivity. }
  destruct q as [|x q]; [cbn [map sum fold_right]; ring|].
  destruct (is_zero x) eqn:Z.
  { rewrite IH. cbn [map]. change (sum (lv x :: map lv q)) with (lv x + sum (map lv q)).
    rewrite (lv_zero _ Z). ring. }
  assert (G : sum (map lv (flat_sum n q (d ++ [x]))) = sum (map lv d) + sum (map lv (x :: q))).
  { rewrite IH, map_app, sum_app. cbn [map sum fold_right]. change (fold_right (cradd R) (cr0 R)) with sum. ring. }
  destruct x as [h cs]; destruct h; try exact G.
  rewrite IH, map_app, sum_app. cbn [map]. change (sum (lv (Node HSum cs) :: map lv q)) with (lv (Node HSum cs) + sum (map lv q)).
  rewrite lv_sum. ring.
Qed.
Lemma flattened_sum_value l : lv (flattened_sum l) = sum (map lv l).
Proof.
  unfold flattened_sum. generalize (flat_sum_value (sizes l) l []).
  destruct (flat_sum (sizes l) l []) as [|x [|y r]]; intros H.
  - transitivity (sum (map lv [])); [|rewrite H; cbn [map sum fold_right]; ring]. apply lv_zero. reflexivity.
  - transitivity (sum (map lv [x])); [cbn [map sum fold_right]; ring|]. rewrite H. cbn [map sum fold_right]. ring.
  - rewrite lv_sum, H. cbn [map sum fold_right]. ring.
Qed.

Lemma flat_prod_value n : forall q d,
  match flat_prod n q d with
  | Some r => prod (map lv r) = prod (map lv d) * prod (map lv q)
  | None => prod (map lv d) * prod (map lv q) = cr0 R
  end.
Proof.
  induction n as [|n IH]; intros q d; cbn [flat_prod].
  { rewrite map_app, prod_app. reflexivity. }
  destruct q as [|x q]; [cbn [map prod fold_right]; ring|].
  assert (C : prod (map lv (x :: q)) = lv x * prod (map lv q)) by reflexivity. rewrite C.
  destruct (is_zero x) eqn:Z; [rewrite (lv_zero _ Z); ring|].
  destruct (is_one x) eqn:O.
  { rewrite (lv_one _ O). specialize (IH q d).
    assert (U : cr1 R * prod (map lv q) = prod (map lv q)) by ring. rewrite U. exact IH. }
  assert (G : match flat_prod n q (d ++ [x]) with
    | Some r => prod (map lv r) = prod (map lv d) * (lv x * prod (map lv q))
    | None => prod (map lv d) * (lv x * prod (map lv q)) = cr0 R end).
  { specialize (IH q (d ++ [x])). rewrite map_app, prod_app in IH.
    assert (E : prod (map lv d) * prod (map lv [x]) * prod (map lv q) = prod (map lv d) * (lv x * prod (map lv q)))
      by (cbn [map prod fold_right]; change (fold_right (crmul R) (cr1 R)) with prod; ring).
    rewrite E in IH. exact IH. }
  destruct x as [h cs]; destruct h; try exact G.
  specialize (IH (q ++ cs) d). rewrite map_app, prod_app in IH. rewrite lv_prod.
  assert (E : prod (map lv d) * (prod (map lv q) * prod (map lv cs)) = prod (map lv d) * (prod (map lv cs) * prod (map lv q))) by ring.
  rewrite E in IH. exact IH.
Qed.
Lemma flattened_product_value l : lv (flattened_product l) = prod (map lv l).
Proof.
  unfold flattened_product. generalize (flat_prod_value (sizes l) l []).
  destruct (flat_prod (sizes l) l []) as [[|x [|y r]]|]; intros H.
  - transitivity (prod (map lv [])); [apply lv_one; reflexivity|]. rewrite H. cbn [map prod fold_right]. ring.
  - transitivity (prod (map lv [x])); [cbn [map prod fold_right]; ring|]. rewrite H. cbn [map prod fold_right]. ring.
  - rewrite lv_prod, H. cbn [map prod fold_right]. ring.
  - transitivity (cr0 R); [apply lv_zero; reflexivity|]. rewrite <- H. cbn [map prod fold_right]. ring.
Qed.

Notation ws := (weighted_sum R J phi).
Lemma ws_app a b : ws (a ++ b) = ws a + ws b.
Proof.
  induction a as [|x a IH]; [change (ws b = cr0 R + ws b); ring|].
  change (weight R J (fst x) * phi (snd x) + ws (a ++ b)
          = weight R J (fst x) * phi (snd x) + ws a + ws b). rewrite IH. ring.
Qed.
Lemma weight_app a b : weight R J (a ++ b) = weight R J a * weight R J b.
Proof.
  induction a as [|x a IH]; [change (weight R J b = cr1 R * weight R J b); ring|].
  change (J (HConst x) [] * weight R J (a ++ b) = J (HConst x) [] * weight R J a * weight R J b).
  rewrite IH. ring.
Qed.
Lemma ws_scale ns ts : ws (map (fun t => (ns ++ fst t, snd t)) ts) = weight R J ns * ws ts.
Proof.
  induction ts as [|t ts IH]; [change (cr0 R = weight R J ns * cr0 R); ring|].
  change (weight R J (ns ++ fst t) * phi (snd t) + ws (map (fun t => (ns ++ fst t, snd t)) ts)
          = weight R J ns * (weight R J (fst t) * phi (snd t) + ws ts)).
  rewrite IH, weight_app. ring.
Qed.
Lemma numbers_value l : prod (map lv (filter is_number l)) = weight R J (numbers l).
Proof.
  induction l as [|x l IH]; [reflexivity|]. cbn [filter numbers flat_map].
  destruct x as [h [|y ys]]; destruct h; cbn [is_number app]; try exact IH.
  cbn [map]. change (lv (Node (HConst c) []) * prod (map lv (filter is_number l))
                     = J (HConst c) [] * weight R J (numbers l)). rewrite IH. reflexivity.
Qed.
End Phi.
End Values.

Lemma numbers_good l : Forall (fun c => ~ c == q0) (numbers l) -> forallb good (filter is_number l) = true.
Proof.
  induction l as [|x l IH]; [reflexivity|]. cbn [numbers flat_map].
  destruct x as [h [|y ys]]; destruct h; cbn [filter is_number app]; intros H; try (apply IH; exact H).
  inversion H as [|? ? A B]; subst. cbn [forallb good]. rewrite IH by exact B.
  rewrite andb_true_r. apply negb_true_iff. destruct (Qeq_bool c q0) eqn:E; [|reflexivity].
  apply Qeq_bool_iff in E. contradiction.
Qed.

Lemma collect_combination e ts : combination e ts ->
  exists e', collect e = Ok e' /\ has_intg e' = has_intg e
    /\ (has_intg e = true -> good e' = true
        /\ forall R J phi, arithmetic_interpretation R J ->
             leaf_value R J phi e' = weighted_sum R J phi ts).
Proof.
  intros H. induction H using combination_ind'.
  - eexists. split; [reflexivity|]. split; [reflexivity|]. intros _. split; [reflexivity|].
    intros R J phi HJ. unfold weighted_sum, weight; cbn.
    destruct (cr_ring R). rewrite Radd_comm, Radd_0_l. symmetry. apply Rmul_1_l.
  - destruct (collect_free H) as (e' & E & F). exists e'. split; [exact E|].
    apply has_intg_false in H. rewrite H, F. split; [reflexivity|discriminate].
  - cbn [collect has_intg].
    assert (X : exists cs', mapM collect cs = Ok cs'
      /\ existsb has_intg (filter has_intg cs') = existsb has_intg cs
      /\ forallb good (filter has_intg cs') = true
      /\ forall R J phi, arithmetic_interpretation R J ->
           sum R (map (leaf_value R J phi) (filter has_intg cs')) = weighted_sum R J phi (concat tss)).
    { induction H0 as [|c t cs tss (c' & E & Hi & Hv) F IH].
      - exists []. repeat split.
      - inversion H as [|? ? ? ? Hc Hcs]; subst. destruct (IH Hcs) as (cs' & Em & A & B & C).
        exists (c' :: cs'). simpl mapM. rewrite E. cbn [bind]. rewrite Em. split; [reflexivity|].
        cbn [filter existsb]. rewrite Hi. destruct (has_intg c) eqn:Hic.
        + destruct (Hv eq_refl) as [G V]. cbn [existsb forallb]. rewrite Hi, G, B, A. repeat split.
          intros R J phi HJ. cbn [concat map]. rewrite ws_app.
          rewrite <- (C R J phi HJ), <- (V R J phi HJ). reflexivity.
        + rewrite A, B. repeat split. intros R J phi HJ. rewrite (C R J phi HJ). cbn [concat].
          rewrite (combination_free Hc) by (apply has_intg_false; exact Hic). reflexivity. }
    destruct X as (cs' & E & A & B & C). rewrite E. cbn [bind]. eexists. split; [reflexivity|].
    rewrite flattened_sum_intg, A. split; [reflexivity|]. intros Hi. split.
    + apply flattened_sum_good; [exact B|]. rewrite A. exact Hi.
    + intros R J phi HJ. rewrite (flattened_sum_value HJ). apply C. exact HJ.
  - destruct IHcombination as (x' & Ex & Hix & Hv).
    apply has_intg_true in H0. rename H0 into Hx, H1 into Hfree, H2 into Hnum.
    destruct (Hv Hx) as [G V]. rewrite Hx in Hix.
    assert (Nx : is_number x = false).
    { destruct (is_number x) eqn:N; [|reflexivity]. apply is_number_free in N. congruence. }
    assert (K : forall l, Forall operator_free l ->
      exists l', mapM (fun c => if is_number c then Ok c else collect c) l = Ok l'
                 /\ Forall (fun c => has_intg c = false) l').
    { intros l Hl. rewrite Forall_forall in Hl. apply mapM_total'. intros c Hc.
      destruct (is_number c) eqn:N; [|apply collect_free; apply Hl; exact Hc].
      exists c. split; [reflexivity|apply is_number_free; exact N]. }
    apply Forall_app in Hfree. destruct Hfree as [F1 F2].
    destruct (K l1 F1) as (l1' & E1 & N1). destruct (K l2 F2) as (l2' & E2 & N2).
    rewrite Forall_forall in N1, N2.
    assert (E : mapM (fun c => if is_number c then Ok c else collect c) (l1 ++ x :: l2) = Ok (l1' ++ x' :: l2')).
    { clear - E1 E2 Ex Nx. revert l1' E1. induction l1 as [|c l1 IH]; intros l1' E1.
      - simpl in E1. assert (l1' = []) by congruence. subst. simpl. rewrite Nx, Ex. cbn [bind].
        rewrite E2. reflexivity.
      - simpl in E1. simpl. destruct (if is_number c then Ok c else collect c) as [c'|]; cbn [bind] in *; [|discriminate].
        destruct (mapM _ l1) as [r|]; cbn [bind] in *; [|discriminate].
        assert (l1' = c' :: r) by congruence. subst. rewrite (IH r eq_refl). reflexivity. }
    assert (Fo : filter has_intg (l1' ++ x' :: l2') = [x']).
    { rewrite filter_app. cbn [filter]. rewrite Hix, (filter_none _ _ N1), (filter_none _ _ N2). reflexivity. }
    assert (Fc : filter is_number (l1 ++ x :: l2) = filter is_number (l1 ++ l2)).
    { rewrite !filter_app. cbn [filter]. rewrite Nx. reflexivity. }
    cbn [collect has_intg]. rewrite E. cbn [bind]. rewrite Fo, Fc. cbn [length Nat.leb].
    eexists. split; [reflexivity|].
    assert (Hany : existsb has_intg (l1 ++ x :: l2) = true).
    { apply existsb_exists. exists x. split; [apply in_or_app; right; left; reflexivity|exact Hx]. }
    rewrite Hany.
    assert (GG : good (flattened_product (filter is_number (l1 ++ l2) ++ [x'])) = true
                 /\ has_intg (flattened_product (filter is_number (l1 ++ l2) ++ [x'])) = true).
    { apply flattened_product_good.
      - rewrite forallb_app, (numbers_good _ Hnum). cbn [forallb]. rewrite G. reflexivity.
      - rewrite existsb_app. cbn [existsb]. rewrite Hix. apply orb_true_r. }
    destruct GG as [GG HI]. rewrite HI. split; [reflexivity|]. intros _. split; [exact GG|].
    intros R J phi HJ. rewrite (flattened_product_value HJ), map_app, prod_app.
    rewrite numbers_value, ws_scale, <- (V R J phi HJ). f_equal.
    cbn [map prod fold_right]. destruct (cr_ring R). rewrite Rmul_comm. apply Rmul_1_l.
  - destruct IHcombination as (x' & Ex & Hix & Hv). apply has_intg_true in H0.
    destruct (Hv H0) as [G V]. cbn [collect mapM has_intg existsb]. rewrite Ex. cbn [bind].
    eexists. split; [reflexivity|]. cbn [has_intg existsb]. rewrite Hix, H0. split; [reflexivity|].
    intros _. split; [exact G|]. intros R J phi HJ. cbn [leaf_value map].
    rewrite <- (V R J phi HJ). destruct HJ as (_ & _ & _ & _ & JC). apply JC.
Qed.
