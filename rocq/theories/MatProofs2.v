(** Proofs about the matrix builder: superposition of the inputs. *)
From Coq Require Import Ring.
From Verif Require Import Base SymProofs SymProofs2 MatModel MatSpec MatProofs.
Set Implicit Arguments.
Open Scope nat_scope.

(** All inputs but the one at position [j] replaced by zero. *)
Definition only (R : rops) (j : nat) (ins : list (string * (nat * (nat -> R)))) : list (string * (nat * (nat -> R))) :=
  map (fun p => let '(k, (y, (n, f))) := p in (y, (n, if k =? j then f else fun _ => r0 R)))
      (combine (seq 0 (length ins)) ins).

Section Sup.
Variable R : rops.
Variable Rth : ring_theory (r0 R) (r1 R) (radd R) (rmul R) (rsub R) (ropp R) eq.
Add Ring Rr2 : Rth.
Notation "0r" := (r0 R). Notation "1r" := (r1 R).
Infix "+r" := (radd R) (at level 50, left associativity).
Infix "*r" := (rmul R) (at level 40, left associativity).
Notation rsum := (rsum R).
Variable fl : flavor.
Variable inputs : list string.
Variable ctx : string -> option (cval R).

(** Evaluation only depends on the names that occur. *)
Section Ext.
Variables env env' : string -> option (rval R).
Hypothesis Hext : forall y, ~ In y inputs -> env y = env' y.

Lemma fold_ref_ext op es : forall acc, Forall (fun e => ref fl env e = ref fl env' e) es ->
  fold_ref (ref fl env) op es acc = fold_ref (ref fl env') op es acc.
Proof.
  induction es as [|e es IH]; simpl; intros acc HF; [reflexivity|]. inversion HF as [|? ? H1 H2]; subst. rewrite H1.
  destruct (ref fl env' e) as [v|]; simpl; [|reflexivity]. destruct (rbin op acc v); simpl; auto.
Qed.

Lemma intg_ref_ext nt ns w ds : forall ks acc, Forall (fun e => ref fl env e = ref fl env' e) ds ->
  intg_ref (ref fl env) fl nt ns w ks ds acc = intg_ref (ref fl env') fl nt ns w ks ds acc.
Proof.
  induction ds as [|e es IH]; simpl; intros [|k ks] acc HF; try reflexivity. inversion HF as [|? ? H1 H2]; subst. rewrite H1.
  destruct (ref fl env' e) as [[c|n f]|]; simpl; try reflexivity. destruct (n =? ns); auto.
Qed.

Lemma forallb_Forall_imp (p : bexpr R -> bool) (Q : bexpr R -> Prop) es :
  forallb p es = true -> Forall (fun e => p e = true -> Q e) es -> Forall Q es.
Proof.
  induction es as [|e es IH]; simpl; intros Hb HF; [constructor|]. apply andb_true_iff in Hb. inversion HF; subst. constructor; tauto.
Qed.

Lemma ref_noinput e : noinput inputs e = true -> ref fl env e = ref fl env' e.
Proof.
  induction e as [c|y|es IH|es IH|a b IHa IHb|a k IHa|f a IHa|n f|n D a IHa|q n m M a IHa|l nt ns w ks ds IH] using bexpr_ind'; intros Hn; cbn [ref noinput] in *; try reflexivity.
  - apply negb_true_iff in Hn. apply inb_false in Hn. rewrite Hext; auto.
  - apply fold_ref_ext. eapply forallb_Forall_imp; eauto.
  - apply fold_ref_ext. eapply forallb_Forall_imp; eauto.
  - apply andb_true_iff in Hn. destruct Hn. rewrite IHa, IHb; auto.
  - rewrite IHa; auto.
  - rewrite IHa; auto.
  - rewrite IHa; auto.
  - rewrite IHa; auto.
  - apply intg_ref_ext. eapply forallb_Forall_imp; eauto.
Qed.
End Ext.

Lemma scalar_noinput e : scalar_expr inputs ctx e = true -> noinput inputs e = true.
Proof.
  induction e as [c|y|es IH|es IH|a b IHa IHb|a k IHa|f a IHa|n f|n D a IHa|q n m M a IHa|l nt ns w ks ds IH] using bexpr_ind'; intros Hn; cbn [scalar_expr noinput] in *; try reflexivity; try discriminate; auto.
  - apply andb_true_iff in Hn. tauto.
  - apply forallb_forall. intros e He. rewrite Forall_forall in IH. rewrite forallb_forall in Hn. auto.
  - apply forallb_forall. intros e He. rewrite Forall_forall in IH. rewrite forallb_forall in Hn. auto.
  - apply andb_true_iff in Hn. apply andb_true_iff. tauto.
Qed.

Variable N : nat.
Variable env : string -> option (rval R).
Variable envs : nat -> string -> option (rval R).
Hypothesis Hext : forall j, j < N -> forall y, ~ In y inputs -> envs j y = env y.

(** [r] is the sum of the nodal functions [rs 0], ..., [rs (N-1)]. *)
Definition sup (r : rval R) (rs : nat -> rval R) : Prop :=
  (r = RNum 0r /\ forall j, j < N -> rs j = RNum 0r) \/
  (exists n g gs, r = RVec n g /\ (forall j, j < N -> rs j = RVec n (gs j)) /\
                  forall i, i < n -> g i = rsum N (fun j => gs j i)).

Hypothesis Hsup : forall y v, In y inputs -> env y = Some v ->
  exists rs, (forall j, j < N -> envs j y = Some (rs j)) /\ sup v rs.

Lemma rsum_hom (h : R -> R) n (f : nat -> R) : h 0r = 0r -> (forall a b, h (a +r b) = h a +r h b) ->
  h (rsum n f) = rsum n (fun j => h (f j)).
Proof. intros H0 H1. induction n as [|n IH]; simpl; [exact H0|]. rewrite H1, IH. reflexivity. Qed.

Lemma sup_bin_r op r rs c r' : (forall d, op 0r d = 0r) -> (forall a b d, op (a +r b) d = op a d +r op b d) ->
  sup r rs -> rbin op r c = Ok r' ->
  exists rs', (forall j, j < N -> rbin op (rs j) c = Ok (rs' j)) /\ sup r' rs'.
Proof.
  intros H0 H1 [[-> Hz] | (n & g & gs & -> & Hgs & Hg)] Hr.
  - destruct c as [d|m h]; simpl in Hr; injection Hr as <-.
    + exists (fun _ => RNum (op 0r d)). split; [intros j Hj; rewrite Hz by auto; reflexivity|]. left. rewrite H0. auto.
    + exists (fun _ => RVec m (fun i => op 0r (h i))). split; [intros j Hj; rewrite Hz by auto; reflexivity|].
      right. do 2 eexists. exists (fun _ i => op 0r (h i)). split; [reflexivity|]. split; [auto|]. intros i Hi. simpl.
      rewrite H0. symmetry. apply rsum_zero; auto.
  - destruct c as [d|m h]; simpl in Hr.
    + injection Hr as <-. exists (fun j => RVec n (fun i => op (gs j i) d)). split; [intros j Hj; rewrite Hgs by auto; reflexivity|].
      right. do 2 eexists. exists (fun j i => op (gs j i) d). split; [reflexivity|]. split; [auto|]. intros i Hi. simpl.
      rewrite Hg by auto. apply (@rsum_hom (fun a => op a d)); auto.
    + destruct (Nat.eqb_spec n m) as [<-|]; [|discriminate]. injection Hr as <-.
      exists (fun j => RVec n (fun i => op (gs j i) (h i))). split; [intros j Hj; rewrite Hgs by auto; simpl; rewrite Nat.eqb_refl; reflexivity|].
      right. do 2 eexists. exists (fun j i => op (gs j i) (h i)). split; [reflexivity|]. split; [auto|]. intros i Hi. simpl.
      rewrite Hg by auto. apply (@rsum_hom (fun a => op a (h i))); auto.
Qed.

Lemma sup_bin_l op r rs c r' : (forall d, op d 0r = 0r) -> (forall a b d, op d (a +r b) = op d a +r op d b) ->
  sup r rs -> rbin op c r = Ok r' ->
  exists rs', (forall j, j < N -> rbin op c (rs j) = Ok (rs' j)) /\ sup r' rs'.
Proof.
  intros H0 H1 [[-> Hz] | (n & g & gs & -> & Hgs & Hg)] Hr.
  - destruct c as [d|m h]; simpl in Hr; injection Hr as <-.
    + exists (fun _ => RNum (op d 0r)). split; [intros j Hj; rewrite Hz by auto; reflexivity|]. left. rewrite H0. auto.
    + exists (fun _ => RVec m (fun i => op (h i) 0r)). split; [intros j Hj; rewrite Hz by auto; reflexivity|].
      right. do 2 eexists. exists (fun _ i => op (h i) 0r). split; [reflexivity|]. split; [auto|]. intros i Hi. simpl.
      rewrite H0. symmetry. apply rsum_zero; auto.
  - destruct c as [d|m h]; simpl in Hr.
    + injection Hr as <-. exists (fun j => RVec n (fun i => op d (gs j i))). split; [intros j Hj; rewrite Hgs by auto; reflexivity|].
      right. do 2 eexists. exists (fun j i => op d (gs j i)). split; [reflexivity|]. split; [auto|]. intros i Hi. simpl.
      rewrite Hg by auto. apply (@rsum_hom (fun a => op d a)); auto.
    + destruct (Nat.eqb_spec m n) as [->|]; [|discriminate]. injection Hr as <-.
      exists (fun j => RVec n (fun i => op (h i) (gs j i))). split; [intros j Hj; rewrite Hgs by auto; simpl; rewrite Nat.eqb_refl; reflexivity|].
      right. do 2 eexists. exists (fun j i => op (h i) (gs j i)). split; [reflexivity|]. split; [auto|]. intros i Hi. simpl.
      rewrite Hg by auto. apply (@rsum_hom (fun a => op (h i) a)); auto.
Qed.

Lemma sup_add r rs r2 rs2 r' : sup r rs -> sup r2 rs2 -> rbin (radd R) r r2 = Ok r' ->
  exists rs', (forall j, j < N -> rbin (radd R) (rs j) (rs2 j) = Ok (rs' j)) /\ sup r' rs'.
Proof.
  intros [[-> Hz] | (n & g & gs & -> & Hgs & Hg)] [[-> Hz2] | (n2 & g2 & gs2 & -> & Hgs2 & Hg2)] Hr; simpl in Hr.
  - injection Hr as <-. exists (fun _ => RNum (0r +r 0r)). split; [intros j Hj; rewrite Hz, Hz2 by auto; reflexivity|].
    left. split; [f_equal; ring | intros; f_equal; ring].
  - injection Hr as <-. exists (fun j => RVec n2 (fun i => 0r +r gs2 j i)). split; [intros j Hj; rewrite Hz, Hgs2 by auto; reflexivity|].
    right. do 2 eexists. exists (fun j i => 0r +r gs2 j i). split; [reflexivity|]. split; [auto|]. intros i Hi. simpl. rewrite Hg2 by auto.
    transitivity (rsum N (fun j => gs2 j i)); [ring|]. apply rsum_ext. intros; ring.
  - injection Hr as <-. exists (fun j => RVec n (fun i => gs j i +r 0r)). split; [intros j Hj; rewrite Hz2, Hgs by auto; reflexivity|].
    right. do 2 eexists. exists (fun j i => gs j i +r 0r). split; [reflexivity|]. split; [auto|]. intros i Hi. simpl. rewrite Hg by auto.
    transitivity (rsum N (fun j => gs j i)); [ring|]. apply rsum_ext. intros; ring.
  - destruct (Nat.eqb_spec n n2) as [<-|]; [|discriminate]. injection Hr as <-.
    exists (fun j => RVec n (fun i => gs j i +r gs2 j i)). split; [intros j Hj; rewrite Hgs, Hgs2 by auto; simpl; rewrite Nat.eqb_refl; reflexivity|].
    right. do 2 eexists. exists (fun j i => gs j i +r gs2 j i). split; [reflexivity|]. split; [auto|]. intros i Hi. simpl. rewrite Hg, Hg2 by auto.
    symmetry. apply rsum_add. exact Rth.
Qed.

Definition additive e := forall r, ref fl env e = Ok r ->
  exists rs, (forall j, j < N -> ref fl (envs j) e = Ok (rs j)) /\ sup r rs.

Lemma sum_additive es : Forall additive es -> forall acc accs r, sup acc accs -> fold_ref (ref fl env) (radd R) es acc = Ok r ->
  exists rs, (forall j, j < N -> fold_ref (ref fl (envs j)) (radd R) es (accs j) = Ok (rs j)) /\ sup r rs.
Proof.
  induction es as [|e es IH]; simpl; intros HF acc accs r Ha Hr.
  - injection Hr as <-. exists accs. auto.
  - inversion HF as [|? ? H1 H2]; subst. apply bind_Ok in Hr. destruct Hr as [u [Hu Hr]]. apply bind_Ok in Hr. destruct Hr as [acc' [Ha' Hr]].
    destruct (H1 _ Hu) as (rs & Hrs & Hs). destruct (sup_add Ha Hs Ha') as (accs' & Haccs & Hs').
    destruct (IH H2 _ _ _ Hs' Hr) as (rs' & Hrs' & Hs''). exists rs'. split; [|exact Hs'']. intros j Hj.
    rewrite Hrs by auto. simpl. rewrite Haccs by auto. simpl. auto.
Qed.

Lemma prod_additive_done es : forallb (noinput inputs) es = true -> forall acc accs r, sup acc accs -> fold_ref (ref fl env) (rmul R) es acc = Ok r ->
  exists rs, (forall j, j < N -> fold_ref (ref fl (envs j)) (rmul R) es (accs j) = Ok (rs j)) /\ sup r rs.
Proof.
  induction es as [|e es IH]; simpl; intros Hb acc accs r Ha Hr.
  - injection Hr as <-. exists accs. auto.
  - apply andb_true_iff in Hb. destruct Hb as [H1 H2]. apply bind_Ok in Hr. destruct Hr as [u [Hu Hr]]. apply bind_Ok in Hr. destruct Hr as [acc' [Ha' Hr]].
    destruct (@sup_bin_r (rmul R) _ _ _ _ ltac:(intros; ring) ltac:(intros; ring) Ha Ha') as (accs' & Haccs & Hs').
    destruct (IH H2 _ _ _ Hs' Hr) as (rs' & Hrs' & Hs''). exists rs'. split; [|exact Hs'']. intros j Hj.
    rewrite (@ref_noinput (envs j) env (Hext Hj) e H1). rewrite Hu. simpl. rewrite Haccs by auto. simpl. auto.
Qed.

Lemma prod_additive es : Forall (fun e => linear inputs ctx e = true -> additive e) es ->
  forallb (fun e => noinput inputs e || linear inputs ctx e) es = true ->
  length (filter (fun e => negb (noinput inputs e)) es) = 1 ->
  forall acc r, fold_ref (ref fl env) (rmul R) es acc = Ok r ->
  exists rs, (forall j, j < N -> fold_ref (ref fl (envs j)) (rmul R) es acc = Ok (rs j)) /\ sup r rs.
Proof.
  induction es as [|e es IH]; intros HF Hb Hl acc r Hr; [discriminate|].
  inversion HF as [|? ? H1 H2]; subst. cbn [forallb] in Hb. apply andb_true_iff in Hb. destruct Hb as [Hb1 Hb2].
  cbn [fold_ref] in Hr. apply bind_Ok in Hr. destruct Hr as [u [Hu Hr]]. apply bind_Ok in Hr. destruct Hr as [acc' [Ha' Hr]].
  cbn [filter] in Hl. destruct (noinput inputs e) eqn:En.
  - simpl in Hl. destruct (IH H2 Hb2 Hl _ _ Hr) as (rs & Hrs & Hs). exists rs. split; [|exact Hs]. intros j Hj.
    cbn [fold_ref]. rewrite (@ref_noinput (envs j) env (Hext Hj) e En). rewrite Hu. simpl. rewrite Ha'. simpl. auto.
  - simpl in Hl. injection Hl as Hl. simpl in Hb1. destruct (H1 Hb1 _ Hu) as (rs & Hrs & Hs).
    destruct (@sup_bin_l (rmul R) _ _ _ _ ltac:(intros; ring) ltac:(intros; ring) Hs Ha') as (accs' & Haccs & Hs').
    assert (Hn : forallb (noinput inputs) es = true).
    { clear -Hl. induction es as [|e es IH]; [reflexivity|]. simpl in *. destruct (noinput inputs e); simpl in *; [auto|discriminate]. }
    destruct (prod_additive_done es Hn Hs' Hr) as (rs' & Hrs' & Hs''). exists rs'. split; [|exact Hs'']. intros j Hj.
    cbn [fold_ref]. rewrite Hrs by auto. simpl. rewrite Haccs by auto. simpl. auto.
Qed.

Lemma sup_apply n m (A : nat -> nat -> R) g (gs : nat -> nat -> R) : (forall i, i < m -> g i = rsum N (fun j => gs j i)) ->
  forall i, i < n -> rsum m (fun l => A i l *r g l) = rsum N (fun j => rsum m (fun l => A i l *r gs j l)).
Proof.
  intros Hg i Hi. rewrite (rsum_swap _ Rth). apply rsum_ext. intros l Hl. rewrite Hg by auto. symmetry. apply rsum_mul_l. exact Rth.
Qed.

Lemma intg_additive nt ns w ds : Forall additive ds -> forall ks acc accs r,
  (forall t, t < nt -> acc t = rsum N (fun j => accs j t)) ->
  intg_ref (ref fl env) fl nt ns w ks ds acc = Ok r ->
  exists rs, (forall j, j < N -> intg_ref (ref fl (envs j)) fl nt ns w ks ds (accs j) = Ok (rs j)) /\ sup r rs.
Proof.
  induction ds as [|d ds IH]; intros HF [|k ks] acc accs r Ha Hr; simpl in Hr; try discriminate.
  - injection Hr as <-. exists (fun j => RVec nt (accs j)). split; [reflexivity|]. right. exists nt, acc, accs. auto.
  - inversion HF as [|? ? H1 H2]; subst. apply bind_Ok in Hr. destruct Hr as [u [Hu Hr]]. destruct u as [c|n g]; [discriminate|].
    destruct (Nat.eqb_spec n ns) as [->|]; [|discriminate].
    destruct (H1 _ Hu) as (rs & Hrs & Hs). destruct Hs as [[Hs _] | (n & g' & gs & Hs & Hgs & Hg)]; [discriminate|]. injection Hs as <- <-.
    destruct (IH H2 ks (fun t => acc t +r lp_apply fl ns w k g t) (fun j t => accs j t +r lp_apply fl ns w k (gs j) t) r) as (rs' & Hrs' & Hs').
    + intros t Ht. rewrite rsum_add by exact Rth. rewrite Ha by auto. f_equal. rewrite (lp_apply_entry Rth).
      transitivity (rsum N (fun j => rsum ns (fun s => lp_entry fl w k t s *r gs j s))).
      * apply (@sup_apply nt ns (fun t s => lp_entry fl w k t s) g gs Hg t Ht).
      * apply rsum_ext. intros j Hj. rewrite (lp_apply_entry Rth). reflexivity.
    + exact Hr.
    + exists rs'. split; [|exact Hs']. intros j Hj. cbn [intg_ref]. rewrite Hrs, Hgs by auto. simpl. rewrite Nat.eqb_refl. auto.
Qed.

Theorem linear_additive e : linear inputs ctx e = true -> additive e.
Proof.
  induction e as [c|y|es IH|es IH|a b IHa IHb|a k IHa|f a IHa|n f|n D a IHa|q n m M a IHa|l nt ns w ks ds IH] using bexpr_ind'; intros Hl r Hr; cbn [linear ref] in *; try discriminate.
  - apply inb_In in Hl. destruct (env y) as [v|] eqn:Ey; [|discriminate]. injection Hr as <-.
    destruct (Hsup Hl Ey) as (rs & Hrs & Hs). exists rs. split; [|exact Hs]. intros j Hj. rewrite Hrs by auto. reflexivity.
  - destruct (@sum_additive es) with (acc := RNum 0r) (accs := fun _ : nat => RNum 0r) (r := r) as (rs & Hrs & Hs).
    + eapply forallb_Forall_imp; eauto.
    + left. auto.
    + exact Hr.
    + exists rs. auto.
  - apply andb_true_iff in Hl. destruct Hl as [H1 H2]. apply Nat.eqb_eq in H2. apply (@prod_additive es IH H1 H2 _ _ Hr).
  - apply andb_true_iff in Hl. destruct Hl as [H1 H2]. apply bind_Ok in Hr. destruct Hr as [u [Hu Hr]]. apply bind_Ok in Hr. destruct Hr as [v [Hv Hr]].
    destruct (IHa H1 _ Hu) as (rs & Hrs & Hs).
    destruct (@sup_bin_r (@rdiv R) _ _ _ _ ltac:(unfold rdiv; intros; ring) ltac:(unfold rdiv; intros; ring) Hs Hr) as (rs' & Hrs' & Hs').
    exists rs'. split; [|exact Hs']. intros j Hj. rewrite Hrs by auto. simpl.
    rewrite (@ref_noinput (envs j) env (Hext Hj) b (@scalar_noinput b H2)). rewrite Hv. simpl. auto.
  - apply bind_Ok in Hr. destruct Hr as [u [Hu Hr]]. destruct u as [c|k g]; [discriminate|]. destruct (Nat.eqb_spec k n) as [->|]; [|discriminate]. injection Hr as <-.
    destruct (IHa Hl _ Hu) as (rs & Hrs & Hs). destruct Hs as [[Hs _] | (n' & g' & gs & Hs & Hgs & Hg)]; [discriminate|]. injection Hs as <- <-.
    exists (fun j => RVec n (fun i => rsum n (fun l => D i l *r gs j l))). split.
    + intros j Hj. rewrite Hrs, Hgs by auto. simpl. rewrite Nat.eqb_refl. reflexivity.
    + right. do 3 eexists. split; [reflexivity|]. split; [reflexivity|]. intros i Hi. apply (@sup_apply n n D g gs Hg i Hi).
  - apply bind_Ok in Hr. destruct Hr as [u [Hu Hr]]. destruct (IHa Hl _ Hu) as (rs & Hrs & Hs). destruct Hs as [[-> Hz] | (n' & g' & gs & -> & Hgs & Hg)].
    + injection Hr as <-. exists (fun _ => RNum 0r). split; [|left; auto]. intros j Hj. rewrite Hrs, Hz by auto. reflexivity.
    + destruct (Nat.eqb_spec n' m) as [->|]; [|discriminate]. injection Hr as <-.
      exists (fun j => RVec n (fun i => rsum m (fun l => M i l *r gs j l))). split.
      * intros j Hj. rewrite Hrs, Hgs by auto. simpl. rewrite Nat.eqb_refl. reflexivity.
      * right. do 3 eexists. split; [reflexivity|]. split; [reflexivity|]. intros i Hi. apply (@sup_apply n m M g' gs Hg i Hi).
  - destruct (@intg_additive nt ns w ds) with (ks := ks) (acc := fun _ : nat => 0r) (accs := fun (_ : nat) (_ : nat) => 0r) (r := r) as (rs & Hrs & Hs).
    + eapply forallb_Forall_imp; eauto.
    + intros t Ht. symmetry. apply rsum_zero; auto.
    + exact Hr.
    + exists rs. auto.
Qed.
End Sup.
