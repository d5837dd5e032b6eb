(** Proofs about the matrix builder: each column. *)
From Coq Require Import Ring.
From Verif Require Import Base SymProofs SymProofs2 MatModel MatSpec.
Set Implicit Arguments.
Open Scope nat_scope.

Section BexprInd.
Variable R : rops.
Variable P : bexpr R -> Prop.
Hypothesis HNum : forall c, P (ENum c).
Hypothesis HVar : forall x, P (EVar x).
Hypothesis HSum : forall es, Forall P es -> P (ESum es).
Hypothesis HProd : forall es, Forall P es -> P (EProd es).
Hypothesis HQuot : forall a b, P a -> P b -> P (EQuot a b).
Hypothesis HPow : forall a k, P a -> P (EPow a k).
Hypothesis HCall : forall f a, P a -> P (ECall f a).
Hypothesis HNodes : forall n f, P (ENodes _ n f).
Hypothesis HRef : forall n D a, P a -> P (ERefDeriv n D a).
Hypothesis HInterp : forall q n m M a, P a -> P (EInterp q n m M a).
Hypothesis HIntG : forall l nt ns w ks ds, Forall P ds -> P (EIntG l nt ns w ks ds).
Fixpoint bexpr_ind' (e : bexpr R) : P e :=
  let go := fix go (es : list (bexpr R)) : Forall P es :=
              match es with [] => Forall_nil _ | e :: es' => Forall_cons _ (bexpr_ind' e) (go es') end in
  match e with
  | ENum c => HNum c | EVar x => HVar x
  | ESum es => HSum (go es) | EProd es => HProd (go es)
  | EQuot a b => HQuot (bexpr_ind' a) (bexpr_ind' b)
  | EPow a k => HPow k (bexpr_ind' a) | ECall f a => HCall f (bexpr_ind' a)
  | ENodes _ n f => HNodes n f | ERefDeriv n D a => HRef n D (bexpr_ind' a)
  | EInterp q n m M a => HInterp q n m M (bexpr_ind' a)
  | EIntG l nt ns w ks ds => HIntG l nt ns w ks (go ds)
  end.
End BexprInd.

Lemma bdim_same n : bdim n n = Ok n.
Proof. unfold bdim. rewrite Nat.eqb_refl. reflexivity. Qed.
Lemma bi_lt n i : i < n -> bi n i = i.
Proof. intros H. unfold bi. destruct (Nat.eqb_spec n 1); lia. Qed.
Lemma bdim_1 n : bdim n 1 = Ok n.
Proof. unfold bdim. destruct (Nat.eqb_spec n 1); [subst; reflexivity |]. destruct (n =? 1) eqn:E; [|reflexivity]. apply Nat.eqb_eq in E. contradiction. Qed.

Section Col.
Variable R : rops.
Variable Rth : ring_theory (r0 R) (r1 R) (radd R) (rmul R) (rsub R) (ropp R) eq.
Variable Req : forall a b : R, reqb R a b = true <-> a = b.
Add Ring Rr : Rth.

Notation "0r" := (r0 R). Notation "1r" := (r1 R).
Infix "+r" := (radd R) (at level 50, left associativity).
Infix "*r" := (rmul R) (at level 40, left associativity).
Notation rsum := (rsum R).

Lemma rsum_ext n (f g : nat -> R) : (forall i, i < n -> f i = g i) -> rsum n f = rsum n g.
Proof. induction n as [|n IH]; intros H; [reflexivity|]. simpl. rewrite IH, H; auto. Qed.
Lemma rsum_zero n (f : nat -> R) : (forall i, i < n -> f i = 0r) -> rsum n f = 0r.
Proof. induction n as [|n IH]; intros H; [reflexivity|]. simpl. rewrite IH, H by auto. ring. Qed.
Lemma rsum_add n (f g : nat -> R) : rsum n (fun i => f i +r g i) = rsum n f +r rsum n g.
Proof. induction n as [|n IH]; simpl; [ring|]. rewrite IH. ring. Qed.
Lemma rsum_mul_l n c (f : nat -> R) : rsum n (fun i => c *r f i) = c *r rsum n f.
Proof. induction n as [|n IH]; simpl; [ring|]. rewrite IH. ring. Qed.
Lemma rsum_mul_r n c (f : nat -> R) : rsum n (fun i => f i *r c) = rsum n f *r c.
Proof. induction n as [|n IH]; simpl; [ring|]. rewrite IH. ring. Qed.
Lemma rsum_swap n m (f : nat -> nat -> R) : rsum n (fun i => rsum m (f i)) = rsum m (fun j => rsum n (fun i => f i j)).
Proof.
  induction n as [|n IH]; simpl.
  - symmetry. apply rsum_zero. auto.
  - rewrite IH, rsum_add. reflexivity.
Qed.
Lemma rsum_eye n i (x : nat -> R) : i < n -> rsum n (fun j => (if i =? j then 1r else 0r) *r x j) = x i.
Proof.
  induction n as [|n IH]; intros H; [lia|]. simpl.
  destruct (Nat.eq_dec i n) as [->|Hn].
  - rewrite Nat.eqb_refl. rewrite rsum_zero; [ring|]. intros j Hj. destruct (Nat.eqb_spec n j); [lia|ring].
  - rewrite IH by lia. destruct (Nat.eqb_spec i n); [lia|]. ring.
Qed.
(** (A B) x = A (B x) *)
Lemma rsum_assoc n m (a : nat -> R) (b : nat -> nat -> R) (x : nat -> R) :
  rsum n (fun l => a l *r rsum m (fun j => b l j *r x j))
  = rsum m (fun j => rsum n (fun l => a l *r b l j) *r x j).
Proof.
  transitivity (rsum n (fun l => rsum m (fun j => a l *r b l j *r x j))).
  - apply rsum_ext. intros l _. rewrite <- rsum_mul_l. apply rsum_ext. intros j _. ring.
  - rewrite rsum_swap. apply rsum_ext. intros j _. rewrite <- rsum_mul_r. reflexivity.
Qed.

Lemma is_zero_inv (v : mval R) : is_zero v = true -> v = MNum 0r.
Proof. destruct v; simpl; try discriminate. intros H. apply Req in H. subst. reflexivity. Qed.

Lemma lp_apply_entry fl ns waa k (d : nat -> R) t :
  lp_apply fl ns waa k d t = rsum ns (fun s => lp_entry fl waa k t s *r d s).
Proof.
  destruct fl as [[|]|w ex]; simpl; apply rsum_ext; intros s _; try ring.
  destruct (ex && (t =? s)); destruct w; ring.
Qed.

Variable fl : flavor.
Variable dep : string.
Variable sz : nat.
Variable others : list string.
Variable ctx : string -> option (cval R).
Variable inputs : list string.
Variable x : nat -> R.
Variable env : string -> option (rval R).
Hypothesis Hin : forall y, In y inputs <-> y = dep \/ In y others.
Hypothesis Henv : forall y v, env y = Some v ->
  (y = dep /\ v = RVec sz x) \/
  (y <> dep /\ In y others /\ exists n f, v = RVec n f /\ forall i, i < n -> f i = 0r) \/
  (y <> dep /\ ~ In y others /\ exists c, ctx y = Some c /\ v = cval_val c).

(** A builder value stands for a value of the expression. *)
Definition rep (V : mval R) (r : rval R) : Prop :=
  match V with
  | MNum c => r = RNum c \/ exists n g, r = RVec n g /\ forall i, i < n -> g i = c
  | MVec n f => exists g, r = RVec n g /\ forall i, i < n -> g i = f i
  | MMat n m f => m = sz /\ exists g, r = RVec n g /\ forall i, i < n -> g i = rsum sz (fun j => f i j *r x j)
  | MDof => False
  end.

Lemma rbin_Ok op (a b r : rval R) : rbin op a b = Ok r ->
  (exists c d, a = RNum c /\ b = RNum d /\ r = RNum (op c d)) \/
  (exists c n g, a = RNum c /\ b = RVec n g /\ r = RVec n (fun i => op c (g i))) \/
  (exists n f d, a = RVec n f /\ b = RNum d /\ r = RVec n (fun i => op (f i) d)) \/
  (exists n f g, a = RVec n f /\ b = RVec n g /\ r = RVec n (fun i => op (f i) (g i))).
Proof.
  destruct a, b; simpl; intros H.
  - injection H as <-. left. eauto.
  - injection H as <-. right; left. eauto 6.
  - injection H as <-. right; right; left. eauto 6.
  - destruct (Nat.eqb_spec n n0) as [<-|]; [|discriminate]. injection H as <-. right; right; right. eauto 6.
Qed.

Ltac rb H := apply rbin_Ok in H;
  destruct H as [(? & ? & -> & -> & ->) | [(? & ? & ? & -> & -> & ->) | [(? & ? & ? & -> & -> & ->) | (? & ? & ? & -> & -> & ->)]]].

(** Values of numbers and vectors: any pointwise operation. *)
Lemma rep_bin op (a b v : mval R) ra rb r : kind_of a <> KMat -> kind_of b <> KMat ->
  rep a ra -> rep b rb -> rbin op ra rb = Ok r -> nbin op a b = Ok v -> rep v r /\ kind_of v <> KMat /\
  (kind_of a = kind_of b -> kind_of v = kind_of b) /\ (forall c, a = MNum c -> kind_of v = kind_of b).
Proof.
  intros Ka Kb Ha Hb Hr Hv.
  assert (Hk : kind_of v <> KMat /\ (kind_of a = kind_of b -> kind_of v = kind_of b) /\
               (forall c, a = MNum c -> kind_of v = kind_of b)).
  { destruct a as [c|n f| |], b as [d|n' g| |]; simpl in *; try contradiction; try (destruct (Kb eq_refl)); try (destruct (Ka eq_refl)).
    - injection Hv as <-. simpl. repeat split; auto; discriminate.
    - injection Hv as <-. simpl. repeat split; auto; discriminate.
    - injection Hv as <-. simpl. split; [discriminate|]. split; [discriminate|]. intros c0 H0; discriminate H0.
    - apply bind_Ok in Hv. destruct Hv as [k [_ Hv]]. injection Hv as <-. simpl. repeat split; auto; discriminate. }
  split; [|exact Hk]. clear Hk.
  destruct a as [c|n f| |], b as [d|n' g| |]; simpl in *; try contradiction; try (destruct (Kb eq_refl)); try (destruct (Ka eq_refl)).
  - injection Hv as <-. simpl.
    destruct Ha as [-> | (n & h & -> & Hh)], Hb as [-> | (n' & h' & -> & Hh')]; simpl in Hr.
    + injection Hr as <-. auto.
    + injection Hr as <-. right. do 2 eexists; split; [reflexivity|]. intros i Hi. simpl. rewrite Hh'; auto.
    + injection Hr as <-. right. do 2 eexists; split; [reflexivity|]. intros i Hi. simpl. rewrite Hh; auto.
    + destruct (Nat.eqb_spec n n') as [<-|]; [|discriminate]. injection Hr as <-. right. do 2 eexists; split; [reflexivity|].
      intros i Hi. simpl. rewrite Hh, Hh'; auto.
  - injection Hv as <-. simpl. destruct Hb as (h' & -> & Hh').
    destruct Ha as [-> | (n & h & -> & Hh)]; simpl in Hr.
    + injection Hr as <-. eexists; split; [reflexivity|]. intros i Hi. simpl. rewrite Hh'; auto.
    + destruct (Nat.eqb_spec n n') as [<-|]; [|discriminate]. injection Hr as <-. eexists; split; [reflexivity|].
      intros i Hi. simpl. rewrite Hh, Hh'; auto.
  - injection Hv as <-. simpl. destruct Ha as (h & -> & Hh).
    destruct Hb as [-> | (n' & h' & -> & Hh')]; simpl in Hr.
    + injection Hr as <-. eexists; split; [reflexivity|]. intros i Hi. simpl. rewrite Hh; auto.
    + destruct (Nat.eqb_spec n n') as [<-|]; [|discriminate]. injection Hr as <-. eexists; split; [reflexivity|].
      intros i Hi. simpl. rewrite Hh, Hh'; auto.
  - destruct Ha as (h & -> & Hh), Hb as (h' & -> & Hh'). simpl in Hr.
    destruct (Nat.eqb_spec n n') as [<-|]; [|discriminate]. injection Hr as <-.
    rewrite bdim_same in Hv. simpl in Hv. injection Hv as <-. simpl. eexists; split; [reflexivity|].
    intros i Hi. simpl. rewrite bi_lt by auto. rewrite Hh, Hh'; auto.
Qed.

Lemma rep_nadd (a b v : mval R) ra rb r :
  rep a ra -> rep b rb -> rbin (radd R) ra rb = Ok r -> nbin (radd R) a b = Ok v ->
  kind_of a = kind_of b \/ a = MNum 0r -> rep v r /\ kind_of v = kind_of b.
Proof.
  intros Ha Hb Hr Hv Hk.
  destruct (kind_of b) eqn:Kb.
  - destruct b as [| |n m f|]; try discriminate. simpl in Hb. destruct Hb as (-> & g & -> & Hg).
    destruct Hk as [Ka | ->].
    + destruct a as [| |n' m' f'|]; try discriminate. simpl in Ha. destruct Ha as (-> & g' & -> & Hg').
      simpl in Hr. destruct (Nat.eqb_spec n' n) as [->|]; [|discriminate]. injection Hr as <-.
      simpl in Hv. rewrite !bdim_same in Hv. simpl in Hv. injection Hv as <-. simpl. split; [|reflexivity].
      split; [reflexivity|]. eexists; split; [reflexivity|]. intros i Hi. simpl.
      rewrite Hg, Hg' by auto. rewrite <- rsum_add. apply rsum_ext. intros j Hj. rewrite !bi_lt by auto. ring.
    + simpl in Hv. injection Hv as <-. simpl. split; [|reflexivity]. split; [reflexivity|].
      simpl in Ha. destruct Ha as [-> | (n' & h & -> & Hh)]; simpl in Hr.
      * injection Hr as <-. eexists; split; [reflexivity|]. intros i Hi. simpl. rewrite Hg by auto.
        transitivity (rsum sz (fun j => f i j *r x j)); [ring|]. apply rsum_ext. intros; ring.
      * destruct (Nat.eqb_spec n' n) as [->|]; [|discriminate]. injection Hr as <-.
        eexists; split; [reflexivity|]. intros i Hi. simpl. rewrite Hg, Hh by auto.
        transitivity (rsum sz (fun j => f i j *r x j)); [ring|]. apply rsum_ext. intros; ring.
  - assert (Ka : kind_of a <> KMat) by (destruct Hk as [-> | ->]; discriminate).
    assert (Kb' : kind_of b <> KMat) by (rewrite Kb; discriminate).
    destruct (@rep_bin _ _ _ _ _ _ _ Ka Kb' Ha Hb Hr Hv) as (H1 & _ & H3 & H4). split; [exact H1|]. rewrite Kb in *.
    destruct Hk as [Hk | ->]; [auto|]. eapply H4. reflexivity.
  - assert (Ka : kind_of a <> KMat) by (destruct Hk as [-> | ->]; discriminate).
    assert (Kb' : kind_of b <> KMat) by (rewrite Kb; discriminate).
    destruct (@rep_bin _ _ _ _ _ _ _ Ka Kb' Ha Hb Hr Hv) as (H1 & _ & H3 & H4). split; [exact H1|]. rewrite Kb in *.
    destruct Hk as [Hk | ->]; [auto|]. eapply H4. reflexivity.
Qed.

Lemma rep_add_zero a ra rb r : rep a ra -> rep (MNum 0r) rb -> rbin (radd R) ra rb = Ok r -> rep a r.
Proof.
  intros Ha Hb Hr. simpl in Hb. destruct Hb as [-> | (n & h & -> & Hh)].
  - destruct a as [c|n f|n m f|]; simpl in *.
    + destruct Ha as [-> | (n & g & -> & Hg)]; simpl in Hr; injection Hr as <-.
      * left. f_equal. ring.
      * right. do 2 eexists; split; [reflexivity|]. intros i Hi. simpl. rewrite Hg by auto. ring.
    + destruct Ha as (g & -> & Hg); simpl in Hr; injection Hr as <-. eexists; split; [reflexivity|].
      intros i Hi. simpl. rewrite Hg by auto. ring.
    + destruct Ha as (-> & g & -> & Hg); simpl in Hr; injection Hr as <-. split; [reflexivity|]. eexists; split; [reflexivity|].
      intros i Hi. simpl. rewrite Hg by auto. ring.
    + contradiction.
  - destruct a as [c|n' f|n' m f|]; simpl in *.
    + destruct Ha as [-> | (n' & g & -> & Hg)]; simpl in Hr.
      * injection Hr as <-. right. do 2 eexists; split; [reflexivity|]. intros i Hi. simpl. rewrite Hh by auto. ring.
      * destruct (Nat.eqb_spec n' n) as [->|]; [|discriminate]. injection Hr as <-.
        right. do 2 eexists; split; [reflexivity|]. intros i Hi. simpl. rewrite Hg, Hh by auto. ring.
    + destruct Ha as (g & -> & Hg); simpl in Hr.
      destruct (Nat.eqb_spec n' n) as [->|]; [|discriminate]. injection Hr as <-. eexists; split; [reflexivity|].
      intros i Hi. simpl. rewrite Hg, Hh by auto. ring.
    + destruct Ha as (-> & g & -> & Hg); simpl in Hr.
      destruct (Nat.eqb_spec n' n) as [->|]; [|discriminate]. injection Hr as <-. split; [reflexivity|]. eexists; split; [reflexivity|].
      intros i Hi. simpl. rewrite Hg, Hh by auto. ring.
    + contradiction.
Qed.

Lemma rep_mul_zero ra rb r : rep (MNum 0r) ra \/ rep (MNum 0r) rb -> rbin (rmul R) ra rb = Ok r -> rep (MNum 0r) r.
Proof.
  intros H Hr. rb Hr.
  - left. f_equal. destruct H as [[H|(n & g & H & _)] | [H|(n & g & H & _)]]; try discriminate; injection H as ->; ring.
  - right. do 2 eexists; split; [reflexivity|]. intros i Hi. simpl.
    destruct H as [[H|(n & g & H & Hz)] | [H|(n & g & H & Hz)]]; try discriminate; injection H; intros; subst;
      [ring | rewrite Hz by auto; ring].
  - right. do 2 eexists; split; [reflexivity|]. intros i Hi. simpl.
    destruct H as [[H|(n & g & H & Hz)] | [H|(n & g & H & Hz)]]; try discriminate; injection H; intros; subst;
      [rewrite Hz by auto; ring | ring].
  - right. do 2 eexists; split; [reflexivity|]. intros i Hi. simpl.
    destruct H as [[H|(n & g & H & Hz)] | [H|(n & g & H & Hz)]]; try discriminate; injection H; intros; subst;
      rewrite Hz by auto; ring.
Qed.

Lemma fold_mul_zero (rec : bexpr R -> result (rval R)) es : forall ra r,
  rep (MNum 0r) ra -> fold_ref rec (rmul R) es ra = Ok r -> rep (MNum 0r) r.
Proof.
  induction es as [|e es IH]; simpl; intros ra r Ha Hr.
  - injection Hr as <-. exact Ha.
  - apply bind_Ok in Hr. destruct Hr as [v [_ Hr]]. apply bind_Ok in Hr. destruct Hr as [a' [Ha' Hr]].
    eapply IH; [|exact Hr]. eapply rep_mul_zero; [left; exact Ha | exact Ha'].
Qed.

(** Expressions without inputs give no matrices; scalar expressions give numbers. *)
Lemma nbin_notmat op (a b v : mval R) : kind_of a <> KMat -> kind_of b <> KMat -> nbin op a b = Ok v -> kind_of v <> KMat.
Proof.
  intros Ka Kb Hv. destruct a, b; simpl in *; try (destruct (Kb eq_refl)); try (destruct (Ka eq_refl)); try (injection Hv as <-; discriminate); try discriminate.
  apply bind_Ok in Hv. destruct Hv as [k [_ Hv]]. injection Hv as <-. discriminate.
Qed.

Lemma noinput_notmat e : noinput inputs e = true -> forall V, bld fl dep sz others ctx e = Ok V -> kind_of V <> KMat.
Proof.
  induction e as [c|y|es IH|es IH|a b IHa IHb|a k IHa|f a IHa|n f|n D a IHa|q n m M a IHa|l nt ns w ks ds IH] using bexpr_ind'; intros Hn V HV; cbn [bld noinput] in *.
  - injection HV as <-. discriminate.
  - apply negb_true_iff in Hn. apply inb_false in Hn. rewrite Hin in Hn.
    destruct (String.eqb_spec y dep) as [->|Hnd]; [tauto|].
    destruct (inb y others) eqn:E; [apply inb_In in E; tauto|].
    destruct (ctx y) as [[c|n1 f1|n1 f1]|]; try discriminate; injection HV as <-; discriminate.
  - assert (G : forall es k acc, Forall (fun e => noinput inputs e = true -> forall V, bld fl dep sz others ctx e = Ok V -> kind_of V <> KMat) es ->
       forallb (noinput inputs) es = true -> kind_of acc <> KMat -> sum_loop (bld fl dep sz others ctx) es k acc = Ok V -> kind_of V <> KMat).
    { clear. intros es. induction es as [|e es IH]; simpl; intros k acc HF Hb Hk HV.
      - injection HV as <-. exact Hk.
      - inversion HF as [|? ? H1 H2]; subst. apply andb_true_iff in Hb. destruct Hb as [Hb1 Hb2].
        apply bind_Ok in HV. destruct HV as [v [Hv HV]]. destruct (is_zero v); [eauto|].
        destruct (kind_eqb _ _); [|discriminate]. apply bind_Ok in HV. destruct HV as [acc' [Ha HV]].
        eapply IH; [exact H2 | exact Hb2 | | exact HV]. eapply nbin_notmat; [exact Hk | | exact Ha]. eauto. }
    eapply G; eauto. discriminate.
  - assert (G : forall es vs, Forall (fun e => noinput inputs e = true -> forall V, bld fl dep sz others ctx e = Ok V -> kind_of V <> KMat) es ->
       forallb (noinput inputs) es = true -> kind_of vs <> KMat -> prod_loop (bld fl dep sz others ctx) es None vs = Ok V -> kind_of V <> KMat).
    { clear. intros es. induction es as [|e es IH]; simpl; intros vs HF Hb Hk HV.
      - injection HV as <-. exact Hk.
      - inversion HF as [|? ? H1 H2]; subst. apply andb_true_iff in Hb. destruct Hb as [Hb1 Hb2].
        apply bind_Ok in HV. destruct HV as [v [Hv HV]]. destruct (is_zero v); [injection HV as <-; discriminate|].
        specialize (H1 Hb1 _ Hv).
        destruct v; simpl in H1; try (destruct (H1 eq_refl)).
        + apply bind_Ok in HV. destruct HV as [vs' [Ha HV]]. eapply IH; [exact H2|exact Hb2| |exact HV]. eapply nbin_notmat; [exact Hk | | exact Ha]. discriminate.
        + apply bind_Ok in HV. destruct HV as [vs' [Ha HV]]. eapply IH; [exact H2|exact Hb2| |exact HV]. eapply nbin_notmat; [exact Hk | | exact Ha]. discriminate.
        + eauto. }
    eapply G; eauto. discriminate.
  - apply andb_true_iff in Hn. destruct Hn as [H1 H2].
    apply bind_Ok in HV. destruct HV as [u [Hu HV]]. apply bind_Ok in HV. destruct HV as [v [Hv HV]].
    eapply nbin_notmat; [| |exact HV]; eauto.
  - apply bind_Ok in HV. destruct HV as [u [Hu HV]]. injection HV as <-. specialize (IHa Hn _ Hu). destruct u; simpl in *; auto; discriminate.
  - apply bind_Ok in HV. destruct HV as [u [Hu HV]]. destruct u; try discriminate; injection HV as <-; discriminate.
  - injection HV as <-. discriminate.
  - apply bind_Ok in HV. destruct HV as [u [Hu HV]]. destruct u; try discriminate. destruct (_ =? _); [|discriminate]. injection HV as <-. discriminate.
  - destruct fl as [w|w ex] eqn:Efl; [|discriminate]. destruct q; [|discriminate]. apply bind_Ok in HV. destruct HV as [u [Hu HV]].
    specialize (IHa Hn _ Hu). destruct u; try discriminate; simpl in IHa; [injection HV as <-; discriminate | destruct (IHa eq_refl)].
  - assert (G : forall ds ks acc, Forall (fun e => noinput inputs e = true -> forall V, bld fl dep sz others ctx e = Ok V -> kind_of V <> KMat) ds ->
       forallb (noinput inputs) ds = true -> kind_of acc <> KMat -> intg_loop (bld fl dep sz others ctx) fl nt ns w ks ds acc = Ok V -> kind_of V <> KMat).
    { clear. intros ds. induction ds as [|e ds IH]; intros [|k ks] acc HF Hb Hk HV; simpl in HV; try discriminate.
      - injection HV as <-. exact Hk.
      - inversion HF as [|? ? H1 H2]; subst. simpl in Hb. apply andb_true_iff in Hb. destruct Hb as [Hb1 Hb2].
        apply bind_Ok in HV. destruct HV as [v [Hv HV]]. destruct (is_zero v); [eauto|].
        specialize (H1 Hb1 _ Hv). destruct v; try discriminate. destruct (H1 eq_refl). }
    destruct fl as [w'|w' ex] eqn:Efl.
    + destruct l as [l|]; [|discriminate]. destruct (0 <? Z.abs l)%Z; [|discriminate]. eapply G; eauto. discriminate.
    + eapply G; eauto. discriminate.
Qed.

Lemma fold_scalar op es : forall acc r, Forall (fun e => scalar_expr inputs ctx e = true -> forall r, ref fl env e = Ok r -> exists c, r = RNum c) es ->
  forallb (scalar_expr inputs ctx) es = true -> fold_ref (ref fl env) op es (RNum acc) = Ok r -> exists c, r = RNum c.
Proof.
  induction es as [|e es IH]; simpl; intros acc r HF Hb Hr.
  - injection Hr as <-. eauto.
  - inversion HF as [|? ? H1 H2]; subst. apply andb_true_iff in Hb. destruct Hb as [Hb1 Hb2].
    apply bind_Ok in Hr. destruct Hr as [u [Hu Hr]]. destruct (H1 Hb1 _ Hu) as (c & ->). simpl in Hr. eauto.
Qed.

Lemma scalar_ref e : scalar_expr inputs ctx e = true -> forall r, ref fl env e = Ok r -> exists c, r = RNum c.
Proof.
  induction e as [c|y|es IH|es IH|a b IHa IHb|a k IHa|f a IHa|n f|n D a IHa|q n m M a IHa|l nt ns w ks ds IH] using bexpr_ind'; intros Hs r Hr; cbn [ref scalar_expr] in *; try discriminate.
  - injection Hr as <-. eauto.
  - apply andb_true_iff in Hs. destruct Hs as [H1 H2]. apply negb_true_iff in H1. apply inb_false in H1. rewrite Hin in H1.
    destruct (env y) as [v|] eqn:Ey; [|discriminate]. injection Hr as <-.
    destruct (Henv Ey) as [[? _] | [(_ & ? & _) | (_ & _ & c & Hc & ->)]]; try tauto.
    rewrite Hc in *. destruct c; try discriminate. simpl. eauto.
  - eapply fold_scalar; eauto.
  - eapply fold_scalar; eauto.
  - apply andb_true_iff in Hs. destruct Hs as [H1 H2]. apply bind_Ok in Hr. destruct Hr as [u [Hu Hr]]. apply bind_Ok in Hr. destruct Hr as [v [Hv Hr]].
    destruct (IHa H1 _ Hu) as (c & ->), (IHb H2 _ Hv) as (d & ->). simpl in Hr. injection Hr as <-. eauto.
  - apply bind_Ok in Hr. destruct Hr as [u [Hu Hr]]. destruct (IHa Hs _ Hu) as (c & ->). injection Hr as <-. simpl. eauto.
  - apply bind_Ok in Hr. destruct Hr as [u [Hu Hr]]. destruct (IHa Hs _ Hu) as (c & ->). injection Hr as <-. simpl. eauto.
Qed.

Lemma rep_RNum V c : rep V (RNum c) -> V = MNum c.
Proof.
  destruct V as [d|n f|n m f|]; simpl; intros H.
  - destruct H as [H | (n & g & H & _)]; [injection H as ->; reflexivity | discriminate].
  - destruct H as (g & H & _). discriminate.
  - destruct H as (_ & g & H & _). discriminate.
  - contradiction.
Qed.

Definition sound e := forall V r, bld fl dep sz others ctx e = Ok V -> ref fl env e = Ok r -> rep V r.

Lemma sum_sound es : Forall sound es -> forall k acc racc V r,
  rep acc racc -> (k = None /\ acc = MNum 0r \/ k = Some (kind_of acc)) ->
  sum_loop (bld fl dep sz others ctx) es k acc = Ok V -> fold_ref (ref fl env) (radd R) es racc = Ok r -> rep V r.
Proof.
  induction es as [|e es IH]; simpl; intros HF k acc racc V r Ha Hk HV Hr.
  - injection HV as <-. injection Hr as <-. exact Ha.
  - inversion HF as [|? ? H1 H2]; subst.
    apply bind_Ok in HV. destruct HV as [v [Hv HV]]. apply bind_Ok in Hr. destruct Hr as [u [Hu Hr]].
    apply bind_Ok in Hr. destruct Hr as [racc' [Hra Hr]]. specialize (H1 _ _ Hv Hu).
    destruct (is_zero v) eqn:Z.
    + apply is_zero_inv in Z. subst v. eapply IH; [exact H2 | | exact Hk | exact HV | exact Hr]. eapply rep_add_zero; eauto.
    + set (k' := match k with Some k0 => k0 | None => kind_of v end) in *.
      destruct (kind_eqb (kind_of v) k') eqn:Ek; [|discriminate].
      apply bind_Ok in HV. destruct HV as [acc' [Ha' HV]].
      assert (Kv : kind_of v = k') by (destruct (kind_of v), k'; simpl in Ek; try discriminate; reflexivity).
      assert (Hc : kind_of acc = kind_of v \/ acc = MNum 0r).
      { destruct Hk as [[-> ->] | ->]; [right; reflexivity | left]. symmetry. exact Kv. }
      destruct (@rep_nadd _ _ _ _ _ _ Ha H1 Hra Ha' Hc) as [Hrep Hkind].
      eapply IH; [exact H2 | exact Hrep | | exact HV | exact Hr]. right. congruence.
Qed.

(** State of the product loop. *)
Definition prod_inv (mat : option (nat * nat * (nat -> nat -> R))) (vs : mval R) (ra : rval R) : Prop :=
  match mat with
  | None => rep vs ra /\ kind_of vs <> KMat
  | Some (n, m, f) =>
      m = sz /\ exists g, ra = RVec n g /\
        match vs with
        | MNum c => forall i, i < n -> g i = c *r rsum sz (fun j => f i j *r x j)
        | MVec k h => k = n /\ forall i, i < n -> g i = h i *r rsum sz (fun j => f i j *r x j)
        | _ => False
        end
  end.

Lemma prod_step_vec mat vs ra v rv vs' ra' : prod_inv mat vs ra -> rep v rv -> kind_of v <> KMat ->
  rbin (rmul R) ra rv = Ok ra' -> nbin (rmul R) vs v = Ok vs' -> prod_inv mat vs' ra'.
Proof.
  intros Hi Hv Kv Hr Hn. destruct mat as [[[n m] f]|]; simpl in *.
  - destruct Hi as (-> & g & -> & Hvs). split; [reflexivity|].
    destruct v as [d|n' h'| |]; simpl in Hv; try contradiction; try (destruct (Kv eq_refl)).
    + assert (Hrr : exists g', ra' = RVec n g' /\ forall i, i < n -> g' i = g i *r d).
      { destruct Hv as [-> | (n' & h' & -> & Hh')]; simpl in Hr.
        - injection Hr as <-. eexists; split; [reflexivity|]. auto.
        - destruct (Nat.eqb_spec n n') as [<-|]; [|discriminate]. injection Hr as <-. eexists; split; [reflexivity|].
          intros i Hi. simpl. rewrite Hh' by auto. reflexivity. }
      destruct Hrr as (g' & -> & Hg'). exists g'. split; [reflexivity|].
      destruct vs as [c|k h| |]; try contradiction; simpl in Hn; injection Hn as <-.
      * intros i Hi. rewrite Hg', Hvs by auto. ring.
      * destruct Hvs as [-> Hvs]. split; [reflexivity|]. intros i Hi. rewrite Hg', Hvs by auto. ring.
    + destruct Hv as (g' & -> & Hg'). simpl in Hr. destruct (Nat.eqb_spec n n') as [<-|]; [|discriminate]. injection Hr as <-.
      eexists; split; [reflexivity|]. destruct vs as [c|k h| |]; try contradiction; simpl in Hn.
      * injection Hn as <-. split; [reflexivity|]. intros i Hi. simpl. rewrite Hvs, Hg' by auto. ring.
      * destruct Hvs as [-> Hvs]. rewrite bdim_same in Hn. simpl in Hn. injection Hn as <-. split; [reflexivity|].
        intros i Hi. simpl. rewrite bi_lt by auto. rewrite Hvs, Hg' by auto. ring.
  - destruct Hi as [Hi Ki]. destruct (@rep_bin _ _ _ _ _ _ _ Ki Kv Hi Hv Hr Hn) as (H1 & H2 & _). auto.
Qed.

Lemma prod_step_mat vs ra n m f rv ra' : prod_inv None vs ra -> rep (MMat n m f) rv ->
  rbin (rmul R) ra rv = Ok ra' -> prod_inv (Some (n, m, f)) vs ra'.
Proof.
  intros [Hi Ki] (-> & g & -> & Hg) Hr. simpl. split; [reflexivity|].
  destruct vs as [c|k h| |]; simpl in *; try contradiction; try (destruct (Ki eq_refl)).
  - destruct Hi as [-> | (n' & h & -> & Hh)]; simpl in Hr.
    + injection Hr as <-. eexists; split; [reflexivity|]. intros i Hi. simpl. rewrite Hg by auto. reflexivity.
    + destruct (Nat.eqb_spec n' n) as [->|]; [|discriminate]. injection Hr as <-.
      eexists; split; [reflexivity|]. intros i Hi. simpl. rewrite Hg, Hh by auto. reflexivity.
  - destruct Hi as (h' & -> & Hh). simpl in Hr. destruct (Nat.eqb_spec k n) as [->|]; [|discriminate]. injection Hr as <-.
    eexists; split; [reflexivity|]. split; [reflexivity|]. intros i Hi. simpl. rewrite Hg, Hh by auto. reflexivity.
Qed.

Lemma prod_end mat vs ra V : prod_inv mat vs ra ->
  match mat with
  | None => Ok vs
  | Some (n, m, f) =>
      match vs with
      | MVec k g => nbin (rmul R) (MMat n m f) (MMat k 1 (fun i _ => g i))
      | _ => nbin (rmul R) (MMat n m f) vs
      end
  end = Ok V -> rep V ra.
Proof.
  intros Hi HV. destruct mat as [[[n m] f]|].
  - destruct Hi as (-> & g & -> & Hvs). destruct vs as [c|k h| |]; try contradiction.
    + simpl in HV. injection HV as <-. simpl. split; [reflexivity|]. eexists; split; [reflexivity|].
      intros i Hi. rewrite Hvs by auto. rewrite <- rsum_mul_l. apply rsum_ext. intros; ring.
    + destruct Hvs as [-> Hvs]. simpl in HV. rewrite bdim_same, bdim_1 in HV. simpl in HV. injection HV as <-. simpl.
      split; [reflexivity|]. eexists; split; [reflexivity|].
      intros i Hi. rewrite Hvs by auto. rewrite <- rsum_mul_l. apply rsum_ext. intros j Hj. rewrite !bi_lt by auto. ring.
  - injection HV as <-. apply Hi.
Qed.

Lemma prod_sound es : Forall sound es -> forall mat vs ra V r, prod_inv mat vs ra ->
  prod_loop (bld fl dep sz others ctx) es mat vs = Ok V -> fold_ref (ref fl env) (rmul R) es ra = Ok r -> rep V r.
Proof.
  induction es as [|e es IH]; intros HF mat vs ra V r Hi HV Hr.
  - simpl in Hr. injection Hr as <-. eapply prod_end; eauto.
  - inversion HF as [|? ? H1 H2]; subst. cbn [prod_loop fold_ref] in *.
    apply bind_Ok in HV. destruct HV as [v [Hv HV]]. apply bind_Ok in Hr. destruct Hr as [u [Hu Hr]].
    apply bind_Ok in Hr. destruct Hr as [ra' [Hra Hr]]. specialize (H1 _ _ Hv Hu).
    destruct (is_zero v) eqn:Z.
    + apply is_zero_inv in Z. subst v. injection HV as <-. eapply fold_mul_zero; [|exact Hr].
      eapply rep_mul_zero; [right; exact H1 | exact Hra].
    + destruct v as [c|n h|n m f|].
      * apply bind_Ok in HV. destruct HV as [vs' [Hvs HV]]. eapply IH; [exact H2 | | exact HV | exact Hr].
        eapply prod_step_vec; [exact Hi | exact H1 | discriminate | exact Hra | exact Hvs].
      * apply bind_Ok in HV. destruct HV as [vs' [Hvs HV]]. eapply IH; [exact H2 | | exact HV | exact Hr].
        eapply prod_step_vec; [exact Hi | exact H1 | discriminate | exact Hra | exact Hvs].
      * destruct mat as [?|]; [discriminate|]. eapply IH; [exact H2 | | exact HV | exact Hr].
        eapply prod_step_mat; eauto.
      * contradiction.
Qed.

Lemma intg_sound nt ns waa ds : Forall sound ds -> forall ks acc facc V r,
  rep acc (RVec nt facc) -> (acc = MNum 0r \/ kind_of acc = KMat) ->
  intg_loop (bld fl dep sz others ctx) fl nt ns waa ks ds acc = Ok V ->
  intg_ref (ref fl env) fl nt ns waa ks ds facc = Ok r -> rep V r.
Proof.
  induction ds as [|e ds IH]; intros HF [|k ks] acc facc V r Ha Hk HV Hr; simpl in HV, Hr; try discriminate.
  - injection HV as <-. injection Hr as <-. exact Ha.
  - inversion HF as [|? ? H1 H2]; subst.
    apply bind_Ok in HV. destruct HV as [v [Hv HV]]. apply bind_Ok in Hr. destruct Hr as [u [Hu Hr]].
    specialize (H1 _ _ Hv Hu). destruct u as [c|n g]; [discriminate|]. destruct (Nat.eqb_spec n ns) as [->|]; [|discriminate].
    destruct (is_zero v) eqn:Z.
    + apply is_zero_inv in Z. subst v. eapply IH; [exact H2 | | exact Hk | exact HV | exact Hr].
      simpl in H1. destruct H1 as [H1 | (n & g' & H1 & Hg)]; [discriminate|]. injection H1 as <- <-.
      eapply rep_add_zero with (rb := RVec nt (lp_apply fl ns waa k g)); [exact Ha | | simpl; rewrite Nat.eqb_refl; reflexivity].
      simpl. right. do 2 eexists; split; [reflexivity|]. intros t Ht. rewrite lp_apply_entry. apply rsum_zero. intros s Hs. rewrite Hg by auto. ring.
    + destruct v as [c|n h|n m f|]; try discriminate.
      apply bind_Ok in HV. destruct HV as [p [Hp HV]]. apply bind_Ok in HV. destruct HV as [acc' [Ha' HV]].
      simpl in H1. destruct H1 as (-> & g' & H1 & Hg). injection H1 as <- <-.
      unfold matmul in Hp. rewrite Nat.eqb_refl in Hp. injection Hp as <-.
      assert (Hrep : rep (MMat nt sz (fun i j => rsum ns (fun l => lp_entry fl waa k i l *r f l j))) (RVec nt (lp_apply fl ns waa k g))).
      { simpl. split; [reflexivity|]. eexists; split; [reflexivity|]. intros t Ht. rewrite lp_apply_entry.
        rewrite <- rsum_assoc. apply rsum_ext. intros s Hs. rewrite Hg by auto. reflexivity. }
      assert (Hadd : rbin (radd R) (RVec nt facc) (RVec nt (lp_apply fl ns waa k g)) = Ok (RVec nt (fun t => facc t +r lp_apply fl ns waa k g t))).
      { simpl. rewrite Nat.eqb_refl. reflexivity. }
      assert (Hk' : kind_of acc = KMat \/ acc = MNum 0r) by tauto.
      destruct (@rep_nadd _ _ _ _ _ _ Ha Hrep Hadd Ha' Hk') as [Hr1 Hr2].
      eapply IH; [exact H2 | exact Hr1 | right; exact Hr2 | exact HV | exact Hr].
Qed.

Lemma tame_list es : (fix go (es : list (bexpr R)) : Prop := match es with [] => True | e :: es' => tame inputs ctx e /\ go es' end) es ->
  Forall (fun e => tame inputs ctx e -> sound e) es -> Forall sound es.
Proof.
  induction es as [|e es IH]; intros Ht HF; [constructor|]. destruct Ht as [H1 H2]. inversion HF; subst. constructor; auto.
Qed.

Theorem bld_sound e : tame inputs ctx e -> sound e.
Proof.
  induction e as [c|y|es IH|es IH|a b IHa IHb|a k IHa|f a IHa|n f|n D a IHa|q n m M a IHa|l nt ns w ks ds IH] using bexpr_ind'; intros Ht V r HV Hr; cbn [bld ref tame] in *.
  - injection HV as <-. injection Hr as <-. simpl. auto.
  - destruct (env y) as [v|] eqn:Ey; [|discriminate]. injection Hr as <-.
    destruct (Henv Ey) as [[-> ->] | [(Hd & Ho & n & f & -> & Hf) | (Hd & Ho & c & Hc & ->)]].
    + rewrite String.eqb_refl in HV. injection HV as <-. simpl. split; [reflexivity|]. eexists; split; [reflexivity|].
      intros i Hi. rewrite rsum_eye; auto.
    + destruct (String.eqb_spec y dep); [contradiction|]. apply inb_In in Ho. rewrite Ho in HV. injection HV as <-.
      simpl. right. eauto.
    + destruct (String.eqb_spec y dep); [contradiction|]. apply inb_false in Ho. rewrite Ho, Hc in HV. apply inb_false in Ho.
      destruct c as [c|n' f|n' f]; injection HV as <-; simpl; auto; [eauto|].
      destruct Ht as [Ht|Ht]; [apply inb_In in Ht; rewrite Hin in Ht; tauto | exact (Ht _ _ Hc)].
  - eapply sum_sound; [exact (@tame_list _ Ht IH) | | | exact HV | exact Hr]; [simpl; auto | auto].
  - eapply prod_sound; [exact (@tame_list _ Ht IH) | | exact HV | exact Hr]. simpl. split; [auto | discriminate].
  - destruct Ht as (Ta & Tb & Tc).
    apply bind_Ok in HV. destruct HV as [u [Hu HV]]. apply bind_Ok in HV. destruct HV as [v [Hv HV]].
    apply bind_Ok in Hr. destruct Hr as [ru [Hru Hr]]. apply bind_Ok in Hr. destruct Hr as [rv [Hrv Hr]].
    specialize (IHa Ta _ _ Hu Hru). specialize (IHb Tb _ _ Hv Hrv).
    assert (Kv : kind_of v <> KMat).
    { destruct Tc as [Tc | [_ Tc]]; [|eapply noinput_notmat; eauto].
      destruct (@scalar_ref _ Tc _ Hrv) as (c & ->). apply rep_RNum in IHb. subst v. discriminate. }
    destruct (kind_of u) eqn:Ku.
    + destruct Tc as [Tc | [Tc _]]; [|destruct (@noinput_notmat _ Tc _ Hu); exact Ku].
      destruct (@scalar_ref _ Tc _ Hrv) as (c & ->). apply rep_RNum in IHb. subst v.
      destruct u as [| |n m f|]; try discriminate. simpl in IHa. destruct IHa as (-> & g & -> & Hg).
      simpl in Hr, HV. injection Hr as <-. injection HV as <-. simpl. split; [reflexivity|]. eexists; split; [reflexivity|].
      intros i Hi. unfold rdiv. rewrite Hg by auto. rewrite <- rsum_mul_r. apply rsum_ext. intros; ring.
    + assert (Ku' : kind_of u <> KMat) by (rewrite Ku; discriminate). eapply (@rep_bin _ _ _ _ _ _ _ Ku' Kv IHa IHb Hr HV).
    + assert (Ku' : kind_of u <> KMat) by (rewrite Ku; discriminate). eapply (@rep_bin _ _ _ _ _ _ _ Ku' Kv IHa IHb Hr HV).
  - destruct Ht as [Ta Tn]. apply bind_Ok in HV. destruct HV as [u [Hu HV]]. apply bind_Ok in Hr. destruct Hr as [ru [Hru Hr]].
    specialize (IHa Ta _ _ Hu Hru). injection HV as <-. injection Hr as <-.
    pose proof (@noinput_notmat _ Tn _ Hu) as Ku. destruct u as [c|n f|n m f|]; simpl in *; try contradiction; try (destruct (Ku eq_refl)).
    + destruct IHa as [-> | (n & g & -> & Hg)]; simpl; [auto|]. right. do 2 eexists; split; [reflexivity|]. intros i Hi. simpl. rewrite Hg; auto.
    + destruct IHa as (g & -> & Hg). simpl. eexists; split; [reflexivity|]. intros i Hi. simpl. rewrite Hg; auto.
  - apply bind_Ok in HV. destruct HV as [u [Hu HV]]. apply bind_Ok in Hr. destruct Hr as [ru [Hru Hr]].
    specialize (IHa Ht _ _ Hu Hru). injection Hr as <-. destruct u as [c|n g|n m g|]; try discriminate; injection HV as <-; simpl in *.
    + destruct IHa as [-> | (n & h & -> & Hh)]; simpl; [auto|]. right. do 2 eexists; split; [reflexivity|]. intros i Hi. simpl. rewrite Hh; auto.
    + destruct IHa as (h & -> & Hh). simpl. eexists; split; [reflexivity|]. intros i Hi. simpl. rewrite Hh; auto.
  - injection HV as <-. injection Hr as <-. simpl. eauto.
  - apply bind_Ok in HV. destruct HV as [u [Hu HV]]. apply bind_Ok in Hr. destruct Hr as [ru [Hru Hr]].
    specialize (IHa Ht _ _ Hu Hru). destruct u as [c|k g|k m g|]; try discriminate. destruct (Nat.eqb_spec k n) as [->|]; [|discriminate].
    injection HV as <-. simpl in IHa. destruct IHa as (h & -> & Hh). rewrite Nat.eqb_refl in Hr. injection Hr as <-. simpl.
    eexists; split; [reflexivity|]. intros i Hi. simpl. apply rsum_ext. intros j Hj. rewrite Hh; auto.
  - destruct Ht as [Ta Tp]. destruct fl as [w|w ex] eqn:Efl; [|discriminate]. rewrite <- Efl in *. destruct q; [|discriminate].
    apply bind_Ok in HV. destruct HV as [u [Hu HV]]. apply bind_Ok in Hr. destruct Hr as [ru [Hru Hr]].
    specialize (IHa Ta _ _ Hu Hru). destruct u as [c|k g|k l g|]; try discriminate.
    + injection HV as <-. simpl in IHa. destruct IHa as [-> | (k & h & -> & Hh)].
      * injection Hr as <-. simpl. auto.
      * destruct (Nat.eqb_spec k m) as [->|]; [|discriminate]. injection Hr as <-. simpl. right. do 2 eexists; split; [reflexivity|].
        intros i Hi. simpl. transitivity (rsum m (fun j => M i j *r c)).
        -- apply rsum_ext. intros j Hj. rewrite Hh by auto. reflexivity.
        -- rewrite rsum_mul_r, Tp by auto. ring.
    + simpl in IHa. destruct IHa as (-> & h & -> & Hh). unfold matmul in HV. destruct (Nat.eqb_spec m k) as [->|]; [|discriminate].
      rewrite Nat.eqb_refl in Hr. injection Hr as <-. injection HV as <-. simpl. split; [reflexivity|]. eexists; split; [reflexivity|].
      intros i Hi. simpl. rewrite <- rsum_assoc. apply rsum_ext. intros j Hj. rewrite Hh by auto. reflexivity.
  - assert (HI : intg_loop (bld fl dep sz others ctx) fl nt ns w ks ds (MNum 0r) = Ok V).
    { destruct fl as [w'|w' ex] eqn:Efl; [|exact HV]. destruct l as [l|]; [|discriminate]. destruct (0 <? Z.abs l)%Z; [exact HV|discriminate]. }
    eapply intg_sound; [exact (@tame_list _ Ht IH) | | | exact HI | exact Hr].
    + simpl. right. eauto.
    + auto.
Qed.
End Col.
