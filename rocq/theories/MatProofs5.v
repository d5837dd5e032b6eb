(** Proofs about the matrix builder: which expressions are accepted. *)
From Coq Require Import Ring.
From Verif Require Import Base SymProofs SymProofs2 MatModel MatSpec MatProofs MatProofs2.
Set Implicit Arguments.
Open Scope nat_scope.

Section Total.
Variable R : rops.
Variable Rth : ring_theory (r0 R) (r1 R) (radd R) (rmul R) (rsub R) (ropp R) eq.
Variable Req : forall a b : R, reqb R a b = true <-> a = b.
Notation "0r" := (r0 R).
Variable w : bool.
Notation fl := (FQbx w).
Variable dep : string.
Variable sz : nat.
Variable others : list string.
Variable ctx : string -> option (cval R).
Variable inputs : list string.
Variable x : nat -> R.
Variable env : string -> option (rval R).
Hypothesis Hin : forall y, In y inputs <-> y = dep \/ In y others.
Hypothesis Henv : forall y v, env y = Some v ->
  (y = dep /\ v = RVec sz x) \/
  (y <> dep /\ In y others /\ exists n f, v = RVec n f /\ forall i, i < n -> f i = 0r) \/
  (y <> dep /\ ~ In y others /\ exists c, ctx y = Some c /\ v = cval_val c).
Notation rec := (bld fl dep sz others ctx).
Notation rref := (ref fl env).

Definition good e := forall r, rref e = Ok r -> exists V, rec e = Ok V /\ (V = MNum 0r \/ kind_of V = KMat).

Let Sound e (H : tame inputs ctx e) := @bld_sound R Rth Req fl dep sz others ctx inputs x env Hin Henv e H.

Lemma zero_is_zero : is_zero (MNum 0r : mval R) = true.
Proof. simpl. apply Req. reflexivity. Qed.

Lemma nbin_vec_total op (a b : mval R) ra rb r : kind_of a <> KMat -> kind_of b <> KMat -> rep sz x a ra -> rep sz x b rb ->
  rbin op ra rb = Ok r -> exists v, nbin op a b = Ok v.
Proof.
  intros Ka Kb Ha Hb Hr. destruct a as [c|n f|n m f|], b as [d|n' f'|n' m' f'|]; simpl in *; try contradiction;
    try (destruct (Ka eq_refl)); try (destruct (Kb eq_refl)); eauto.
  destruct Ha as (g & -> & _), Hb as (g' & -> & _). simpl in Hr. destruct (Nat.eqb_spec n n') as [->|]; [|discriminate].
  rewrite bdim_same. simpl. eauto.
Qed.

Lemma tame_all es : (fix go (es : list (bexpr R)) : Prop := match es with [] => True | e :: es' => tame inputs ctx e /\ go es' end) es <-> Forall (tame inputs ctx) es.
Proof.
  induction es as [|e es IH]; [split; [constructor|auto]|]. split; intros H.
  - destruct H as [H1 H2]. constructor; [exact H1 | apply IH; exact H2].
  - inversion H; subst. split; [assumption | apply IH; assumption].
Qed.

Lemma sum_total es : Forall good es -> Forall (tame inputs ctx) es -> forall k acc racc r,
  rep sz x acc racc -> (k = None /\ acc = MNum 0r \/ k = Some KMat /\ kind_of acc = KMat) ->
  fold_ref rref (radd R) es racc = Ok r -> exists V, sum_loop rec es k acc = Ok V /\ (V = MNum 0r \/ kind_of V = KMat).
Proof.
  induction es as [|e es IH]; simpl; intros HF HT k acc racc r Ha Hk Hr.
  - exists acc. split; [reflexivity|]. destruct Hk as [[_ ->]|[_ ->]]; auto.
  - inversion HF as [|? ? H1 H2]; subst. inversion HT as [|? ? T1 T2]; subst.
    apply bind_Ok in Hr. destruct Hr as [u [Hu Hr]]. apply bind_Ok in Hr. destruct Hr as [racc' [Hra Hr]].
    destruct (H1 _ Hu) as (V & HV & HVk). pose proof (Sound _ T1 HV Hu) as Hrep. rewrite HV. cbn [bind].
    destruct (is_zero V) eqn:Z.
    + apply is_zero_inv in Z; [|exact Req]. subst V. eapply IH; [exact H2 | exact T2 | | exact Hk | exact Hr]. eapply rep_add_zero; eauto.
    + destruct HVk as [-> | HVk]; [rewrite zero_is_zero in Z; discriminate|]. rewrite HVk.
      assert (Ek : kind_eqb KMat match k with Some k0 => k0 | None => KMat end = true) by (destruct Hk as [[-> _]|[-> _]]; reflexivity).
      rewrite Ek. assert (Ek' : match k with Some k0 => k0 | None => KMat end = KMat) by (destruct Hk as [[-> _]|[-> _]]; reflexivity). rewrite Ek'.
      assert (Hadd : exists acc', nbin (radd R) acc V = Ok acc').
      { destruct V as [| |n m f|]; try discriminate. destruct Hk as [[_ ->]|[_ Hk]]; [simpl; eauto|].
        destruct acc as [| |n' m' f'|]; try discriminate. simpl in Ha, Hrep. destruct Ha as (-> & g' & -> & _), Hrep as (-> & g & -> & _).
        simpl in Hra. destruct (Nat.eqb_spec n' n) as [->|]; [|discriminate]. simpl. rewrite !bdim_same. simpl. eauto. }
      destruct Hadd as (acc' & Hacc'). rewrite Hacc'. cbn [bind].
      destruct (@rep_nadd R Rth sz x acc V acc' _ _ _ Ha Hrep Hra Hacc') as [Hr1 Hr2].
      { rewrite HVk. destruct Hk as [[_ ->]|[_ Hk]]; auto. }
      eapply IH; [exact H2 | exact T2 | exact Hr1 | | exact Hr]. right. split; [reflexivity|]. rewrite Hr2. exact HVk.
Qed.

Lemma coefficient_value e : coefficient inputs ctx e = true -> forall r, rref e = Ok r -> exists V, rec e = Ok V /\ (exists c, V = MNum c) \/ rec e = Ok V /\ exists n f, V = MVec n f.
Proof.
  intros Hc r Hr. destruct e; simpl in Hc; try discriminate.
  - simpl. eexists. left. eauto.
  - apply andb_true_iff in Hc. destruct Hc as [H1 H2]. apply negb_true_iff in H1. apply inb_false in H1. rewrite Hin in H1.
    cbn [bld]. destruct (String.eqb_spec x0 dep) as [->|Hnd]; [tauto|].
    destruct (inb x0 others) eqn:E; [apply inb_In in E; tauto|].
    destruct (ctx x0) as [[c|n1 f1|n1 f1]|]; try discriminate; eexists; [left | right]; eauto.
  - simpl. eexists. right. eauto.
Qed.

Lemma prod_total es : Forall (fun e => combination inputs ctx e = true -> good e) es -> Forall (tame inputs ctx) es ->
  forallb (fun e => coefficient inputs ctx e || combination inputs ctx e) es = true ->
  forall mat vs ra r, prod_inv sz x mat vs ra ->
  length (filter (fun e => negb (coefficient inputs ctx e)) es) = match mat with None => 1 | Some _ => 0 end ->
  fold_ref rref (rmul R) es ra = Ok r -> exists V, prod_loop rec es mat vs = Ok V /\ (V = MNum 0r \/ kind_of V = KMat).
Proof.
  induction es as [|e es IH]; intros HF HT Hb mat vs ra r Hi Hl Hr.
  - destruct mat as [[[n m] f]|]; [|discriminate]. simpl in Hi. destruct Hi as (-> & g & -> & Hvs). simpl.
    destruct vs as [c|k h| |]; try contradiction.
    + eexists. split; [reflexivity|]. right. reflexivity.
    + destruct Hvs as [-> _]. rewrite bdim_same. simpl. rewrite bdim_1. simpl. eexists. split; [reflexivity|]. right. reflexivity.
  - inversion HF as [|? ? H1 H2]; subst. inversion HT as [|? ? T1 T2]; subst. cbn [forallb] in Hb. apply andb_true_iff in Hb. destruct Hb as [Hb1 Hb2].
    cbn [fold_ref] in Hr. apply bind_Ok in Hr. destruct Hr as [u [Hu Hr]]. apply bind_Ok in Hr. destruct Hr as [ra' [Hra Hr]].
    cbn [filter] in Hl. cbn [prod_loop]. destruct (coefficient inputs ctx e) eqn:Ec.
    + cbn [negb] in Hl. destruct (@coefficient_value _ Ec _ Hu) as (V & HV).
      assert (HV1 : rec e = Ok V) by tauto. assert (Kv : kind_of V <> KMat) by (destruct HV as [[_ [c ->]]|[_ [n [f ->]]]]; discriminate).
      pose proof (Sound _ T1 HV1 Hu) as Hrep. rewrite HV1. cbn [bind]. destruct (is_zero V) eqn:Z; [eauto|].
      assert (Hvs : kind_of vs <> KMat).
      { destruct mat as [[[n m] f]|]; simpl in Hi; [|tauto]. destruct Hi as (_ & g & _ & Hvs). destruct vs; try contradiction; discriminate. }
      assert (Hn : exists vs', nbin (rmul R) vs V = Ok vs').
      { destruct mat as [[[n m] f]|]; simpl in Hi.
        - destruct Hi as (-> & g & -> & Hvs'). destruct vs as [c|k h| |]; try contradiction; destruct V as [d|n' h'| |]; simpl; eauto; try contradiction; try (destruct (Kv eq_refl)).
          destruct Hvs' as [-> _]. simpl in Hrep. destruct Hrep as (g' & -> & _). simpl in Hra. destruct (Nat.eqb_spec n n') as [->|]; [|discriminate].
          rewrite bdim_same. simpl. eauto.
        - eapply nbin_vec_total; [exact Hvs | exact Kv | exact (proj1 Hi) | exact Hrep | exact Hra]. }
      destruct Hn as (vs' & Hvs').
      assert (Hi' : prod_inv sz x mat vs' ra') by (eapply prod_step_vec; [exact Rth | exact Hi | exact Hrep | exact Kv | exact Hra | exact Hvs']).
      destruct HV as [[_ [c ->]]|[_ [n [f ->]]]]; rewrite Hvs'; cbn [bind]; eapply IH; eauto.
    + cbn [negb] in Hl. destruct mat as [?|]; [discriminate|]. simpl in Hl. injection Hl as Hl. simpl in Hb1.
      destruct (H1 Hb1 _ Hu) as (V & HV & HVk). pose proof (Sound _ T1 HV Hu) as Hrep. rewrite HV. cbn [bind].
      destruct (is_zero V) eqn:Z; [eauto|]. destruct HVk as [-> | HVk]; [rewrite zero_is_zero in Z; discriminate|].
      destruct V as [| |n m f|]; try discriminate.
      eapply IH; [exact H2 | exact T2 | exact Hb2 | | exact Hl | exact Hr].
      exact (@prod_step_mat R sz x _ _ _ _ _ _ _ Hi Hrep Hra).
Qed.

Lemma intg_total nt ns waa ds : Forall good ds -> Forall (tame inputs ctx) ds -> forall ks acc facc r,
  rep sz x acc (RVec nt facc) -> (acc = MNum 0r \/ kind_of acc = KMat) ->
  intg_ref rref fl nt ns waa ks ds facc = Ok r -> exists V, intg_loop rec fl nt ns waa ks ds acc = Ok V /\ (V = MNum 0r \/ kind_of V = KMat).
Proof.
  induction ds as [|e ds IH]; intros HF HT [|k ks] acc facc r Ha Hk Hr; cbn [intg_ref intg_loop] in *; try discriminate.
  - eauto.
  - inversion HF as [|? ? H1 H2]; subst. inversion HT as [|? ? T1 T2]; subst. apply bind_Ok in Hr. destruct Hr as [u [Hu Hr]].
    destruct u as [c|n g]; [discriminate|]. destruct (Nat.eqb_spec n ns) as [->|]; [|discriminate].
    destruct (H1 _ Hu) as (V & HV & HVk). pose proof (Sound _ T1 HV Hu) as Hrep. rewrite HV. cbn [bind].
    assert (Hrec : forall p, nbin (radd R) acc (MMat nt sz p) = Ok (match acc with MMat n m f => MMat nt sz (fun i j => radd R (f (bi n i) (bi m j)) (p (bi nt i) (bi sz j))) | _ => MMat nt sz (fun i j => radd R 0r (p i j)) end)).
    { intros p. destruct Hk as [-> | Hk]; [reflexivity|]. destruct acc as [| |n' m' f'|]; try discriminate. simpl in Ha. destruct Ha as (-> & g' & E & _).
      injection E as -> ->. simpl. rewrite !bdim_same. reflexivity. }
    destruct (is_zero V) eqn:Z.
    + apply is_zero_inv in Z; [|exact Req]. subst V. eapply IH; [exact H2 | exact T2 | | exact Hk | exact Hr].
      simpl in Hrep. destruct Hrep as [E | (n & g' & E & Hg)]; [discriminate|]. injection E as <- <-.
      eapply rep_add_zero with (rb := RVec nt (lp_apply fl ns waa k g)); [exact Rth | exact Ha | | simpl; rewrite Nat.eqb_refl; reflexivity].
      simpl. right. do 2 eexists; split; [reflexivity|]. intros t Ht. change (lp_apply fl ns waa k g t = 0r). rewrite lp_apply_entry by exact Rth. apply (rsum_zero R Rth). intros s Hs. rewrite Hg by auto.
      rewrite (Ring_theory.Rmul_comm Rth). apply (Ring_theory.Rmul_0_l (Eqsth R) (Eq_ext _ _ _) Rth).
    + destruct HVk as [-> | HVk]; [rewrite zero_is_zero in Z; discriminate|]. destruct V as [| |n m f|]; try discriminate.
      simpl in Hrep. destruct Hrep as (-> & g' & E & Hg). injection E as <- <-. unfold matmul. rewrite Nat.eqb_refl. cbn [bind].
      rewrite Hrec. cbn [bind].
      eapply IH; [exact H2 | exact T2 | | | exact Hr].
      * assert (Hrep : rep sz x (MMat nt sz (fun i j => rsum R ns (fun l => rmul R (lp_entry fl waa k i l) (f l j)))) (RVec nt (lp_apply fl ns waa k g))).
        { simpl rep. split; [reflexivity|]. eexists; split; [reflexivity|]. intros t Ht. rewrite lp_apply_entry by exact Rth.
          rewrite <- (rsum_assoc _ Rth). apply rsum_ext. intros s Hs. rewrite Hg by auto. reflexivity. }
        refine (proj1 (@rep_nadd R Rth sz x _ _ _ _ _ _ Ha Hrep _ (Hrec _) _)).
        -- simpl. rewrite Nat.eqb_refl. reflexivity.
        -- destruct Hk as [-> | Hk]; [right; reflexivity | left; exact Hk].
      * right. destruct acc; reflexivity.
Qed.

Theorem combination_good e : combination inputs ctx e = true -> tame inputs ctx e -> good e.
Proof.
  induction e as [c|y|es IH|es IH|a b IHa IHb|a k IHa|f a IHa|n f|n D a IHa|q n m M a IHa|l nt ns wa ks ds IH] using bexpr_ind'; intros Hc Ht r Hr; cbn [combination] in Hc; try discriminate.
  - apply inb_In in Hc. apply Hin in Hc. cbn [bld]. destruct (String.eqb_spec y dep) as [->|Hy].
    + eexists. split; [reflexivity|]. right. reflexivity.
    + destruct Hc as [Hc|Hc]; [contradiction|]. apply inb_In in Hc. rewrite Hc. eauto.
  - cbn [tame] in Ht. apply tame_all in Ht. cbn [bld]. cbn [ref] in Hr.
    eapply sum_total; [| exact Ht | | | exact Hr].
    + rewrite forallb_forall in Hc. rewrite Forall_forall in *. intros e He. apply IH; auto.
    + simpl. left. reflexivity.
    + auto.
  - cbn [tame] in Ht. apply tame_all in Ht. apply andb_true_iff in Hc. destruct Hc as [H1 H2]. apply Nat.eqb_eq in H2. cbn [bld]. cbn [ref] in Hr.
    eapply prod_total; [| exact Ht | exact H1 | | exact H2 | exact Hr].
    + rewrite Forall_forall in *. intros e He Hce. apply IH; auto.
    + simpl. split; [left; reflexivity | discriminate].
  - apply andb_true_iff in Hc. destruct Hc as [-> Hc]. cbn [tame] in Ht. destruct Ht as [Ta Tp]. cbn [ref] in Hr. apply bind_Ok in Hr. destruct Hr as [u [Hu Hr]].
    destruct (IHa Hc Ta _ Hu) as (V & HV & HVk). pose proof (Sound _ Ta HV Hu) as Hrep. cbn [bld]. rewrite HV. cbn [bind].
    destruct HVk as [-> | HVk]; [eauto|]. destruct V as [| |n' m' f|]; try discriminate. simpl in Hrep. destruct Hrep as (-> & g & -> & _).
    destruct (Nat.eqb_spec n' m) as [->|]; [|discriminate]. unfold matmul. rewrite Nat.eqb_refl. eexists. split; [reflexivity|]. right. reflexivity.
  - destruct l as [l|]; [|discriminate]. apply andb_true_iff in Hc. destruct Hc as [H1 H2]. cbn [tame] in Ht. apply tame_all in Ht. cbn [bld]. cbn [ref] in Hr.
    assert (El : (0 <? Z.abs l)%Z = true). { apply Z.ltb_lt. apply negb_true_iff in H1. apply Z.eqb_neq in H1. lia. }
    rewrite El. eapply intg_total; [| exact Ht | | | exact Hr].
    + rewrite forallb_forall in H2. rewrite Forall_forall in *. intros e He. apply IH; auto.
    + simpl. right. eauto.
    + auto.
Qed.
End Total.
