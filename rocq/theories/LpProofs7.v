(** Lemmas for LpProps.v, part 7: coefficients of source derivatives. *)
From Coq Require Import Setoid Ring InitialRing.
From Verif Require Import Base DofModel GeoModel CtorModel SymSpec LpModel LpSpec LpProofs LpProofs2 LpProofs3 LpProofs4 LpProofs5.
Set Implicit Arguments.

(** ** Expressions linear in nabla *)
Fixpoint lin (e : ex) : Prop :=
  match e with
  | ENab _ _ => True
  | EDsrc _ _ | EPot _ _ _ _ _ _ _ => False
  | ECse a => pure a
  | EQuot a b => pure a /\ pure b
  | ESum l => l <> [] /\ fold_right (fun a P => lin a /\ P) True l
  | EProd l => fold_right (fun a P => lin a /\ P) True l
  | _ => True
  end.
Lemma lin_sum l : lin (ESum l) <-> l <> [] /\ Forall lin l.
Proof. cbn [lin]. rewrite fold_and. reflexivity. Qed.
Lemma lin_prod l : lin (EProd l) <-> Forall lin l.
Proof. cbn [lin]. apply fold_and. Qed.
Lemma coef_sum l : coefficient (ESum l) <-> l <> [] /\ Forall coefficient l.
Proof. cbn [coefficient]. rewrite fold_and. reflexivity. Qed.
Lemma coef_prod l : coefficient (EProd l) <-> Forall coefficient l.
Proof. cbn [coefficient]. apply fold_and. Qed.

Section V.
Variable C : calculus.
Notation R := (dr_car (cr C)).
Notation r0 := (dr_0 (cr C)).
Notation r1 := (dr_1 (cr C)).
Notation "x +! y" := (dr_add (cr C) x y) (at level 50, left associativity).
Notation "x *! y" := (dr_mul (cr C) x y) (at level 40, left associativity).
Notation d := (dr_d (cr C)).
Add Ring Rr7 : (dr_ring (cr C)).

Definition keyval (nu : option nat -> nat -> R) (k : ckey) : R :=
  match k with K1 => r1 | KN id ax => nu id ax end.
Definition csum (nu : option nat -> nat -> R) (dc : coeffs) : R :=
  rsum C (map (fun t => keyval nu (fst t) *! val C nu (snd t)) dc).
Definition cinv (dc : coeffs) : Prop := dc <> [] /\ NoDup (map fst dc) /\ Forall (fun t => pure (snd t)) dc.

Lemma onat_eqb_spec a b : onat_eqb a b = true <-> a = b.
Proof.
  destruct a as [x|], b as [y|]; cbn; try (split; [discriminate|intros; congruence]); try tauto.
  rewrite Nat.eqb_eq. split; congruence.
Qed.
Lemma ckey_eqb_spec a b : ckey_eqb a b = true <-> a = b.
Proof.
  destruct a as [|i x], b as [|j y]; cbn; try (split; [discriminate|intros; congruence]); try tauto.
  rewrite andb_true_iff, onat_eqb_spec, Nat.eqb_eq. split; [intros [-> ->]; reflexivity|]. intros H; injection H; auto.
Qed.
Lemma ckey_eqb_refl a : ckey_eqb a a = true. Proof. apply ckey_eqb_spec. reflexivity. Qed.
Lemma ckey_eqb_false a b : ckey_eqb a b = false <-> a <> b.
Proof. rewrite <- ckey_eqb_spec. destruct (ckey_eqb a b); intuition congruence. Qed.

Lemma csum_cadd nu dc k c : csum nu (cadd dc k c) = csum nu dc +! keyval nu k *! val C nu c.
Proof.
  unfold csum. induction dc as [|[k' c'] dc IH]; cbn [cadd map fst snd].
  - rewrite rsum_cons, !rsum_nil. ring.
  - destruct (ckey_eqb k' k) eqn:E; cbn [map fst snd]; rewrite !rsum_cons.
    + apply ckey_eqb_spec in E. subst k'. rewrite val_eadd. ring.
    + rewrite IH. ring.
Qed.
Lemma cadd_keys dc k c x : In x (map fst (cadd dc k c)) <-> x = k \/ In x (map fst dc).
Proof.
  induction dc as [|[k' c'] dc IH]; cbn [cadd map fst]; [cbn; intuition|].
  destruct (ckey_eqb k' k) eqn:E; cbn [map fst].
  - apply ckey_eqb_spec in E. subst. cbn. intuition.
  - cbn [In]. rewrite IH. intuition.
Qed.
Lemma cadd_inv dc k c : NoDup (map fst dc) -> Forall (fun t => pure (snd t)) dc -> pure c -> cinv (cadd dc k c).
Proof.
  intros Hn Hp Hc. split; [|split].
  - destruct dc as [|[k' c'] dc]; cbn [cadd]; [discriminate|]. destruct (ckey_eqb k' k); discriminate.
  - induction dc as [|[k' c'] dc IH]; cbn [cadd map fst]; [repeat constructor; tauto|].
    inversion Hn; subst. destruct (ckey_eqb k' k) eqn:E; cbn [map fst]; constructor; try assumption.
    + intros X. apply cadd_keys in X. destruct X as [->|X]; [|contradiction]. rewrite ckey_eqb_refl in E. discriminate.
    + apply IH; [assumption|exact (Forall_inv_tail Hp)].
  - induction dc as [|[k' c'] dc IH]; cbn [cadd]; [repeat constructor; exact Hc|].
    destruct (ckey_eqb k' k); constructor.
    + cbn [snd]. apply pure_eadd; [exact (Forall_inv Hp)|exact Hc].
    + exact (Forall_inv_tail Hp).
    + exact (Forall_inv Hp).
    + apply IH; [inversion Hn; assumption|exact (Forall_inv_tail Hp)].
Qed.
Definition cmerge (r dc : coeffs) : coeffs := fold_left (fun r t => cadd r (fst t) (snd t)) dc r.
Lemma cmerge_spec dc : forall r, Forall (fun t => pure (snd t)) dc ->
  NoDup (map fst r) -> Forall (fun t => pure (snd t)) r ->
  (NoDup (map fst (cmerge r dc)) /\ Forall (fun t => pure (snd t)) (cmerge r dc))
  /\ (forall nu, csum nu (cmerge r dc) = csum nu r +! csum nu dc)
  /\ (forall x, In x (map fst (cmerge r dc)) <-> In x (map fst r) \/ In x (map fst dc)).
Proof.
  unfold cmerge. induction dc as [|[k c] dc IH]; intros r Hd Hn Hp; cbn [fold_left].
  - split; [split; assumption|]. split; [|intros x; cbn; tauto]. intros nu. change (csum nu []) with r0. ring.
  - cbn [fst snd]. pose proof (Forall_inv Hd) as Pc. cbn [snd] in Pc.
    destruct (@cadd_inv r k c Hn Hp Pc) as (A1 & A2 & A3).
    destruct (IH (cadd r k c) (Forall_inv_tail Hd) A2 A3) as (B1 & B2 & B3).
    split; [exact B1|]. split.
    + intros nu. rewrite B2, csum_cadd. change (csum nu ((k, c) :: dc)) with (keyval nu k *! val C nu c +! csum nu dc). ring.
    + intros x. rewrite B3, cadd_keys. cbn [map fst In]. intuition.
Qed.
Lemma cmerge_all ds : forall r, Forall (Forall (fun t => pure (snd t))) ds ->
  NoDup (map fst r) -> Forall (fun t => pure (snd t)) r ->
  let m := fold_left cmerge ds r in
  (NoDup (map fst m) /\ Forall (fun t => pure (snd t)) m)
  /\ (forall nu, csum nu m = csum nu r +! rsum C (map (csum nu) ds))
  /\ (forall x, In x (map fst m) <-> In x (map fst r) \/ exists dc, In dc ds /\ In x (map fst dc)).
Proof.
  cbv zeta. induction ds as [|dc ds IH]; intros r Hd Hn Hp; cbn [fold_left].
  - split; [split; assumption|]. split; [intros nu; cbn [map]; rewrite rsum_nil; ring|].
    intros x. split; [tauto|]. intros [H|(dc & [] & _)]. exact H.
  - destruct (@cmerge_spec dc r (Forall_inv Hd) Hn Hp) as ((A1 & A2) & A3 & A4).
    destruct (IH (cmerge r dc) (Forall_inv_tail Hd) A1 A2) as (B1 & B2 & B3).
    split; [exact B1|]. split.
    + intros nu. rewrite B2, A3. cbn [map]. rewrite rsum_cons. ring.
    + intros x. rewrite B3, A4. split.
      * intros [[H|H]|(e & He & Hx)]; [left; exact H|right; exists dc; split; [left; reflexivity|exact H]|].
        right. exists e. split; [right; exact He|exact Hx].
      * intros [H|(e & [<-|He] & Hx)]; [left; left; exact H|left; right; exact Hx|right; exists e; split; assumption].
Qed.
Lemma collect_sum l : collect (ESum l) = (do ds <- mapM collect l; Ok (fold_left cmerge ds [])).
Proof. reflexivity. Qed.
Lemma no_vars_const dc nu : cinv dc -> has_vars dc = false -> csum nu dc = val C nu (const_coeff dc) /\ pure (const_coeff dc)
   /\ dc = [(K1, const_coeff dc)].
Proof.
  intros (H1 & H2 & H3) H. destruct dc as [|[k c] dc]; [contradiction|].
  unfold has_vars in H. cbn [existsb fst] in H. apply orb_false_iff in H. destruct H as [Hk H].
  apply negb_false_iff, ckey_eqb_spec in Hk. subst k.
  destruct dc as [|[k' c'] dc].
  - split; [unfold csum; cbn [map fst snd keyval const_coeff]; rewrite rsum_cons, rsum_nil; ring|].
    split; [exact (Forall_inv H3)|reflexivity].
  - exfalso. cbn [existsb fst] in H. apply orb_false_iff in H. destruct H as [Hk _].
    apply negb_false_iff, ckey_eqb_spec in Hk. subst k'. cbn [map fst] in H2. inversion H2; subst. apply H4. left. reflexivity.
Qed.
Lemma rprod_filter (A : Type) (f : A -> R) (p : A -> bool) l :
  rprod C (map f l) = rprod C (map f (filter (fun a => negb (p a)) l)) *! rprod C (map f (filter p l)).
Proof.
  induction l as [|a l IH]; cbn [map filter]; [rewrite !rprod_nil; ring|].
  rewrite rprod_cons, IH. destruct (p a); cbn [negb map]; rewrite !rprod_cons; ring.
Qed.
Lemma cmul_spec ds m : Forall cinv ds -> cmul ds = Ok m -> cinv m /\ forall nu, csum nu m = rprod C (map (csum nu) ds).
Proof.
  intros Hd H. unfold cmul in H. set (cs := filter (fun dc => negb (has_vars dc)) ds) in *.
  assert (Hcs : forall nu, rprod C (map (csum nu) cs) = val C nu (fprod (map const_coeff cs)) /\ pure (fprod (map const_coeff cs))).
  { intros nu. rewrite val_fprod, map_map. split.
    - f_equal. apply map_ext_in. intros dc Hdc. apply filter_In in Hdc. destruct Hdc as [Hin Hv].
      apply no_vars_const; [rewrite Forall_forall in Hd; auto|]. apply negb_true_iff. exact Hv.
    - apply pure_fprod. rewrite Forall_map. apply Forall_forall. intros dc Hdc. apply filter_In in Hdc. destruct Hdc as [Hin Hv].
      apply (no_vars_const nu); [rewrite Forall_forall in Hd; auto|]. apply negb_true_iff. exact Hv. }
  set (other := fprod (map const_coeff cs)) in *.
  destruct (filter has_vars ds) as [|dv [|dv' rest]] eqn:Ef.
  - injection H as <-. split.
    + split; [discriminate|]. split; [repeat constructor; tauto|].
      constructor; [exact (proj2 (Hcs (fun _ _ => r0)))|constructor].
    + intros nu. rewrite (@rprod_filter _ (csum nu) has_vars ds), Ef. fold cs. rewrite (proj1 (Hcs nu)).
      unfold csum. cbn [map fst snd keyval]. rewrite rsum_cons, rsum_nil, rprod_nil. ring.
  - injection H as <-.
    assert (Hdv : cinv dv).
    { rewrite Forall_forall in Hd. apply Hd. assert (X : In dv (filter has_vars ds)) by (rewrite Ef; left; reflexivity).
      apply filter_In in X. exact (proj1 X). }
    destruct Hdv as (A1 & A2 & A3). split.
    + split; [destruct dv; [contradiction|discriminate]|]. split.
      * rewrite map_map. cbn [fst]. exact A2.
      * rewrite Forall_map. eapply Forall_impl; [|exact A3]. intros t Ht. cbn [snd].
        apply pure_emul; [exact (proj2 (Hcs (fun _ _ => r0)))|exact Ht].
    + intros nu. rewrite (@rprod_filter _ (csum nu) has_vars ds), Ef. fold cs. rewrite (proj1 (Hcs nu)).
      cbn [map]. rewrite rprod_cons, rprod_nil. unfold csum. rewrite map_map. cbn [fst snd].
      rewrite (rsum_ext C _ (fun t : ckey * ex => val C nu other *! (keyval nu (fst t) *! val C nu (snd t))) dv).
      * rewrite rsum_scale. ring.
      * intros t _. rewrite val_emul. ring.
  - discriminate.
Qed.
Lemma collect_sound : forall e m, lin e -> collect e = Ok m -> cinv m /\ forall nu, csum nu m = val C nu e.
Proof.
  assert (K : forall e, pure e -> cinv [(K1, e)] /\ forall nu, csum nu [(K1, e)] = val C nu e).
  { intros e Pe. split; [split; [discriminate|split; [repeat constructor; tauto|constructor; [exact Pe|constructor]]]|].
    intros nu. unfold csum. cbn [map fst snd keyval]. rewrite rsum_cons, rsum_nil. ring. }
  assert (L : forall l, Forall (fun e => forall m, lin e -> collect e = Ok m -> cinv m /\ forall nu, csum nu m = val C nu e) l ->
     Forall lin l -> forall ds, mapM collect l = Ok ds -> Forall cinv ds /\ forall nu, map (csum nu) ds = map (val C nu) l).
  { intros l Hl Hlin ds E. apply mapM_Ok in E. induction E as [|e m l ds He E IH]; [split; [constructor|reflexivity]|].
    destruct (Forall_inv Hl m (Forall_inv Hlin) He) as [A B].
    destruct (IH (Forall_inv_tail Hl) (Forall_inv_tail Hlin)) as [A' B'].
    split; [constructor; assumption|]. intros nu. cbn [map]. rewrite B, B'. reflexivity. }
  apply (@ex_ind' (fun e => forall m, lin e -> collect e = Ok m -> cinv m /\ forall nu, csum nu m = val C nu e)).
  all: try (intros; cbn [collect] in *; cbn [lin] in *; try contradiction; try discriminate;
            match goal with H : Ok _ = Ok _ |- _ => injection H as <- end; apply K; cbn [pure]; tauto).
  - intros g m _ H. destruct g; cbn [collect] in H; try discriminate; injection H as <-; apply K; exact I.
  - intros l Hl m Hlin H. apply lin_sum in Hlin. destruct Hlin as [Hne Hlin]. rewrite collect_sum in H.
    destruct (mapM collect l) as [ds|] eqn:E; cbn [bind] in H; [|discriminate]. injection H as <-.
    destruct (L l Hl Hlin ds E) as [A B].
    destruct (@cmerge_all ds []) as ((M1 & M2) & M3 & M4).
    + eapply Forall_impl; [|exact A]. intros dc (_ & _ & X). exact X.
    + constructor.
    + constructor.
    + split.
      * split; [|split; assumption]. intros X. rewrite X in M4. cbn [map In] in M4.
        apply mapM_Ok in E. destruct E as [|e dc l' ds' _ _]; [contradiction|].
        destruct (Forall_inv A) as (Y & _). destruct dc as [|t dc]; [contradiction|].
        apply (proj2 (M4 (fst t))). right. exists (t :: dc). split; left; reflexivity.
      * intros nu. rewrite M3, B. cbn [val]. unfold csum. cbn [map]. rewrite rsum_nil. ring.
  - intros l Hl m Hlin H. apply lin_prod in Hlin. cbn [collect] in H.
    destruct (mapM collect l) as [ds|] eqn:E; cbn [bind] in H; [|discriminate].
    destruct (L l Hl Hlin ds E) as [A B]. destruct (cmul_spec A H) as [M1 M2]. split; [exact M1|].
    intros nu. rewrite M2, B. reflexivity.
  - intros id ax m _ H. cbn [collect] in H. injection H as <-. split.
    + split; [discriminate|]. split; [repeat constructor; tauto|]. repeat constructor.
    + intros nu. unfold csum. cbn [map fst snd keyval val]. rewrite rsum_cons, rsum_nil, int_1. ring.
Qed.

(** ** The direction vector *)
Lemma in_fold_cpop keys : forall dc t, In t (fold_left cpop keys dc) <-> In t dc /\ ~ In (fst t) keys.
Proof.
  induction keys as [|k keys IH]; intros dc t; cbn [fold_left]; [cbn; tauto|].
  rewrite IH. unfold cpop. rewrite filter_In, negb_true_iff, ckey_eqb_false. cbn [In]. intuition.
Qed.
Lemma cget_in dc k c : NoDup (map fst dc) -> In (k, c) dc -> cget dc k = c.
Proof.
  induction dc as [|[k' c'] dc IH]; intros Hn Hin; [contradiction|]. cbn [cget]. inversion Hn; subst.
  destruct Hin as [E|Hin].
  - injection E as -> ->. rewrite ckey_eqb_refl. reflexivity.
  - destruct (ckey_eqb k' k) eqn:E; [|apply IH; assumption].
    apply ckey_eqb_spec in E. subst k'. exfalso. apply H1. apply in_map_iff. exists (k, c). split; [reflexivity|exact Hin].
Qed.
Lemma cget_pure dc k : Forall (fun t => pure (snd t)) dc -> pure (cget dc k).
Proof.
  induction 1 as [|[k' c'] dc Hc H IH]; cbn [cget]; [exact I|]. destruct (ckey_eqb k' k); [exact Hc|exact IH].
Qed.
Lemma cget_absent dc k : ~ In k (map fst dc) -> cget dc k = EQ 0.
Proof.
  induction dc as [|[k' c'] dc IH]; cbn [cget map fst In]; intros H; [reflexivity|].
  destruct (ckey_eqb k' k) eqn:E; [apply ckey_eqb_spec in E; tauto|]. apply IH. tauto.
Qed.
Lemma csum_axes dc adim nu : NoDup (map fst dc) -> (forall t, In t dc -> exists i, i < adim /\ fst t = KN None i) ->
  csum nu dc = sum_axes C adim (fun i => nu None i *! val C nu (cget dc (KN None i))).
Proof.
  induction dc as [|[k c] dc IH]; intros Hn Hk.
  - unfold csum. cbn [map]. rewrite rsum_nil. unfold sum_axes. symmetry. apply rsum_zero. intros i _. cbn [cget val]. rewrite int_0. ring.
  - inversion Hn; subst. destruct (Hk (k, c) (or_introl eq_refl)) as (i & Hi & E). cbn [fst] in E. subst k.
    unfold csum. cbn [map fst snd keyval]. rewrite rsum_cons. fold (csum nu dc).
    rewrite IH by (try assumption; intros t Ht; apply Hk; right; exact Ht).
    rewrite <- (@sum_delta C i (fun j => nu None j *! val C nu c) adim Hi). unfold sum_axes. rewrite <- rsum_plus.
    f_equal. apply map_ext. intros j. cbn [cget].
    destruct (ckey_eqb (KN None i) (KN None j)) eqn:E.
    + apply ckey_eqb_spec in E. injection E as <-. rewrite Nat.eqb_refl.
      rewrite (@cget_absent dc (KN None i) H1). cbn [val]. rewrite int_0. ring.
    + apply ckey_eqb_false in E. destruct (Nat.eqb_spec i j); [subst; contradiction|]. ring.
Qed.
Definition unit_nu (i : nat) : option nat -> nat -> R := fun _ j => if Nat.eqb i j then r1 else r0.
Lemma get_dir_vec_sound e adim v : lin e -> get_dir_vec e adim = Ok v ->
  length v = adim /\ Forall pure v /\ forall i nu, i < adim -> val C nu (nth i v (EQ 0)) = val C (unit_nu i) e.
Proof.
  intros Hl H. unfold get_dir_vec in H. destruct (collect e) as [dc|] eqn:E; cbn [bind] in H; [|discriminate].
  destruct (collect_sound e Hl E) as ((A1 & A2 & A3) & B).
  destruct (fold_left cpop (map (KN None) (seq 0 adim)) dc) as [|t0 l0] eqn:Ef; [|discriminate]. injection H as <-.
  assert (Hk : forall t, In t dc -> exists i, i < adim /\ fst t = KN None i).
  { intros t Ht. destruct (in_dec (fun a b => match Bool.bool_dec (ckey_eqb a b) true with
        | left H => left (proj1 (ckey_eqb_spec a b) H) | right H => right (fun E => H (proj2 (ckey_eqb_spec a b) E)) end)
        (fst t) (map (KN None) (seq 0 adim))) as [Hin|Hin].
    - apply in_map_iff in Hin. destruct Hin as (i & <- & Hi). apply in_seq in Hi. exists i. split; [lia|reflexivity].
    - exfalso. assert (X : In t (fold_left cpop (map (KN None) (seq 0 adim)) dc)) by (apply in_fold_cpop; split; assumption).
      rewrite Ef in X. exact X. }
  rewrite map_map. split; [rewrite map_length, seq_length; reflexivity|]. split.
  - rewrite Forall_map. apply Forall_forall. intros i _. apply cget_pure. exact A3.
  - intros i nu Hi. set (f := fun x => cget dc (KN None x)).
    rewrite (nth_indep (map f _) (EQ 0) (f 0)) by (rewrite map_length, seq_length; exact Hi).
    rewrite (map_nth f), seq_nth by exact Hi. unfold f. cbn [Nat.add].
    rewrite <- B, (@csum_axes dc adim (unit_nu i) A2 Hk).
    rewrite <- (@sum_delta C i (fun j => val C nu (cget dc (KN None j))) adim Hi). unfold sum_axes. f_equal.
    apply map_ext. intros j. unfold unit_nu at 1. f_equal. apply val_pure. apply cget_pure. exact A3.
Qed.
End V.
(** ** When it succeeds *)
Lemma collect_coef : forall c, coefficient c -> exists c', collect c = Ok [(K1, c')].
Proof.
  assert (L : forall l, Forall (fun c => coefficient c -> exists c', collect c = Ok [(K1, c')]) l -> Forall coefficient l ->
     exists cs, mapM collect l = Ok (map (fun c => [(K1, c)]) cs) /\ length cs = length l).
  { induction 1 as [|c l Hc H IH]; intros Hl; [exists []; split; reflexivity|].
    destruct (Hc (Forall_inv Hl)) as [c' E]. destruct (IH (Forall_inv_tail Hl)) as (cs & E' & L).
    exists (c' :: cs). cbn [mapM]. rewrite E, E'. split; [reflexivity|cbn [length]; rewrite L; reflexivity]. }
  apply (@ex_ind' (fun c => coefficient c -> exists c', collect c = Ok [(K1, c')])).
  all: try (intros; cbn [coefficient] in *; try contradiction; eexists; reflexivity).
  - intros g H. destruct g; cbn [coefficient] in H; try contradiction; eexists; reflexivity.
  - intros l Hl Hc. apply coef_sum in Hc. destruct Hc as [Hne Hc]. destruct (L l Hl Hc) as (cs & E & Len).
    rewrite collect_sum, E. cbn [bind]. destruct cs as [|c cs]; [destruct l; [contradiction|discriminate]|].
    cbn [map fold_left]. unfold cmerge at 2. cbn [fold_left fst snd cadd]. clear. revert c.
    induction cs as [|c' cs IH]; intros c; [eexists; reflexivity|]. cbn [map fold_left]. unfold cmerge at 2.
    cbn [fold_left fst snd cadd ckey_eqb]. apply IH.
  - intros l Hl Hc. apply coef_prod in Hc. destruct (L l Hl Hc) as (cs & E & _).
    cbn [collect]. rewrite E. cbn [bind]. unfold cmul.
    assert (F : filter has_vars (map (fun c => [(K1, c)]) cs) = []) by (clear; induction cs as [|c cs IH]; [reflexivity|exact IH]).
    rewrite F. eexists. reflexivity.
Qed.
Lemma collect_term fs i : Forall coefficient fs -> exists c, collect (EProd (fs ++ [ENab None i])) = Ok [(KN None i, c)].
Proof.
  intros H. cbn [collect].
  assert (E : exists cs, mapM collect (fs ++ [ENab None i]) = Ok (map (fun c => [(K1, c)]) cs ++ [[(KN None i, EQ 1)]])).
  { induction H as [|c fs Hc H IH]; [exists []; reflexivity|]. destruct IH as [cs IH].
    destruct (collect_coef c Hc) as [c' E]. exists (c' :: cs). cbn [app mapM map]. rewrite E, IH. reflexivity. }
  destruct E as [cs E]. rewrite E. cbn [bind]. unfold cmul.
  assert (F : filter has_vars (map (fun c => [(K1, c)]) cs ++ [[(KN None i, EQ 1)]]) = [[(KN None i, EQ 1)]])
    by (clear; induction cs as [|c cs IH]; [reflexivity|exact IH]).
  rewrite F. cbn [map fst snd]. eexists. reflexivity.
Qed.
Definition axis_term (adim : nat) (t : ex) : Prop := exists i c, i < adim /\ collect t = Ok [(KN None i, c)].
Lemma dir_vec_ok adim L : Forall (axis_term adim) L -> L <> [] -> exists v, get_dir_vec (shape_of L) adim = Ok v.
Proof.
  intros H Hne.
  assert (K : exists dc, collect (shape_of L) = Ok dc /\ forall t, In t dc -> exists i, i < adim /\ fst t = KN None i).
  { destruct L as [|t [|t2 L]]; [contradiction| |].
    - destruct (Forall_inv H) as (i & c & Hi & E). cbn [shape_of]. exists [(KN None i, c)]. split; [exact E|].
      intros t' [<-|[]]. exists i. split; [exact Hi|reflexivity].
    - cbn [shape_of]. rewrite collect_sum. set (L' := t :: t2 :: L) in *. clearbody L'. clear Hne.
      assert (E : exists ds, mapM collect L' = Ok ds /\ Forall (fun dc => exists i c, i < adim /\ dc = [(KN None i, c)]) ds).
      { induction H as [|x l (i & c & Hi & E) H IH]; [exists []; split; [reflexivity|constructor]|].
        destruct IH as (ds & E' & F). exists ([(KN None i, c)] :: ds). cbn [mapM]. rewrite E, E'.
        split; [reflexivity|]. constructor; [exists i, c; split; [exact Hi|reflexivity]|exact F]. }
      destruct E as (ds & E & F). rewrite E. cbn [bind]. eexists. split; [reflexivity|].
      assert (G : forall acc : coeffs, (forall t, In t acc -> exists i, i < adim /\ fst t = KN None i) ->
         forall t, In t (fold_left cmerge ds acc) -> exists i, i < adim /\ fst t = KN None i).
      { clear E. induction F as [|dc ds (i & c & Hi & ->) F IH]; intros acc Hacc t0; [apply Hacc|]. cbn [fold_left].
        apply IH. intros t' Ht'. unfold cmerge in Ht'. cbn [fold_left fst snd] in Ht'.
          assert (X : In (fst t') (map fst (cadd acc (KN None i) c))) by (apply in_map; exact Ht').
          apply cadd_keys in X. destruct X as [->|X]; [exists i; split; [exact Hi|reflexivity]|].
          apply in_map_iff in X. destruct X as (t'' & E'' & Hin). rewrite <- E''. apply Hacc. exact Hin. }
      apply G. intros t' []. }
  destruct K as (dc & E & K). unfold get_dir_vec. rewrite E. cbn [bind].
  assert (F : fold_left cpop (map (KN None) (seq 0 adim)) dc = []).
  { destruct (fold_left cpop (map (KN None) (seq 0 adim)) dc) as [|t l] eqn:Ef; [reflexivity|exfalso].
    assert (X : In t (fold_left cpop (map (KN None) (seq 0 adim)) dc)) by (rewrite Ef; left; reflexivity).
    apply in_fold_cpop in X. destruct X as [X1 X2]. destruct (K t X1) as (i & Hi & Ei). apply X2. rewrite Ei.
    apply in_map. apply in_seq. lia. }
  rewrite F. eexists. reflexivity.
Qed.
