From Verif Require Import Base DofModel DofProps RefineModel RefineSpec RefineProofs CollModel CollSpec CollProofs.
Set Implicit Arguments.
Open Scope nat_scope.

(** * Refinement results connect their ends *)
Lemma refine_loop_links E mode checks : forall fuel clk d o,
  refine_loop E mode checks fuel clk d = Ok o -> links_from d (o_links o) (o_discr o).
Proof.
  induction fuel as [|fuel IH]; intros clk d o H; cbn [refine_loop] in H.
  - assert (o = Out d [] true clk) by congruence. subst o. constructor.
  - destruct (checks clk d) as [flags v]. destruct v.
    + destruct mode; [| |discriminate];
      (destruct (e_refine E clk d flags) as [d'|] eqn:R; cbn [bind] in H; [|discriminate];
       destruct (refine_loop E _ checks fuel (S clk) d') as [o'|] eqn:Y; cbn [bind] in H; [|discriminate];
       match type of H with Ok ?rhs = _ => assert (o = rhs) by congruence end; subst o;
       cbn [o_discr o_links]; constructor; [reflexivity|exact (IH _ _ _ Y)]).
    + assert (o = Out d [] false clk) by congruence. subst o. constructor.
Qed.
Lemma uniform_links E : forall n clk d o, uniform_rounds E n clk d = Ok o -> links_from d (o_links o) (o_discr o).
Proof.
  induction n as [|n IH]; intros clk d o H; cbn [uniform_rounds] in H.
  - assert (o = Out d [] false clk) by congruence. subst o. constructor.
  - destruct (e_refine E clk d _) as [d'|] eqn:R; cbn [bind] in H; [|discriminate].
    destruct (uniform_rounds E n (S clk) d') as [o'|] eqn:Y; cbn [bind] in H; [|discriminate].
    match type of H with Ok ?rhs = _ => assert (o = rhs) by congruence end. subst o.
    cbn [o_discr o_links]. constructor; [reflexivity|exact (IH _ _ _ Y)].
Qed.
Lemma connects_chain a ls b : links_from a ls b -> connects (Chained a ls) a b.
Proof. intros H. split; [reflexivity|]. split; [|exact H]. cbn [conn_to]. apply links_last. exact H. Qed.
Lemma connects_id d : connects (IdConn d) d d.
Proof. repeat split. Qed.

Lemma stage1_connects E l k mx clk d d' c w clk' :
  refine_stage1 E l k mx clk d = Ok (d', c, w, clk') -> connects c d d'.
Proof.
  unfold refine_stage1. destruct (l_mode l); intros H.
  2: { assert (d' = d) by congruence. assert (c = IdConn d) by congruence. subst. apply connects_id. }
  all: destruct (refine_loop _ _ _ _ _ _) as [o|] eqn:R; cbn [bind] in H; [|discriminate];
    assert (d' = o_discr o) by congruence; assert (c = Chained d (o_links o)) by congruence; subst;
    apply connects_chain; exact (refine_loop_links _ _ _ _ _ _ R).
Qed.
Lemma stage2_connects E l n mx clk d d' c w clk' :
  refine_stage2 E l n mx clk d = Ok (d', c, w, clk') -> connects c d d'.
Proof.
  unfold refine_stage2. destruct (l_mode l); intros H.
  2: { assert (d' = d) by congruence. assert (c = IdConn d) by congruence. subst. apply connects_id. }
  all: destruct (refine_loop _ _ _ _ _ _) as [o|] eqn:R; cbn [bind] in H; [|discriminate];
    destruct (uniform_rounds _ _ _ _) as [u|] eqn:U; cbn [bind] in H; [|discriminate];
    assert (d' = o_discr u) by congruence; assert (c = Chained d (o_links o ++ o_links u)) by congruence; subst;
    apply connects_chain; eapply links_app; [exact (refine_loop_links _ _ _ _ _ _ R)|exact (uniform_links _ _ _ _ U)].
Qed.
Lemma quad_connects E l clk d d' c w clk' :
  Ok (refine_quad E l clk d) = Ok (d', c, w, clk') -> connects c d d'.
Proof.
  unfold refine_quad. intros H.
  assert (d' = make_quad E l clk d) by congruence. assert (c = SameMesh d (make_quad E l clk d)) by congruence.
  subst. repeat split.
Qed.

(** * The cache invariant *)
Record caches_ok (h : heap) : Prop := {
  co_discr : forall cid g s v, cached h cid CDiscr (KD g s) v ->
     exists d oid dim l c b, v = VD d /\ registered h cid g (PQBX oid dim l)
       /\ cached h cid CConn (KC g (previous s) (Some s)) (VC c) /\ starts_at h cid g l s b /\ connects c b d;
  co_conn : forall cid g f t v, cached h cid CConn (KC g f t) v ->
     exists s d, t = Some s /\ f = previous s /\ cached_discr h cid g s d;
  co_log : forall cid g s, In (cid, g, s) (h_log h) -> exists d, cached_discr h cid g s d;
  co_once : NoDup (h_log h) }.

Lemma registered_same h h' cid g p : same_objects h h' -> (registered h' cid g p <-> registered h cid g p).
Proof.
  intros [L S]. split.
  - intros (c' & H' & I).
    assert (V : valid h cid) by (unfold valid; rewrite <- L; apply nth_error_Some; unfold has_coll in H'; congruence).
    apply valid_has in V. destruct V as [c Hc]. destruct (S _ _ Hc) as (c2 & H2 & P & _).
    exists c. split; [exact Hc|]. unfold has_coll in *. assert (c' = c2) by congruence. subst. rewrite <- P. exact I.
  - intros (c & Hc & I). destruct (S _ _ Hc) as (c2 & H2 & P & _). exists c2. split; [exact H2|]. rewrite P. exact I.
Qed.

Lemma registered_unique h cid g p p' : heap_ok h -> registered h cid g p -> registered h cid g p' -> p = p'.
Proof.
  intros HO (c & Hc & I) (c' & Hc' & I'). assert (c = c') by (unfold has_coll in *; congruence). subst c'.
  assert (A := In_dget _ gid_eqb_eq _ _ _ (ok_keys HO Hc) I). assert (B := In_dget _ gid_eqb_eq _ _ _ (ok_keys HO Hc) I').
  congruence.
Qed.

(** Cache growth of one collection, everything else untouched. *)
Record grows (h h' : heap) (cid : nat) : Prop := {
  gr_ok : heap_ok h';
  gr_ci : caches_ok h';
  gr_objs : same_objects h h';
  gr_else : forall cid' n, cid' <> cid -> contents h' cid' n = contents h cid' n;
  gr_other : forall n, n <> CDiscr -> n <> CConn -> contents h' cid n = contents h cid n;
  gr_keep : forall n k v, cached h cid n k v -> cached h' cid n k v }.

Lemma grows_trans a b c cid : grows a b cid -> grows b c cid -> grows a c cid.
Proof.
  intros A B. constructor.
  - apply (gr_ok B).
  - apply (gr_ci B).
  - eapply same_objects_trans; [apply (gr_objs A)|apply (gr_objs B)].
  - intros x n H. rewrite (@gr_else _ _ _ B x n H). apply (@gr_else _ _ _ A x n H).
  - intros n H H'. rewrite (@gr_other _ _ _ B n H H'). apply (@gr_other _ _ _ A n H H').
  - intros n k v H. apply (gr_keep B), (gr_keep A), H.
Qed.

Lemma caches_ok_equiv h h' : caches_ok h -> same_objects h h' -> (forall cid n, contents h' cid n = contents h cid n) ->
  h_log h' = h_log h -> caches_ok h'.
Proof.
  intros [A B C D] S E L. constructor.
  - intros cid g s v H. unfold cached in *. rewrite E in H.
    destruct (A _ _ _ _ H) as (d & oid & dim & l & c & b & H1 & H2 & H3 & H4 & H5).
    exists d, oid, dim, l, c, b. split; [exact H1|]. split; [apply (registered_same _ _ _ S); exact H2|].
    split; [rewrite E; exact H3|]. split; [|exact H5].
    unfold starts_at in *. destruct (previous s); [|exact H4]. unfold cached_discr, cached in *. rewrite E. exact H4.
  - intros cid g f t v H. unfold cached in H. rewrite E in H. destruct (B _ _ _ _ _ H) as (s & d & H1 & H2 & H3).
    exists s, d. split; [exact H1|]. split; [exact H2|]. unfold cached_discr, cached. rewrite E. exact H3.
  - intros cid g s. rewrite L. intros H. destruct (C _ _ _ H) as (d & H'). exists d. unfold cached_discr, cached. rewrite E. exact H'.
  - rewrite L. exact D.
Qed.
Lemma grows_equiv h h' cid : caches_ok h -> equiv h h' -> grows h h' cid.
Proof.
  intros C Q. constructor.
  - apply (eq_ok Q).
  - eapply caches_ok_equiv; [exact C|apply (eq_objs Q)|apply (eq_cont Q)|apply (eq_log Q)].
  - apply (eq_objs Q).
  - intros x n _. apply (eq_cont Q).
  - intros n _ _. apply (eq_cont Q).
  - intros n k v H. unfold cached. rewrite (eq_cont Q). exact H.
Qed.
Lemma grows_refl h cid : heap_ok h -> caches_ok h -> grows h h cid.
Proof. intros A B. apply grows_equiv; [exact B|apply equiv_refl; exact A]. Qed.

(** * Reading the caches *)
Lemma get_discr_spec h cid g s : heap_ok h -> caches_ok h -> valid h cid ->
  exists h', equiv h h' /\
   ((exists d, cached_discr h cid g s d /\ get_discr_from_cache cid g s h = (h', Ok d))
    \/ (dget ckey_eqb (contents h cid CDiscr) (KD g s) = None /\ get_discr_from_cache cid g s h = (h', Err KeyError))).
Proof.
  intros HO HC HV. destruct (cache_lookup_spec CDiscr (KD g s) HO HV) as (h' & Q & E).
  exists h'. split; [exact Q|]. unfold get_discr_from_cache, mbind. rewrite E.
  destruct (dget ckey_eqb (contents h cid CDiscr) (KD g s)) as [v|] eqn:D.
  - left. destruct (co_discr HC D) as (d & _ & _ & _ & _ & _ & -> & _). exists d. split; [exact D|reflexivity].
  - right. auto.
Qed.
Lemma get_conn_spec h cid g f t c : heap_ok h -> valid h cid -> cached h cid CConn (KC g f t) (VC c) ->
  exists h', equiv h h' /\ get_conn_from_cache cid g f t h = (h', Ok c).
Proof.
  intros HO HV HC. destruct (cache_lookup_spec CConn (KC g f t) HO HV) as (h' & Q & E).
  exists h'. split; [exact Q|]. unfold get_conn_from_cache, mbind. rewrite E.
  unfold cached in HC. rewrite HC. reflexivity.
Qed.

Lemma equiv_valid h h' cid : equiv h h' -> (valid h' cid <-> valid h cid).
Proof. intros Q. unfold valid. rewrite (proj1 (eq_objs Q)). reflexivity. Qed.
Lemma grows_valid h h' cid x : grows h h' cid -> (valid h' x <-> valid h x).
Proof. intros Q. unfold valid. rewrite (proj1 (gr_objs Q)). reflexivity. Qed.
Lemma equiv_cached h h' cid n k v : equiv h h' -> (cached h' cid n k v <-> cached h cid n k v).
Proof. intros Q. unfold cached. rewrite (eq_cont Q). reflexivity. Qed.
Lemma equiv_starts h h' cid g l s d : equiv h h' -> (starts_at h' cid g l s d <-> starts_at h cid g l s d).
Proof. intros Q. unfold starts_at. destruct (previous s); [|reflexivity]. unfold cached_discr. rewrite equiv_cached; [reflexivity|exact Q]. Qed.
Lemma grows_starts h h' cid g l s d : grows h h' cid -> starts_at h cid g l s d -> starts_at h' cid g l s d.
Proof. intros Q. unfold starts_at. destruct (previous s); [|auto]. apply (gr_keep Q). Qed.

Lemma cached_fun h cid n k v v' : cached h cid n k v -> cached h cid n k v' -> v = v'.
Proof. unfold cached. congruence. Qed.

(** * One stage *)
Lemma stage_step_spec h cid g t oid dim l compute d :
  heap_ok h -> caches_ok h -> valid h cid -> registered h cid g (PQBX oid dim l) -> starts_at h cid g l t d ->
  (forall clk d d' c w clk', compute clk d = Ok (d', c, w, clk') -> connects c d d') ->
  exists h' r, stage_step cid g (previous t) t compute d h = (h', r) /\ grows h h' cid
    /\ match r with
       | Ok d' => cached_discr h' cid g t d'
       | Err e => (exists clk, compute clk d = Err e) /\ forall n, contents h' cid n = contents h cid n
       end
    /\ (forall d0, cached_discr h cid g t d0 -> r = Ok d0 /\ equiv h h').
Proof.
  intros HO HC HV HR HS HK. unfold stage_step, catch_key.
  destruct (get_discr_spec g t HO HC HV) as (h1 & Q1 & [(d0 & D0 & G)|[N G]]).
  - (* cached *)
    destruct (co_discr HC D0) as (d1 & _ & _ & _ & c & _ & E1 & _ & CC & _ & _).
    assert (d1 = d0) by congruence. subst d1.
    destruct (@get_conn_spec h1 cid g (previous t) (Some t) c) as (h2 & Q2 & G2).
    { apply (eq_ok Q1). } { apply (equiv_valid _ Q1). exact HV. } { apply (equiv_cached _ _ _ _ Q1). exact CC. }
    exists h2, (Ok d0). unfold mbind. rewrite G, G2.
    assert (Q := equiv_trans Q1 Q2). split; [reflexivity|]. split; [apply grows_equiv; assumption|].
    split; [apply (equiv_cached _ _ _ _ Q); exact D0|]. intros d2 D2. split; [|exact Q].
    assert (X := cached_fun D0 D2). congruence.
  - unfold mbind at 1. rewrite G.
    assert (HC1 := gr_ci (@grows_equiv h h1 cid HC Q1)).
    assert (NC : dget ckey_eqb (contents h1 cid CConn) (KC g (previous t) (Some t)) = None).
    { destruct (dget ckey_eqb (contents h1 cid CConn) (KC g (previous t) (Some t))) as [v|] eqn:D; [|reflexivity].
      destruct (co_conn HC1 D) as (s & d' & E1 & _ & E2). assert (s = t) by congruence. subst s.
      apply (equiv_cached _ _ _ _ Q1) in E2. unfold cached in E2. congruence. }
    destruct (compute (h_clk h1) d) as [[[[d' c] w] clk']|e] eqn:K.
    + set (h2 := Heap (h_colls h1) (h_dicts h1) clk' (h_log h1 ++ [(cid, g, t)])).
      assert (O2 : heap_ok h2) by (destruct (eq_ok Q1) as [a b c' d2]; constructor; [exact a|exact b|exact c'|exact d2]).
      assert (V2 : valid h2 cid) by (apply (equiv_valid _ Q1); exact HV).
      assert (A3 := @cache_add_spec h2 cid CDiscr (KD g t) (VD d') O2 V2).
      change (contents h2 cid CDiscr) with (contents h1 cid CDiscr) in A3. rewrite (eq_cont Q1), N in A3.
      destruct A3 as (h3 & A3 & E3).
      assert (V3 : valid h3 cid) by (unfold valid; rewrite (proj1 (ad_objs A3)); exact V2).
      assert (A4 := @cache_add_spec h3 cid CConn (KC g (previous t) (Some t)) (VC c) (ad_ok A3) V3).
      rewrite (ad_else A3) in A4 by congruence.
      change (contents h2 cid CConn) with (contents h1 cid CConn) in A4. rewrite NC in A4.
      destruct A4 as (h4 & A4 & E4).
      exists h4, (Ok d').
      assert (S4 : same_objects h h4).
      { eapply same_objects_trans; [apply (eq_objs Q1)|]. eapply same_objects_trans; [|apply (ad_objs A4)].
        eapply same_objects_trans; [|apply (ad_objs A3)]. split; [reflexivity|]. intros x y Hy. exists y. auto. }
      assert (CD : contents h4 cid CDiscr = dset ckey_eqb (contents h cid CDiscr) (KD g t) (VD d')).
      { rewrite (ad_else A4) by congruence. rewrite (ad_here A3).
        change (contents h2 cid CDiscr) with (contents h1 cid CDiscr). rewrite (eq_cont Q1). reflexivity. }
      assert (CCn : contents h4 cid CConn = dset ckey_eqb (contents h cid CConn) (KC g (previous t) (Some t)) (VC c)).
      { rewrite (ad_here A4). rewrite (ad_else A3) by congruence.
        change (contents h2 cid CConn) with (contents h1 cid CConn). rewrite (eq_cont Q1). reflexivity. }
      assert (CE : forall x n, (x, n) <> (cid, CDiscr) -> (x, n) <> (cid, CConn) -> contents h4 x n = contents h x n).
      { intros x n H1 H2. rewrite (ad_else A4) by exact H2. rewrite (ad_else A3) by exact H1.
        change (contents h2 x n) with (contents h1 x n). apply (eq_cont Q1). }
      assert (LG : h_log h4 = h_log h ++ [(cid, g, t)]).
      { rewrite (ad_log A4), (ad_log A3). cbn [h2 h_log]. rewrite (eq_log Q1). reflexivity. }
      rewrite (eq_cont Q1) in NC.
      (* lookups *)
      assert (GD : forall x g' s' v, cached h4 x CDiscr (KD g' s') v <->
         (x = cid /\ g' = g /\ s' = t /\ v = VD d') \/ (~ (x = cid /\ g' = g /\ s' = t) /\ cached h x CDiscr (KD g' s') v)).
      { intros x g' s' v. unfold cached. destruct (Nat.eq_dec x cid) as [->|Hx].
        - rewrite CD, (dget_dset _ ckey_eqb_eq). destruct (ckey_eqb (KD g' s') (KD g t)) eqn:X.
          + apply ckey_eqb_eq in X. split; [intros Y; left; repeat split; congruence|].
            intros [(_ & _ & _ & ->)|[Y _]]; [reflexivity|]. exfalso. apply Y. repeat split; congruence.
          + split.
            * intros Y. right. split; [|exact Y]. intros (_ & -> & ->).
              rewrite (proj2 (ckey_eqb_eq _ _) eq_refl) in X. discriminate.
            * intros [(_ & -> & -> & _)|[_ Y]]; [|exact Y]. rewrite (proj2 (ckey_eqb_eq _ _) eq_refl) in X. discriminate.
        - rewrite CE by congruence. split; [intros Y; right; split; [tauto|exact Y]|].
          intros [(Y & _)|[_ Y]]; [contradiction|exact Y]. }
      assert (GC : forall x g' f' t' v, cached h4 x CConn (KC g' f' t') v <->
         (x = cid /\ g' = g /\ f' = previous t /\ t' = Some t /\ v = VC c)
         \/ (~ (x = cid /\ g' = g /\ f' = previous t /\ t' = Some t) /\ cached h x CConn (KC g' f' t') v)).
      { intros x g' f' t' v. unfold cached. destruct (Nat.eq_dec x cid) as [->|Hx].
        - rewrite CCn, (dget_dset _ ckey_eqb_eq). destruct (ckey_eqb (KC g' f' t') (KC g (previous t) (Some t))) eqn:X.
          + apply ckey_eqb_eq in X. split; [intros Y; left; repeat split; congruence|].
            intros [(_ & _ & _ & _ & ->)|[Y _]]; [reflexivity|]. exfalso. apply Y. repeat split; congruence.
          + split.
            * intros Y. right. split; [|exact Y]. intros (_ & -> & -> & ->).
              rewrite (proj2 (ckey_eqb_eq _ _) eq_refl) in X. discriminate.
            * intros [(_ & -> & -> & -> & _)|[_ Y]]; [|exact Y]. rewrite (proj2 (ckey_eqb_eq _ _) eq_refl) in X. discriminate.
        - rewrite CE by congruence. split; [intros Y; right; split; [tauto|exact Y]|].
          intros [(Y & _)|[_ Y]]; [contradiction|exact Y]. }
      assert (KEEP : forall x n k v, cached h x n k v -> cached h4 x n k v).
      { intros x n k v H. destruct (Nat.eq_dec x cid) as [->|Hx].
        - destruct n; try (unfold cached; rewrite CE by congruence; exact H).
          + unfold cached in *. rewrite CD, (dget_dset _ ckey_eqb_eq). destruct (ckey_eqb k (KD g t)) eqn:X; [|exact H].
            apply ckey_eqb_eq in X. subst k. congruence.
          + unfold cached in *. rewrite CCn, (dget_dset _ ckey_eqb_eq). destruct (ckey_eqb k (KC g (previous t) (Some t))) eqn:X; [|exact H].
            apply ckey_eqb_eq in X. subst k. congruence.
        - unfold cached. rewrite CE by congruence. exact H. }
      assert (KS : forall x g' l' s' b, starts_at h x g' l' s' b -> starts_at h4 x g' l' s' b).
      { intros x g' l' s' b. unfold starts_at. destruct (previous s'); [|auto]. apply KEEP. }
      assert (HERE : cached h4 cid CDiscr (KD g t) (VD d')) by (apply GD; left; auto).
      assert (CI4 : caches_ok h4).
      { constructor.
        - intros x g' s' v H. apply GD in H. destruct H as [(-> & -> & -> & ->)|[_ H]].
          + exists d', oid, dim, l, c, d. split; [reflexivity|]. split; [apply (registered_same _ _ _ S4); exact HR|].
            split; [apply GC; left; auto 6|]. split; [apply KS; exact HS|]. eapply HK; exact K.
          + destruct (co_discr HC H) as (d2 & o2 & dm2 & l2 & c2 & b2 & H1 & H2 & H3 & H4 & H5).
            exists d2, o2, dm2, l2, c2, b2. split; [exact H1|]. split; [apply (registered_same _ _ _ S4); exact H2|].
            split; [apply KEEP; exact H3|]. split; [apply KS; exact H4|exact H5].
        - intros x g' f' t' v H. apply GC in H. destruct H as [(-> & -> & -> & -> & ->)|[_ H]].
          + exists t, d'. auto.
          + destruct (co_conn HC H) as (s2 & d2 & H1 & H2 & H3). exists s2, d2. repeat split; auto. apply KEEP. exact H3.
        - intros x g' s'. rewrite LG, in_app_iff. intros [H|[H|[]]].
          + destruct (co_log HC _ _ _ H) as (d2 & H2). exists d2. apply KEEP. exact H2.
          + assert (x = cid) by congruence. assert (g' = g) by congruence. assert (s' = t) by congruence. subst. eauto.
        - rewrite LG. apply NoDup_snoc; [apply (co_once HC)|]. intros H. destruct (co_log HC _ _ _ H) as (d2 & H2).
          unfold cached_discr, cached in H2. congruence. }
      split; [unfold mbind, add_discr_to_cache, add_conn_to_cache; fold h2; rewrite E3, E4; reflexivity|].
      split; [|split; [exact HERE|]].
      * constructor; auto.
        -- apply (ad_ok A4).
        -- intros x n Hx. apply CE; congruence.
        -- intros n H1 H2. apply CE; congruence.
      * intros d2 D2. unfold cached_discr, cached in D2. congruence.
    + eexists _, (Err e). split; [reflexivity|].
      set (h2 := Heap (h_colls h1) (h_dicts h1) (S (h_clk h1)) (h_log h1)).
      assert (CE : forall x n, contents h2 x n = contents h x n) by (intros x n; exact (eq_cont Q1 x n)).
      split; [|split; [split; [eauto|intros n; apply CE]|]].
      * constructor.
        -- destruct (eq_ok Q1) as [a b c' d2]; constructor; [exact a|exact b|exact c'|exact d2].
        -- eapply caches_ok_equiv; [exact HC|exact (eq_objs Q1)|exact CE|exact (eq_log Q1)].
        -- exact (eq_objs Q1).
        -- intros x n _. apply CE.
        -- intros n _ _. apply CE.
        -- intros n k v H. unfold cached. fold h2. rewrite CE. exact H.
      * intros d2 D2. unfold cached_discr, cached in D2. congruence.
Qed.
