From Verif Require Import Base DofModel DofProps RefineModel RefineSpec RefineProofs CollModel CollSpec CollProofs CollProofs2 CollProofs3 CollProofs4.
Set Implicit Arguments.
Open Scope nat_scope.

Lemma check_additions_ok old new : check_additions old new = Ok tt ->
  forall g p, In (g, p) new -> dict_has old g = false /\ exists oid dim, p = PPoints oid dim \/ p = PPointSource oid dim.
Proof.
  induction new as [|[g p] new IH]; cbn [check_additions]; intros H g' p'; [intros []|intros [I|I]].
  - assert (g = g') by congruence. assert (p = p') by congruence. subst.
    destruct (dict_has old g'); [discriminate|]. split; [reflexivity|]. destruct p'; try discriminate; eauto.
  - destruct (dict_has old g); [discriminate|]. destruct p; try discriminate; eauto.
Qed.

Lemma copy_args_places c l aw c' : copy_args c (Some l) aw = Ok c' -> c_places c' = l /\ c_caches c' = [].
Proof.
  unfold copy_args. intros H. destruct (construct_shape _ _ H) as (d & au & au' & z & -> & P & _).
  cbn [c_places c_caches]. split; [|reflexivity]. unfold places_dict in P. destruct au as [s t]. cbn [bind] in P. congruence.
Qed.
Lemma copy_args_None_places c aw c' : copy_args c None aw = Ok c' -> c_places c' = c_places c /\ c_caches c' = [].
Proof.
  unfold copy_args. intros H. destruct (construct_shape _ _ H) as (d & au & au' & z & -> & P & _).
  cbn [c_places c_caches]. split; [|reflexivity]. unfold places_dict in P. destruct au as [s t]. cbn [bind] in P. congruence.
Qed.

Lemma contents_no_name h cid c n : has_coll h cid c -> ~ In n (map fst (c_caches c)) -> contents h cid n = [].
Proof.
  intros H N. unfold contents. unfold has_coll in H. rewrite H. apply (dget_None _ cname_eqb_eq) in N. rewrite N. reflexivity.
Qed.

Lemma cname_dec (a b : cname) : {a = b} + {a <> b}.
Proof. decide equality. apply Nat.eq_dec. Qed.

(** add_geometry_to_collection: the new collection, its places and its caches. *)
Lemma add_geometry_spec cid l h c : heap_ok h -> caches_ok h -> has_coll h cid c -> keys_unique l ->
  match (do _ <- check_additions (c_places c) l; copy_args c (Some (dupdate gid_eqb (c_places c) l)) AWNone) with
  | Err e => add_geometry cid l h = (h, Err e)
  | Ok c' => exists h', add_geometry cid l h = (h', Ok (length (h_colls h))) /\ evolves h h' None
      /\ (exists c2, has_coll h' (length (h_colls h)) c2 /\ c_places c2 = c_places c' /\ c_auto c2 = c_auto c' /\ c_dim c2 = c_dim c')
      /\ (forall n k v, cached h' (length (h_colls h)) n k v <-> known_cache n = true /\ cached h cid n k v)
  end.
Proof.
  intros HO HC Hc HK.
  assert (AG : add_geometry cid l h = match check_additions (c_places c) l with
     | Err e => (h, Err e)
     | Ok _ => mbind (merge_collection cid l) (fun new => mbind (copy_caches cid new (map fst (c_caches c))) (fun _ => ret new)) h end).
  { unfold add_geometry, mbind at 1, get_coll. unfold has_coll in Hc. rewrite Hc. unfold mbind at 1, lift.
    destruct (check_additions (c_places c) l) as [[]|e]; reflexivity. }
  rewrite AG. clear AG. destruct (check_additions (c_places c) l) as [[]|e] eqn:CA; cbn [bind]; [|reflexivity].
  assert (MS := @merge_spec cid l h c HO HC Hc).
  assert (AG : forall r, merge_collection cid l h = r -> mbind (merge_collection cid l) (fun new => mbind (copy_caches cid new (map fst (c_caches c))) (fun _ => ret new)) h
     = match r with (h1, Ok new) => mbind (copy_caches cid new (map fst (c_caches c))) (fun _ => ret new) h1 | (h1, Err e) => (h1, Err e) end).
  { intros r <-. unfold mbind at 1. destruct (merge_collection cid l h) as [h1 [n|e]]; reflexivity. }
  destruct (copy_args c (Some (dupdate gid_eqb (c_places c) l)) AWNone) as [c'|e] eqn:CP;
    [|rewrite (AG _ MS); reflexivity].
  destruct MS as (h1 & E1 & EV & NC & EM & LE & LG). rewrite (AG _ E1).
  set (new := length (h_colls h)) in *.
  assert (VC : valid h cid) by (apply valid_has; eauto).
  assert (NE : cid <> new) by (unfold valid in VC; unfold new; lia).
  assert (VC1 : valid h1 cid) by (unfold valid in *; lia).
  assert (VN1 : valid h1 new) by (unfold valid, new in *; lia).
  destruct (@copy_caches_spec cid new NE (map fst (c_caches c)) h1 (fun _ => False) (ev_ok EV) VC1 VN1)
    as (h2 & E2 & O2 & S2 & C2 & K2 & L2 & P2 & N2).
  { tauto. } { tauto. } { intros n k _. rewrite EM. reflexivity. }
  exists h2. split; [unfold mbind; rewrite E2; reflexivity|].
  assert (CC : forall n, contents h1 cid n = contents h cid n) by (intros n; apply (ev_else EV); [exact VC|discriminate]).
  assert (CN : forall n k v, cached h2 new n k v <-> known_cache n = true /\ cached h cid n k v).
  { intros n k v. unfold cached.
    destruct (in_dec cname_dec n (map fst (c_caches c))) as [I|I].
    - destruct (known_cache n) eqn:KN.
      + rewrite P2 by auto. rewrite CC. tauto.
      + rewrite N2; [split; [discriminate|intros [X _]; discriminate]|]. intros [[]|[_ X]]. congruence.
    - rewrite N2; [|intros [[]|[X _]]; contradiction]. rewrite (@contents_no_name h cid c n Hc I). cbn [dget].
      split; [discriminate|intros [_ X]; discriminate]. }
  assert (NEWC : exists c2, has_coll h2 new c2 /\ c_places c2 = c_places c' /\ c_auto c2 = c_auto c' /\ c_dim c2 = c_dim c')
    by (apply (proj2 S2); exact NC).
  split; [|split; [exact NEWC|exact CN]].
  assert (OLDC : forall x n, x <> new -> contents h2 x n = contents h x n).
  { intros x n Hx. rewrite C2 by exact Hx. destruct (Nat.lt_ge_cases x new) as [L|L].
    - apply (ev_else EV); [exact L|discriminate].
    - unfold contents. rewrite !(proj2 (nth_error_None _ _)) by (unfold new in *; lia). reflexivity. }
  assert (OBJ : forall x y, has_coll h x y -> exists y', has_coll h2 x y' /\ c_places y' = c_places y /\ c_auto y' = c_auto y /\ c_dim y' = c_dim y).
  { intros x y H. destruct (ev_objs EV H) as (y1 & H1 & A1 & A2 & A3). destruct (proj2 S2 _ _ H1) as (y2 & H2 & B1 & B2 & B3).
    exists y2. repeat split; congruence. }
  assert (REG : forall x g p, registered h x g p -> registered h2 x g p).
  { intros x g p (y & Hy & I). destruct (OBJ _ _ Hy) as (y' & Hy' & P & _). exists y'. split; [exact Hy'|]. rewrite P. exact I. }
  assert (REGN : forall g p, registered h cid g p -> registered h2 new g p).
  { intros g p (y & Hy & I). assert (y = c) by (unfold has_coll in *; congruence). subst y.
    destruct NEWC as (c2 & H2 & P & _). exists c2. split; [exact H2|]. rewrite P. rewrite (proj1 (copy_args_places _ _ _ CP)).
    apply (dget_In _ gid_eqb_eq). rewrite (dget_dupdate _ gid_eqb_eq) by exact HK.
    assert (D := In_dget _ gid_eqb_eq _ _ _ (ok_keys HO Hc) I).
    destruct (dget gid_eqb l g) as [p'|] eqn:G; [|exact D].
    apply (dget_In _ gid_eqb_eq) in G. destruct (check_additions_ok _ _ CA _ _ G) as [A _].
    unfold dict_has in A. rewrite D in A. discriminate. }
  assert (KEEP : forall x n k v, cached h x n k v -> cached h2 x n k v).
  { intros x n k v H. assert (V := cached_valid H). unfold cached. rewrite OLDC; [exact H|]. unfold valid in V. unfold new. lia. }
  constructor.
  - exact O2.
  - constructor.
    + intros x g s v H. destruct (Nat.eq_dec x new) as [->|Hx].
      * apply CN in H. destruct H as [_ H].
        destruct (co_discr HC H) as (d1 & o1 & m1 & l1 & c1 & b1 & H1 & H2 & H3 & H4 & H5).
        exists d1, o1, m1, l1, c1, b1. split; [exact H1|]. split; [apply REGN; exact H2|].
        split; [apply CN; auto|]. split; [|exact H5].
        unfold starts_at in *. destruct (previous s); [|exact H4]. apply CN. auto.
      * unfold cached in H. rewrite OLDC in H by exact Hx.
        destruct (co_discr HC H) as (d1 & o1 & m1 & l1 & c1 & b1 & H1 & H2 & H3 & H4 & H5).
        exists d1, o1, m1, l1, c1, b1. split; [exact H1|]. split; [apply REG; exact H2|].
        split; [apply KEEP; exact H3|]. split; [|exact H5].
        unfold starts_at in *. destruct (previous s); [|exact H4]. apply KEEP. exact H4.
    + intros x g f t v H. destruct (Nat.eq_dec x new) as [->|Hx].
      * apply CN in H. destruct H as [_ H]. destruct (co_conn HC H) as (s & d1 & H1 & H2 & H3).
        exists s, d1. split; [exact H1|]. split; [exact H2|]. apply CN. auto.
      * unfold cached in H. rewrite OLDC in H by exact Hx. destruct (co_conn HC H) as (s & d1 & H1 & H2 & H3).
        exists s, d1. split; [exact H1|]. split; [exact H2|]. apply KEEP. exact H3.
    + intros x g s. rewrite L2, LG. intros H. destruct (co_log HC _ _ _ H) as (d1 & H1). exists d1. apply KEEP. exact H1.
    + rewrite L2, LG. apply (co_once HC).
  - rewrite (proj1 S2), LE. lia.
  - exact OBJ.
  - intros x n V _. apply OLDC. unfold valid in V. unfold new. lia.
  - intros x n k v _ H. apply KEEP. exact H.
Qed.

Lemma refine_all_grows E pr cid s : forall gs h, heap_ok h -> caches_ok h ->
  exists h' r, refine_all E pr cid s gs h = (h', r) /\ grows h h' cid.
Proof.
  induction gs as [|g gs IH]; intros h HO HC; cbn [refine_all].
  - exists h, (Ok tt). split; [reflexivity|]. apply grows_refl; assumption.
  - destruct (as_dofdesc_ok (match g with None => LNone | Some x => LGeom x end)) as [dd Edd].
    unfold mbind at 1, lift. rewrite Edd. unfold mbind at 1.
    destruct (get_geometry_cases cid (geometry dd) HO) as [(p & HR & G)|[(G & HV & NR)|(G & NV)]]; rewrite G.
    + destruct (is_qbx p) eqn:Q.
      * destruct p as [oid dim l| | | | | |]; try discriminate.
        destruct (@refine_for_global_spec E pr h cid (geometry dd) s oid dim l HO HC HR) as (h1 & r1 & E1 & G1 & _).
        unfold mbind at 1. rewrite E1. destruct r1 as [u|e].
        -- destruct (IH h1 (gr_ok G1) (gr_ci G1)) as (h2 & r2 & E2 & G2). exists h2, r2. split; [exact E2|exact (grows_trans G1 G2)].
        -- exists h1, (Err e). split; [reflexivity|exact G1].
      * unfold mbind at 1, ret. apply IH; assumption.
    + eexists h, (Err KeyError). split; [reflexivity|apply grows_refl; assumption].
    + eexists h, (Err AssertionError). split; [reflexivity|apply grows_refl; assumption].
Qed.

(** * Connections *)
Lemma connection_spec E h cid from to : heap_ok h -> caches_ok h ->
  exists h' r, connection_from_dds E cid from to h = (h', r) /\ grows h h' cid
   /\ match r with
      | Ok c => exists p a b links, registered h' cid (geometry from) p /\ ~ unsupported p from to
          /\ denotes h' cid (geometry from) (discr_stage from) (GDiscr a)
          /\ denotes h' cid (geometry to) (discr_stage to) (GDiscr b)
          /\ c = Chained a links
          /\ (discr_stage from <> None \/ discr_stage to = None -> links_from a links b)
          /\ (forall oid dim l, p = PQBX oid dim l -> discr_stage from = None -> discr_stage to <> None -> links_from (l_density l) links b)
      | Err e =>
          (exists p, registered h cid (geometry from) p /\ unsupported p from to /\ e = ValueError)
          \/ (exists g s, (g = geometry from /\ s = discr_stage from \/ g = geometry to /\ s = discr_stage to)
               /\ (request_error E h' cid g e \/ (e = TypeError /\ exists p, registered h cid g p /\ denotes h' cid g s (GPlace p))))
      end.
Proof.
  intros HO HC. unfold connection_from_dds. unfold mbind at 1.
  destruct (get_geometry_cases cid (geometry from) HO) as [(p & HR & G)|[(G & HV & NR)|(G & NV)]]; rewrite G.
  2: { eexists h, (Err KeyError). split; [reflexivity|]. split; [apply grows_refl; assumption|].
       right. exists (geometry from), (discr_stage from). split; [auto|]. left. right. left. auto. }
  2: { eexists h, (Err AssertionError). split; [reflexivity|]. split; [apply grows_refl; assumption|].
       right. exists (geometry from), (discr_stage from). split; [auto|]. left. left. auto. }
  unfold mbind at 1.
  destruct (@get_discretization_spec E h cid (geometry from) (discr_stage from) HO HC) as (h1 & r1 & E1 & G1 & P1 & _). rewrite E1.
  assert (REQ : forall ha hb g e, grows ha hb cid -> request_error E ha cid g e -> request_error E hb cid g e).
  { intros ha hb g e GG [(A & B)|[(A & B & C)|(o & m & l & A & B)]].
    - left. split; [exact A|]. rewrite (grows_valid _ GG). exact B.
    - right. left. split; [exact A|]. split; [apply (grows_valid _ GG); exact B|]. intros q Hq.
      apply (registered_same _ _ _ (gr_objs GG)) in Hq. exact (C q Hq).
    - right. right. exists o, m, l. split; [apply (registered_same _ _ _ (gr_objs GG)); exact A|exact B]. }
  assert (DEN : forall ha hb g s x, grows ha hb cid -> denotes ha cid g s x -> denotes hb cid g s x).
  { intros ha hb g s x GG (q & A & B). exists q. split; [apply (registered_same _ _ _ (gr_objs GG)); exact A|].
    destruct q; auto. destruct B as (d & B1 & B2). exists d. split; [exact B1|apply (gr_keep GG); exact B2]. }
  destruct r1 as [a|e].
  2: { exists h1, (Err e). split; [reflexivity|]. split; [exact G1|]. right.
       exists (geometry from), (discr_stage from). split; [auto|]. destruct P1 as [P1|P1]; [left; eapply REQ; eauto|right; exact P1]. }
  destruct P1 as [DA SA]. unfold mbind at 1.
  destruct (@get_discretization_spec E h1 cid (geometry to) (discr_stage to) (gr_ok G1) (gr_ci G1)) as (h2 & r2 & E2 & G2 & P2 & _). rewrite E2.
  assert (G12 := grows_trans G1 G2).
  destruct r2 as [b|e].
  2: { exists h2, (Err e). split; [reflexivity|]. split; [exact G12|]. right.
       exists (geometry to), (discr_stage to). split; [auto|]. destruct P2 as [P2|(P2 & q & Q1 & Q2)]; [left; exact (REQ _ _ _ _ G2 P2)|right].
       split; [exact P2|]. exists q. split; [|exact Q2]. apply (registered_same _ _ _ (gr_objs G1)). exact Q1. }
  destruct P2 as [DB SB].
  assert (BAD : forall h', grows h h' cid -> unsupported p from to ->
     exists h'' r, (h', @Err conn ValueError) = (h'', r) /\ grows h h'' cid /\
      match r with
      | Ok c => exists p a b links, registered h'' cid (geometry from) p /\ ~ unsupported p from to
          /\ denotes h'' cid (geometry from) (discr_stage from) (GDiscr a)
          /\ denotes h'' cid (geometry to) (discr_stage to) (GDiscr b)
          /\ c = Chained a links
          /\ (discr_stage from <> None \/ discr_stage to = None -> links_from a links b)
          /\ (forall oid dim l, p = PQBX oid dim l -> discr_stage from = None -> discr_stage to <> None -> links_from (l_density l) links b)
      | Err e =>
          (exists p, registered h cid (geometry from) p /\ unsupported p from to /\ e = ValueError)
          \/ (exists g s, (g = geometry from /\ s = discr_stage from \/ g = geometry to /\ s = discr_stage to)
               /\ (request_error E h'' cid g e \/ (e = TypeError /\ exists p, registered h cid g p /\ denotes h'' cid g s (GPlace p))))
      end).
  { intros h' GG U. exists h', (Err ValueError). split; [reflexivity|]. split; [exact GG|]. left. eauto. }
  destruct (gid_eqb (geometry from) (geometry to)) eqn:GE; cbn [negb].
  2: { apply BAD; [exact G12|]. left. intros X. apply gid_eqb_eq in X. congruence. }
  apply gid_eqb_eq in GE.
  destruct (gran_eqb (granularity from) NODE) eqn:GR; cbn [negb].
  2: { apply BAD; [exact G12|]. right. left. intros X. apply gran_eqb_eq in X. congruence. }
  apply gran_eqb_eq in GR.
  assert (HR2 : registered h2 cid (geometry from) p) by (apply (registered_same _ _ _ (gr_objs G12)); exact HR).
  destruct (opt_eqb stage_eqb (discr_stage from) (discr_stage to)) eqn:SE.
  - apply (opt_eqb_eq _ stage_eqb_eq) in SE. unfold mbind at 1, ret at 1.
    destruct (gran_eqb (granularity from) (granularity to)) eqn:GT.
    2: { apply BAD; [exact G12|]. right. right. left. intros X. rewrite GR, X in GT. discriminate. }
    apply gran_eqb_eq in GT. unfold ret. eexists h2, (Ok _). split; [reflexivity|]. split; [exact G12|].
    exists p, a, b, []. split; [exact HR2|]. split; [intros [U|[U|[U|[U _]]]]; congruence|].
    split; [exact (DEN _ _ _ _ _ G2 DA)|]. split; [exact DB|]. split; [reflexivity|].
    assert (AB : a = b).
    { assert (DA2 := DEN _ _ _ _ _ G2 DA). rewrite <- GE, <- SE in DB. destruct DA2 as (q & Q1 & Q2), DB as (q' & Q1' & Q2').
      assert (q = q') by (eapply registered_unique; [apply (gr_ok G2)|exact Q1|exact Q1']). subst q'.
      destruct q; try congruence. destruct Q2 as (x & X1 & X2), Q2' as (y & Y1 & Y2). assert (Z := cached_fun X2 Y2). congruence. }
    subst b. split; [intros _; constructor|]. intros oid dim l _ X Y. congruence.
  - destruct (is_qbx p) eqn:QB; cbn [negb].
    2: { apply BAD; [exact G12|]. right. right. right. split; [|left; intros Q; destruct Q; discriminate QB]. intros X. apply (opt_eqb_eq _ stage_eqb_eq) in X. congruence. }
    destruct (opt_eqb stage_eqb (discr_stage to) (Some QUAD_STAGE2)) eqn:TE; cbn [negb].
    2: { apply BAD; [exact G12|]. right. right. right. split.
         - intros X. apply (opt_eqb_eq _ stage_eqb_eq) in X. congruence.
         - right. intros X. apply (opt_eqb_eq _ stage_eqb_eq) in X. congruence. }
    apply (opt_eqb_eq _ stage_eqb_eq) in TE.
    destruct p as [oid dim l| | | | | |]; try discriminate.
    assert (HR1 : registered h1 cid (geometry to) (PQBX oid dim l)) by (rewrite <- GE; apply (registered_same _ _ _ (gr_objs G1)); exact HR).
    assert (ALL : forall s', exists d', cached_discr h2 cid (geometry from) s' d').
    { intros s'. rewrite GE. eapply SB; [exact HR1|]. rewrite TE. cbn. destruct s'; cbn; lia. }
    unfold mbind at 1.
    destruct (@stage_conns_spec oid dim l cid (geometry from) (ostage_index (discr_stage to) - ostage_index (discr_stage from))
       (ostage_index (discr_stage from)) h2 (gr_ok G2) (gr_ci G2) HR2) as (h3 & cs & E3 & Q3 & L3 & C3).
    { rewrite TE. cbn [ostage_index stage_index]. destruct (discr_stage from) as [[]|]; cbn; lia. }
    { intros s' _. apply ALL. }
    rewrite E3. assert (G3 := @grows_equiv h2 h3 cid (gr_ci G2) Q3). assert (G13 := grows_trans G12 G3).
    destruct (gran_eqb (granularity from) (granularity to)) eqn:GT.
    2: { apply BAD; [exact G13|]. right. right. left. intros X. rewrite GR, X in GT. discriminate. }
    apply gran_eqb_eq in GT. unfold ret. eexists h3, (Ok _). split; [reflexivity|]. split; [exact G13|].
    assert (DIFF : discr_stage from <> discr_stage to) by (intros X; apply (opt_eqb_eq _ stage_eqb_eq) in X; congruence).
    exists (PQBX oid dim l), a, b, cs.
    split; [apply (registered_same _ _ _ (gr_objs G13)); exact HR|].
    split; [intros [U|[U|[U|[_ [U|U]]]]]; try congruence; apply U; constructor|].
    split; [apply (DEN h1 h3); [exact (grows_trans G2 G3)|exact DA]|]. split; [apply (DEN h2 h3); [exact G3|exact DB]|]. split; [reflexivity|].
    assert (BQ : cached_discr h2 cid (geometry from) QUAD_STAGE2 b).
    { destruct DB as (q & Q1 & Q2). rewrite <- GE in Q1.
      assert (q = PQBX oid dim l) by (eapply registered_unique; [apply (gr_ok G2)|exact Q1|exact HR2]). subst q.
      destruct Q2 as (x & X1 & X2). rewrite TE in X2. cbn in X2. rewrite GE. congruence. }
    assert (AQ : cached_discr h2 cid (geometry from) (the_stage (discr_stage from)) a).
    { destruct DA as (q & Q1 & Q2). assert (q = PQBX oid dim l).
      { eapply registered_unique; [apply (gr_ok G1)|exact Q1|]. apply (registered_same _ _ _ (gr_objs G1)). exact HR. }
      subst q. destruct Q2 as (x & X1 & X2). apply (gr_keep G2). congruence. }
    assert (LAST : forall x, stands_at h2 cid (geometry from) l
        (ostage_index (discr_stage from) + (ostage_index (discr_stage to) - ostage_index (discr_stage from))) x -> x = b).
    { intros x. rewrite TE. replace (ostage_index (discr_stage from) + (ostage_index (Some QUAD_STAGE2) - ostage_index (discr_stage from))) with 3
        by (cbn [ostage_index stage_index]; destruct (discr_stage from) as [[]|]; cbn; lia).
      unfold stands_at. cbn [stage_name]. intros X. assert (Y := cached_fun X BQ). congruence. }
    split.
    + intros NN. destruct (C3 a) as (x & X1 & X2).
      { unfold stands_at. destruct (discr_stage from) as [[]|] eqn:DS; cbn; try exact AQ. exfalso. destruct NN as [NN|NN]; congruence. }
      rewrite <- (LAST x X1). exact X2.
    + intros oid' dim' l' EQ FN _. assert (l' = l) by congruence. subst l'.
      destruct (C3 (l_density l)) as (x & X1 & X2).
      { unfold stands_at. rewrite FN. reflexivity. }
      rewrite <- (LAST x X1). exact X2.
Qed.

(** * Histories *)
Lemma user_cache_evolves cid n k v h : heap_ok h -> caches_ok h ->
  exists h' r, user_cache cid n k v h = (h', r) /\ evolves h h' (Some cid) /\ (r <> Ok tt -> h' = h).
Proof.
  intros HO HC. destruct (Nat.lt_ge_cases cid (length (h_colls h))) as [V|V].
  2: { exists h, (Err AssertionError). split; [|split; [apply evolves_refl; assumption|reflexivity]].
       unfold user_cache, mbind at 1, get_cache, mbind at 1. rewrite no_coll by (unfold valid; lia). reflexivity. }
  destruct (get_cache_spec n HO V) as (h1 & r & E1 & Q1 & R1).
  assert (C1 : nth r (h_dicts h1) [] = contents h cid n) by (rewrite <- (eq_cont Q1 cid n), contents_ref, R1; reflexivity).
  assert (ND : NoDup (map fst (dset ckey_eqb (nth r (h_dicts h1) []) (KO k) (VO v)))).
  { apply (dset_NoDup _ ckey_eqb_eq). apply (ok_dicts (eq_ok Q1)). }
  destruct (@write_spec h1 cid n r _ (eq_ok Q1) R1 ND) as (h2 & E2 & O2 & S2 & C2 & X2 & K2 & L2 & _).
  exists h2, (Ok tt). split; [unfold user_cache, mbind, read; rewrite E1; exact E2|]. split; [|congruence].
  assert (SO : same_objects h h2) by (eapply same_objects_trans; [apply (eq_objs Q1)|exact S2]).
  assert (SAME : forall x m key w, (forall q, key <> KO q) -> (cached h2 x m key w <-> cached h x m key w)).
  { intros x m key w HK. unfold cached. destruct (Nat.eq_dec x cid) as [->|Hx].
    - destruct (cname_eqb m n) eqn:MN.
      + apply cname_eqb_eq in MN. subst m. rewrite C2, (dget_dset _ ckey_eqb_eq), C1.
        destruct (ckey_eqb key (KO k)) eqn:Z; [apply ckey_eqb_eq in Z; exfalso; exact (HK k Z)|]. reflexivity.
      + rewrite X2, (eq_cont Q1); [reflexivity|]. intros Y. assert (m = n) by congruence. subst.
        rewrite (proj2 (cname_eqb_eq n n) eq_refl) in MN. discriminate.
    - rewrite X2, (eq_cont Q1) by congruence. reflexivity. }
  constructor.
  - exact O2.
  - constructor.
    + intros x g s w H. apply SAME in H; [|discriminate].
      destruct (co_discr HC H) as (d1 & o1 & m1 & l1 & c1 & b1 & H1 & H2 & H3 & H4 & H5).
      exists d1, o1, m1, l1, c1, b1. split; [exact H1|]. split; [apply (registered_same _ _ _ SO); exact H2|].
      split; [apply SAME; [discriminate|exact H3]|]. split; [|exact H5].
      unfold starts_at in *. destruct (previous s); [|exact H4]. apply SAME; [discriminate|exact H4].
    + intros x g f t w H. apply SAME in H; [|discriminate]. destruct (co_conn HC H) as (s & d1 & H1 & H2 & H3).
      exists s, d1. split; [exact H1|]. split; [exact H2|]. apply SAME; [discriminate|exact H3].
    + intros x g s. rewrite L2, (eq_log Q1). intros H. destruct (co_log HC _ _ _ H) as (d1 & H1). exists d1. apply SAME; [discriminate|exact H1].
    + rewrite L2, (eq_log Q1). apply (co_once HC).
  - rewrite (proj1 SO). lia.
  - exact (proj2 SO).
  - intros x m V' Hx. rewrite X2, (eq_cont Q1) by congruence. reflexivity.
  - intros x m key w HK H. apply SAME; assumption.
Qed.

Lemma exec_evolves E o h h' r : heap_ok h -> caches_ok h -> op_wf o -> exec E o h = (h', r) -> evolves h h' (op_target o).
Proof.
  intros HO HC HW H.
  assert (COPY : forall cid places aw, match places with Some l => keys_unique l | None => True end ->
     forall h' r, copy_collection cid places aw h = (h', r) -> evolves h h' None
       /\ (forall i, r = Ok i -> ~ valid h i)).
  { intros cid places aw HK h1 r1 H1. destruct (Nat.lt_ge_cases cid (length (h_colls h))) as [V|V].
    - apply valid_has in V. destruct V as [c Hc]. assert (K := @copy_spec cid places aw h c HO HC Hc HK).
      destruct (copy_args c places aw) as [c'|e].
      + destruct K as (h2 & E2 & EV & _). assert (h1 = h2) by congruence. subst. split; [exact EV|].
        intros i Hi. assert (i = length (h_colls h)) by congruence. subst. unfold valid. lia.
      + assert (h1 = h) by congruence. assert (r1 = Err e) by congruence. subst. split; [apply evolves_refl; assumption|discriminate].
    - unfold copy_collection, mbind in H1. rewrite no_coll in H1 by (unfold valid; lia).
      assert (h1 = h) by congruence. assert (r1 = Err AssertionError) by congruence. subst. split; [apply evolves_refl; assumption|discriminate]. }
  destruct o as [a aw|cid g s|cid g s|cid g s|cid f t|cid places aw|cid l|cid l|cid st n pr|cid n k v]; cbn [exec op_target] in *;
    unfold mbind at 1 in H.
  - assert (HK : match a with AMap l => keys_unique l | _ => True end) by (destruct a; auto).
    assert (K := @new_collection_spec a aw h HO HC HK). destruct (construct a aw) as [c|e].
    + destruct K as (h2 & E2 & EV & _). rewrite E2 in H. unfold ret in H. assert (h' = h2) by congruence. subst. exact EV.
    + rewrite K in H. assert (h' = h) by congruence. subst. apply evolves_refl; assumption.
  - destruct (@get_discretization_spec E h cid g s HO HC) as (h2 & r2 & E2 & G2 & _). rewrite E2 in H.
    assert (h' = h2) by (destruct r2; unfold ret in H; congruence). subst. apply grows_evolves. exact G2.
  - destruct (@get_target_grows E h cid g s HO HC) as (h2 & r2 & E2 & G2). rewrite E2 in H.
    assert (h' = h2) by (destruct r2; unfold ret in H; congruence). subst. apply grows_evolves. exact G2.
  - destruct (@get_source_grows E h cid g s HO HC) as (h2 & r2 & E2 & G2). rewrite E2 in H.
    assert (h' = h2) by (destruct r2; unfold ret in H; congruence). subst. apply grows_evolves. exact G2.
  - destruct (@connection_spec E h cid f t HO HC) as (h2 & r2 & E2 & G2 & _). rewrite E2 in H.
    assert (h' = h2) by (destruct r2; unfold ret in H; congruence). subst. apply grows_evolves. exact G2.
  - destruct (copy_collection cid places aw h) as [h2 r2] eqn:E2.
    assert (HK : match places with Some l => keys_unique l | None => True end) by (destruct places; auto).
    destruct (COPY cid places aw HK h2 r2 E2) as [EV _].
    assert (h' = h2) by (destruct r2; unfold ret in H; congruence). subst. exact EV.
  - destruct (merge_collection cid l h) as [h2 r2] eqn:E2.
    assert (h' = h2) by (destruct r2; unfold ret in H; congruence). subst.
    destruct (Nat.lt_ge_cases cid (length (h_colls h))) as [V|V].
    + apply valid_has in V. destruct V as [c Hc]. assert (K := @merge_spec cid l h c HO HC Hc).
      destruct (copy_args c (Some (dupdate gid_eqb (c_places c) l)) AWNone) as [c'|e].
      * destruct K as (h3 & E3 & EV & _). assert (h2 = h3) by congruence. subst. exact EV.
      * assert (h2 = h) by congruence. subst. apply evolves_refl; assumption.
    + unfold merge_collection, mbind in E2. rewrite no_coll in E2 by (unfold valid; lia).
      assert (h2 = h) by congruence. subst. apply evolves_refl; assumption.
  - destruct (add_geometry cid l h) as [h2 r2] eqn:E2.
    assert (h' = h2) by (destruct r2; unfold ret in H; congruence). subst.
    destruct (Nat.lt_ge_cases cid (length (h_colls h))) as [V|V].
    + apply valid_has in V. destruct V as [c Hc]. assert (K := @add_geometry_spec cid l h c HO HC Hc HW).
      destruct (do _ <- check_additions (c_places c) l; copy_args c (Some (dupdate gid_eqb (c_places c) l)) AWNone) as [c'|e].
      * destruct K as (h3 & E3 & EV & _). assert (h2 = h3) by congruence. subst. exact EV.
      * assert (h2 = h) by congruence. subst. apply evolves_refl; assumption.
    + unfold add_geometry, mbind at 1 in E2. rewrite no_coll in E2 by (unfold valid; lia).
      assert (h2 = h) by congruence. subst. apply evolves_refl; assumption.
  - destruct (refine_geometry_collection E cid st n pr h) as [h2 r2] eqn:E2.
    assert (h' = h2) by (destruct r2; unfold ret in H; congruence). subst.
    unfold refine_geometry_collection, mbind at 1 in E2.
    destruct (copy_collection cid None AWNone h) as [h3 r3] eqn:E3.
    destruct (COPY cid None AWNone I h3 r3 E3) as [EV NV].
    destruct r3 as [new|e]; [|assert (h2 = h3) by congruence; subst; exact EV].
    specialize (NV new eq_refl). unfold mbind at 1 in E2.
    unfold get_coll in E2. destruct (nth_error (h_colls h3) new) as [c|] eqn:EC; [|assert (h2 = h3) by congruence; subst; exact EV].
    unfold mbind at 1 in E2.
    match type of E2 with context [refine_all E ?p new ?s ?gs] =>
      destruct (@refine_all_grows E p new s gs h3 (ev_ok EV) (ev_ci EV)) as (h4 & r4 & E4 & G4) end.
    rewrite E4 in E2. assert (h2 = h4) by (destruct r4; unfold ret in E2; congruence). subst.
    eapply evolves_new_then; [exact EV|exact NV|apply grows_evolves; exact G4].
  - destruct (@user_cache_evolves cid n k v h HO HC) as (h2 & r2 & E2 & EV & _). rewrite E2 in H.
    assert (h' = h2) by (destruct r2; unfold ret in H; congruence). subst. exact EV.
Qed.

Lemma empty_ok : heap_ok empty_heap /\ caches_ok empty_heap.
Proof.
  assert (NC : forall i, nth_error (@nil coll) i = None) by (intros []; reflexivity).
  assert (CN : forall cid n k v, ~ cached empty_heap cid n k v).
  { intros cid n k v H. unfold cached, contents, empty_heap in H. cbn [h_colls] in H. rewrite NC in H. discriminate. }
  assert (RN : forall cid n r, ref_of empty_heap cid n <> Some r).
  { intros cid n r H. unfold ref_of, empty_heap in H. cbn [h_colls] in H. rewrite NC in H. discriminate. }
  split; constructor.
  - intros cid n r H. exfalso. exact (RN _ _ _ H).
  - intros cid n cid' n' r H. exfalso. exact (RN _ _ _ H).
  - intros cid c H. unfold has_coll, empty_heap in H. cbn [h_colls] in H. rewrite NC in H. discriminate.
  - intros [|r]; constructor.
  - intros cid g s v H. exfalso. exact (CN _ _ _ _ H).
  - intros cid g f t v H. exfalso. exact (CN _ _ _ _ H).
  - intros cid g s [].
  - constructor.
Qed.

Lemma steps_keep hist : forall h h', heap_ok h -> caches_ok h -> steps h hist h' ->
  heap_ok h' /\ caches_ok h'
  /\ (forall cid g p, registered h cid g p -> registered h' cid g p)
  /\ (forall cid n k v, (forall m, k <> KO m) -> cached h cid n k v -> cached h' cid n k v)
  /\ (forall cid, valid h cid -> valid h' cid)
  /\ (forall cid, valid h cid -> Forall (fun eo => op_target (snd eo) <> Some cid) hist -> unchanged h h' cid).
Proof.
  induction hist as [|[E o] hist IH]; intros h h' HO HC H; inversion H as [|? ? ? ? h1 r ? W X S']; subst.
  - split; [exact HO|]. split; [exact HC|]. split; [auto|]. split; [auto|]. split; [auto|].
    intros cid _ _. split; [|reflexivity]. intros c Hc. exists c. auto.
  - assert (EV := @exec_evolves E o h h1 r HO HC W X). destruct (IH h1 h' (ev_ok EV) (ev_ci EV) S') as (A & B & C & D & F & G).
    split; [exact A|]. split; [exact B|]. split; [intros; apply C; eapply evolves_registered; eauto|].
    split; [intros cid n k v Hk Hc; apply D; [exact Hk|apply (ev_keep EV); assumption]|].
    assert (VV : forall cid, valid h cid -> valid h1 cid) by (intros cid V; unfold valid in *; assert (L := ev_len EV); lia).
    split; [intros cid V; apply F, VV, V|].
    intros cid V FA. inversion FA as [|? ? N FA']; subst. cbn [snd] in N.
    destruct (G cid (VV cid V) FA') as [G1 G2]. split.
    + intros c Hc. destruct (ev_objs EV Hc) as (c1 & H1 & P1 & P2 & P3). destruct (G1 c1 H1) as (c2 & H2 & Q1 & Q2 & Q3).
      exists c2. repeat split; congruence.
    + intros n. rewrite G2. apply (ev_else EV); assumption.
Qed.

Lemma reachable_ok h : reachable h -> heap_ok h /\ caches_ok h.
Proof.
  intros [hist H]. destruct empty_ok as [A B]. destruct (steps_keep A B H) as (X & Y & _). auto.
Qed.
