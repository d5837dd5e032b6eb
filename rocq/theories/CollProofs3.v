From Verif Require Import Base DofModel DofProps RefineModel RefineSpec RefineProofs CollModel CollSpec CollProofs CollProofs2.
Set Implicit Arguments.
Open Scope nat_scope.

Lemma get_geometry_reg h cid g p : heap_ok h -> registered h cid g p -> get_geometry cid g h = (h, Ok p).
Proof.
  intros HO (c & Hc & I). unfold get_geometry, mbind, get_coll. unfold has_coll in Hc. rewrite Hc.
  rewrite (In_dget _ gid_eqb_eq _ _ _ (ok_keys HO Hc) I). reflexivity.
Qed.
Lemma get_geometry_cases h cid g : heap_ok h ->
  (exists p, registered h cid g p /\ get_geometry cid g h = (h, Ok p))
  \/ (get_geometry cid g h = (h, Err KeyError) /\ valid h cid /\ forall p, ~ registered h cid g p)
  \/ (get_geometry cid g h = (h, Err AssertionError) /\ ~ valid h cid).
Proof.
  intros HO. unfold get_geometry, mbind, get_coll, registered, valid, has_coll.
  destruct (nth_error (h_colls h) cid) as [c|] eqn:E.
  - destruct (dget gid_eqb (c_places c) g) as [p|] eqn:D.
    + left. exists p. split; [|reflexivity]. exists c. split; [reflexivity|]. apply (dget_In _ gid_eqb_eq _ _ D).
    + right. left. split; [reflexivity|]. split; [apply nth_error_Some; congruence|].
      intros p (c' & Hc & I). assert (c' = c) by congruence. subst. apply (dget_None _ gid_eqb_eq) in D. apply D.
      apply (in_map fst) in I. exact I.
  - right. right. split; [reflexivity|]. apply nth_error_None in E. lia.
Qed.
Lemma registered_valid h cid g p : registered h cid g p -> valid h cid.
Proof. intros (c & Hc & _). apply valid_has. eauto. Qed.

Lemma refine_for_global_spec E pr h cid g s oid dim l :
  heap_ok h -> caches_ok h -> registered h cid g (PQBX oid dim l) ->
  exists h' r, refine_for_global_qbx E pr cid g s h = (h', r) /\ grows h h' cid
    /\ match r with
       | Ok _ => forall s', stage_index s' <= stage_index s -> exists d, cached_discr h' cid g s' d
       | Err e => refinement_fails E pr l e
       end.
Proof.
  intros HO HC HR. assert (HV := registered_valid HR).
  unfold refine_for_global_qbx, mbind at 1. rewrite (get_geometry_reg HO HR).
  match goal with |- context [stage_step cid g None STAGE1 ?f ?d] =>
    destruct (@stage_step_spec h cid g STAGE1 oid dim l f d HO HC HV HR eq_refl) as (h1 & r1 & E1 & G1 & P1 & _) end.
  { intros clk d d' c w clk'. apply stage1_connects. }
  cbn [previous] in E1. unfold mbind at 1. rewrite E1.
  destruct r1 as [d1|e1].
  2: { exists h1, (Err e1). split; [reflexivity|]. split; [exact G1|]. left. exact (proj1 P1). }
  destruct (stage_index s <? 2) eqn:S2.
  { exists h1, (Ok tt). split; [reflexivity|]. split; [exact G1|]. intros s' Hs. apply Nat.ltb_lt in S2.
    destruct s'; cbn in Hs; [eauto| |]; lia. }
  assert (HR1 : registered h1 cid g (PQBX oid dim l)) by (apply (registered_same _ _ _ (gr_objs G1)); exact HR).
  match goal with |- context [stage_step cid g (Some STAGE1) STAGE2 ?f ?d] =>
    destruct (@stage_step_spec h1 cid g STAGE2 oid dim l f d (gr_ok G1) (gr_ci G1) (proj2 (grows_valid _ G1) HV) HR1) as (h2 & r2 & E2 & G2 & P2 & _) end.
  { exact P1. }
  { intros clk d d' c w clk'. apply stage2_connects. }
  cbn [previous] in E2. unfold mbind at 1. rewrite E2.
  assert (G12 := grows_trans G1 G2).
  destruct r2 as [d2|e2].
  2: { exists h2, (Err e2). split; [reflexivity|]. split; [exact G12|]. right. destruct P2 as [[clk P2] _]. exists clk, d1. exact P2. }
  assert (P1' : cached_discr h2 cid g STAGE1 d1) by (apply (gr_keep G2); exact P1).
  destruct (stage_index s <? 3) eqn:S3.
  { exists h2, (Ok tt). split; [reflexivity|]. split; [exact G12|]. intros s' Hs. apply Nat.ltb_lt in S3.
    destruct s'; cbn in Hs; [eauto|eauto|]; lia. }
  assert (HR2 : registered h2 cid g (PQBX oid dim l)) by (apply (registered_same _ _ _ (gr_objs G12)); exact HR).
  match goal with |- context [stage_step cid g (Some STAGE2) QUAD_STAGE2 ?f ?d] =>
    destruct (@stage_step_spec h2 cid g QUAD_STAGE2 oid dim l f d (gr_ok G2) (gr_ci G2) (proj2 (grows_valid _ G12) HV) HR2) as (h3 & r3 & E3 & G3 & P3 & _) end.
  { exact P2. }
  { intros clk d d' c w clk'. apply quad_connects. }
  cbn [previous] in E3. unfold mbind at 1. rewrite E3.
  assert (G13 := grows_trans G12 G3).
  destruct r3 as [d3|e3].
  - exists h3, (Ok tt). split; [reflexivity|]. split; [exact G13|]. intros s' _.
    destruct s'; [exists d1|exists d2|exists d3]; try exact P3; apply (gr_keep G3); assumption.
  - destruct P3 as [[clk P3] _]. discriminate.
Qed.

Lemma get_qbx_spec E h cid g s oid dim l :
  heap_ok h -> caches_ok h -> registered h cid g (PQBX oid dim l) ->
  exists h' r, get_qbx_discretization E cid g s h = (h', r) /\ grows h h' cid
    /\ match r with
       | Ok d => cached_discr h' cid g s d
       | Err e => refinement_fails E default_params l e
       end
    /\ (forall d, cached_discr h cid g s d -> r = Ok d /\ equiv h h')
    /\ (forall d, r = Ok d -> forall s', stage_index s' <= stage_index s -> exists d', cached_discr h' cid g s' d').
Proof.
  intros HO HC HR. assert (HV := registered_valid HR).
  unfold get_qbx_discretization, mbind at 1. rewrite (get_geometry_reg HO HR). unfold catch_key.
  destruct (get_discr_spec g s HO HC HV) as (h1 & Q1 & [(d0 & D0 & G)|[N G]]); rewrite G.
  - exists h1, (Ok d0). split; [reflexivity|]. split; [apply grows_equiv; assumption|].
    split; [apply (equiv_cached _ _ _ _ Q1); exact D0|]. split.
    + intros d D. split; [|exact Q1]. assert (X := cached_fun D0 D). congruence.
    + intros d _. assert (PRE : forall s1 d1, cached_discr h cid g s1 d1 ->
        match previous s1 with Some s2 => exists d2, cached_discr h cid g s2 d2 | None => True end).
      { intros s1 d1 D1. destruct (co_discr HC D1) as (d9 & o9 & m9 & l9 & c9 & b & _ & _ & _ & SA & _).
        unfold starts_at in SA. destruct (previous s1); [eauto|exact I]. }
      assert (ALL : forall s', stage_index s' <= stage_index s -> exists d', cached_discr h cid g s' d').
      { destruct s.
        - intros s' Hs. destruct s'; cbn in Hs; [eauto|lia|lia].
        - destruct (PRE _ _ D0) as [d1 D1]. intros s' Hs. destruct s'; cbn in Hs; [eauto|eauto|lia].
        - destruct (PRE _ _ D0) as [d2 D2]. destruct (PRE _ _ D2) as [d1 D1]. intros s' _. destruct s'; eauto. }
      intros s' Hs. destruct (ALL s' Hs) as [d' D']. exists d'. apply (equiv_cached _ _ _ _ Q1). exact D'.
  - assert (GQ := @grows_equiv h h1 cid HC Q1).
    assert (HR1 : registered h1 cid g (PQBX oid dim l)) by (apply (registered_same _ _ _ (eq_objs Q1)); exact HR).
    destruct (@refine_for_global_spec E default_params h1 cid g s oid dim l (eq_ok Q1) (gr_ci GQ) HR1) as (h2 & r2 & E2 & G2 & P2).
    unfold mbind. rewrite E2. assert (G12 := grows_trans GQ G2).
    destruct r2 as [u|e].
    + assert (V2 : valid h2 cid) by (apply (grows_valid _ G12); exact HV).
      destruct (get_discr_spec g s (gr_ok G2) (gr_ci G2) V2) as (h3 & Q3 & [(d3 & D3 & G3)|[N3 G3]]).
      * exists h3, (Ok d3). split; [exact G3|]. assert (GQ3 := @grows_equiv h2 h3 cid (gr_ci G2) Q3).
        split; [exact (grows_trans G12 GQ3)|]. split; [apply (equiv_cached _ _ _ _ Q3); exact D3|].
        split; [intros d D; unfold cached_discr, cached in D; congruence|].
        intros d _ s' Hs. destruct (P2 s' Hs) as [d' D']. exists d'. apply (equiv_cached _ _ _ _ Q3). exact D'.
      * exfalso. destruct (P2 s (le_n _)) as [d D]. unfold cached_discr, cached in D. congruence.
    + exists h2, (Err e). split; [reflexivity|]. split; [exact G12|]. split; [exact P2|].
      split; [intros d D; unfold cached_discr, cached in D; congruence|discriminate].
Qed.

(** The discretization or geometry a request should yield. *)
Lemma get_dog_spec E h cid g s : heap_ok h -> caches_ok h ->
  exists h' r, get_discretization_or_geometry E cid g s h = (h', r) /\ grows h h' cid
    /\ match r with
       | Ok x => denotes h' cid g s x
           /\ (forall oid dim l, registered h cid g (PQBX oid dim l) ->
                forall s', stage_index s' <= stage_index (the_stage s) -> exists d', cached_discr h' cid g s' d')
       | Err e => request_error E h cid g e
       end
    /\ (forall x, denotes h cid g s x -> r = Ok x /\ equiv h h').
Proof.
  intros HO HC. unfold get_discretization_or_geometry, mbind at 1.
  destruct (get_geometry_cases cid g HO) as [(p & HR & G)|[(G & HV & NR)|(G & NV)]]; rewrite G.
  - assert (U : forall p', registered h cid g p' -> p' = p) by (intros p' H; eapply registered_unique; eauto).
    destruct p as [oid dim l|oid dim d|oid dim|oid dim|oid dim|d dim|oid].
    1: { destruct (@get_qbx_spec E h cid g (the_stage s) oid dim l HO HC HR) as (h' & r & E1 & G1 & P1 & P2 & P3).
         unfold the_stage in E1. unfold mbind. rewrite E1.
         destruct r as [d|e].
         - exists h', (Ok (GDiscr d)). split; [reflexivity|]. split; [exact G1|].
           split; [split|].
           + exists (PQBX oid dim l). split; [apply (registered_same _ _ _ (gr_objs G1)); exact HR|]. exists d. split; [reflexivity|exact P1].
           + intros _ _ _ _. apply (P3 d eq_refl).
           + intros x (p' & HR' & X). rewrite (U p' HR') in X. destruct X as (d' & -> & D').
             destruct (P2 d' D') as [P2a P2b]. split; [congruence|exact P2b].
         - exists h', (Err e). split; [reflexivity|]. split; [exact G1|]. split; [right; right; eauto 6|].
           intros x (p' & HR' & X). rewrite (U p' HR') in X. destruct X as (d' & -> & D').
           destruct (P2 d' D') as [P2a P2b]. discriminate. }
    all: eexists h, (Ok _); split; [reflexivity|]; split; [apply grows_refl; assumption|]; split;
      [split; [eexists; split; [exact HR|reflexivity]|intros oid' dim' l' HR'; apply U in HR'; discriminate]
      |intros x (p' & HR' & X); rewrite (U p' HR') in X; split; [congruence|apply equiv_refl; exact HO]].
  - exists h, (Err KeyError). split; [reflexivity|]. split; [apply grows_refl; assumption|]. split; [right; left; auto|].
    intros x (p & HR & _). exfalso. exact (NR p HR).
  - exists h, (Err AssertionError). split; [reflexivity|]. split; [apply grows_refl; assumption|]. split; [left; auto|].
    intros x (p & HR & _). exfalso. apply NV. eapply registered_valid; eauto.
Qed.

Definition is_disc (x : geo) : bool := match x with GDiscr _ => true | _ => false end.

Lemma get_discretization_spec E h cid g s : heap_ok h -> caches_ok h ->
  exists h' r, get_discretization E cid g s h = (h', r) /\ grows h h' cid
    /\ match r with
       | Ok d => denotes h' cid g s (GDiscr d)
           /\ (forall oid dim l, registered h cid g (PQBX oid dim l) ->
                forall s', stage_index s' <= stage_index (the_stage s) -> exists d', cached_discr h' cid g s' d')
       | Err e => request_error E h cid g e
           \/ (e = TypeError /\ exists p, registered h cid g p /\ denotes h' cid g s (GPlace p))
       end
    /\ (forall d, denotes h cid g s (GDiscr d) -> r = Ok d /\ equiv h h').
Proof.
  intros HO HC. destruct (@get_dog_spec E h cid g s HO HC) as (h' & r & E1 & G1 & P1 & P2).
  unfold get_discretization, get_target_or_discretization, mbind. rewrite E1.
  destruct r as [x|e].
  - destruct P1 as [P1 P3]. assert (P1' := P1). destruct P1' as (p & HR & X).
    apply (registered_same _ _ _ (gr_objs G1)) in HR.
    assert (TY : forall q, x = GPlace q -> registered h cid g q).
    { intros q ->. destruct p; try (destruct X as (d & X & _); discriminate X); try discriminate X; congruence. }
    destruct x as [d|q].
    + exists h', (Ok d). split; [reflexivity|]. split; [exact G1|]. split; [split; assumption|].
      intros d' D'. destruct (P2 _ D') as [A B]. split; [congruence|exact B].
    + specialize (TY q eq_refl).
      assert (NOD : forall d, ~ denotes h cid g s (GDiscr d)).
      { intros d D. destruct (P2 _ D) as [A _]. discriminate. }
      destruct q; eexists h', (Err TypeError); (split; [reflexivity|]); (split; [exact G1|]);
        (split; [right; split; [reflexivity|eauto]|]); intros d' D'; exfalso; exact (NOD _ D').
  - exists h', (Err e). split; [reflexivity|]. split; [exact G1|]. split; [left; exact P1|].
    intros d D. destruct (P2 _ D) as [A _]. discriminate.
Qed.

(** Any request only grows the caches of its collection. *)
Lemma get_target_grows E h cid g s : heap_ok h -> caches_ok h ->
  exists h' r, get_target_or_discretization E cid g s h = (h', r) /\ grows h h' cid.
Proof.
  intros HO HC. destruct (@get_dog_spec E h cid g s HO HC) as (h' & r & E1 & G1 & _).
  unfold get_target_or_discretization, mbind. rewrite E1.
  destruct r as [x|e]; [destruct x as [d|q]; [|destruct q]|]; eexists h', _; (split; [reflexivity|exact G1]).
Qed.
Lemma get_source_grows E h cid g s : heap_ok h -> caches_ok h ->
  exists h' r, get_source_or_discretization E cid g s h = (h', r) /\ grows h h' cid.
Proof.
  intros HO HC. destruct (@get_dog_spec E h cid g s HO HC) as (h' & r & E1 & G1 & _).
  unfold get_source_or_discretization, mbind. rewrite E1.
  destruct r as [x|e]; [destruct x as [d|q]; [|destruct q]|]; eexists h', _; (split; [reflexivity|exact G1]).
Qed.
