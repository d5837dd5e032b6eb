From Verif Require Import Base DofModel DofProps RefineModel RefineSpec RefineProofs CollModel CollSpec CollProofs CollProofs2 CollProofs3.
Set Implicit Arguments.
Open Scope nat_scope.

(** * Chains of cached connections *)
Definition stands_at (h : heap) (cid : nat) (g : gid) (l : lpot) (i : nat) (d : discr) : Prop :=
  match stage_name i with None => d = l_density l | Some s => cached_discr h cid g s d end.

Lemma stage_conns_spec oid dim l cid g : forall n from h,
  heap_ok h -> caches_ok h -> registered h cid g (PQBX oid dim l) -> from + n <= 3 ->
  (forall s', from < stage_index s' <= from + n -> exists d, cached_discr h cid g s' d) ->
  exists h' cs, stage_conns cid g from n h = (h', Ok cs) /\ equiv h h' /\ length cs = n
    /\ forall a, stands_at h cid g l from a -> exists b, stands_at h cid g l (from + n) b /\ links_from a cs b.
Proof.
  induction n as [|n IH]; intros from h HO HC HR Hle HD.
  - exists h, []. split; [reflexivity|]. split; [apply equiv_refl; exact HO|]. split; [reflexivity|].
    intros a Ha. exists a. rewrite Nat.add_0_r. split; [exact Ha|constructor].
  - assert (HV := registered_valid HR).
    assert (X : exists s', stage_index s' = S from /\ stage_name (S from) = Some s' /\ stage_name from = previous s').
    { destruct from as [|[|[|from]]]; [exists STAGE1|exists STAGE2|exists QUAD_STAGE2|lia]; auto. }
    destruct X as (s' & I' & N' & N0).
    destruct (HD s') as [d' D']; [lia|].
    destruct (co_discr HC D') as (d2 & o2 & m2 & l2 & c & b & Ed & R2 & CC & SA & CON).
    assert (d2 = d') by congruence. subst d2.
    assert (PQBX o2 m2 l2 = PQBX oid dim l) by (eapply registered_unique; eauto).
    assert (l2 = l) by congruence. subst l2.
    destruct (@get_conn_spec h cid g (stage_name from) (stage_name (S from)) c HO HV) as (h1 & Q1 & G1).
    { rewrite N', N0. exact CC. }
    destruct (IH (S from) h1 (eq_ok Q1) (gr_ci (@grows_equiv h h1 cid HC Q1))) as (h2 & cs & E2 & Q2 & L2 & C2).
    { apply (registered_same _ _ _ (eq_objs Q1)). exact HR. }
    { lia. }
    { intros s'' Hs. destruct (HD s'') as [d3 D3]; [lia|]. exists d3. apply (equiv_cached _ _ _ _ Q1). exact D3. }
    exists h2, (c :: cs). split; [cbn [stage_conns]; unfold mbind; rewrite G1, E2; reflexivity|].
    split; [exact (equiv_trans Q1 Q2)|]. split; [cbn [length]; congruence|].
    intros a Ha.
    assert (ab : a = b).
    { unfold stands_at in Ha. unfold starts_at in SA. rewrite N0 in Ha. destruct (previous s').
      - assert (Y := cached_fun Ha SA). congruence.
      - congruence. }
    subst b. destruct CON as (C1 & C3 & _).
    assert (SD : stands_at h1 cid g l (S from) d').
    { unfold stands_at. rewrite N'. apply (equiv_cached _ _ _ _ Q1). exact D'. }
    destruct (C2 d' SD) as (e & SE & LE). exists e. split.
    + replace (from + S n) with (S from + n) by lia. unfold stands_at in *.
      destruct (stage_name (S from + n)); [|exact SE]. apply (equiv_cached _ _ _ _ Q1) in SE. exact SE.
    + constructor; [exact C1|]. rewrite C3. exact LE.
Qed.

(** * Growth and evolution of the whole heap *)
Record evolves (h h' : heap) (tgt : option nat) : Prop := {
  ev_ok : heap_ok h';
  ev_ci : caches_ok h';
  ev_len : length (h_colls h) <= length (h_colls h');
  ev_objs : forall cid c, has_coll h cid c -> exists c', has_coll h' cid c'
      /\ c_places c' = c_places c /\ c_auto c' = c_auto c /\ c_dim c' = c_dim c;
  ev_else : forall cid n, valid h cid -> tgt <> Some cid -> contents h' cid n = contents h cid n;
  ev_keep : forall cid n k v, (forall m, k <> KO m) -> cached h cid n k v -> cached h' cid n k v }.

Lemma cached_valid h cid n k v : cached h cid n k v -> valid h cid.
Proof.
  unfold cached, contents, valid. destruct (nth_error (h_colls h) cid) eqn:E; [|cbn; discriminate].
  intros _. apply nth_error_Some. congruence.
Qed.

Lemma grows_evolves h h' cid : grows h h' cid -> evolves h h' (Some cid).
Proof.
  intros G. constructor.
  - apply (gr_ok G).
  - apply (gr_ci G).
  - rewrite (proj1 (gr_objs G)). lia.
  - apply (proj2 (gr_objs G)).
  - intros x n _ Hx. apply (gr_else G). congruence.
  - intros x n k v _ H. destruct (Nat.eq_dec x cid) as [->|Hx]; [apply (gr_keep G); exact H|].
    unfold cached. rewrite (gr_else G) by exact Hx. exact H.
Qed.
Lemma evolves_refl h tgt : heap_ok h -> caches_ok h -> evolves h h tgt.
Proof. intros A B. constructor; auto. intros cid c H. exists c. auto. Qed.
Lemma evolves_None_any h h' tgt : evolves h h' None -> evolves h h' tgt.
Proof.
  intros [A B C D E F]. constructor; auto. intros cid n V _. apply E; [exact V|discriminate].
Qed.
Lemma evolves_registered h h' tgt cid g p : evolves h h' tgt -> registered h cid g p -> registered h' cid g p.
Proof. intros V (c & Hc & I). destruct (ev_objs V Hc) as (c' & H' & P & _). exists c'. split; [exact H'|]. rewrite P. exact I. Qed.

(** A new collection (with empty caches), then growth of it, leaves the others alone. *)
Lemma evolves_new_then h h1 h2 new : evolves h h1 None -> ~ valid h new -> evolves h1 h2 (Some new) -> evolves h h2 None.
Proof.
  intros A N B. constructor.
  - apply (ev_ok B).
  - apply (ev_ci B).
  - assert (X := ev_len A). assert (Y := ev_len B). lia.
  - intros cid c H. destruct (ev_objs A H) as (c1 & H1 & P1 & P2 & P3). destruct (ev_objs B H1) as (c2 & H2 & Q1 & Q2 & Q3).
    exists c2. repeat split; congruence.
  - intros cid n V _. assert (Hne : cid <> new) by (intros ->; contradiction).
    rewrite (ev_else B).
    + apply (ev_else A); [exact V|discriminate].
    + unfold valid in *. assert (X := ev_len A). lia.
    + congruence.
  - intros cid n k v Hk H. apply (ev_keep B); [exact Hk|]. apply (ev_keep A); [exact Hk|exact H].
Qed.

(** * Construction *)
Lemma as_dofdesc_ok x : exists d, as_dofdesc x = Ok d.
Proof. destruct x as [d| |[]]; cbn; eauto. Qed.

Lemma places_dict_keys a au d au' : places_dict a au = Ok (d, au') -> match a with AMap l => keys_unique l | _ => True end -> keys_unique d.
Proof.
  unfold places_dict. destruct au as [src tgt].
  assert (TWO : forall k p k' q, keys_unique (dset gid_eqb [(k, p)] k' q)).
  { intros. unfold keys_unique. apply (dset_NoDup _ gid_eqb_eq). cbn. constructor; [intros []|constructor]. }
  destruct a as [p|l|l|]; cbn [bind].
  - destruct (if is_qbx p then (src, src) else if is_target p then (tgt, tgt) else (src, tgt)) as [s t].
    destruct (is_discr p || is_source p); cbn [bind]; [|discriminate]. intros E _.
    assert (X : d = dset gid_eqb [(geometry s, p)] (geometry t) p) by congruence. subst. apply TWO.
  - destruct l as [|p [|q [|x l]]]; cbn [bind]; try discriminate. intros E _.
    assert (X : d = dset gid_eqb [(geometry src, p)] (geometry tgt) q) by congruence. subst. apply TWO.
  - intros E K. congruence.
  - discriminate.
Qed.

(** The contents of a fresh collection. *)
Definition construct (a : places_arg) (aw : auto_arg) : result coll :=
  do au <- prepare_auto_where aw None;
  do (d, au') <- places_dict a au;
  do z <- validate d au';
  Ok (Coll d au' z []).

Lemma construct_shape a aw c : construct a aw = Ok c -> exists d au au' z, c = Coll d au' z [] /\ places_dict a au = Ok (d, au') /\ prepare_auto_where aw None = Ok au /\ validate d au' = Ok z.
Proof.
  unfold construct. destruct (prepare_auto_where aw None) as [au|]; cbn [bind]; [|discriminate].
  destruct (places_dict a au) as [[d au']|] eqn:P; cbn [bind]; [|discriminate].
  destruct (validate d au') as [z|] eqn:V; cbn [bind]; [|discriminate].
  intros E. assert (c = Coll d au' z []) by congruence. subst c. exists d, au, au', z.
  split; [reflexivity|]. split; [exact P|]. split; [reflexivity|exact V].
Qed.

Lemma new_collection_spec a aw h : heap_ok h -> caches_ok h -> match a with AMap l => keys_unique l | _ => True end ->
  match construct a aw with
  | Err e => new_collection a aw h = (h, Err e)
  | Ok c => exists h', new_collection a aw h = (h', Ok (length (h_colls h))) /\ evolves h h' None
      /\ has_coll h' (length (h_colls h)) c /\ (forall n, contents h' (length (h_colls h)) n = [])
      /\ length (h_colls h') = S (length (h_colls h)) /\ h_log h' = h_log h
  end.
Proof.
  intros HO HC HK. unfold new_collection. fold (construct a aw).
  destruct (construct a aw) as [c|e] eqn:E; [|reflexivity].
  destruct (construct_shape _ _ E) as (d & au & au' & z & -> & P & _ & _).
  assert (KU := places_dict_keys _ _ P HK). 
  set (c := Coll d au' z []) in *. set (h' := Heap (h_colls h ++ [c]) (h_dicts h) (h_clk h) (h_log h)).
  exists h'. split; [reflexivity|].
  assert (NEW : has_coll h' (length (h_colls h)) c).
  { unfold has_coll. cbn [h' h_colls]. rewrite nth_error_app2, Nat.sub_diag by lia. reflexivity. }
  assert (OLD : forall cid, valid h cid -> nth_error (h_colls h') cid = nth_error (h_colls h) cid).
  { intros cid V. cbn [h' h_colls]. apply nth_error_app1. exact V. }
  assert (CON : forall cid n, contents h' cid n = contents h cid n).
  { intros cid n. unfold contents. destruct (Nat.lt_trichotomy cid (length (h_colls h))) as [L|[->|L]].
    - rewrite (OLD cid L). reflexivity.
    - unfold has_coll in NEW. rewrite NEW. cbn [c c_caches dget].
      rewrite (proj2 (nth_error_None _ _)) by lia. reflexivity.
    - rewrite !(proj2 (nth_error_None _ _)) by (cbn [h' h_colls]; try rewrite app_length; cbn [length]; lia). reflexivity. }
  assert (REF : forall cid n, ref_of h' cid n = ref_of h cid n).
  { intros cid n. unfold ref_of. destruct (Nat.lt_trichotomy cid (length (h_colls h))) as [L|[->|L]].
    - rewrite (OLD cid L). reflexivity.
    - unfold has_coll in NEW. rewrite NEW. cbn [c c_caches dget]. rewrite (proj2 (nth_error_None _ _)) by lia. reflexivity.
    - rewrite !(proj2 (nth_error_None _ _)) by (cbn [h' h_colls]; try rewrite app_length; cbn [length]; lia). reflexivity. }
  assert (OBJ : forall cid x, has_coll h cid x -> has_coll h' cid x).
  { intros cid x H. unfold has_coll. rewrite OLD; [exact H|]. apply valid_has. eauto. }
  assert (REG : forall cid g p, registered h cid g p -> registered h' cid g p).
  { intros cid g p (x & H & I). exists x. split; [apply OBJ; exact H|exact I]. }
  split; [|split; [exact NEW|split; [|split; [cbn [h' h_colls]; rewrite app_length; cbn; lia|reflexivity]]]].
  - constructor.
    + constructor.
      * intros cid n r. rewrite REF. apply (ok_bound HO).
      * intros cid n cid' n' r. rewrite !REF. apply (ok_inj HO).
      * intros cid x H. destruct (Nat.lt_trichotomy cid (length (h_colls h))) as [L|[->|L]].
        -- unfold has_coll in H. rewrite (OLD cid L) in H. apply (ok_keys HO H).
        -- unfold has_coll in *. assert (x = c) by congruence. subst x. exact KU.
        -- unfold has_coll in H. rewrite (proj2 (nth_error_None _ _)) in H by (cbn [h' h_colls]; rewrite app_length; cbn [length]; lia). discriminate.
      * apply (ok_dicts HO).
    + constructor.
      * intros cid g s v H. unfold cached in *. rewrite CON in H.
        destruct (co_discr HC H) as (d1 & o1 & m1 & l1 & c1 & b1 & H1 & H2 & H3 & H4 & H5).
        exists d1, o1, m1, l1, c1, b1. split; [exact H1|]. split; [apply REG; exact H2|].
        split; [rewrite CON; exact H3|]. split; [|exact H5].
        unfold starts_at in *. destruct (previous s); [|exact H4]. unfold cached_discr, cached in *. rewrite CON. exact H4.
      * intros cid g f t v H. unfold cached in H. rewrite CON in H. destruct (co_conn HC H) as (s & d1 & H1 & H2 & H3).
        exists s, d1. split; [exact H1|]. split; [exact H2|]. unfold cached_discr, cached. rewrite CON. exact H3.
      * intros cid g s H. destruct (co_log HC _ _ _ H) as (d1 & H1). exists d1. unfold cached_discr, cached. rewrite CON. exact H1.
      * apply (co_once HC).
    + cbn [h' h_colls]. rewrite app_length. lia.
    + intros cid x H. exists x. split; [apply OBJ; exact H|auto].
    + intros cid n _ _. apply CON.
    + intros cid n k v _ H. unfold cached. rewrite CON. exact H.
  - intros n. rewrite CON. unfold contents. rewrite (proj2 (nth_error_None _ _)) by lia. reflexivity.
Qed.

(** * Copying *)
Definition copy_args (c : coll) (places : option (list (gid * place))) (aw : auto_arg) : result coll :=
  construct (AMap (match places with None => c_places c | Some l => l end))
    (match aw with AWNone => AWSeq [LDesc (fst (c_auto c)); LDesc (snd (c_auto c))] | a => a end).

Lemma copy_spec cid places aw h c : heap_ok h -> caches_ok h -> has_coll h cid c ->
  match places with Some l => keys_unique l | None => True end ->
  match copy_args c places aw with
  | Err e => copy_collection cid places aw h = (h, Err e)
  | Ok c' => exists h', copy_collection cid places aw h = (h', Ok (length (h_colls h))) /\ evolves h h' None
      /\ has_coll h' (length (h_colls h)) c' /\ (forall n, contents h' (length (h_colls h)) n = [])
      /\ length (h_colls h') = S (length (h_colls h)) /\ h_log h' = h_log h
  end.
Proof.
  intros HO HC Hc HK. unfold copy_collection, mbind, get_coll. unfold has_coll in Hc. rewrite Hc.
  apply new_collection_spec; [exact HO|exact HC|]. destruct places; [exact HK|]. apply (ok_keys HO Hc).
Qed.

Lemma no_coll h cid : ~ valid h cid -> get_coll cid h = (h, Err AssertionError).
Proof. intros H. unfold get_coll. rewrite (proj2 (nth_error_None _ _)); [reflexivity|]. unfold valid in H. lia. Qed.

Lemma merge_spec cid l h c : heap_ok h -> caches_ok h -> has_coll h cid c ->
  match copy_args c (Some (dupdate gid_eqb (c_places c) l)) AWNone with
  | Err e => merge_collection cid l h = (h, Err e)
  | Ok c' => exists h', merge_collection cid l h = (h', Ok (length (h_colls h))) /\ evolves h h' None
      /\ has_coll h' (length (h_colls h)) c' /\ (forall n, contents h' (length (h_colls h)) n = [])
      /\ length (h_colls h') = S (length (h_colls h)) /\ h_log h' = h_log h
  end.
Proof.
  intros HO HC Hc. unfold merge_collection, mbind, get_coll.
  assert (K := @copy_spec cid (Some (dupdate gid_eqb (c_places c) l)) AWNone h c HO HC Hc).
  unfold has_coll in Hc. rewrite Hc. apply K. apply (dupdate_NoDup _ gid_eqb_eq). apply (ok_keys HO Hc).
Qed.

(** What copying caches does to the heap, cache by cache. *)
Lemma copy_caches_spec cid new : cid <> new -> forall names h (done : cname -> Prop),
  heap_ok h -> valid h cid -> valid h new ->
  (forall n, done n \/ ~ done n) ->
  (forall n k, done n -> dget ckey_eqb (contents h new n) k = dget ckey_eqb (contents h cid n) k) ->
  (forall n k, ~ done n -> dget ckey_eqb (contents h new n) k = None) ->
  exists h', copy_caches cid new names h = (h', Ok tt) /\ heap_ok h' /\ same_objects h h'
    /\ (forall x n, x <> new -> contents h' x n = contents h x n)
    /\ h_clk h' = h_clk h /\ h_log h' = h_log h
    /\ (forall n k, done n \/ (In n names /\ known_cache n = true) ->
         dget ckey_eqb (contents h' new n) k = dget ckey_eqb (contents h cid n) k)
    /\ (forall n k, ~ (done n \/ (In n names /\ known_cache n = true)) -> dget ckey_eqb (contents h' new n) k = None).
Proof.
  intros NE. induction names as [|n names IH]; intros h done HO VC VN DEC HD HN; cbn [copy_caches].
  - exists h. split; [reflexivity|]. split; [exact HO|]. split; [apply same_objects_refl|]. split; [auto|].
    split; [reflexivity|]. split; [reflexivity|]. split.
    + intros n k [H|[[] _]]. apply HD. exact H.
    + intros n k H. apply HN. tauto.
  - destruct (known_cache n) eqn:KN.
    + destruct (get_cache_spec n HO VN) as (h1 & r' & E1 & Q1 & R1).
      assert (VC1 : valid h1 cid) by (apply (equiv_valid _ Q1); exact VC).
      destruct (get_cache_spec n (eq_ok Q1) VC1) as (h2 & r & E2 & Q2 & R2).
      assert (Q12 := equiv_trans Q1 Q2).
      assert (R1' : ref_of h2 new n = Some r').
      { (* creating the other cache does not move this one *)
        clear - E2 R1 NE VC1. unfold get_cache, mbind, get_coll in E2.
        destruct (nth_error (h_colls h1) cid) as [c|] eqn:EC; [|discriminate E2].
        destruct (dget cname_eqb (c_caches c) n).
        - unfold ret in E2. assert (h2 = h1) by congruence. subst. exact R1.
        - match type of E2 with (?x, _) = _ => assert (h2 = x) by congruence end. subst h2.
          unfold ref_of in *. cbn [h_colls]. rewrite lset_nth_error.
          destruct (Nat.eqb_spec cid new); [contradiction|]. exact R1. }
      set (D := nth r (h_dicts h2) []). set (D' := nth r' (h_dicts h2) []).
      assert (CD : D = contents h cid n) by (unfold D; rewrite <- (eq_cont Q12 cid n), contents_ref, R2; reflexivity).
      assert (CD' : D' = contents h new n) by (unfold D'; rewrite <- (eq_cont Q12 new n), contents_ref, R1'; reflexivity).
      assert (ND : NoDup (map fst (dupdate ckey_eqb D' D))).
      { apply (dupdate_NoDup _ ckey_eqb_eq). rewrite CD'. apply contents_NoDup. exact HO. }
      destruct (@write_spec h2 new n r' (dupdate ckey_eqb D' D) (eq_ok Q12) R1' ND) as (h3 & E3 & O3 & S3 & C3 & X3 & K3 & L3 & _).
      assert (OLD : forall x m, (x, m) <> (new, n) -> contents h3 x m = contents h x m).
      { intros x m H. rewrite (X3 x m H). apply (eq_cont Q12). }
      assert (NEWC : forall k, dget ckey_eqb (contents h3 new n) k = dget ckey_eqb (contents h cid n) k).
      { intros k. rewrite C3, (dget_dupdate _ ckey_eqb_eq), CD by (rewrite CD; apply contents_NoDup; exact HO).
        destruct (dget ckey_eqb (contents h cid n) k) eqn:G; [reflexivity|]. rewrite CD'.
        destruct (DEC n) as [Y|Y]; [rewrite (HD n k Y); exact G|apply HN; exact Y]. }
      assert (LEN : length (h_colls h3) = length (h_colls h)) by (rewrite (proj1 S3); apply (proj1 (eq_objs Q12))).
      destruct (IH h3 (fun m => done m \/ m = n)) as (h4 & E4 & O4 & S4 & C4 & K4 & L4 & P4 & N4).
      { exact O3. } { unfold valid. rewrite LEN. exact VC. } { unfold valid. rewrite LEN. exact VN. }
      { intros m. destruct (DEC m) as [Y|Y]; [tauto|]. destruct (cname_eqb m n) eqn:Z.
        - apply cname_eqb_eq in Z. tauto.
        - right. intros [H|H]; [tauto|]. subst. rewrite (proj2 (cname_eqb_eq n n) eq_refl) in Z. discriminate. }
      { intros m k [H|H].
        - destruct (cname_eqb m n) eqn:Z.
          + apply cname_eqb_eq in Z. subst m. rewrite NEWC, OLD by congruence. reflexivity.
          + assert (m <> n) by (intros ->; rewrite (proj2 (cname_eqb_eq n n) eq_refl) in Z; discriminate).
            rewrite !OLD by congruence. apply HD. exact H.
        - subst m. rewrite NEWC, OLD by congruence. reflexivity. }
      { intros m k H. assert (m <> n) by tauto. rewrite OLD by congruence. apply HN. tauto. }
      exists h4. split; [unfold mbind, read; rewrite E1, E2; fold D D'; rewrite E3; exact E4|].
      split; [exact O4|]. split; [eapply same_objects_trans; [apply (eq_objs Q12)|]; eapply same_objects_trans; [exact S3|exact S4]|].
      split; [intros x m H; rewrite (C4 x m H); apply OLD; congruence|].
      split; [rewrite K4, K3; apply (eq_clk Q12)|]. split; [rewrite L4, L3; apply (eq_log Q12)|].
      split.
      * intros m k H. rewrite P4.
        -- rewrite OLD by congruence. reflexivity.
        -- cbn [In] in H. destruct H as [H|[[H|H] H']]; auto.
      * intros m k H. apply N4. cbn [In]. intros H'. apply H. cbn [In]. destruct H' as [[H'|H']|[H' K']]; [auto|subst; auto|auto].
    + destruct (IH h done HO VC VN DEC HD HN) as (h4 & E4 & O4 & S4 & C4 & K4 & L4 & P4 & N4).
      exists h4. repeat (split; [assumption|]). split.
      * intros m k H. apply P4. cbn [In] in H. destruct H as [H|[[H|H] H']]; auto. subst. congruence.
      * intros m k H. apply N4. intros H'. apply H. cbn [In]. destruct H' as [H'|[H' K']]; auto.
Qed.
