(** C22-C25: geometry collections; C50-C52: parts of the documentation the code violates. *)
From Coq Require Import QArith.
From Verif Require Import Base DofModel DofProps RefineModel RefineSpec RefineProofs RefineProps.
From Verif Require Import CollModel CollSpec CollProofs CollProofs2 CollProofs3 CollProofs4 CollProofs5.
Set Implicit Arguments.
Open Scope nat_scope.

(** * C22 *)

Lemma dict_has_In d g : dict_has d g = true <-> In g (map fst d).
Proof.
  unfold dict_has. destruct (dget gid_eqb d g) as [p|] eqn:D.
  - split; [|reflexivity]. intros _. apply (dget_In _ gid_eqb_eq) in D. apply (in_map fst) in D. exact D.
  - split; [discriminate|]. apply (dget_None _ gid_eqb_eq) in D. intros I. contradiction.
Qed.
Lemma among_dec c s : {among c s} + {~ among c s}.
Proof. apply in_dec. apply Ascii.ascii_dec. Defined.
Lemma is_letter_spec c : is_letter c = true <-> among c letters.
Proof.
  assert (X : is_letter c = if among_dec c letters then true else false).
  { destruct c as [[] [] [] [] [] [] [] []]; vm_compute; reflexivity. }
  rewrite X. destruct (among_dec c letters); split; congruence.
Qed.
Lemma is_digit_spec c : is_digit c = true <-> among c digits.
Proof.
  assert (X : is_digit c = if among_dec c digits then true else false).
  { destruct c as [[] [] [] [] [] [] [] []]; vm_compute; reflexivity. }
  rewrite X. destruct (among_dec c digits); split; congruence.
Qed.
Lemma all_ident_chars_spec s : all_ident_chars s = true <-> forall x, In x (String.list_ascii_of_string s) -> among x letters \/ among x digits.
Proof.
  induction s as [|c s IH]; cbn [all_ident_chars String.list_ascii_of_string].
  - split; [intros _ x []|reflexivity].
  - rewrite andb_true_iff, orb_true_iff, IH, is_letter_spec, is_digit_spec. split.
    + intros [A B] x [<- | I]; auto.
    + intros H. split; [apply H; left; reflexivity|intros x I; apply H; right; exact I].
Qed.
Lemma valid_identifier_spec s : valid_identifier s = true <-> identifier s.
Proof.
  unfold identifier. destruct s as [|c s].
  - cbn [valid_identifier String.list_ascii_of_string]. split; [discriminate|]. intros [(c & r & E & _) _]. discriminate.
  - cbn [valid_identifier String.list_ascii_of_string]. rewrite !andb_true_iff, negb_true_iff, is_letter_spec, all_ident_chars_spec.
    rewrite <- not_true_iff_false, inb_In. split.
    + intros [[A B] C]. split; [exists c, (String.list_ascii_of_string s); auto|exact C].
    + intros [(c' & r & E & A & B) C]. assert (c' = c) by congruence. assert (r = String.list_ascii_of_string s) by congruence. subst. auto.
Qed.
Lemma name_ok_good g : name_ok g = true <-> good_name g.
Proof.
  unfold name_ok, good_name. destruct g as [g|]; [|split; [intros _ m E; discriminate|reflexivity]].
  destruct g as [| | | |s|q|n]; try (split; [intros _ m E; discriminate|reflexivity]). split.
  - intros H m E. assert (X : m = n) by congruence. subst. apply valid_identifier_spec. exact H.
  - intros H. apply valid_identifier_spec. apply H. reflexivity.
Qed.
Lemma type_ok_good p : is_source p || is_target p || is_discr p = true <-> good_type p.
Proof.
  unfold good_type. split.
  - intros H. destruct p; try discriminate; auto using a_source_or_discretization, a_target.
  - intros [[]|[]]; reflexivity.
Qed.
Lemma is_qbx_iff p : is_qbx p = true <-> a_qbx p.
Proof. split; [destruct p; try discriminate; constructor|intros []; reflexivity]. Qed.
Lemma is_qbx_not p : is_qbx p = false <-> ~ a_qbx p.
Proof. rewrite <- is_qbx_iff. destruct (is_qbx p); split; congruence. Qed.
Lemma is_source_iff p : is_discr p || is_source p = true <-> a_source_or_discretization p.
Proof. split; [destruct p; try discriminate; constructor|intros []; reflexivity]. Qed.
Lemma is_target_iff p : is_target p = true <-> a_target p.
Proof. split; [destruct p; try discriminate; constructor|intros []; reflexivity]. Qed.

Lemma forallb_false_ex {A : Type} (f : A -> bool) l : forallb f l = false -> exists x, In x l /\ f x = false.
Proof.
  induction l as [|x l IH]; cbn [forallb]; [discriminate|]. destruct (f x) eqn:F; cbn [andb]; intros H.
  - destruct (IH H) as (y & I & Y). exists y. split; [right; exact I|exact Y].
  - exists x. split; [left; reflexivity|exact F].
Qed.

Lemma validate_spec d s t :
  match validate d (s, t) with
  | Ok z => good_places d s t z
  | Err e => bad_places d s t e
  end.
Proof.
  unfold validate. cbn [fst snd].
  destruct (dict_has d (geometry s)) eqn:H1; cbn [negb].
  2: { apply bad_default. left. intros I. apply dict_has_In in I. congruence. }
  destruct (dict_has d (geometry t)) eqn:H2; cbn [negb].
  2: { apply bad_default. right. intros I. apply dict_has_In in I. congruence. }
  apply dict_has_In in H1, H2.
  destruct (forallb (fun kv => name_ok (fst kv)) d) eqn:H3; cbn [negb].
  2: { destruct (forallb_false_ex _ _ H3) as ([g p] & I & N). apply (@bad_name d s t g p I). rewrite <- name_ok_good. cbn [fst] in N. congruence. }
  assert (N3 : forall g p, In (g, p) d -> good_name g).
  { intros g p I. rewrite forallb_forall in H3. apply name_ok_good. exact (H3 (g, p) I). }
  destruct (forallb (fun kv => is_source (snd kv) || is_target (snd kv) || is_discr (snd kv)) d) eqn:H4; cbn [negb].
  2: { destruct (forallb_false_ex _ _ H4) as ([g p] & I & N). apply (@bad_type _ _ _ g p); [exact N3|exact I|].
       rewrite <- type_ok_good. cbn [snd] in N. congruence. }
  assert (N4 : forall g p, In (g, p) d -> good_type p).
  { intros g p I. rewrite forallb_forall in H4. apply type_ok_good. exact (H4 (g, p) I). }
  destruct d as [|[g0 p0] d']; [destruct H1|]. cbn [map snd].
  destruct (forallb (opt_eqb Z.eqb (ambient_dim p0)) (map (fun kv => ambient_dim (snd kv)) d')) eqn:H5.
  - destruct (ambient_dim p0) as [z|] eqn:A.
    + split; [exact H1|]. split; [exact H2|]. intros g p I. split; [eapply N3; exact I|]. split; [eapply N4; exact I|].
      destruct I as [I|I]; [congruence|]. rewrite forallb_forall in H5.
      assert (X := H5 _ (in_map (fun kv => ambient_dim (snd kv)) _ _ I)). apply (opt_eqb_eq _ Z.eqb_eq) in X. cbn [snd] in X. congruence.
    + exfalso. destruct (N4 g0 p0 (or_introl eq_refl)) as [T|[T|T]]; destruct p0; cbn in *; discriminate.
  - destruct (forallb_false_ex _ _ H5) as (z & I & Z0). apply in_map_iff in I. destruct I as ([g p] & E & I). cbn [snd] in E.
    apply (@bad_dim _ _ _ g0 p0 g p).
    + intros g' p' I'. split; [eapply N3; exact I'|eapply N4; exact I'].
    + left. reflexivity.
    + right. exact I.
    + intros X. assert (Y : opt_eqb Z.eqb (ambient_dim p0) z = true) by (apply (opt_eqb_eq _ Z.eqb_eq); congruence). congruence.
Qed.

Lemma prepare_asks aw : match prepare_auto_where aw None with
  | Ok (s, t) => asks aw s t
  | Err e => e = ValueError /\ exists l, aw = AWSeq l /\ length l <> 2
  end.
Proof.
  unfold prepare_auto_where. destruct aw as [|l|x].
  - cbn [bind as_dofdesc]. constructor; reflexivity.
  - destruct l as [|a [|b [|c l]]]; cbn [bind]; try (split; [reflexivity|]; eexists; split; [reflexivity|cbn; lia]).
    destruct (as_dofdesc_ok a) as [s Es], (as_dofdesc_ok b) as [t Et]. rewrite Es, Et. cbn [bind]. constructor; assumption.
  - cbn [bind]. destruct (as_dofdesc_ok x) as [s Es]. rewrite Es. cbn [bind]. constructor; assumption.
Qed.
Lemma asks_prepare aw s t : asks aw s t -> prepare_auto_where aw None = Ok (s, t).
Proof.
  intros H. destruct H as [s t A B|a b s t A B|a s A]; unfold prepare_auto_where; cbn [bind]; rewrite ?A, ?B; cbn [bind]; try reflexivity; rewrite ?B; reflexivity.
Qed.

Lemma dset_two s t (p q : place) : dset gid_eqb [(geometry s, p)] (geometry t) q =
  if gid_eqb (geometry s) (geometry t) then [(geometry s, q)] else [(geometry s, p); (geometry t, q)].
Proof.
  cbn [dset]. destruct (gid_eqb (geometry t) (geometry s)) eqn:E, (gid_eqb (geometry s) (geometry t)) eqn:F; try reflexivity.
  - apply gid_eqb_eq in E. rewrite E in F. assert (X := proj2 (gid_eqb_eq (geometry s) (geometry s)) eq_refl). congruence.
  - apply gid_eqb_eq in F. rewrite F in E. assert (X := proj2 (gid_eqb_eq (geometry t) (geometry t)) eq_refl). congruence.
Qed.

Lemma places_dict_form a aw s t : asks aw s t ->
  match places_dict a (s, t) with
  | Ok (d, (s', t')) => form a s t d s' t'
  | Err e => bad_form a aw e
  end.
Proof.
  intros HA. destruct a as [p|l|l|]; cbn [places_dict].
  - destruct (is_qbx p) eqn:Q.
    + assert (S1 : is_source p = true) by (destruct p; try discriminate; reflexivity). rewrite S1, orb_true_r. cbn [bind].
      rewrite dset_two, (proj2 (gid_eqb_eq _ _) eq_refl). constructor. apply is_qbx_iff, Q.
    + destruct (is_discr p || is_source p) eqn:O.
      * assert (T : is_target p = false) by (destruct p; try discriminate; reflexivity). rewrite T. cbn [bind]. rewrite dset_two.
        apply is_source_iff in O. apply is_qbx_not in Q.
        destruct (gid_eqb (geometry s) (geometry t)) eqn:E.
        -- apply gid_eqb_eq in E. apply form_same; tauto.
        -- apply form_both; [exact Q|exact O|]. intros X. apply gid_eqb_eq in X. congruence.
      * assert (O' : ~ a_source_or_discretization p) by (intros X; apply is_source_iff in X; congruence).
        destruct (is_target p); cbn [bind]; eapply bad_object; try apply HA; exact O'.
  - destruct l as [|p [|q [|r l]]]; cbn [bind]; try (eapply bad_tuple; [exact HA|cbn; lia]). rewrite dset_two.
    destruct (gid_eqb (geometry s) (geometry t)) eqn:E.
    + apply gid_eqb_eq in E. constructor. exact E.
    + constructor. intros X. apply gid_eqb_eq in X. congruence.
  - cbn [bind]. constructor.
  - cbn [bind]. eapply bad_other; exact HA.
Qed.

(** Construction succeeds exactly for arguments of an accepted form describing a valid
    mapping, and then the collection holds that mapping, the defaults and the dimension and
    nothing else; otherwise it raises the error belonging to the first failed check and
    creates nothing. *)
Theorem construction : forall h a aw h' r, new_collection a aw h = (h', r) ->
  match r with
  | Ok cid => cid = length (h_colls h)
      /\ exists s t d s' t' z, asks aw s t /\ form a s t d s' t' /\ good_places d s' t' z
           /\ h' = Heap (h_colls h ++ [Coll d (s', t') z []]) (h_dicts h) (h_clk h) (h_log h)
  | Err e => h' = h /\ (bad_form a aw e \/ exists s t d s' t', asks aw s t /\ form a s t d s' t' /\ bad_places d s' t' e)
  end.
Proof.
  intros h a aw h' r. unfold new_collection.
  assert (A := prepare_asks aw). destruct (prepare_auto_where aw None) as [[s t]|e]; cbn [bind].
  2: { destruct A as (-> & l & -> & L). intros H. assert (h' = h) by congruence. assert (r = Err ValueError) by congruence. subst.
       split; [reflexivity|]. left. constructor. exact L. }
  assert (P := @places_dict_form a aw s t A). destruct (places_dict a (s, t)) as [[d [s' t']]|e]; cbn [bind].
  2: { intros H. assert (h' = h) by congruence. assert (r = Err e) by congruence. subst. split; [reflexivity|]. left. exact P. }
  assert (V := validate_spec d s' t'). destruct (validate d (s', t')) as [z|e]; cbn [bind].
  - intros H. assert (r = Ok (length (h_colls h))) by congruence. subst r. split; [reflexivity|].
    exists s, t, d, s', t', z. repeat (split; [assumption|]). congruence.
  - intros H. assert (h' = h) by congruence. assert (r = Err e) by congruence. subst. split; [reflexivity|]. right. eauto 10.
Qed.
(** Conversely, every valid description is accepted. *)
Theorem construction_complete : forall h a aw s t d s' t' z,
  asks aw s t -> form a s t d s' t' -> good_places d s' t' z ->
  new_collection a aw h
  = (Heap (h_colls h ++ [Coll d (s', t') z []]) (h_dicts h) (h_clk h) (h_log h), Ok (length (h_colls h))).
Proof.
  intros h a aw s t d s' t' z HA HF HG. unfold new_collection. rewrite (asks_prepare HA). cbn [bind].
  assert (X : places_dict a (s, t) = Ok (d, (s', t'))).
  { destruct HF as [p s t Q|p s t Q O G|p s t Q O G|p q s t G|p q s t G|l s t]; cbn [places_dict].
    - apply is_qbx_iff in Q. rewrite Q. assert (S1 : is_source p = true) by (destruct p; try discriminate; reflexivity). rewrite S1, orb_true_r. cbn [bind].
      rewrite dset_two, (proj2 (gid_eqb_eq _ _) eq_refl). reflexivity.
    - apply is_qbx_not in Q. rewrite Q. assert (T : is_target p = false) by (destruct O; try discriminate; reflexivity). rewrite T.
      rewrite (proj2 (is_source_iff p) O). cbn [bind]. rewrite dset_two.
      destruct (gid_eqb (geometry s) (geometry t)) eqn:E; [apply gid_eqb_eq in E; contradiction|reflexivity].
    - apply is_qbx_not in Q. rewrite Q. assert (T : is_target p = false) by (destruct O; try discriminate; reflexivity). rewrite T.
      rewrite (proj2 (is_source_iff p) O). cbn [bind]. rewrite dset_two.
      rewrite (proj2 (gid_eqb_eq _ _) G). reflexivity.
    - cbn [bind]. rewrite dset_two. destruct (gid_eqb (geometry s) (geometry t)) eqn:E; [apply gid_eqb_eq in E; contradiction|reflexivity].
    - cbn [bind]. rewrite dset_two, (proj2 (gid_eqb_eq _ _) G). reflexivity.
    - reflexivity. }
  rewrite X. cbn [bind]. assert (V := validate_spec d s' t'). destruct (validate d (s', t')) as [z'|e].
  - destruct HG as (I & _ & G), V as (_ & _ & G'). cbn [bind].
    apply in_map_iff in I. destruct I as ([g p] & E & I). destruct (G g p I) as (_ & _ & Z1), (G' g p I) as (_ & _ & Z2).
    assert (z = z') by congruence. subst. reflexivity.
  - exfalso. destruct HG as (I1 & I2 & G).
    inversion V as [[N|N]|g p I N|g p _ I N|g p g' p' _ I I' N]; subst; try contradiction.
    + destruct (G g p I) as (X1 & _). contradiction.
    + destruct (G g p I) as (_ & X1 & _). contradiction.
    + destruct (G g p I) as (_ & _ & X1), (G g' p' I') as (_ & _ & X2). congruence.
Qed.

(** Every collection in every reachable state is valid, and lookup returns exactly what is
    registered. *)
Theorem lookup : forall h cid g h' r, reachable h -> cid < length (h_colls h) -> get_geometry cid g h = (h', r) ->
  h' = h /\ match r with
            | Ok p => registered h cid g p /\ forall p', registered h cid g p' -> p' = p
            | Err e => e = KeyError /\ forall p, ~ registered h cid g p
            end.
Proof.
  intros h cid g h' r HR HV H. destruct (reachable_ok HR) as [HO HC].
  destruct (get_geometry_cases cid g HO) as [(p & RG & E)|[(E & _ & NR)|(E & NV)]]; rewrite E in H.
  - assert (h' = h) by congruence. assert (r = Ok p) by congruence. subst. split; [reflexivity|]. split; [exact RG|].
    intros p' RG'. eapply registered_unique; eauto.
  - assert (h' = h) by congruence. assert (r = Err KeyError) by congruence. subst. auto.
  - exfalso. apply NV. exact HV.
Qed.

(** ** C23 *)

(** The three ways to request a geometry at a stage. *)
Definition request (o : op) (cid : nat) (g : gid) (s : option stage) : Prop :=
  o = OpGet cid g s \/ o = OpTarget cid g s \/ o = OpSource cid g s.

Lemma request_spec E o cid g s h : heap_ok h -> caches_ok h -> request o cid g s ->
  exists h' r, exec E o h = (h', r) /\ grows h h' cid
   /\ match r with
      | Ok x => exists v, x = RGeo v /\ denotes h' cid g s v
      | Err e => request_error E h cid g e
           \/ (e = TypeError /\ exists p, registered h cid g p /\ denotes h' cid g s (GPlace p))
      end
   /\ (forall d, denotes h cid g s (GDiscr d) -> r = Ok (RGeo (GDiscr d)) /\ equiv h h').
Proof.
  intros HO HC [-> | [-> | ->]]; cbn [exec].
  - destruct (@get_discretization_spec E h cid g s HO HC) as (h' & r & E1 & G1 & P1 & P2).
    unfold mbind. rewrite E1. destruct r as [d|e]; eexists h', _; (split; [reflexivity|]); (split; [exact G1|]).
    + split; [eexists; split; [reflexivity|apply P1]|]. intros d' D'. destruct (P2 d' D') as [A B]. split; [unfold ret; congruence|exact B].
    + split; [exact P1|]. intros d' D'. destruct (P2 d' D') as [A B]. discriminate.
  - destruct (@get_dog_spec E h cid g s HO HC) as (h' & r & E1 & G1 & P1 & P2).
    unfold get_target_or_discretization, mbind. rewrite E1. destruct r as [x|e].
    + destruct P1 as [P1 _].
      assert (TY : forall q, x = GPlace q -> registered h cid g q).
      { intros q ->. destruct P1 as (p & HR & X). apply (registered_same _ _ _ (gr_objs G1)) in HR.
        destruct p; try (destruct X as (d & X & _); discriminate X); try discriminate X; congruence. }
      destruct x as [d|q]; [|destruct q]; eexists h', _; (split; [reflexivity|]); (split; [exact G1|]);
        (split; [first [eexists; split; [reflexivity|exact P1] | right; split; [reflexivity|]; eexists; split; [apply TY; reflexivity|exact P1]]
                |intros d' D'; destruct (P2 _ D') as [A B]; first [discriminate | split; [unfold ret; congruence|exact B]]]).
    + exists h', (Err e). split; [reflexivity|]. split; [exact G1|]. split; [left; exact P1|].
      intros d' D'. destruct (P2 _ D') as [A B]. discriminate.
  - destruct (@get_dog_spec E h cid g s HO HC) as (h' & r & E1 & G1 & P1 & P2).
    unfold get_source_or_discretization, mbind. rewrite E1. destruct r as [x|e].
    + destruct P1 as [P1 _].
      assert (TY : forall q, x = GPlace q -> registered h cid g q).
      { intros q ->. destruct P1 as (p & HR & X). apply (registered_same _ _ _ (gr_objs G1)) in HR.
        destruct p; try (destruct X as (d & X & _); discriminate X); try discriminate X; congruence. }
      destruct x as [d|q]; [|destruct q]; eexists h', _; (split; [reflexivity|]); (split; [exact G1|]);
        (split; [first [eexists; split; [reflexivity|exact P1] | right; split; [reflexivity|]; eexists; split; [apply TY; reflexivity|exact P1]]
                |intros d' D'; destruct (P2 _ D') as [A B]; first [discriminate | split; [unfold ret; congruence|exact B]]]).
    + exists h', (Err e). split; [reflexivity|]. split; [exact G1|]. split; [left; exact P1|].
      intros d' D'. destruct (P2 _ D') as [A B]. discriminate.
Qed.

(** Whatever happens between two requests for a geometry and stage, the second returns the
    discretization of the first, without any refinement work. *)
Theorem same_discretization : forall h E o cid g s d h1 hist h2 E' o' s' h3 r,
  reachable h -> request o cid g s -> exec E o h = (h1, Ok (RGeo (GDiscr d))) ->
  steps h1 hist h2 ->
  request o' cid g s' -> the_stage s' = the_stage s -> exec E' o' h2 = (h3, r) ->
  r = Ok (RGeo (GDiscr d)) /\ h_clk h3 = h_clk h2 /\ h_log h3 = h_log h2.
Proof.
  intros h E o cid g s d h1 hist h2 E' o' s' h3 r HR HQ H1 HS HQ' ES H3. destruct (reachable_ok HR) as [HO HC].
  destruct (@request_spec E o cid g s h HO HC HQ) as (ha & ra & Ea & Ga & Pa & _).
  assert (ha = h1) by congruence. subst ha. assert (ra = Ok (RGeo (GDiscr d))) by congruence. subst ra.
  destruct Pa as (v & Ev & DV). assert (v = GDiscr d) by congruence. subst v.
  destruct (steps_keep (gr_ok Ga) (gr_ci Ga) HS) as (O2 & C2 & R2 & K2 & _).
  assert (D2 : denotes h2 cid g s' (GDiscr d)).
  { destruct DV as (p & RP & X). exists p. split; [apply R2; exact RP|].
    destruct p; auto. destruct X as (x & X1 & X2). exists x. split; [exact X1|]. rewrite ES. apply K2; [discriminate|exact X2]. }
  destruct (@request_spec E' o' cid g s' h2 O2 C2 HQ') as (hb & rb & Eb & Gb & Pb & Qb).
  assert (hb = h3) by congruence. assert (rb = r) by congruence. subst hb rb.
  destruct (Qb d D2) as [A B]. split; [exact A|]. split; [exact (eq_clk B)|exact (eq_log B)].
Qed.

(** Each stage of each geometry of each collection is refined successfully at most once,
    and every such refinement is still in the cache. *)
Theorem refined_once : forall h, reachable h ->
  NoDup (h_log h) /\ forall cid g s, In (cid, g, s) (h_log h) -> exists d, cached_discr h cid g s d.
Proof. intros h HR. destruct (reachable_ok HR) as [_ HC]. split; [apply (co_once HC)|apply (co_log HC)]. Qed.

(** A discretization is cached iff the connection leading to it is, and the connection
    leads to it from where the stage starts. *)
Theorem caches_consistent : forall h cid g s, reachable h ->
  ((exists v, cached h cid CDiscr (KD g s) v) <-> (exists v, cached h cid CConn (KC g (previous s) (Some s)) v))
  /\ forall v, cached h cid CDiscr (KD g s) v ->
      exists d oid dim l c b, v = VD d /\ registered h cid g (PQBX oid dim l)
       /\ cached h cid CConn (KC g (previous s) (Some s)) (VC c) /\ starts_at h cid g l s b /\ connects c b d.
Proof.
  intros h cid g s HR. destruct (reachable_ok HR) as [_ HC]. split; [|intros v H; apply (co_discr HC H)].
  split.
  - intros [v H]. destruct (co_discr HC H) as (d & o & m & l & c & b & _ & _ & X & _). eauto.
  - intros [v H]. destruct (co_conn HC H) as (s' & d & X & _ & D). assert (s' = s) by congruence. subst. eexists. exact D.
Qed.

(** A request returns what the geometry denotes or fails for one of the listed reasons. *)
Theorem request_outcome : forall h E o cid g s h' r, reachable h -> request o cid g s -> exec E o h = (h', r) ->
  match r with
  | Ok x => exists v, x = RGeo v /\ denotes h' cid g s v
  | Err e => request_error E h cid g e
      \/ (e = TypeError /\ exists p, registered h cid g p /\ denotes h' cid g s (GPlace p))
  end.
Proof.
  intros h E o cid g s h' r HR HQ H. destruct (reachable_ok HR) as [HO HC].
  destruct (@request_spec E o cid g s h HO HC HQ) as (ha & ra & Ea & Ga & Pa & _).
  assert (ha = h') by congruence. assert (ra = r) by congruence. subst. exact Pa.
Qed.

Lemma refine_loop_ok E m checks : (forall clk d fl, exists d', e_refine E clk d fl = Ok d') -> m <> ERROR_ON_REFINEMENT ->
  forall fuel clk d, exists o, refine_loop E m checks fuel clk d = Ok o.
Proof.
  intros HR HM. induction fuel as [|fuel IH]; intros clk d; cbn [refine_loop]; [eauto|].
  destruct (checks clk d) as [fl []]; [|eauto]. destruct (HR clk d fl) as [d' E']. destruct (IH (S clk) d') as [o Eo].
  destruct m; try congruence; rewrite E'; cbn [bind]; rewrite Eo; cbn [bind]; eauto.
Qed.
(** In particular, if the mesh refiner works and refinement is not forbidden, requests for
    discretizations of registered QBX sources succeed, after any history. *)
Theorem request_succeeds : forall h E cid g s oid dim l h' r,
  reachable h -> registered h cid g (PQBX oid dim l) -> l_mode l <> ERROR_ON_REFINEMENT ->
  (forall clk d fl, exists d', e_refine E clk d fl = Ok d') ->
  exec E (OpGet cid g s) h = (h', r) -> exists d, r = Ok (RGeo (GDiscr d)).
Proof.
  intros h E cid g s oid dim l h' r HR HG HM HE H. destruct (reachable_ok HR) as [HO HC].
  assert (HQ : request (OpGet cid g s) cid g s) by (left; reflexivity).
  destruct (@request_spec E (OpGet cid g s) cid g s h HO HC HQ) as (ha & ra & Ea & Ga & P & _).
  assert (ha = h') by congruence. assert (ra = r) by congruence. subst ha ra.
  assert (HG' : registered h' cid g (PQBX oid dim l)) by (apply (registered_same _ _ _ (gr_objs Ga)); exact HG).
  destruct r as [x|e].
  - destruct P as (v & -> & p & RP & X). assert (p = PQBX oid dim l) by (eapply registered_unique; [apply (gr_ok Ga)|exact RP|exact HG']).
    subst p. destruct X as (d & -> & _). eauto.
  - exfalso. destruct P as [[(A & B)|[(A & B & C)|(o & m & l' & A & B)]]|(A & p & B & C)].
    + apply B. eapply registered_valid; exact HG.
    + exact (C _ HG).
    + assert (X : PQBX o m l' = PQBX oid dim l) by (eapply registered_unique; eauto). assert (l' = l) by congruence. subst l'.
      destruct B as [(clk & B)|(clk & d & B)].
      * unfold refine_stage1 in B. destruct (l_mode l) eqn:ML; try congruence.
        match type of B with bind (refine_loop E ?m ?c ?f ?k ?d) _ = _ => destruct (@refine_loop_ok E m c HE HM f k d) as [y Ey]; rewrite Ey in B end.
        discriminate.
      * unfold refine_stage2 in B. destruct (l_mode l) eqn:ML; try congruence.
        match type of B with bind (refine_loop E ?m ?c ?f ?k ?d) _ = _ => destruct (@refine_loop_ok E m c HE HM f k d) as [y Ey]; rewrite Ey in B end.
        discriminate.
    + assert (X : p = PQBX oid dim l) by (eapply registered_unique; eauto). subst p.
      destruct C as (q & C1 & C2). assert (q = PQBX oid dim l) by (eapply registered_unique; [apply (gr_ok Ga)|exact C1|exact HG']).
      subst q. destruct C2 as (d & C2 & _). discriminate.
Qed.

(** ** C24 *)

Lemma construct_spec a aw : match construct a aw with
  | Ok c => exists s t d s' t' z, asks aw s t /\ form a s t d s' t' /\ good_places d s' t' z /\ c = Coll d (s', t') z []
  | Err e => bad_form a aw e \/ exists s t d s' t', asks aw s t /\ form a s t d s' t' /\ bad_places d s' t' e
  end.
Proof.
  destruct (construct a aw) as [c|e] eqn:C.
  - assert (N : new_collection a aw empty_heap = (Heap [c] [] 0 [], Ok 0)) by (unfold new_collection; unfold construct in C; rewrite C; reflexivity).
    destruct (construction _ _ _ N) as (_ & s & t & d & s' & t' & z & A & B & G & H).
    exists s, t, d, s', t', z. repeat (split; [assumption|]). cbn in H. congruence.
  - assert (N : new_collection a aw empty_heap = (empty_heap, Err e)) by (unfold new_collection; unfold construct in C; rewrite C; reflexivity).
    exact (proj2 (construction _ _ _ N)).
Qed.

Lemma as_dofdesc_desc d : as_dofdesc (LDesc d) = Ok d.
Proof. vm_compute. reflexivity. Qed.
Lemma asks_own d1 d2 s t : asks (AWSeq [LDesc d1; LDesc d2]) s t -> s = d1 /\ t = d2.
Proof. intros H. inversion H as [|? ? ? ? A B|]; subst. rewrite as_dofdesc_desc in A, B. split; congruence. Qed.
Lemma form_map_inv l s t d s' t' : form (AMap l) s t d s' t' -> d = l /\ s' = s /\ t' = t.
Proof. intros H. inversion H. auto. Qed.

Definition copied_places (c : coll) (places : option (list (gid * place))) : list (gid * place) :=
  match places with None => c_places c | Some l => l end.
(** The defaults of the copy: those of the original unless given. *)
Definition copied_auto (c : coll) (aw : auto_arg) (s t : dofdesc) : Prop :=
  match aw with AWNone => (s, t) = c_auto c | _ => asks aw s t end.

Lemma copy_args_spec c places aw :
  match copy_args c places aw with
  | Ok c' => exists s t z, copied_auto c aw s t /\ good_places (copied_places c places) s t z
      /\ c' = Coll (copied_places c places) (s, t) z []
  | Err e => (exists l, aw = AWSeq l /\ length l <> 2 /\ e = ValueError)
      \/ exists s t, copied_auto c aw s t /\ bad_places (copied_places c places) s t e
  end.
Proof.
  unfold copy_args. fold (copied_places c places).
  assert (AU : forall s t, asks (match aw with AWNone => AWSeq [LDesc (fst (c_auto c)); LDesc (snd (c_auto c))] | a => a end) s t -> copied_auto c aw s t).
  { intros s t. unfold copied_auto. destruct aw; auto. intros H. apply asks_own in H. destruct H as [-> ->]. destruct (c_auto c); reflexivity. }
  match goal with |- context [construct ?a ?b] => assert (S := construct_spec a b); destruct (construct a b) as [c'|e] end.
  - destruct S as (s & t & d & s' & t' & z & A & B & G & ->). apply form_map_inv in B. destruct B as (-> & -> & ->).
    exists s, t, z. split; [apply AU; exact A|]. auto.
  - destruct S as [B|(s & t & d & s' & t' & A & B & G)].
    + left. inversion B as [x l L E1 E2 E3| | |]; subst. destruct aw as [|l'|x']; try discriminate.
      * assert (l = [LDesc (fst (c_auto c)); LDesc (snd (c_auto c))]) by congruence. subst. exfalso. apply L. reflexivity.
      * exists l. split; [congruence|]. auto.
    + right. apply form_map_inv in B. destruct B as (-> & -> & ->). exists s, t. split; [apply AU; exact A|exact G].
Qed.

(** A copy is a new collection with the given or the same places, the given or the same
    defaults, and no caches at all. *)
Theorem copying : forall h E cid c places aw h' r,
  reachable h -> has_coll h cid c -> op_wf (OpCopy cid places aw) -> exec E (OpCopy cid places aw) h = (h', r) ->
  match r with
  | Ok x => exists new c' s t z, x = RColl new /\ new = length (h_colls h) /\ has_coll h' new c'
      /\ c_places c' = copied_places c places /\ c_auto c' = (s, t) /\ c_dim c' = z
      /\ copied_auto c aw s t /\ good_places (c_places c') s t z
      /\ forall n, contents h' new n = []
  | Err e => h' = h /\ ((exists l, aw = AWSeq l /\ length l <> 2 /\ e = ValueError)
      \/ exists s t, copied_auto c aw s t /\ bad_places (copied_places c places) s t e)
  end.
Proof.
  intros h E cid c places aw h' r HR Hc HW H. destruct (reachable_ok HR) as [HO HC]. cbn [exec] in H. unfold mbind in H.
  assert (K := @copy_spec cid places aw h c HO HC Hc HW). assert (A := copy_args_spec c places aw).
  destruct (copy_args c places aw) as [c'|e].
  - destruct K as (h2 & E2 & _ & N & CE & _). rewrite E2 in H. unfold ret in H.
    assert (h' = h2) by congruence. assert (r = Ok (RColl (length (h_colls h)))) by congruence. subst.
    destruct A as (s & t & z & A & G & ->). eexists _, _, s, t, z. repeat (split; [reflexivity|]). split; [exact N|].
    cbn [c_places c_auto c_dim]. repeat (split; [reflexivity|]). split; [exact A|]. split; [exact G|exact CE].
  - rewrite K in H. assert (h' = h) by congruence. assert (r = Err e) by congruence. subst. auto.
Qed.

Lemma merged_places h cid c l : heap_ok h -> has_coll h cid c -> keys_unique l ->
  forall g p, In (g, p) (dupdate gid_eqb (c_places c) l) <-> In (g, p) l \/ (~ In g (map fst l) /\ registered h cid g p).
Proof.
  intros HO Hc HK g p. assert (KU := ok_keys HO Hc).
  assert (D : forall x, dget gid_eqb (dupdate gid_eqb (c_places c) l) x = match dget gid_eqb l x with Some y => Some y | None => dget gid_eqb (c_places c) x end)
    by (intros x; apply (dget_dupdate _ gid_eqb_eq); exact HK).
  assert (ND : NoDup (map fst (dupdate gid_eqb (c_places c) l))) by (apply (dupdate_NoDup _ gid_eqb_eq); exact KU).
  split.
  - intros I. apply (In_dget _ gid_eqb_eq _ _ _ ND) in I. rewrite D in I. destruct (dget gid_eqb l g) as [q|] eqn:L.
    + left. assert (q = p) by congruence. subst. apply (dget_In _ gid_eqb_eq _ _ L).
    + right. split; [apply (dget_None _ gid_eqb_eq); exact L|]. exists c. split; [exact Hc|]. apply (dget_In _ gid_eqb_eq _ _ I).
  - intros [I|[N (c2 & H2 & I)]]; apply (dget_In _ gid_eqb_eq); rewrite D.
    + rewrite (In_dget _ gid_eqb_eq _ _ _ HK I). reflexivity.
    + assert (c2 = c) by (unfold has_coll in *; congruence). subst c2. apply (dget_None _ gid_eqb_eq) in N. rewrite N.
      apply (In_dget _ gid_eqb_eq _ _ _ KU I).
Qed.

(** Merging: a new collection with the places of both, those of the argument taking
    precedence, the original's defaults and no caches. *)
Theorem merging : forall h E cid c l h' r,
  reachable h -> has_coll h cid c -> keys_unique l -> exec E (OpMerge cid l) h = (h', r) ->
  match r with
  | Ok x => exists new c', x = RColl new /\ new = length (h_colls h) /\ has_coll h' new c'
      /\ (forall g p, registered h' new g p <-> In (g, p) l \/ (~ In g (map fst l) /\ registered h cid g p))
      /\ c_auto c' = c_auto c /\ good_places (c_places c') (fst (c_auto c)) (snd (c_auto c)) (c_dim c')
      /\ forall n, contents h' new n = []
  | Err e => h' = h /\ exists d, bad_places d (fst (c_auto c)) (snd (c_auto c)) e
      /\ (forall g p, In (g, p) d <-> In (g, p) l \/ (~ In g (map fst l) /\ registered h cid g p))
  end.
Proof.
  intros h E cid c l h' r HR Hc HK H. destruct (reachable_ok HR) as [HO HC]. cbn [exec] in H. unfold mbind in H.
  assert (MP := merged_places HO Hc HK).
  assert (K := @merge_spec cid l h c HO HC Hc). assert (A := copy_args_spec c (Some (dupdate gid_eqb (c_places c) l)) AWNone).
  destruct (copy_args c (Some (dupdate gid_eqb (c_places c) l)) AWNone) as [c'|e].
  - destruct K as (h2 & E2 & _ & N & CE & _). rewrite E2 in H. unfold ret in H.
    assert (h' = h2) by congruence. assert (r = Ok (RColl (length (h_colls h)))) by congruence. subst.
    destruct A as (s & t & z & A & G & ->). cbn [copied_auto copied_places] in A, G. eexists _, _. repeat (split; [reflexivity|]). split; [exact N|].
    cbn [c_places c_auto c_dim copied_places]. split.
    + intros g p. rewrite <- MP. split; [|intros I; eexists; split; [exact N|exact I]].
      intros (c2 & H2 & I). unfold has_coll in *. assert (E3 := eq_trans (eq_sym N) H2). clear N H2.
      assert (E4 : c_places c2 = dupdate gid_eqb (c_places c) l) by (inversion E3; reflexivity). rewrite <- E4. exact I.
    + split; [exact A|]. rewrite <- A. cbn [fst snd]. split; [exact G|exact CE].
  - rewrite K in H. assert (h' = h) by congruence. assert (r = Err e) by congruence. subst. split; [reflexivity|].
    destruct A as [(l' & A & _)|(s & t & A & B)]; [discriminate|]. cbn [copied_auto copied_places] in A, B.
    exists (dupdate gid_eqb (c_places c) l). rewrite <- A. split; [exact B|exact MP].
Qed.

(** What add_geometry_to_collection accepts. *)
Definition addable (h : heap) (cid : nat) (gp : gid * place) : Prop :=
  (forall p, ~ registered h cid (fst gp) p) /\ exists oid dim, snd gp = PPoints oid dim \/ snd gp = PPointSource oid dim.
Inductive not_addable (h : heap) (cid : nat) : gid * place -> exn -> Prop :=
| name_taken g p q : registered h cid g q -> not_addable h cid (g, p) ValueError
| wrong_type g p : (forall q, ~ registered h cid g q) ->
    (forall oid dim, p <> PPoints oid dim /\ p <> PPointSource oid dim) -> not_addable h cid (g, p) TypeError.

Lemma dict_has_registered h cid c g : has_coll h cid c -> (dict_has (c_places c) g = true <-> exists p, registered h cid g p).
Proof.
  intros Hc. rewrite dict_has_In. split.
  - intros I. apply in_map_iff in I. destruct I as ([g' p] & <- & I). exists p, c. auto.
  - intros (p & c2 & H2 & I). assert (c2 = c) by (unfold has_coll in *; congruence). subst. apply (in_map fst) in I. exact I.
Qed.
Lemma check_additions_spec h cid c : has_coll h cid c -> forall l,
  match check_additions (c_places c) l with
  | Ok _ => Forall (addable h cid) l
  | Err e => exists pre x post, l = pre ++ x :: post /\ Forall (addable h cid) pre /\ not_addable h cid x e
  end.
Proof.
  intros Hc. induction l as [|[g p] l IH]; cbn [check_additions]; [constructor|].
  destruct (dict_has (c_places c) g) eqn:D.
  - apply (dict_has_registered _ Hc) in D. destruct D as [q D]. exists [], (g, p), l. split; [reflexivity|]. split; [constructor|].
    econstructor. exact D.
  - assert (N : forall q, ~ registered h cid g q).
    { intros q R. assert (X := proj2 (dict_has_registered g Hc) (ex_intro _ q R)). congruence. }
    assert (BAD : (forall oid dim, p <> PPoints oid dim /\ p <> PPointSource oid dim) ->
       exists pre x post, (g, p) :: l = pre ++ x :: post /\ Forall (addable h cid) pre /\ not_addable h cid x TypeError).
    { intros B. exists [], (g, p), l. split; [reflexivity|]. split; [constructor|]. constructor; assumption. }
    assert (GOOD : (exists oid dim, p = PPoints oid dim \/ p = PPointSource oid dim) ->
       match check_additions (c_places c) l with
       | Ok _ => Forall (addable h cid) ((g, p) :: l)
       | Err e => exists pre x post, (g, p) :: l = pre ++ x :: post /\ Forall (addable h cid) pre /\ not_addable h cid x e
       end).
    { intros T. assert (A : addable h cid (g, p)) by (split; [exact N|exact T]).
      destruct (check_additions (c_places c) l); [constructor; assumption|].
      destruct IH as (pre & x & post & -> & F & B). exists ((g, p) :: pre), x, post. split; [reflexivity|]. split; [constructor; assumption|exact B]. }
    destruct p; try (apply BAD; intros; split; discriminate); apply GOOD; eauto.
Qed.

(** add_geometry_to_collection: exactly the old and the new places, the old defaults, and
    precisely the entries of the documented caches; the first unacceptable addition raises. *)
Theorem adding : forall h E cid c l h' r,
  reachable h -> has_coll h cid c -> keys_unique l -> exec E (OpAdd cid l) h = (h', r) ->
  match r with
  | Ok x => exists new c', x = RColl new /\ new = length (h_colls h) /\ has_coll h' new c'
      /\ Forall (addable h cid) l
      /\ (forall g p, registered h' new g p <-> In (g, p) l \/ registered h cid g p)
      /\ c_auto c' = c_auto c /\ good_places (c_places c') (fst (c_auto c)) (snd (c_auto c)) (c_dim c')
      /\ (forall n k v, cached h' new n k v <-> (n = CDiscr \/ n = CConn \/ n = CCse) /\ cached h cid n k v)
  | Err e => h' = h /\
      ((exists pre x post, l = pre ++ x :: post /\ Forall (addable h cid) pre /\ not_addable h cid x e)
       \/ (Forall (addable h cid) l /\ exists d, bad_places d (fst (c_auto c)) (snd (c_auto c)) e
            /\ (forall g p, In (g, p) d <-> In (g, p) l \/ registered h cid g p)))
  end.
Proof.
  intros h E cid c l h' r HR Hc HK H. destruct (reachable_ok HR) as [HO HC]. cbn [exec] in H. unfold mbind in H.
  assert (MP := merged_places HO Hc HK). assert (CA := check_additions_spec Hc l).
  assert (K := @add_geometry_spec cid l h c HO HC Hc HK).
  destruct (check_additions (c_places c) l) as [u|e]; cbn [bind] in K.
  2: { rewrite K in H. assert (h' = h) by congruence. assert (r = Err e) by congruence. subst. auto. }
  assert (MP' : forall g p, In (g, p) (dupdate gid_eqb (c_places c) l) <-> In (g, p) l \/ registered h cid g p).
  { intros g p. rewrite MP. split; [tauto|]. intros [I|R]; [tauto|]. right. split; [|exact R].
    intros I. apply in_map_iff in I. destruct I as ([g' q] & E1 & I). cbn [fst] in E1. subst g'.
    rewrite Forall_forall in CA. destruct (CA _ I) as [N _]. exact (N p R). }
  assert (A := copy_args_spec c (Some (dupdate gid_eqb (c_places c) l)) AWNone).
  destruct (copy_args c (Some (dupdate gid_eqb (c_places c) l)) AWNone) as [c'|e].
  - destruct K as (h2 & E2 & _ & (c2 & N & P1 & P2 & P3) & CE). rewrite E2 in H. unfold ret in H.
    assert (h' = h2) by congruence. assert (r = Ok (RColl (length (h_colls h)))) by congruence. subst h' r.
    destruct A as (s & t & z & A & G & ->). cbn [copied_auto copied_places c_places c_auto c_dim] in *.
    eexists _, c2. repeat (split; [reflexivity|]). split; [exact N|]. split; [exact CA|]. split.
    + intros g p. rewrite <- MP', <- P1. split; [|intros I; eexists; split; [exact N|exact I]].
      intros (c3 & H3 & I). unfold has_coll in *. assert (c3 = c2) by congruence. subst. exact I.
    + split; [congruence|]. rewrite <- A, P1, P3. cbn [fst snd]. split; [exact G|].
      intros n k v. rewrite CE. destruct n; cbn [known_cache]; split; intros [X Y]; (split; [|exact Y]); auto; try discriminate;
        destruct X as [X|[X|X]]; discriminate.
  - rewrite K in H. assert (h' = h) by congruence. assert (r = Err e) by congruence. subst. split; [reflexivity|]. right. split; [exact CA|].
    destruct A as [(l' & A & _)|(s & t & A & B)]; [discriminate|]. cbn [copied_auto copied_places] in A, B.
    exists (dupdate gid_eqb (c_places c) l). rewrite <- A. split; [exact B|exact MP'].
Qed.

(** No history of calls, on copies or otherwise, changes anything about a collection that is
    not itself the one being asked for discretizations or connections. *)
Theorem originals_unchanged : forall h hist h' cid, reachable h -> steps h hist h' -> cid < length (h_colls h) ->
  Forall (fun eo => op_target (snd eo) <> Some cid) hist -> unchanged h h' cid.
Proof.
  intros h hist h' cid HR HS HV HF. destruct (reachable_ok HR) as [HO HC].
  destruct (steps_keep HO HC HS) as (_ & _ & _ & _ & _ & X). exact (X cid HV HF).
Qed.
(** And no history changes its places or loses an entry of its caches. *)
Theorem places_permanent : forall h hist h' cid, reachable h -> steps h hist h' ->
  (forall g p, registered h cid g p -> registered h' cid g p)
  /\ (forall n k v, (forall m, k <> KO m) -> cached h cid n k v -> cached h' cid n k v).
Proof.
  intros h hist h' cid HR HS. destruct (reachable_ok HR) as [HO HC].
  destruct (steps_keep HO HC HS) as (_ & _ & A & B & _). split; [intros; auto|intros; auto].
Qed.

(** ** C25 *)

(** Requesting a connection. *)
Theorem connections : forall h E cid from to h' r, reachable h -> exec E (OpConn cid from to) h = (h', r) ->
  match r with
  | Ok x => exists p a b links, x = RConn (Chained a links)
      /\ registered h cid (geometry from) p /\ ~ unsupported p from to
      /\ denotes h' cid (geometry from) (discr_stage from) (GDiscr a)
      /\ denotes h' cid (geometry to) (discr_stage to) (GDiscr b)
      /\ (discr_stage from <> None \/ discr_stage to = None -> connects (Chained a links) a b)
  | Err e =>
      (exists p, registered h cid (geometry from) p /\ unsupported p from to /\ e = ValueError)
      \/ (exists g s, (g = geometry from /\ s = discr_stage from \/ g = geometry to /\ s = discr_stage to)
          /\ (request_error E h cid g e \/ (e = TypeError /\ exists p, registered h cid g p /\ denotes h' cid g s (GPlace p))))
  end.
Proof.
  intros h E cid from to h' r HR H. destruct (reachable_ok HR) as [HO HC]. cbn [exec] in H. unfold mbind in H.
  destruct (@connection_spec E h cid from to HO HC) as (h2 & r2 & E2 & G2 & P2). rewrite E2 in H.
  destruct r2 as [x|e].
  - unfold ret in H. assert (h' = h2) by congruence. assert (r = Ok (RConn x)) by congruence. subst.
    destruct P2 as (p & a & b & links & R & U & DA & DB & -> & L & _). exists p, a, b, links. split; [reflexivity|].
    split; [apply (registered_same _ _ _ (gr_objs G2)); exact R|]. split; [exact U|]. split; [exact DA|]. split; [exact DB|].
    intros X. specialize (L X). split; [reflexivity|]. split; [|exact L]. cbn [conn_to]. apply links_last. exact L.
  - assert (h' = h2) by congruence. assert (r = Err e) by congruence. subst. destruct P2 as [P2|(g & s & X & [P2|P2])].
    + left. exact P2.
    + right. exists g, s. split; [exact X|]. left.
      destruct P2 as [(A & B)|[(A & B & C)|(o & m & l & A & B)]].
      * left. split; [exact A|]. intros V. apply B. apply (grows_valid _ G2). exact V.
      * right. left. split; [exact A|]. split; [apply (grows_valid _ G2); exact B|]. intros q Q. apply (C q).
        apply (registered_same _ _ _ (gr_objs G2)). exact Q.
      * right. right. exists o, m, l. split; [apply (registered_same _ _ _ (gr_objs G2)); exact A|exact B].
    + right. exists g, s. split; [exact X|]. right. exact P2.
Qed.

(** An unsupported pair always raises ValueError once both geometries can be discretized. *)
Theorem unsupported_rejected : forall h E cid from to h' r p,
  reachable h -> exec E (OpConn cid from to) h = (h', r) ->
  registered h cid (geometry from) p -> unsupported p from to -> exists e, r = Err e.
Proof.
  intros h E cid from to h' r p HR H HG HU. assert (C := @connections h E cid from to h' r HR H).
  destruct r as [x|e]; [|eauto]. exfalso. destruct C as (q & a & b & links & _ & RQ & NU & _). apply NU.
  destruct (reachable_ok HR) as [HO _]. assert (q = p) by (eapply registered_unique; eauto). subst. exact HU.
Qed.

(** ** Parts of the documentation that the code violates *)

(** C50: "places: a scalar ..." of type TargetBase.  No single target is ever accepted. *)
Theorem single_target_rejected : forall h p aw, a_target p -> exists e, new_collection (AOne p) aw h = (h, Err e).
Proof.
  intros h p aw HT. destruct (new_collection (AOne p) aw h) as [h' r] eqn:N. assert (C := construction _ _ _ N).
  destruct r as [cid|e].
  - exfalso. destruct C as (_ & s & t & d & s' & t' & z & _ & F & _). inversion F as [p0 ? ? Q|p0 ? ? Q O|p0 ? ? Q O| | |]; subst; destruct HT; [inversion Q|inversion Q|inversion O|inversion O|inversion O|inversion O].
  - destruct C as [-> _]. eauto.
Qed.
Theorem single_target_accepted_refuted :
  ~ (forall h p, good_type p -> good_name (Some UNNAMED_SOURCE) -> exists h' cid, new_collection (AOne p) AWNone h = (h', Ok cid)).
Proof.
  intros H. destruct (H empty_heap (PPoints 0 2)) as (h' & cid & E).
  - right. constructor.
  - intros n X. discriminate.
  - discriminate.
Qed.

(** C51: with a single [auto_where], a tuple's source geometry is silently dropped. *)
Theorem tuple_source_registered_refuted :
  ~ (forall h p q aw h' cid, new_collection (ATuple [p; q]) aw h = (h', Ok cid) ->
       (exists g, registered h' cid g p) /\ (exists g, registered h' cid g q)).
Proof.
  intros H.
  destruct (H empty_heap (PPointSource 0 2) (PPoints 1 2) (AWOne (LGeom (GName "s"%string))) _ 0 eq_refl) as [(g & c & Hc & I) _].
  unfold has_coll in Hc. cbn in Hc. assert (X : c_places c = [(Some (GName "s"%string), PPoints 1 2)]) by (inversion Hc; reflexivity).
  rewrite X in I. destruct I as [I|[]]. discriminate.
Qed.
Theorem tuple_registered_if_distinct : forall h p q aw h' cid s t,
  asks aw s t -> geometry s <> geometry t -> new_collection (ATuple [p; q]) aw h = (h', Ok cid) ->
  registered h' cid (geometry s) p /\ registered h' cid (geometry t) q.
Proof.
  intros h p q aw h' cid s t HA HN N. assert (C := construction _ _ _ N).
  destruct C as (-> & s1 & t1 & d & s' & t' & z & A & F & _ & ->).
  assert (X := asks_prepare HA). rewrite (asks_prepare A) in X. assert (s1 = s) by congruence. assert (t1 = t) by congruence. subst s1 t1.
  assert (NE : has_coll (Heap (h_colls h ++ [Coll d (s', t') z []]) (h_dicts h) (h_clk h) (h_log h)) (length (h_colls h)) (Coll d (s', t') z [])).
  { unfold has_coll. cbn [h_colls]. rewrite nth_error_app2 by lia. rewrite Nat.sub_diag. reflexivity. }
  inversion F; subst; try contradiction. split; eexists; (split; [exact NE|]); cbn [c_places]; [left|right; left]; reflexivity.
Qed.

(** ** Concrete histories *)
Definition src : gid := Some (GName "source"%string).
Definition ex_place : place := PQBX 0 2 ex_l.
Definition ex_auto : auto_arg := AWOne (LGeom (GName "source"%string)).
Definition ex_params : rparams := RParams (Some (1 # 3)%Q) (Some 1%Q) 0%Q 0 5.

(** Create a collection, refine a copy of it (twice refined stage 1), request stage 2 of the
    copy and stage 1 of the original. *)
Definition ex_history : list (env * op) :=
  [ (ex_env, OpNew (AOne ex_place) ex_auto);
    (ex_env, OpRefine 0 None None ex_params);
    (ex_env, OpGet 1 src (Some STAGE2));
    (ex_env, OpGet 0 src None);
    (ex_env, OpAdd 1 [(Some (GName "targets"%string), PPoints 7 2)]) ].
Fixpoint run (h : heap) (hist : list (env * op)) : heap :=
  match hist with [] => h | (E, o) :: hist' => run (fst (exec E o h)) hist' end.
Lemma steps_run hist : forall h, Forall (fun eo => op_wf (snd eo)) hist -> steps h hist (run h hist).
Proof.
  induction hist as [|[E o] hist IH]; intros h F; cbn [run]; [constructor|]. inversion F; subst.
  econstructor; [assumption|apply surjective_pairing|apply IH; assumption].
Qed.
Definition ex_heap : heap := run empty_heap ex_history.
Example ex_reachable : reachable ex_heap.
Proof.
  exists ex_history. apply steps_run. repeat constructor; cbn; try tauto.
Qed.
Example ex_log : h_log ex_heap = [(1, src, STAGE1); (1, src, STAGE2); (0, src, STAGE1)].
Proof. vm_compute. reflexivity. Qed.
Example ex_copy_keeps : exec ex_env (OpGet 2 src (Some STAGE2)) ex_heap = (ex_heap, Ok (RGeo (GDiscr (Discr 2 [(4, 3)])))).
Proof. vm_compute. reflexivity. Qed.
Example ex_original : snd (exec ex_env (OpGet 0 src None) ex_heap) = Ok (RGeo (GDiscr ex_d)).
Proof. vm_compute. reflexivity. Qed.
Example ex_add_taken : snd (exec ex_env (OpAdd 1 [(src, PPoints 7 2)]) ex_heap) = Err ValueError.
Proof. vm_compute. reflexivity. Qed.
Example ex_add_wrong_dim : snd (exec ex_env (OpAdd 1 [(None, PPoints 7 3)]) ex_heap) = Err RuntimeError.
Proof. vm_compute. reflexivity. Qed.
Example ex_bad_name : snd (exec ex_env (OpNew (AMap [(Some (GName "1x"%string), ex_place)]) (AWOne (LGeom (GName "1x"%string)))) ex_heap) = Err ValueError.
Proof. vm_compute. reflexivity. Qed.
(** A supported connection. *)
Example ex_conn : snd (exec ex_env (OpConn 2 (DD src (Some STAGE1) NODE) (DD src (Some QUAD_STAGE2) NODE)) ex_heap)
  = Ok (RConn (Chained (Discr 2 [(4, 3)])
      [Chained (Discr 2 [(4, 3)]) []; SameMesh (Discr 2 [(4, 3)]) (Discr 102 [(4, 5)])])).
Proof. vm_compute. reflexivity. Qed.
Example ex_conn_bad : snd (exec ex_env (OpConn 2 (DD src (Some STAGE1) NODE) (DD src (Some STAGE2) NODE)) ex_heap) = Err ValueError.
Proof. vm_compute. reflexivity. Qed.

(** C52: from a descriptor without a stage (which denotes the stage-1 discretization) to
    quad stage 2, the chain starts with the connection from the unrefined density
    discretization: its links do not match.  (If meshmode checks the first link, this is an
    AssertionError instead.) *)
Theorem unstaged_connections_refuted :
  ~ (forall h E cid from to h' a links b, reachable h ->
       exec E (OpConn cid from to) h = (h', Ok (RConn (Chained a links))) ->
       denotes h' cid (geometry to) (discr_stage to) (GDiscr b) -> connects (Chained a links) a b).
Proof.
  intros H.
  assert (D : connects
      (Chained (Discr 2 [(4, 3)])
       [Chained ex_d [RefConn ex_d (Discr 1 [(2, 3)]) [true]; RefConn (Discr 1 [(2, 3)]) (Discr 2 [(4, 3)]) [true; true]];
        Chained (Discr 2 [(4, 3)]) []; SameMesh (Discr 2 [(4, 3)]) (Discr 102 [(4, 5)])]) (Discr 2 [(4, 3)]) (Discr 102 [(4, 5)])).
  { apply (@H ex_heap ex_env 2 (DD src None NODE) (DD src (Some QUAD_STAGE2) NODE)
       (fst (exec ex_env (OpConn 2 (DD src None NODE) (DD src (Some QUAD_STAGE2) NODE)) ex_heap))).
    - exact ex_reachable.
    - vm_compute. reflexivity.
    - exists ex_place. split.
      + eexists. split; [unfold has_coll; vm_compute; reflexivity|left; reflexivity].
      + exists (Discr 102 [(4, 5)]). split; [reflexivity|]. unfold cached_discr, cached. vm_compute. reflexivity. }
  destruct D as (_ & _ & D). inversion D. subst. discriminate.
Qed.
(** What such a chain does connect. *)
Theorem unstaged_connections : forall h E cid from to h' a links oid dim l b, reachable h ->
  exec E (OpConn cid from to) h = (h', Ok (RConn (Chained a links))) ->
  registered h cid (geometry from) (PQBX oid dim l) -> discr_stage from = None -> discr_stage to = Some QUAD_STAGE2 ->
  denotes h' cid (geometry to) (discr_stage to) (GDiscr b) -> links_from (l_density l) links b.
Proof.
  intros h E cid from to h' a links oid dim l b HR H HG FN TN DB. destruct (reachable_ok HR) as [HO HC]. cbn [exec] in H. unfold mbind in H.
  destruct (@connection_spec E h cid from to HO HC) as (h2 & r2 & E2 & G2 & P2). rewrite E2 in H.
  destruct r2 as [x|e]; [|discriminate]. unfold ret in H. assert (h' = h2) by congruence. assert (x = Chained a links) by congruence. subst.
  destruct P2 as (p & a' & b' & links' & R & U & DA & DB' & EQ & _ & L). assert (links' = links) by congruence. subst.
  assert (HG' : registered h2 cid (geometry from) (PQBX oid dim l)) by (apply (registered_same _ _ _ (gr_objs G2)); exact HG).
  assert (p = PQBX oid dim l) by (eapply registered_unique; [apply (gr_ok G2)|exact R|exact HG']). subst p.
  assert (GE : geometry from = geometry to).
  { destruct (gid_eqb (geometry from) (geometry to)) eqn:Q; [apply gid_eqb_eq; exact Q|]. exfalso. apply U. left. intros X. apply gid_eqb_eq in X. congruence. }
  assert (b = b').
  { destruct DB as (q & Q1 & Q2), DB' as (q' & Q1' & Q2'). rewrite <- GE in Q1, Q1'.
    assert (q = PQBX oid dim l) by (eapply registered_unique; [apply (gr_ok G2)|exact Q1|exact HG']).
    assert (q' = PQBX oid dim l) by (eapply registered_unique; [apply (gr_ok G2)|exact Q1'|exact HG']). subst.
    destruct Q2 as (x & X1 & X2), Q2' as (y & Y1 & Y2). assert (Z := cached_fun X2 Y2). congruence. }
  subst b'. apply (L oid dim l eq_refl FN). congruence.
Qed.

Print Assumptions construction.
Print Assumptions construction_complete.
Print Assumptions lookup.
Print Assumptions same_discretization.
Print Assumptions refined_once.
Print Assumptions caches_consistent.
Print Assumptions request_outcome.
Print Assumptions request_succeeds.
Print Assumptions copying.
Print Assumptions merging.
Print Assumptions adding.
Print Assumptions originals_unchanged.
Print Assumptions places_permanent.
Print Assumptions connections.
Print Assumptions unsupported_rejected.
Print Assumptions single_target_rejected.
Print Assumptions single_target_accepted_refuted.
Print Assumptions tuple_source_registered_refuted.
Print Assumptions tuple_registered_if_distinct.
Print Assumptions unstaged_connections_refuted.
Print Assumptions unstaged_connections.
