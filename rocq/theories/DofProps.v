(** C16: DOF descriptors behave as values. *)
From Verif Require Import Base DofModel.
Set Implicit Arguments.

Lemma stage_eqb_eq a b : stage_eqb a b = true <-> a = b.
Proof. destruct a, b; simpl; split; congruence. Qed.
Lemma gran_eqb_eq a b : gran_eqb a b = true <-> a = b.
Proof. destruct a, b; simpl; split; congruence. Qed.
Lemma geom_eqb_eq a b : geom_eqb a b = true <-> a = b.
Proof.
  destruct a, b; simpl; try (split; congruence).
  - rewrite stage_eqb_eq. split; congruence.
  - rewrite gran_eqb_eq. split; congruence.
  - rewrite String.eqb_eq. split; congruence.
Qed.
Lemma opt_eqb_eq {A : Type} (f : A -> A -> bool) (H : forall x y, f x y = true <-> x = y) a b :
  opt_eqb f a b = true <-> a = b.
Proof. destruct a, b; simpl; try (split; congruence). rewrite H. split; congruence. Qed.

(** Descriptors are equal exactly when geometry, stage and granularity are. *)
Theorem dofdesc_equality : forall a b,
  dd_eqb a b = true <->
  geometry a = geometry b /\ discr_stage a = discr_stage b /\ granularity a = granularity b.
Proof.
  intros a b. unfold dd_eqb. rewrite !andb_true_iff.
  rewrite (opt_eqb_eq _ geom_eqb_eq), (opt_eqb_eq _ stage_eqb_eq), gran_eqb_eq. tauto.
Qed.

Lemma dd_eqb_eq a b : dd_eqb a b = true <-> a = b.
Proof.
  rewrite dofdesc_equality. destruct a, b; simpl. split.
  - intros (-> & -> & ->). reflexivity.
  - intros E. injection E as -> -> ->. auto.
Qed.

(** [!=] is the negation of [==], and equal descriptors have equal hashes, whatever
    the hash functions of tuples, identifiers and classes are. *)
Theorem dofdesc_hash_consistent : forall th hg hs hgr a b,
  dd_eqb a b = true ->
  dd_neb a b = false /\ dd_hash th hg hs hgr a = dd_hash th hg hs hgr b.
Proof.
  intros th hg hs hgr a b H. unfold dd_neb. rewrite H. apply dd_eqb_eq in H. subst. auto.
Qed.

(** The constructor accepts exactly None and the three stages, and exactly None
    (meaning nodes) and the three granularities; otherwise it raises ValueError. *)
Theorem dofdesc_init_spec : forall g st gr,
  match dd_init g st gr with
  | Ok d => geometry d = g
      /\ (st = ONone /\ discr_stage d = None \/ exists s, st = OStage s /\ discr_stage d = Some s)
      /\ (gr = ONone /\ granularity d = NODE \/ gr = OGran (granularity d))
  | Err e => e = ValueError
      /\ ((st <> ONone /\ forall s, st <> OStage s) \/ (gr <> ONone /\ forall k, gr <> OGran k))
  end.
Proof.
  intros g st gr. destruct st, gr; simpl; repeat split; eauto;
    try (left; split; congruence); try (right; split; congruence).
Qed.

(** Copying: what is not given is kept; giving another descriptor as the geometry
    takes over its stage as well (unless a stage is given); granularity is kept. *)
Theorem dofdesc_copy_spec : forall d,
  dd_copy d GANone OSentinel ONone = Ok d
  /\ (forall g, dd_copy d (GAGeom g) OSentinel ONone
                = Ok (DD (Some g) (discr_stage d) (granularity d)))
  /\ (forall s, dd_copy d GANone (OStage s) ONone = Ok (DD (geometry d) (Some s) (granularity d)))
  /\ dd_copy d GANone ONone ONone = Ok (DD (geometry d) None (granularity d))
  /\ (forall k, dd_copy d GANone OSentinel (OGran k) = Ok (DD (geometry d) (discr_stage d) k))
  /\ (forall g o, geometry o = Some g ->
        dd_copy d (GADesc o) OSentinel ONone = Ok (DD (Some g) (discr_stage o) (granularity d)))
  /\ (forall g o s, geometry o = Some g ->
        dd_copy d (GADesc o) (OStage s) ONone = Ok (DD (Some g) (Some s) (granularity d)))
  /\ (forall o, geometry o = None ->
        dd_copy d (GADesc o) OSentinel ONone = Ok (DD (geometry d) (discr_stage o) (granularity d))).
Proof.
  intros [g [s|] k]; repeat split; intros; try reflexivity;
    destruct o as [g' [s'|] k']; simpl in *; subst; reflexivity.
Qed.

(** The stage conversions change the stage only. *)
Theorem dofdesc_to_stage_spec : forall d,
  to_stage1 d = Ok (DD (geometry d) (Some STAGE1) (granularity d))
  /\ to_stage2 d = Ok (DD (geometry d) (Some STAGE2) (granularity d))
  /\ to_quad_stage2 d = Ok (DD (geometry d) (Some QUAD_STAGE2) (granularity d)).
Proof. intros [g s k]; repeat split. Qed.

(** [as_dofdesc] never fails, is idempotent, keeps descriptors, and turns stage and
    granularity markers and identifiers into descriptors with only that attribute. *)
Theorem as_dofdesc_spec : forall x,
  exists d, as_dofdesc x = Ok d /\ as_dofdesc (LDesc d) = Ok d /\
    d = match x with
        | LDesc d => d
        | LNone => DD None None NODE
        | LGeom (GStage s) => DD None (Some s) NODE
        | LGeom (GGran k) => DD None None k
        | LGeom g => DD (Some g) None NODE
        end.
Proof. intros [d| |[]]; eexists; repeat split. Qed.

(** Non-vacuity. *)
Example ex_dd_distinct :
  dd_eqb (DD (Some (GName "a")) None NODE) (DD (Some (GName "a")) (Some STAGE1) NODE) = false
  /\ dd_eqb (DD (Some (GName "a")) None NODE) (DD (Some (GName "a")) None NODE) = true
  /\ dd_init (Some (GName "a")) (OOther 3) ONone = Err ValueError
  /\ dd_init (Some (GName "a")) ONone (OStage STAGE1) = Err ValueError
  /\ dd_copy (DD None (Some STAGE2) CENTER) (GADesc (DD (Some (GName "t")) None NODE)) OSentinel ONone
     = Ok (DD (Some (GName "t")) None CENTER).
Proof. repeat split. Qed.

Print Assumptions dofdesc_equality.
Print Assumptions dofdesc_hash_consistent.
Print Assumptions dofdesc_init_spec.
Print Assumptions dofdesc_copy_spec.
Print Assumptions dofdesc_to_stage_spec.
Print Assumptions as_dofdesc_spec.
