(** C108: which exceptions the wrangler's proxy interactions raise.  Vocabulary: SkwSpec.v. *)
From Verif Require Import Base DofModel DofProps CollModel MatVecModel SymModel ProxyModel IndexModel IndexProofs2 MatModel MatProps PgModel SkModel SkwModel SkwSpec SkwProps.
Set Implicit Arguments.
Open Scope string_scope. Open Scope list_scope. Open Scope nat_scope.

Section P.
Variable R : rops.
Variables (P D : Type).
Variable ps : places.
Variable get_discr : dofdesc -> result (discr R P).
Variable run : what P -> tscl -> result (list (option R)).
Notation source_proxy := (source_proxy ps get_discr run).
Notation target_proxy := (target_proxy ps get_discr run).
Notation names := (map fst ps).

(** C108.  The public methods for the interactions with the proxies raise a KeyError if the
    geometry of the cluster data is no place of the collection, an AssertionError if that place is
    no QBX source, and, for a QBX source, a ValueError if the collection has a place with the name
    of the proxies; these come before everything else.  If none applies, an IndexError if the
    wrangler has no such expression, or no such input. *)
Theorem proxy_interaction_errors : forall w (x : pxydata P D) i j ix,
  (forall r, r = source_proxy w x i j ix \/ r = target_proxy w x i j ix ->
   ((forall g, geometry (x_dofdesc x) = Some g -> ~ In g names) -> r = Err KeyError) /\
   (forall g p pre post, geometry (x_dofdesc x) = Some g -> ps = pre ++ (g, p) :: post -> ~ In g (map fst pre) ->
    p <> PQbx -> r = Err AssertionError)) /\
  (forall g pre post, geometry (x_dofdesc x) = Some g -> ps = pre ++ (g, PQbx) :: post -> ~ In g (map fst pre) ->
   (In (GName "PROXY_SKELETONIZATION_TARGET") names -> source_proxy w x i j ix = Err ValueError) /\
   (In (GName "PROXY_SKELETONIZATION_SOURCE") names -> target_proxy w x i j ix = Err ValueError) /\
   (~ In (GName "PROXY_SKELETONIZATION_TARGET") names ->
    length (w_source_proxy_exprs w) <= i \/ length (w_domains w) <= j -> source_proxy w x i j ix = Err IndexError) /\
   (~ In (GName "PROXY_SKELETONIZATION_SOURCE") names ->
    length (w_target_proxy_exprs w) <= i \/ length (w_domains w) <= j -> target_proxy w x i j ix = Err IndexError)).
Proof.
  intros w x i j ix.
  assert (geq : forall g, geom_eqb g g = true) by (intros g; apply geom_eqb_eq; reflexivity).
  assert (Fn : forall g, ~ In g names -> assert_qbx ps (Some g) = Err KeyError).
  { intros g Hg. unfold assert_qbx. destruct (find _ ps) as [[n p]|] eqn:E; [|reflexivity].
    apply find_some in E. destruct E as [Hin E]. cbn in E. apply geom_eqb_eq in E. subst n.
    exfalso. apply Hg. exact (in_map fst _ _ Hin). }
  assert (N0 : assert_qbx ps None = Err KeyError).
  { unfold assert_qbx. destruct (find _ ps) as [[n p]|] eqn:E; [|reflexivity].
    apply find_some in E. destruct E as [_ E]. discriminate E. }
  assert (Ff : forall g p pre post, ps = pre ++ (g, p) :: post -> ~ In g (map fst pre) ->
    find (fun np => opt_eqb geom_eqb (Some (fst np)) (Some g)) ps = Some (g, p)).
  { intros g p pre post ->. clear - geq. induction pre as [|[n q] pre IH]; intros Hn; cbn.
    - rewrite geq. reflexivity.
    - destruct (geom_eqb n g) eqn:E.
      + apply geom_eqb_eq in E. subst n. exfalso. apply Hn. left. reflexivity.
      + apply IH. intros H. apply Hn. right. exact H. }
  assert (At : forall h, In h names -> add_geometry1 ps h = Err ValueError).
  { intros h Hh. unfold add_geometry1. replace (existsb _ ps) with true; [reflexivity|]. symmetry.
    apply existsb_exists. apply in_map_iff in Hh. destruct Hh as (np & <- & Hin). exists np. auto. }
  assert (An : forall h, ~ In h names -> add_geometry1 ps h = Ok tt).
  { intros h Hh. unfold add_geometry1. destruct (existsb _ ps) eqn:E; [|reflexivity].
    apply existsb_exists in E. destruct E as (np & Hin & E). apply geom_eqb_eq in E. subst h.
    exfalso. apply Hh. exact (in_map fst _ _ Hin). }
  assert (Gn : forall (A : Type) (l : list A) k, length l <= k -> getn l k = Err IndexError).
  { intros A l k Hk. unfold getn. apply nth_error_None in Hk. rewrite Hk. reflexivity. }
  assert (Ev : forall b added e wt, length (w_domains w) <= j ->
    evaluate_expr get_discr run w b added ix e j wt (Some false) = Err IndexError).
  { intros b added e wt Hj. unfold evaluate_expr. rewrite (Gn _ _ _ Hj). reflexivity. }
  split.
  - intros r Hr. split.
    + intros Hg. assert (E : assert_qbx ps (geometry (x_dofdesc x)) = Err KeyError).
      { destruct (geometry (x_dofdesc x)) as [g|]; [apply Fn; apply Hg; reflexivity|exact N0]. }
      destruct Hr as [-> | ->]; unfold source_proxy, target_proxy; rewrite E; reflexivity.
    + intros g p pre post Eg Ep Hn Hp. assert (E : assert_qbx ps (geometry (x_dofdesc x)) = Err AssertionError).
      { rewrite Eg. unfold assert_qbx. rewrite (Ff g p pre post Ep Hn). destruct p; try reflexivity. contradiction. }
      destruct Hr as [-> | ->]; unfold source_proxy, target_proxy; rewrite E; reflexivity.
  - intros g pre post Eg Ep Hn.
    assert (E : assert_qbx ps (geometry (x_dofdesc x)) = Ok tt).
    { rewrite Eg. unfold assert_qbx. rewrite (Ff g PQbx pre post Ep Hn). reflexivity. }
    unfold source_proxy, target_proxy. rewrite E. cbn [bind]. 
    change (GName "PROXY_SKELETONIZATION_SOURCE") with PROXY_SOURCE.
    change (GName "PROXY_SKELETONIZATION_TARGET") with PROXY_TARGET.
    repeat split; intros H.
    + rewrite (At _ H). reflexivity.
    + rewrite (At _ H). reflexivity.
    + intros H2. rewrite (An _ H). cbn [bind]. destruct H2 as [H2|H2]; [rewrite (Gn _ _ _ H2); reflexivity|].
      unfold getn at 1. destruct (nth_error _ i) eqn:?; [|reflexivity]. cbn [bind]. apply Ev. exact H2.
    + intros H2. rewrite (An _ H). cbn [bind]. destruct H2 as [H2|H2]; [rewrite (Gn _ _ _ H2); reflexivity|].
      unfold getn at 1. destruct (nth_error _ i) eqn:?; [|reflexivity]. cbn [bind]. apply Ev. exact H2.
Qed.

(** C108.  One cluster of sources, or of targets, is a ValueError; the sources come first. *)
Section S.
Variables (balls : dofdesc -> list P -> indexlist -> result (list P * list D)) (ref_points : list P) (put : P -> D -> P -> P).
Variables (dist : P -> P -> D) (within : D -> D -> bool).
Variables (build_tree : list P -> ptree P) (area_query : ptree P -> list P -> list D -> aquery) (dP : P) (dD : D).
Notation block := (block_interactions ps get_discr balls ref_points put dist within build_tree area_query dP dD run).
Theorem single_cluster_errors : forall w src tgt tgt2 i j,
  j < length (w_domains w) ->
  (nclusters src = 1%Z -> block w (TS tgt src) i j = Err ValueError) /\
  (nclusters tgt = 1%Z -> (exists r, block w (TS tgt2 src) i j = Ok r) -> block w (TS tgt src) i j = Err ValueError).
Proof.
  intros w src tgt tgt2 i j Hj. unfold block_interactions. cbn [sources targets].
  unfold getn. destruct (nth_error (w_domains w) j) as [dd|] eqn:E; [|apply nth_error_None in E; lia]. cbn [bind].
  split.
  - intros H. unfold source_side at 1. rewrite H. reflexivity.
  - intros H (r & Hr). match type of Hr with bind ?X _ = _ => destruct X as [sr|e] end; [|discriminate Hr]. cbn [bind].
    unfold target_side at 1. rewrite H. reflexivity.
Qed.
End S.
End P.
Print Assumptions proxy_interaction_errors.
Print Assumptions single_cluster_errors.

(** Each case occurs: collections with a QBX source "a", without it, with another kind of
    place of that name, and with a place that has the name of the proxies. *)
Definition exdd := DD (Some (GName "a")) (Some STAGE2) NODE.
Definition exx : pxydata Z Z := Pxy exdd (mk [[0]]%Z) (mk [[0]]%Z) [] [] [].
Definition exw : wrangler := Wr [] [] [] BQbx false [] BQbx false [] BP2P.
Definition exsrc (ps : places) := source_proxy (R := ZR) (P := Z) (D := Z) ps (fun _ => Err KeyError) (fun _ _ => Ok []) exw exx 0 0 (TS (mk [[0]]%Z) (mk [[0]]%Z)).
Definition extgt (ps : places) := target_proxy (R := ZR) (P := Z) (D := Z) ps (fun _ => Err KeyError) (fun _ _ => Ok []) exw exx 0 0 (TS (mk [[0]]%Z) (mk [[0]]%Z)).
Definition PS : geom := GName "PROXY_SKELETONIZATION_SOURCE".
Definition PT : geom := GName "PROXY_SKELETONIZATION_TARGET".
Example ex_errors :
  exsrc [(PT, PPoint)] = Err KeyError /\ extgt [] = Err KeyError /\
  exsrc [(GName "a", PUnreg)] = Err AssertionError /\
  exsrc [(GName "a", PQbx); (PT, PPoint)] = Err ValueError /\ extgt [(GName "a", PQbx); (PT, PPoint)] = Err IndexError /\
  exsrc [(GName "a", PQbx); (PS, PPoint)] = Err IndexError /\ extgt [(GName "a", PQbx); (PS, PPoint)] = Err ValueError.
Proof. repeat split. Qed.
(** ... and so do the hypotheses of the second part. *)
Example ex_hypotheses : exists pre post, geometry (x_dofdesc exx) = Some (GName "a") /\
  [(PT, PPoint); (GName "a", PQbx)] = pre ++ (GName "a", PQbx) :: post /\ ~ In (GName "a") (map fst pre) /\
  In PT (map fst [(PT, PPoint); (GName "a", PQbx)]) /\ ~ In PS (map fst [(PT, PPoint); (GName "a", PQbx)]) /\
  length (w_source_proxy_exprs exw) <= 0.
Proof. exists [(PT, PPoint)], []. cbn. repeat split; auto; intros H; repeat destruct H as [H|H]; try discriminate H; contradiction. Qed.
Example ex_single : exists w, zwr = Ok w /\ 1 < length (w_domains w) /\
  (exists r, zblock w (TS (il_of cl4) (il_of cl4)) 0 1 = Ok r) /\
  zblock w (TS (il_of [[0; 1]]%Z) (il_of cl4)) 0 1 = Err ValueError.
Proof.
  eexists. split; [vm_compute; reflexivity|]. split; [cbn; lia|]. split; [|vm_compute; reflexivity].
  eexists. vm_compute. reflexivity.
Qed.
