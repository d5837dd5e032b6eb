(** Property C70 (and parts of C71).  Vocabulary: PgGeoSpec.v, PgSpec.v. *)
From Coq Require Import Reals Lra.
From Verif Require Import Base SymProofs IndexModel IndexSpec IndexProofs IndexProofs3 IndexProps
  PgModel PgSpec PgProofs PgProofs2 PgProps PgGeoModel PgGeoSpec PgGeoProofs.
Set Implicit Arguments.
Open Scope R_scope.

Local Lemma center_is nt d pts c : center nt d pts = Some c -> is_center nt d pts c.
Proof.
  intros H. split; [apply (center_len _ _ _ H)|]. intros k Hk. pose proof (center_coord _ _ H Hk) as E.
  change (map (fun p : list R => nth k p 0) pts) with (map (coord k) pts). fold (coord k c).
  destruct nt; unfold center1 in E.
  - destruct (map (coord k) pts) as [|x xs] eqn:Em; [discriminate|].
    assert (E' : coord k c = 1 / INR (length (x :: xs)) * rsum (x :: xs)) by congruence.
    unfold mean. fold (rsum (x :: xs)). rewrite E'.
    assert (H0 : INR (length (x :: xs)) <> 0) by (apply not_0_INR; discriminate).
    revert H0. generalize (INR (length (x :: xs))) (rsum (x :: xs)). intros w s Hw. field. exact Hw.
  - destruct (rmax (map (coord k) pts)) as [M|] eqn:EM; [|discriminate].
    destruct (rmin (map (coord k) pts)) as [m|] eqn:Em; [|discriminate]. injection E as E.
    exists M, m. split; [apply rmax_spec; exact EM|]. split; [apply rmin_spec; exact Em|]. rewrite <- E. lra.
Qed.

(** What a successful call means, for either generator: its balls are those of the clusters. *)
Section Balls.
Variables (X : Type) (pos : X -> point) (radius : point -> list X -> option R).
Variables (g : pgen) (ndim : nat) (nodes : list X) (dof_index : indexlist) (cs : list (list Z)).
Hypothesis Hcs : of_clusters cs dof_index.
Hypothesis Hnodes : forall x, In x (concat cs) -> (0 <= x < zlen nodes)%Z.

Definition cluster_nodes (xs : list X) (i : Z) (cl : list Z) : Prop :=
  entry cs i cl /\ Forall2 (fun x v => entry nodes x v) cl xs.

Local Lemma clusters_are : exists clusters,
  mapM (fun i => do ix <- cluster_indices dof_index i; mapM (pyget nodes) ix) (zrange (nclusters dof_index)) = Ok clusters /\
  length clusters = length cs /\
  (forall i xs, entry clusters i xs -> exists cl, cluster_nodes xs i cl) /\
  (forall i cl, entry cs i cl -> exists xs, entry clusters i xs /\ cluster_nodes xs i cl).
Proof.
  destruct (index_list_of_clusters _ Hcs) as (_ & Hn & _ & _ & Hcl & _).
  set (f := fun i => do ix <- cluster_indices dof_index i; mapM (pyget nodes) ix).
  assert (Hf : forall i cl, entry cs i cl -> exists xs, f i = Ok xs /\ Forall2 (fun x v => entry nodes x v) cl xs).
  { intros i cl [H0 Hi]. unfold f. destruct (Hcl _ _ Hi) as (E & _). rewrite Z2Nat.id in E by exact H0. rewrite E.
    cbn [bind]. assert (Hin : forall x, In x cl -> (0 <= x < zlen nodes)%Z).
    { intros x Hx. apply Hnodes. apply in_concat. exists cl. split; [eapply nth_error_In; eauto|exact Hx]. }
    clear - Hin. induction cl as [|x cl IH]; simpl; [eexists; split; [reflexivity|constructor]|].
    destruct (entry_ex nodes (Hin x (or_introl eq_refl))) as (v & Hv). rewrite (entry_get Hv). cbn [bind].
    destruct IH as (xs & -> & F); [intros; apply Hin; right; assumption|]. eexists. split; [reflexivity|].
    constructor; assumption. }
  destruct (@mapM_total _ _ f (zrange (nclusters dof_index))) as [ys Hys].
  { intros i Hi. apply zrange_In in Hi. rewrite Hn in Hi. destruct (entry_ex _ Hi) as (cl & Hcli).
    destruct (Hf _ _ Hcli) as (xs & E & _). eauto. }
  assert (Ly : length ys = length cs).
  { rewrite (mapM_length _ _ Hys). unfold zrange. rewrite map_length, seq_length, Hn. unfold zlen. lia. }
  assert (Ent : forall i xs, entry ys i xs -> f i = Ok xs).
  { intros i xs H. pose proof (entry_lt H) as L. apply mapM_Ok_inv in Hys.
    assert (L' : (0 <= i < nclusters dof_index)%Z) by (rewrite Hn; unfold zlen in *; lia).
    destruct (zrange_entry L') as [_ Z]. destruct H as [H0 H].
    revert Z H. generalize (Z.to_nat i) as n. generalize i as z. clear - Hys.
    induction Hys; intros z [|n] Hz Hn; try discriminate; simpl in *; [congruence|eauto]. }
  exists ys. split; [exact Hys|]. split; [exact Ly|]. split.
  - intros i xs H. pose proof (entry_lt H) as L. assert (L' : (0 <= i < zlen cs)%Z) by (unfold zlen in *; lia).
    destruct (entry_ex _ L') as (cl & Hc). exists cl. split; [exact Hc|].
    destruct (Hf _ _ Hc) as (xs' & E & F). rewrite (Ent _ _ H) in E. injection E as <-. exact F.
  - intros i cl H. pose proof (entry_lt H) as L. assert (L' : (0 <= i < zlen ys)%Z) by (unfold zlen in *; lia).
    destruct (entry_ex _ L') as (xs & Hx). exists xs. split; [exact Hx|]. split; [exact H|].
    destruct (Hf _ _ H) as (xs' & E & F). rewrite (Ent _ _ Hx) in E. injection E as <-. exact F.
Qed.

Local Lemma call_inv res : proxy_call pos radius g ndim nodes dof_index = Ok res ->
  forall i c cr r, ball_of i res c cr r -> exists xs cl, cluster_nodes xs i cl /\
    center (pg_norm g) ndim (map pos xs) = Some c /\ radius c xs = Some cr /\ r = pg_factor g * cr.
Proof.
  destruct clusters_are as (clusters & E & L & H1 & H2). unfold proxy_call. rewrite E. cbn [bind].
  destruct (opt_all (map (cluster_ball pos radius g ndim) clusters)) as [balls|] eqn:Eo; [|discriminate].
  destruct (generate_proxies _ _ _) as [px|e]; [|discriminate]. cbn [bind]. intros Hres. injection Hres as <-.
  intros i c cr r [Bc Bcr Br]. cbn [fst snd] in *. apply opt_all_spec in Eo.
  apply entry_map_inv in Bc. destruct Bc as (b & Hb & ->).
  apply entry_map_inv in Bcr. destruct Bcr as (b1 & Hb1 & ->). rewrite (entry_inj Hb1 Hb) in *. clear b1 Hb1.
  apply entry_map_inv in Br. destruct Br as (b1 & Hb1 & ->). rewrite (entry_inj Hb1 Hb) in *. clear b1 Hb1.
  assert (Li : (0 <= i < zlen clusters)%Z).
  { pose proof (entry_lt Hb) as Q. pose proof (map_Some_len _ _ _ Eo). unfold zlen in *. lia. }
  destruct (entry_ex _ Li) as (xs & Hxs). destruct (H1 _ _ Hxs) as (cl & Hcl). exists xs, cl. split; [exact Hcl|].
  destruct (map_Some_entry _ _ Eo Hxs) as (b' & Hb' & Eb). rewrite (entry_inj Hb' Hb) in Eb. clear b' Hb'.
  unfold cluster_ball in Eb. destruct (center (pg_norm g) ndim (map pos xs)) as [c0|]; [|discriminate].
  destruct (radius c0 xs) as [cr0|] eqn:Er; [|discriminate]. injection Eb as <-. cbn [fst snd]. auto.
Qed.

Local Lemma call_total : pg_ref g <> [] -> (forall c xs, xs <> [] -> exists r, radius c xs = Some r) ->
  (forall cl, In cl cs -> cl <> []) ->
  exists res, proxy_call pos radius g ndim nodes dof_index = Ok res /\
    forall i, (0 <= i < zlen cs)%Z -> exists c cr r, ball_of i res c cr r.
Proof.
  intros Href Hrad Hne. destruct clusters_are as (clusters & E & L & H1 & H2). unfold proxy_call. rewrite E. cbn [bind].
  assert (Hx : forall xs, In xs clusters -> xs <> []).
  { intros xs Hin. apply In_entry in Hin. destruct Hin as (i & Hi). destruct (H1 _ _ Hi) as (cl & Hcl & F).
    specialize (Hne cl (entry_In Hcl)). inversion F; subst; congruence. }
  assert (exists balls, opt_all (map (cluster_ball pos radius g ndim) clusters) = Some balls) as [balls Eb].
  { clear - Hx Hrad. induction clusters as [|xs l IH]; simpl; [eauto|].
    assert (Hxs : xs <> []) by (apply Hx; left; reflexivity).
    unfold cluster_ball at 1. destruct (@center_total (pg_norm g) ndim (map pos xs)) as [c ->];
      [destruct xs; [congruence|discriminate]|].
    destruct (Hrad c xs Hxs) as [r ->]. destruct IH as [bs ->]; [intros; apply Hx; right; assumption|]. eauto. }
  rewrite Eb. destruct (index_list_of_clusters _ Hcs) as (_ & Hn & _).
  destruct (@proxy_numbering _ _ (fun i ref => place_point (nth (Z.to_nat i) (map (fun b => snd (snd b)) balls) 0)
      (nth (Z.to_nat i) (map fst balls) []) ref) (pg_ref g) dof_index Href) as (px & pi & Ep & _).
  { rewrite Hn. apply zlen_nonneg. }
  rewrite Ep. cbn [bind]. eexists. split; [reflexivity|]. intros i Hi. apply opt_all_spec in Eb.
  apply map_Some_len in Eb.
  assert (Li : (0 <= i < zlen balls)%Z) by (unfold zlen in *; lia). destruct (entry_ex _ Li) as (b & Hb).
  exists (fst b), (fst (snd b)), (snd (snd b)). constructor; cbn [fst snd].
  - apply (entry_map fst); exact Hb.
  - apply (entry_map (fun b => fst (snd b))); exact Hb.
  - apply (entry_map (fun b => snd (snd b))); exact Hb.
Qed.

Local Lemma call_points res : proxy_call pos radius g ndim nodes dof_index = Ok res -> pg_ref g <> [] ->
  forall i c cr r j ref, ball_of i res c cr r -> entry (pg_ref g) j ref ->
    (0 <= i < zlen cs)%Z /\
    entry (fst (snd res)) (i * zlen (pg_ref g) + j) (Some (place_point r c ref)) /\
    exists l, cluster_indices (snd (snd res)) i = Ok l /\ zlen l = zlen (pg_ref g) /\
              entry l j (i * zlen (pg_ref g) + j)%Z.
Proof.
  intros Hres Href i c cr r j ref HB Hj. destruct (call_inv Hres HB) as (xs & cl & [Hcl _] & _).
  pose proof (entry_lt Hcl) as Hi. split; [exact Hi|].
  unfold proxy_call in Hres. destruct (mapM _ _) as [clusters|]; [|discriminate]. cbn [bind] in Hres.
  destruct (opt_all _) as [balls|]; [|discriminate]. destruct (index_list_of_clusters _ Hcs) as (_ & Hn & _).
  destruct (@proxy_numbering _ _ (fun i ref => place_point (nth (Z.to_nat i) (map (fun b => snd (snd b)) balls) 0)
      (nth (Z.to_nat i) (map fst balls) []) ref) (pg_ref g) dof_index Href) as (px & pi & Ep & _ & _ & Hpl & Hci & _).
  { rewrite Hn. apply zlen_nonneg. }
  rewrite Ep in Hres. cbn [bind] in Hres. injection Hres as <-. destruct HB as [Bc _ Br]. cbn [fst snd] in *.
  rewrite Hn in Hpl, Hci. split.
  - specialize (Hpl i j ref Hi Hj). cbv beta in Hpl.
    pose proof (entry_nth 0 Br) as E1. pose proof (entry_nth ([] : point) Bc) as E2. unfold point in *.
    rewrite E1, E2 in Hpl. exact Hpl.
  - destruct (Hci i Hi) as (l & El & Ll & Hl). exists l. split; [exact El|]. split; [exact Ll|].
    apply Hl. apply (entry_lt Hj).
Qed.
End Balls.

(** C70, ProxyGenerator.  For every index list made of non-empty clusters the call succeeds and
    gives one ball per cluster. *)
Theorem proxy_balls_total : forall g ndim nodes dof_index cs, of_clusters cs dof_index ->
  (forall x, In x (concat cs) -> (0 <= x < zlen nodes)%Z) -> (forall cl, In cl cs -> cl <> []) ->
  pg_ref g <> [] ->
  exists res, proxy_generator g ndim nodes dof_index = Ok res /\
    forall i, (0 <= i < zlen cs)%Z -> exists c cr r, ball_of i res c cr r.
Proof.
  intros g ndim nodes dof cs Hcs Hn Hne Href. apply (@call_total _ _ _ _ _ _ _ _ Hcs Hn); auto.
  intros c xs Hx. apply rmax_some. destruct xs; [congruence|discriminate].
Qed.
Print Assumptions proxy_balls_total.

(** The i-th ball: the center is the centroid or the middle of the bounding box of the cluster;
    the cluster radius is the largest distance of a cluster point from it; the proxy radius is
    that times the factor, so with a factor of at least 1 the proxy ball contains the cluster;
    the proxies are the scaled and translated reference points at the positions of the proxy
    index list, all of them on the sphere of that ball. *)
Theorem proxy_balls_enclose : forall g ndim nodes dof_index cs res, of_clusters cs dof_index ->
  (forall x, In x (concat cs) -> (0 <= x < zlen nodes)%Z) ->
  proxy_generator g ndim nodes dof_index = Ok res ->
  forall i cl c cr r, entry cs i cl -> ball_of i res c cr r ->
  exists xs, Forall2 (fun x p => entry nodes x p) cl xs /\
    is_center (pg_norm g) ndim xs c /\
    greatest (map (dist c) xs) cr /\ r = pg_factor g * cr /\
    (1 <= pg_factor g -> forall x, In x xs -> in_ball c r x) /\
    (forall j ref, entry (pg_ref g) j ref -> on_unit_sphere ndim ref -> 0 <= pg_factor g ->
       exists p l, entry (fst (snd res)) (i * zlen (pg_ref g) + j) (Some p) /\
         cluster_indices (snd (snd res)) i = Ok l /\ entry l j (i * zlen (pg_ref g) + j)%Z /\
         length p = ndim /\ (forall k, (k < ndim)%nat -> nth k p 0 = r * nth k ref 0 + nth k c 0) /\
         dist c p = r).
Proof.
  intros g ndim nodes dof cs res Hcs Hn Hres i cl c cr r Hcl HB.
  destruct (call_inv _ _ _ _ _ Hcs Hn Hres HB) as (xs & cl' & [Hcl' F] & Hc & Hr & Er).
  rewrite (entry_inj Hcl' Hcl) in F. rewrite map_id in Hc. pose proof (center_is _ _ _ Hc) as Hcen.
  exists xs. split; [exact F|]. split; [exact Hcen|].
  unfold cluster_radius in Hr. apply rmax_spec in Hr. split; [exact Hr|]. split; [exact Er|].
  assert (Hcr : 0 <= cr). { destruct Hr as [Hin _]. apply in_map_iff in Hin. destruct Hin as (x & <- & _). apply dist_nonneg. }
  split.
  - intros Hf x Hx. unfold in_ball. destruct Hr as [_ Hr]. specialize (Hr _ (in_map (dist c) _ _ Hx)).
    rewrite Er. nra.
  - intros j ref Hj [Hl Hu] Hf. assert (Href : pg_ref g <> []) by (intros E; rewrite E in Hj; apply entry_lt in Hj; unfold zlen in Hj; simpl in Hj; lia).
    destruct (call_points _ _ _ _ _ Hcs Hn Hres Href HB Hj) as (Hi & Hp & l & E1 & E2 & E3).
    destruct Hcen as [Lc _].
    exists (place_point r c ref), l. split; [exact Hp|]. split; [exact E1|]. split; [exact E3|].
    split; [rewrite place_len; congruence|]. split.
    + intros k Hk. apply (@place_coord r c ref k); [congruence|rewrite Lc; exact Hk].
    + apply place_dist; [congruence| |rewrite Hl; exact Hu]. rewrite Er. nra.
Qed.
Print Assumptions proxy_balls_enclose.

(** C70, QBXProxyGenerator: with a factor of at least 1 the proxy ball of a cluster contains, for
    every point of the cluster, both of its expansion balls. *)
Theorem qbx_proxy_balls_enclose : forall g ndim nodes dof_index cs res, of_clusters cs dof_index ->
  (forall x, In x (concat cs) -> (0 <= x < zlen nodes)%Z) ->
  (forall p q, In (p, q) nodes -> length (center_int q) = ndim /\ length (center_ext q) = ndim /\ 0 <= exp_radius q) ->
  qbx_proxy_generator g ndim nodes dof_index = Ok res -> 1 <= pg_factor g ->
  forall i cl c cr r, entry cs i cl -> ball_of i res c cr r ->
  forall n p q y, In n cl -> entry nodes n (p, q) -> length y = ndim ->
    in_ball (center_int q) (exp_radius q) y \/ in_ball (center_ext q) (exp_radius q) y ->
    in_ball c cr y /\ in_ball c r y.
Proof.
  intros g ndim nodes dof cs res Hcs Hn Hq Hres Hf i cl c cr r Hcl HB n p q y Hin Hnode Ly Hy.
  destruct (call_inv _ _ _ _ _ Hcs Hn Hres HB) as (xs & cl' & [Hcl' F] & Hc & Hr & Er).
  rewrite (entry_inj Hcl' Hcl) in F. pose proof (center_len _ _ _ Hc) as Lc.
  assert (Hx : In (p, q) xs).
  { clear - F Hin Hnode. induction F as [|x v l l' Hxv F IH]; [destruct Hin|].
    destruct Hin as [->|Hin]; [left; apply (entry_inj Hxv Hnode)|right; auto]. }
  destruct (Hq _ _ (entry_In Hnode)) as (Li & Le & Hrad).
  unfold qbx_cluster_radius in Hr. rewrite !map_map in Hr.
  destruct (rmax (map (fun s => dist c (center_int (snd s)) + exp_radius (snd s)) xs)) as [ri|] eqn:Ei; [|discriminate].
  destruct (rmax (map (fun s => dist c (center_ext (snd s)) + exp_radius (snd s)) xs)) as [re|] eqn:Ee; [|discriminate].
  apply rmax_spec in Ei. apply rmax_spec in Ee. destruct Ei as [_ Ei]. destruct Ee as [_ Ee].
  specialize (Ei _ (in_map (fun s => dist c (center_int (snd s)) + exp_radius (snd s)) _ _ Hx)).
  specialize (Ee _ (in_map (fun s => dist c (center_ext (snd s)) + exp_radius (snd s)) _ _ Hx)). cbn [snd] in Ei, Ee.
  assert (Hcr : ri <= cr /\ re <= cr) by (injection Hr as <-; destruct (Rlt_dec re ri); lra).
  assert (In1 : in_ball c cr y).
  { unfold in_ball in *. destruct Hy as [Hy|Hy].
    - pose proof (@dist_triangle c (center_int q) y ltac:(congruence) ltac:(congruence)). lra.
    - pose proof (@dist_triangle c (center_ext q) y ltac:(congruence) ltac:(congruence)). lra. }
  split; [exact In1|]. unfold in_ball in *. pose proof (dist_nonneg c y). rewrite Er. nra.
Qed.
Print Assumptions qbx_proxy_balls_enclose.

Theorem qbx_proxy_balls_total : forall g ndim nodes dof_index cs, of_clusters cs dof_index ->
  (forall x, In x (concat cs) -> (0 <= x < zlen nodes)%Z) -> (forall cl, In cl cs -> cl <> []) ->
  pg_ref g <> [] ->
  exists res, qbx_proxy_generator g ndim nodes dof_index = Ok res /\
    forall i, (0 <= i < zlen cs)%Z -> exists c cr r, ball_of i res c cr r.
Proof.
  intros g ndim nodes dof cs Hcs Hn Hne Href. apply (@call_total _ _ _ _ _ _ _ _ Hcs Hn); auto.
  intros c xs Hx. unfold qbx_cluster_radius.
  assert (forall (f : qbx_src -> R), exists r, rmax (map f (map snd xs)) = Some r) as H.
  { intros f. apply rmax_some. destruct xs; [congruence|discriminate]. }
  destruct (H (fun s => dist c (center_int s) + exp_radius s)) as [r1 ->].
  destruct (H (fun s => dist c (center_ext s) + exp_radius s)) as [r2 ->]. eauto.
Qed.
Print Assumptions qbx_proxy_balls_total.

(** The constructor: unknown norm types and dimensions are rejected; the defaults are a factor of
    1.1 and 32 points; in two dimensions exactly the requested number of reference points is
    made, all on the unit circle. *)
Theorem make_pgen_spec : forall sphere ambient_dim approx factor nt g,
  make_pgen sphere ambient_dim approx factor nt = Ok g ->
  (nt = "l2"%string /\ pg_norm g = L2 \/ nt = "linf"%string /\ pg_norm g = Linf) /\
  (ambient_dim = 2%nat \/ ambient_dim = 3%nat) /\
  pg_factor g = match factor with Some f => f | None => 11 / 10 end /\
  (ambient_dim = 2%nat -> length (pg_ref g) = match approx with Some n => n | None => 32%nat end /\
     forall p, In p (pg_ref g) -> on_unit_sphere 2 p) /\
  (ambient_dim = 3%nat -> pg_ref g = sphere (match approx with Some n => n | None => 32%nat end)).
Proof.
  intros sphere d approx factor nt g H. unfold make_pgen, parse_norm in H.
  assert (G : exists n, (nt = "l2"%string /\ n = L2 \/ nt = "linf"%string /\ n = Linf) /\
    (do ref <- unit_sphere sphere d (approx_nproxy approx); Ok (PGen (radius_factor factor) n ref)) = Ok g).
  { destruct (String.eqb_spec nt "l2"); [exists L2; auto|]. destruct (String.eqb_spec nt "linf"); [exists Linf; auto|].
    discriminate. }
  destruct G as (n & Hn & E). clear H. unfold unit_sphere in E.
  destruct d as [|[|[|[|d]]]]; try discriminate; injection E as <-; cbn [pg_norm pg_factor pg_ref].
  - split; [exact Hn|]. split; [auto|]. split; [reflexivity|]. split; [|discriminate]. intros _. split.
    + unfold unit_circle. rewrite map_length, seq_length. reflexivity.
    + intros p Hp. apply unit_circle_unit in Hp. exact Hp.
  - split; [exact Hn|]. split; [auto|]. split; [reflexivity|]. split; [discriminate|]. reflexivity.
Qed.
Print Assumptions make_pgen_spec.

Theorem make_pgen_rejects : forall sphere ambient_dim approx factor nt,
  (nt <> "l2"%string /\ nt <> "linf"%string) \/ (ambient_dim <> 2%nat /\ ambient_dim <> 3%nat) ->
  make_pgen sphere ambient_dim approx factor nt = Err ValueError.
Proof.
  intros sphere d approx factor nt H. unfold make_pgen, parse_norm.
  destruct (String.eqb_spec nt "l2"); [|destruct (String.eqb_spec nt "linf"); [|reflexivity]]; cbn [bind].
  - destruct H as [[H _]|[H2 H3]]; [contradiction|]. unfold unit_sphere.
    destruct d as [|[|[|[|d]]]]; try reflexivity; contradiction.
  - destruct H as [[_ H]|[H2 H3]]; [contradiction|]. unfold unit_sphere.
    destruct d as [|[|[|[|d]]]]; try reflexivity; contradiction.
Qed.
Print Assumptions make_pgen_rejects.

(** A concrete case of the hypotheses of the theorems above: four corners of a square in one
    cluster, a further point in another. *)
Example proxy_balls_case : exists g dof_index res,
  make_pgen (fun _ => []) 2 (Some 2%nat) None "linf" = Ok g /\ 1 <= pg_factor g /\
  of_clusters [[0; 1; 2; 3]; [4]]%Z dof_index /\
  proxy_generator g 2 [[0; 0]; [2; 0]; [2; 2]; [0; 2]; [5; 5]] dof_index = Ok res /\
  (exists c cr r, ball_of 1 res c cr r).
Proof.
  eexists. eexists.
  destruct (@proxy_balls_total (PGen (11/10) Linf (unit_circle 2)) 2 [[0; 0]; [2; 0]; [2; 2]; [0; 2]; [5; 5]]
    (IL [0; 1; 2; 3; 4]%Z [0; 4; 5]%Z) [[0; 1; 2; 3]; [4]]%Z) as (res & E & H).
  - reflexivity.
  - intros x Hx. simpl in Hx. change (zlen _) with 5%Z. lia.
  - intros cl [<-|[<-|[]]]; discriminate.
  - discriminate.
  - exists res. split; [reflexivity|]. split; [simpl; lra|]. split; [reflexivity|].
    split; [exact E|]. apply H. change (zlen _) with 2%Z. lia.
Qed.

(** ** C71: the documented norm of the radius *)

(** The radius is always Euclidean, also for norm_type "linf", where the documentation says that
    it is computed in that norm: the square has radius sqrt 2, not 1. *)
Definition max_norm_dist (c x : point) : R :=
  fold_right Rmax 0 (map (fun ab => Rabs (fst ab - snd ab)) (combine c x)).
Theorem radius_in_norm_type_refuted :
  center Linf 2 [[0; 0]; [2; 2]] = Some [1; 1] /\
  (forall x, In x [[0; 0]; [2; 2]] -> max_norm_dist [1; 1] x = 1) /\
  exists r, cluster_radius [1; 1] [[0; 0]; [2; 2]] = Some r /\ r <> 1.
Proof.
  split; [|split].
  - unfold center. cbn. unfold Rmax, Rmin. repeat destruct (Rle_dec _ _); try lra. repeat f_equal; lra.
  - intros x [<-|[<-|[]]]; unfold max_norm_dist; cbn.
    + rewrite Rminus_0_r, Rabs_R1. unfold Rmax. repeat destruct (Rle_dec _ _); lra.
    + replace (1 - 2) with (- (1)) by lra. rewrite Rabs_Ropp, Rabs_R1. unfold Rmax. repeat destruct (Rle_dec _ _); lra.
  - eexists. split; [reflexivity|]. intros E.
    assert (D : forall x, In x [[0; 0]; [2; 2]] -> dist [1; 1] x = sqrt 2).
    { intros x [<-|[<-|[]]]; unfold dist; f_equal; cbn; ring. }
    cbn [fold_left map] in E. rewrite !D in E by (simpl; auto). rewrite Rmax_left in E by lra.
    assert (S2 : sqrt 2 * sqrt 2 = 2) by (apply sqrt_def; lra). rewrite E in S2. lra.
Qed.
Print Assumptions radius_in_norm_type_refuted.

(** Factors below 1 are accepted although the ball then does not contain the cluster. *)
Definition two_points : list point := [[0; 0]; [2; 0]].
Theorem radius_factor_checked_refuted : exists g,
  make_pgen (fun _ => []) 2 None (Some (1/2)) "linf" = Ok g /\
  exists res c cr r, proxy_generator g 2 two_points (IL [0; 1]%Z [0; 2]%Z) = Ok res /\
    ball_of 0 res c cr r /\ exists x, In x two_points /\ ~ in_ball c r x.
Proof.
  eexists. split; [reflexivity|].
  destruct (@proxy_balls_total (PGen (1/2) Linf (unit_circle 32)) 2 two_points (IL [0; 1]%Z [0; 2]%Z) [[0; 1]]%Z)
    as (res & E & H).
  - reflexivity.
  - intros x Hx. simpl in Hx. change (zlen _) with 2%Z. lia.
  - intros cl [<-|[]]; discriminate.
  - discriminate.
  - destruct (H 0%Z) as (c & cr & r & HB); [unfold zlen; simpl; lia|].
    exists res, c, cr, r. split; [exact E|]. split; [exact HB|].
    assert (Hcs : of_clusters [[0; 1]]%Z (IL [0; 1]%Z [0; 2]%Z)) by reflexivity.
    assert (Hn : forall x, In x (concat [[0; 1]]%Z) -> (0 <= x < zlen two_points)%Z)
      by (intros x Hx; simpl in Hx; change (zlen two_points) with 2%Z; lia).
    assert (H0 : entry [[0; 1]]%Z 0 [0; 1]%Z) by (split; [lia|reflexivity]).
    destruct (@proxy_balls_enclose _ _ _ _ _ _ Hcs Hn E _ _ _ _ _ H0 HB) as (xs & F & (Lc & Hc) & Hg & Er & _).
    inversion F as [|a b l l' F1 F2]; subst. inversion F2 as [|a' b' m m' F3 F4]; subst. inversion F4; subst.
    assert (E1 : b = [0; 0]) by (eapply entry_inj; [exact F1|split; [lia|reflexivity]]).
    assert (E2 : b' = [2; 0]) by (eapply entry_inj; [exact F3|split; [lia|reflexivity]]). subst b b'.
    destruct c as [|c0 [|c1 [|]]]; try discriminate.
    pose proof (Hc 0%nat ltac:(lia)) as (hi & lo & [G1 G2] & [K1 K2] & M). simpl in G1, G2, K1, K2, M.
    assert (hi = 2) by (destruct G1 as [<-|[<-|[]]]; [specialize (G2 2 ltac:(auto)); lra|reflexivity]).
    assert (lo = 0) by (destruct K1 as [<-|[<-|[]]]; [reflexivity|specialize (K2 0 ltac:(auto)); lra]).
    pose proof (Hc 1%nat ltac:(lia)) as (hi1 & lo1 & [G3 G4] & [K3 K4] & M1). simpl in G3, K3, M1.
    assert (c0 = 1) by lra.
    assert (c1 = 0) by (destruct G3 as [<-|[<-|[]]]; destruct K3 as [<-|[<-|[]]]; lra). subst c0 c1.
    assert (D : forall x, In x two_points -> dist [1; 0] x = 1).
    { intros x [<-|[<-|[]]]; (transitivity (sqrt 1); [unfold dist; f_equal; cbn; ring|apply sqrt_1]). }
    exists [0; 0]. split; [left; reflexivity|]. unfold in_ball. rewrite D by (left; reflexivity).
    destruct Hg as [Hg _]. cbn [map] in Hg. rewrite !D in Hg by (simpl; auto). cbn [pg_factor].
    destruct Hg as [<-|[<-|[]]]; lra.
Qed.
Print Assumptions radius_factor_checked_refuted.
