(** Properties C37 and C38.  Vocabulary: PgSpec.v (and IndexSpec.v for index lists). *)
From Verif Require Import Base SymProofs IndexModel IndexSpec IndexProofs IndexProofs3 IndexProps PgModel PgSpec PgProofs PgProofs2.
Set Implicit Arguments.
Open Scope Z_scope.

(** ** C37: neighbor gathering *)

(** The target index list used: the given one or the one of the proxies. *)
Definition used (srcindex : indexlist) (tgtindex : option indexlist) : indexlist :=
  match tgtindex with Some t => t | None => srcindex end.

(** [x] is the [p]-th number of the clusters [cs] and that position lies in cluster [i]. *)
Definition position_in (cs : list (list Z)) (i : nat) (p : Z) : Prop :=
  zlen (concat (firstn i cs)) <= p < zlen (concat (firstn (S i) cs)).

Local Lemma firstn_total (cs : list (list Z)) i :
  sum (firstn i (map (@zlen Z) cs)) = zlen (concat (firstn i cs)).
Proof. rewrite firstn_map. symmetry. apply il_total. Qed.

(** For all trees of the targets and all area queries that cover the balls (in the sense of
    exact comparison [le]), whatever rounding slack [within] allows: the i-th neighbor list
    consists of the entries of the target list at positions [ps], each position once; none of
    them lies in the i-th cluster, all of them are inside the ball up to the slack, and every
    position outside the cluster whose point is inside the ball is among them. *)
Theorem neighbors_exact : forall (P D : Type) (dist : P -> P -> D) (within : D -> D -> bool)
    (le : D -> D -> Prop) (build_tree : list P -> ptree P)
    (area_query : ptree P -> list P -> list D -> aquery)
    (nodes : list P) (srcindex : indexlist) (tgtindex : option indexlist)
    (centers : list P) (radii : list D) (cs : list (list Z)),
  (forall d r, le d r -> within d r = true) ->
  (forall pts, tree_of pts (build_tree pts)) ->
  (forall pts, covers dist le (build_tree pts) centers radii (area_query (build_tree pts) centers radii)) ->
  of_clusters cs (used srcindex tgtindex) -> nclusters srcindex = zlen cs ->
  zlen centers = zlen cs ->
  (forall x, In x (concat cs) -> 0 <= x < zlen nodes) ->
  exists nbrs il,
    gather_neighbors dist within build_tree area_query nodes srcindex centers radii tgtindex = Ok il /\
    of_clusters nbrs il /\ length nbrs = length cs /\
    forall i c r l, entry centers (Z.of_nat i) c -> entry radii (Z.of_nat i) r ->
      nth_error nbrs i = Some l -> exists ps,
      NoDup ps /\ Forall2 (fun p x => entry (concat cs) p x) ps l /\
      (forall p, In p ps -> ~ position_in cs i p /\
         exists x pt, entry (concat cs) p x /\ entry nodes x pt /\ within (dist pt c) r = true) /\
      (forall p x pt, entry (concat cs) p x -> entry nodes x pt -> ~ position_in cs i p ->
         le (dist pt c) r -> In p ps).
Proof.
  intros P D dist within le build_tree area_query nodes srcindex tgtindex centers radii cs
    Hle Htree Hq Hcs Hn Hc Hnodes.
  destruct (index_list_of_clusters _ Hcs) as (_ & Hncl & _ & Hind & _).
  set (tgt := used srcindex tgtindex) in *.
  assert (Hne : cs <> []) by (intros ->; discriminate Hcs).
  assert (Htgt : tgt = IL (concat cs) (cumsum0 (map (@zlen Z) cs))).
  { unfold of_clusters, make_index_list in Hcs. destruct cs; [congruence|]. congruence. }
  assert (Hd : exists d : P, True).
  { assert (H : 0 <= 0 < zlen centers) by (rewrite Hc; destruct cs; [congruence|]; unfold zlen; simpl; lia).
    destruct (entry_ex _ H) as (c & _). eauto. }
  destruct Hd as [d _].
  set (pts := map (fun x => nth (Z.to_nat x) nodes d) (concat cs)).
  assert (Hpick : pick nodes tgt = Ok pts).
  { unfold pick. rewrite Hind. apply mapM_ok. intros x Hx. apply entry_get. apply nth_entry. auto. }
  set (t := build_tree pts). set (q := area_query t centers radii).
  assert (Hrad : length radii = length centers) by (destruct (Hq pts) as [H _]; exact H).
  assert (Hpts : zlen pts = zlen (indices tgt)) by (unfold pts; rewrite zlen_map, Hind; reflexivity).
  set (one := fun i => gather_cluster dist within tgt centers radii t q i).
  assert (Hone : forall i c r, entry centers (Z.of_nat i) c -> entry radii (Z.of_nat i) r -> exists ps l,
     one (Z.of_nat i) = Ok l /\ NoDup ps /\ Forall2 (fun p x => entry (concat cs) p x) ps l /\
      (forall p, In p ps -> ~ position_in cs i p /\
         exists x pt, entry (concat cs) p x /\ entry nodes x pt /\ within (dist pt c) r = true) /\
      (forall p x pt, entry (concat cs) p x -> entry nodes x pt -> ~ position_in cs i p ->
         le (dist pt c) r -> In p ps)).
  { intros i c r Ec Er. pose proof (entry_lt Ec) as Li. rewrite Hc in Li.
    assert (Hi : (i < length cs)%nat) by (unfold zlen in Li; lia).
    assert (St : forall j, (j <= length cs)%nat -> entry (starts tgt) (Z.of_nat j) (zlen (concat (firstn j cs)))).
    { intros j Hj. rewrite Htgt. cbn [starts]. unfold cumsum0. split; [lia|]. rewrite Nat2Z.id, cumsum_nth by (rewrite map_length; exact Hj).
      rewrite Z.add_0_l, firstn_total. reflexivity. }
    pose proof (St i ltac:(lia)) as Hlo. pose proof (St (S i) ltac:(lia)) as Hhi.
    replace (Z.of_nat (S i)) with (Z.of_nat i + 1) in Hhi by lia.
    destruct (@gather_cluster_ok _ _ dist within le Hle tgt pts t centers radii q (Htree pts) Hpts (Hq pts)
                (Z.of_nat i) _ _ c r Ec Er Hlo Hhi) as (ps & E & ND & H1 & H2).
    exists ps. eexists. split; [exact E|]. split; [exact ND|].
    assert (Hrange : forall p, In p ps -> 0 <= p < zlen (concat cs)).
    { intros p Hp. rewrite <- Hind, <- Hpts. apply H1. exact Hp. }
    assert (Hpt : forall p x, entry (concat cs) p x -> entry pts p (nth (Z.to_nat x) nodes d)).
    { intros p x Hx. apply (entry_map (fun x => nth (Z.to_nat x) nodes d)). exact Hx. }
    split; [|split].
    - rewrite Hind. clear - Hrange. induction ps as [|p ps IH]; simpl; constructor.
      + apply nth_entry. apply Hrange. left. reflexivity.
      + apply IH. intros; apply Hrange; right; assumption.
    - intros p Hp. destruct (H1 p Hp) as (_ & Hout & pt & Ept & Hw). split; [exact Hout|].
      destruct (entry_ex _ (Hrange p Hp)) as (x & Ex). exists x, pt. split; [exact Ex|].
      rewrite (entry_inj Ept (Hpt p x Ex)) in *. split; [|exact Hw].
      apply nth_entry. apply Hnodes. apply (entry_In Ex).
    - intros p x pt Ex Ept Hout Hd. apply (H2 p pt); auto.
      rewrite <- (entry_nth d Ept). apply Hpt. exact Ex. }
  assert (Htot : exists nbrs, mapM one (zrange (nclusters srcindex)) = Ok nbrs /\
            Forall2 (fun x y => one x = Ok y) (zrange (nclusters srcindex)) nbrs).
  { destruct (@mapM_total _ _ one (zrange (nclusters srcindex))) as [ys Hys].
    - intros z Hz. apply zrange_In in Hz. rewrite Hn in Hz.
      assert (L1 : 0 <= z < zlen centers) by lia. destruct (entry_ex _ L1) as (c & Ec).
      assert (L2 : 0 <= z < zlen radii) by (unfold zlen in *; lia). destruct (entry_ex _ L2) as (r & Er).
      replace z with (Z.of_nat (Z.to_nat z)) in * by lia.
      destruct (Hone _ _ _ Ec Er) as (_ & l & E & _). eauto.
    - exists ys. split; [exact Hys|]. apply mapM_Ok_inv. exact Hys. }
  destruct Htot as (nbrs & Enbrs & Fnbrs).
  assert (Lnbrs : length nbrs = length cs).
  { rewrite (mapM_length _ _ Enbrs). unfold zrange. rewrite map_length, seq_length, Hn. unfold zlen. lia. }
  assert (exists il, make_index_list nbrs = Ok il) as [il Hil].
  { destruct nbrs; [destruct cs; [congruence|discriminate]|]. simpl. eauto. }
  exists nbrs, il. split; [|split; [exact Hil|split; [exact Lnbrs|]]].
  - unfold gather_neighbors. fold (used srcindex tgtindex). fold tgt. rewrite Hncl, Hn, Z.eqb_refl. cbn [negb].
    rewrite Hpick. cbn [bind]. fold t. fold q. rewrite <- Hn.
    match goal with |- context [mapM ?f (zrange _)] => change f with one end. rewrite Enbrs. cbn [bind]. exact Hil.
  - intros i c r l Ec Er Hl. destruct (Hone i c r Ec Er) as (ps & l' & E & H). exists ps.
    assert (l' = l); [|subst l'; exact H].
    assert (Hi : (i < length cs)%nat) by (rewrite <- Lnbrs; apply nth_error_Some; congruence).
    assert (G : forall zs ys, Forall2 (fun x y => one x = Ok y) zs ys -> forall n z y,
        nth_error zs n = Some z -> nth_error ys n = Some y -> one z = Ok y).
    { clear. induction 1; intros [|n] z w Hz Hw; try discriminate; simpl in *; [congruence|eauto]. }
    assert (one (Z.of_nat i) = Ok l); [|congruence].
    eapply G; [exact Fnbrs| |exact Hl].
    rewrite Hn. pose proof (@zrange_entry (zlen cs) (Z.of_nat i) ltac:(unfold zlen; lia)) as [_ X].
    rewrite Nat2Z.id in X. exact X.
Qed.
Print Assumptions neighbors_exact.

(** When no node occurs twice in the target list: the neighbors of cluster i are exactly the
    nodes of the target list inside the ball that are not in its i-th cluster, each once
    (here with exact comparison). *)
Theorem neighbors_set : forall (P D : Type) (dist : P -> P -> D) (within : D -> D -> bool)
    (build_tree : list P -> ptree P) (area_query : ptree P -> list P -> list D -> aquery)
    (nodes : list P) (srcindex : indexlist) (tgtindex : option indexlist)
    (centers : list P) (radii : list D) (cs : list (list Z)),
  (forall pts, tree_of pts (build_tree pts)) ->
  (forall pts, covers dist (fun d r => within d r = true) (build_tree pts) centers radii
                 (area_query (build_tree pts) centers radii)) ->
  of_clusters cs (used srcindex tgtindex) -> nclusters srcindex = zlen cs ->
  zlen centers = zlen cs ->
  (forall x, In x (concat cs) -> 0 <= x < zlen nodes) -> NoDup (concat cs) ->
  exists il, gather_neighbors dist within build_tree area_query nodes srcindex centers radii tgtindex = Ok il /\
    nclusters il = zlen cs /\
    forall i cl c r, nth_error cs i = Some cl -> entry centers (Z.of_nat i) c -> entry radii (Z.of_nat i) r ->
    exists l, cluster_indices il (Z.of_nat i) = Ok l /\ NoDup l /\
      forall x, In x l <-> In x (concat cs) /\ ~ In x cl /\
                  exists pt, entry nodes x pt /\ within (dist pt c) r = true.
Proof.
  intros P D dist within build_tree area_query nodes srcindex tgtindex centers radii cs
    Htree Hq Hcs Hn Hc Hnodes ND.
  destruct (@neighbors_exact P D dist within (fun d r => within d r = true) build_tree area_query nodes srcindex
              tgtindex centers radii cs (fun d r H => H) Htree Hq Hcs Hn Hc Hnodes) as (nbrs & il & E & Hil & L & H).
  exists il. split; [exact E|]. destruct (index_list_of_clusters _ Hil) as (_ & Hncl & _ & _ & Hcl & _).
  split; [rewrite Hncl; unfold zlen; rewrite L; reflexivity|].
  intros i cl c r Hi Ec Er. assert (Li : (i < length nbrs)%nat) by (rewrite L; apply nth_error_Some; congruence).
  destruct (nth_error nbrs i) as [l|] eqn:El; [|apply nth_error_None in El; lia].
  exists l. destruct (Hcl i l El) as (Hl & _). split; [exact Hl|].
  destruct (H i c r l Ec Er El) as (ps & NDp & F & H1 & H2).
  assert (Inl : forall x, In x l <-> exists p, In p ps /\ entry (concat cs) p x).
  { clear - F. intros x. induction F as [|p y ps l Hpy F IH]; simpl; [split; [tauto|intros (p & [] & _)]|].
    rewrite IH. split.
    - intros [->|(p' & Hp & Hx)]; eauto.
    - intros (p' & [->|Hp] & Hx); [left; apply (entry_inj Hpy Hx)|right; eauto]. }
  assert (Inj : forall p p' x, entry (concat cs) p x -> entry (concat cs) p' x -> p = p').
  { intros p p' x [P0 Hp] [P0' Hp']. rewrite NoDup_nth_error in ND.
    assert (Z.to_nat p = Z.to_nat p') by (apply ND; [apply nth_error_Some|]; congruence). lia. }
  assert (Pos : forall p x, entry (concat cs) p x -> (position_in cs i p <-> In x cl)).
  { intros p x Hx. assert (Hi' : (i < length cs)%nat) by lia.
    assert (Ecl : nth i cs [] = cl) by (apply nth_error_nth; exact Hi).
    assert (Split : concat cs = concat (firstn i cs) ++ cl ++ concat (skipn (S i) cs)).
    { rewrite <- (firstn_skipn (S i) cs) at 1. rewrite concat_app, (firstn_S_nth _ [] Hi'), Ecl, concat_app.
      simpl. rewrite app_nil_r, app_assoc. reflexivity. }
    unfold position_in. rewrite (firstn_S_nth _ [] Hi'), Ecl, concat_app, zlen_app. simpl. rewrite app_nil_r.
    split.
    - intros Hp. destruct Hx as [P0 Hx]. rewrite Split in Hx. unfold zlen in Hp.
      rewrite nth_error_app2 in Hx by lia. rewrite nth_error_app1 in Hx by lia. eapply nth_error_In; eauto.
    - intros Hin. apply In_entry in Hin. destruct Hin as (j & Hj).
      assert (entry (concat cs) (zlen (concat (firstn i cs)) + j) x).
      { pose proof (entry_lt Hj) as Lj. destruct Hj as [J0 Hj]. split; [unfold zlen; lia|].
        rewrite Split. unfold zlen in *. rewrite nth_error_app2 by lia. rewrite nth_error_app1 by lia.
        rewrite <- Hj. f_equal. lia. }
      rewrite (Inj _ _ _ Hx H0). pose proof (entry_lt Hj). lia. }
  split.
  - clear - F NDp Inj. revert NDp. induction F as [|p y ps l Hpy F IH]; intros NDp; [constructor|].
    inversion NDp as [|? ? Hp NDp']; subst. constructor; [|auto]. intros Hin. apply Hp.
    assert (exists p', In p' ps /\ entry (concat cs) p' y) as (p' & Hp' & E).
    { clear - F Hin. induction F as [|p' y' ps l Hpy' F IH']; [destruct Hin|].
      destruct Hin as [->|Hin]; [exists p'; split; [left; reflexivity|exact Hpy']|].
      destruct (IH' Hin) as (q & Hq & E). exists q. split; [right; exact Hq|exact E]. }
    rewrite (Inj _ _ _ Hpy E). exact Hp'.
  - intros x. rewrite Inl. split.
    + intros (p & Hp & Hx). destruct (H1 p Hp) as (Hout & x' & pt & Hx' & Hpt & Hw).
      rewrite (entry_inj Hx' Hx) in *. split; [apply (entry_In Hx)|].
      split; [intros Hin; apply Hout; apply (Pos p x Hx); exact Hin|eauto].
    + intros (Hin & Hout & pt & Hpt & Hw). apply In_entry in Hin. destruct Hin as (p & Hp).
      exists p. split; [|exact Hp]. apply (H2 p x pt); auto. intros Q. apply Hout. apply (Pos p x Hp). exact Q.
Qed.
Print Assumptions neighbors_set.

(** Target lists with another number of clusters are rejected. *)
Theorem neighbors_cluster_count : forall (P D : Type) (dist : P -> P -> D) within build_tree area_query
    nodes srcindex tgtindex (centers : list P) (radii : list D),
  nclusters tgtindex <> nclusters srcindex ->
  gather_neighbors dist within build_tree area_query nodes srcindex centers radii (Some tgtindex) = Err ValueError.
Proof.
  intros. unfold gather_neighbors. destruct (Z.eqb_spec (nclusters tgtindex) (nclusters srcindex)); [congruence|].
  reflexivity.
Qed.
Print Assumptions neighbors_cluster_count.

(** *** A concrete case: a tree with one leaf, points on a line.  The hypotheses of the
    theorems hold for it. *)
Definition flat_tree (pts : list Z) : ptree Z := PT [false] [0] [zlen pts] (zrange (zlen pts)) pts.
Definition flat_query (_ : ptree Z) (centers _ : list Z) : aquery :=
  AQ (zrange (zlen centers + 1)) (map (fun _ => 0) centers).
Definition zdist (a b : Z) : Z := Z.abs (a - b).

Lemma flat_tree_ok : forall pts, tree_of pts (flat_tree pts).
Proof.
  intros pts. assert (L : forall b, is_leaf (flat_tree pts) b -> b = 0).
  { intros b H. apply entry_lt in H. unfold zlen in H. simpl in H. lia. }
  constructor; simpl.
  - reflexivity.
  - intros k u Hk. pose proof (entry_lt Hk) as Lk. rewrite zrange_len in Lk by apply zlen_nonneg.
    rewrite (entry_inj Hk (zrange_entry Lk)). destruct (entry_ex _ Lk) as (p & Hp). eauto.
  - intros b Hb. rewrite (L b Hb). exists 0, (zlen pts). pose proof (zlen_nonneg pts). repeat split; try lia.
  - intros b b' k Hb Hb' _ _. rewrite (L b Hb), (L b' Hb'). reflexivity.
  - intros k Hk. exists 0. split; [split; [lia|reflexivity]|]. exists 0, (zlen pts). repeat split; try lia.
Qed.
Example neighbors_case :
  let srcindex := IL [0; 1; 2; 3; 4] [0; 2; 5] in
  gather_neighbors zdist Z.leb flat_tree flat_query [10; 11; 12; 13; 20] srcindex [10; 15] [3; 5] None
    = Ok (IL [2; 3; 0; 1] [0; 2; 4]) /\
  of_clusters [[0; 1]; [2; 3; 4]] (used srcindex None) /\ nclusters srcindex = 2 /\
  (forall t, covers zdist (fun d r => Z.leb d r = true) (flat_tree t) [10; 15] [3; 5]
               (flat_query (flat_tree t) [10; 15] [3; 5])).
Proof.
  cbv zeta. split; [reflexivity|]. split; [reflexivity|]. split; [reflexivity|].
  intros t. split; [reflexivity|]. intros i c r Hc Hr. pose proof (entry_lt Hc) as Li.
  change (zlen [10; 15]) with 2 in Li.
  assert (Hi : i = 0 \/ i = 1) by lia. exists [0]. split; [|split; [|split]].
  - destruct Hi as [-> | ->]; [exists 0, 1|exists 1, 2]; repeat split; try (cbn; lia).
  - repeat constructor. intros [].
  - intros b [<-|[]]. split; [lia|reflexivity].
  - intros b k p Hb _ _ _. apply entry_lt in Hb. unfold zlen in Hb. simpl in Hb. left. lia.
Qed.

(** ** C38: numbering of proxies and partitions *)

(** The proxies of cluster i occupy positions [i * nproxy, (i + 1) * nproxy), in the order of
    the reference points, and the proxy index list describes exactly this. *)
Theorem proxy_numbering : forall (P Q : Type) (place : Z -> P -> Q) (ref : list P) (dof_index : indexlist),
  ref <> [] -> 0 <= nclusters dof_index ->
  exists proxies pxyindex, generate_proxies place ref dof_index = Ok (proxies, pxyindex) /\
    zlen proxies = zlen ref * nclusters dof_index /\
    nclusters pxyindex = nclusters dof_index /\
    (forall i j p, 0 <= i < nclusters dof_index -> entry ref j p ->
       entry proxies (i * zlen ref + j) (Some (place i p))) /\
    (forall i, 0 <= i < nclusters dof_index -> exists l,
       cluster_indices pxyindex i = Ok l /\ zlen l = zlen ref /\
       (forall j, 0 <= j < zlen ref -> entry l j (i * zlen ref + j))) /\
    (forall k, 0 <= k < zlen proxies <-> In k (indices pxyindex)) /\ NoDup (indices pxyindex).
Proof.
  intros P Q place ref dof Hne Hn. set (n := nclusters dof) in *. set (m := zlen ref).
  assert (Hm : 0 < m) by (unfold m, zlen; destruct ref; [congruence|simpl; lia]).
  set (blk := fun i => map (fun p => Some (place i p)) ref).
  assert (Hblk : forall x, zlen (blk x) = m) by (intros x; unfold blk; apply zlen_map).
  assert (Tot : zlen (concat (map blk (zrange n))) = m * n).
  { assert (G : forall l, zlen (concat (map blk l)) = m * zlen l).
    { induction l as [|x l IH]; [unfold zlen; simpl; lia|]. cbn [map concat]. rewrite zlen_app, Hblk, IH.
      unfold zlen. simpl length. lia. }
    rewrite G, zrange_len by lia. reflexivity. }
  exists (concat (map blk (zrange n))), (IL (zrange (m * n)) (map (fun j => j * m) (zrange (n + 1)))).
  assert (Len : length (zrange n) = Z.to_nat n) by (unfold zrange; rewrite map_length, seq_length; reflexivity).
  assert (Hnc : nclusters (IL (zrange (m * n)) (map (fun j => j * m) (zrange (n + 1)))) = n).
  { unfold nclusters. cbn [starts]. rewrite zlen_map, zrange_len by lia. lia. }
  split; [|split; [exact Tot|split; [|split; [|split]]]].
  - unfold generate_proxies. fold n. unfold nproxy. fold m.
    replace (Z.to_nat (m * n)) with (length ref * length (zrange n))%nat
      by (rewrite Len; unfold m, zlen; nia).
    rewrite (@proxy_loop_ok _ _ place ref (zrange n) [] 0 eq_refl : proxy_loop _ _ _ _ (repeat None _) = _).
    cbn [bind app]. rewrite arange01 by nia. cbn [bind]. rewrite arange_starts by lia. cbn [bind].
    rewrite zrange_last by lia. rewrite map_app. cbn [map].
    unfold make_index_list_starts. rewrite pyget_last. cbn [bind].
    rewrite zrange_len by nia. replace (n * m) with (m * n) by lia. rewrite Z.eqb_refl. reflexivity.
  - exact Hnc.
  - intros i j p Hi Hj. eapply entry_concat_blocks; [exact Hblk|apply zrange_entry; exact Hi|].
    unfold blk. apply (entry_map (fun p => Some (place i p))). exact Hj.
  - intros i Hi. exists (rng (i * m) m). split; [|split].
    + unfold cluster_indices. rewrite Hnc. unfold in_range.
      replace ((0 <=? i) && (i <? n))%bool with true by (symmetry; apply andb_true_iff; split; [apply Z.leb_le|apply Z.ltb_lt]; lia).
      cbn [starts indices].
      rewrite (entry_get (entry_map (fun j => j * m) (zrange_entry (n := n + 1) (i := i) ltac:(lia)))).
      rewrite (entry_get (entry_map (fun j => j * m) (zrange_entry (n := n + 1) (i := i + 1) ltac:(lia)))).
      cbn [bind]. f_equal. rewrite pyslice_mid by (rewrite ?zrange_len by nia; nia).
      replace ((i + 1) * m - i * m) with m by lia. apply firstn_rng; nia.
    + unfold rng. rewrite zlen_map, zrange_len by lia. reflexivity.
    + intros j Hj. unfold rng. pose proof (entry_map (fun k => i * m + k * 1) (zrange_entry Hj)) as E.
      cbv beta in E. rewrite Z.mul_1_r in E. exact E.
  - split.
    + intros k. cbn [indices]. rewrite Tot, zrange_In. reflexivity.
    + apply zrange_NoDup.
Qed.
Print Assumptions proxy_numbering.

(** Without reference points the call fails. *)
Theorem proxy_numbering_empty : forall (P Q : Type) (place : Z -> P -> Q) (dof_index : indexlist),
  0 <= nclusters dof_index ->
  generate_proxies place [] dof_index = Err ZeroDivisionError.
Proof.
  intros P Q place dof Hn. unfold generate_proxies. unfold nproxy.
  change (zlen (@nil P)) with 0. rewrite Z.mul_0_l.
  change (repeat (@None Q) (Z.to_nat 0)) with (@nil (option Q)).
  rewrite (@proxy_loop_ok _ _ place [] (zrange (nclusters dof)) [] 0 eq_refl : proxy_loop _ _ _ _ [] = _).
  reflexivity.
Qed.
Print Assumptions proxy_numbering_empty.
Example proxy_numbering_case :
  generate_proxies (fun i p => (i, p)) ["a"; "b"]%string (IL [5; 6; 7] [0; 1; 1; 3])
  = Ok ([Some (0, "a"); Some (0, "b"); Some (1, "a"); Some (1, "b"); Some (2, "a"); Some (2, "b")]%string,
        IL [0; 1; 2; 3; 4; 5] [0; 2; 4; 6]).
Proof. reflexivity. Qed.

(** Partition by a tree: one cluster per leaf, holding the nodes of that leaf; together the
    clusters contain every node exactly once. *)
Theorem tree_partition : forall (P : Type) (pts : list P) (t : ptree P), tree_of pts t -> pts <> [] ->
  exists il cs, partition_tree t = Ok il /\ of_clusters cs il /\
    Permutation (concat cs) (zrange (zlen pts)) /\
    exists leaves, NoDup leaves /\ (forall b, In b leaves <-> is_leaf t b) /\
      Forall2 (fun b c => forall x, In x c <-> exists k, in_box t b k /\ entry (user_source_ids t) k x) leaves cs.
Proof.
  intros P pts t Ht Hne. destruct (partition_tree_ok Ht Hne) as (cs & E & Hcs & _ & Hp & HF).
  assert (exists il, make_index_list cs = Ok il) as [il Hil] by (destruct cs; [congruence|simpl; eauto]).
  exists il, cs. split; [congruence|]. split; [exact Hil|]. split; [exact Hp|].
  exists (leaf_boxes (has_child t)). split; [apply leaf_boxes_NoDup|].
  split; [intros b; apply leaf_boxes_spec|].
  clear - HF. induction HF as [|b c bs cs (s & n & E1 & E2 & _ & H) HF IH]; constructor; [|exact IH].
  intros x. rewrite H. split.
  - intros (k & Hk & Hx). exists k. split; [exists s, n; auto|exact Hx].
  - intros (k & (s' & n' & F1 & F2 & Hk) & Hx). rewrite (entry_inj F1 E1), (entry_inj F2 E2) in Hk. eauto.
Qed.
Print Assumptions tree_partition.
Example tree_partition_case :
  partition_tree (PT [true; false; false] [0; 0; 2] [3; 2; 1] [1; 2; 0] ["b"; "c"; "a"]%string)
  = Ok (IL [1; 2; 0] [0; 2; 3]).
Proof. reflexivity. Qed.

(** Partition of a curve without a tree: at least two contiguous clusters, in order, covering
    all nodes; with exact arithmetic their sizes differ by at most one. *)
Theorem plain_partition : forall point ambient_dim dim ndofs m,
  0 <= ndofs -> ambient_dim = 2 -> max_particles m <> 0 ->
  (forall k, 2 <= k -> good_points (point ndofs (k + 1)) ndofs k) ->
  exists il cs, partition_plain point ambient_dim dim ndofs m = Ok il /\ of_clusters cs il /\
    concat cs = zrange ndofs /\ zlen cs = Z.max (ndofs / max_particles m) 2.
Proof.
  intros point a dim n m Hn -> Hm Hp. set (k := Z.max (n / max_particles m) 2).
  assert (Hk : 2 <= k) by (unfold k; lia). specialize (Hp k Hk).
  pose proof (linspace_proper (ltac:(lia) : 1 <= k) Hp) as Hst.
  destruct (proj1 (index_list_proper_starts (zrange n) (linspace (point n (k + 1)) n (k + 1)))) as (cs & Ecs & Est);
    [rewrite zrange_len by exact Hn; exact Hst|].
  assert (Lcs : zlen cs = k).
  { apply (f_equal (@length _)) in Est. unfold linspace in Est. rewrite app_length, map_length in Est.
    unfold zrange in Est at 1. rewrite map_length, seq_length in Est. unfold cumsum0 in Est. rewrite cumsum_len, map_length in Est.
    simpl length in Est. unfold zlen. lia. }
  assert (Hne : cs <> []) by (intros ->; unfold zlen in Lcs; simpl in Lcs; lia).
  exists (IL (concat cs) (cumsum0 (map (@zlen Z) cs))), cs.
  split; [|split; [destruct cs; [congruence|reflexivity]|split; [exact Ecs|exact Lcs]]].
  unfold partition_plain. change (negb (2 =? 2) && (dim =? 1))%bool with false. cbv iota.
  destruct (Z.eqb_spec (max_particles m) 0); [contradiction|]. fold k. rewrite arange01 by exact Hn. cbn [bind].
  assert (E : pyget (linspace (point n (k + 1)) n (k + 1)) (-1) = Ok n) by (unfold linspace; apply pyget_last).
  rewrite E. cbn [bind]. rewrite Z.eqb_refl. unfold make_index_list_starts. rewrite E. cbn [bind].
  rewrite zrange_len, Z.eqb_refl by exact Hn. f_equal. rewrite Est, Ecs. reflexivity.
Qed.
Print Assumptions plain_partition.

(** ... sizes in exact arithmetic, in terms of the number of clusters and of
    max_particles_in_box. *)
Theorem plain_partition_balanced : forall dim ndofs m il,
  0 <= ndofs -> 0 < max_particles m ->
  partition_plain exact_point 2 dim ndofs m = Ok il ->
  forall i s, cluster_size il i = Ok s ->
    ndofs / nclusters il <= s <= ndofs / nclusters il + 1 /\ 2 * s <= 3 * max_particles m + 2.
Proof.
  intros dim n m il Hn Hm H i s Hs. set (M := max_particles m) in *. set (k := Z.max (n / M) 2).
  assert (Hk : 2 <= k) by (unfold k; lia).
  assert (Hil : il = IL (zrange n) (linspace (exact_point n (k + 1)) n (k + 1))).
  { unfold partition_plain in H. change (negb (2 =? 2) && (dim =? 1))%bool with false in H. cbv iota in H.
    fold M in H. destruct (Z.eqb_spec M 0); [lia|]. fold k in H. rewrite arange01 in H by exact Hn. cbn [bind] in H.
    assert (E : pyget (linspace (exact_point n (k + 1)) n (k + 1)) (-1) = Ok n) by (unfold linspace; apply pyget_last).
    rewrite E in H. cbn [bind] in H. rewrite Z.eqb_refl in H. unfold make_index_list_starts in H. rewrite E in H.
    cbn [bind] in H. rewrite zrange_len, Z.eqb_refl in H by exact Hn. congruence. }
  assert (Hnc : nclusters il = k).
  { rewrite Hil. unfold nclusters. cbn [starts]. unfold linspace. rewrite zlen_app, zlen_map, zrange_len by lia.
    unfold zlen. simpl. lia. }
  assert (St : forall j, 0 <= j <= k -> pyget (starts il) j = Ok (j * n / k)).
  { intros j Hj. rewrite Hil. cbn [starts]. apply entry_get. split; [lia|]. unfold linspace.
    replace (k + 1 - 1) with k by lia.
    assert (L : length (map (exact_point n (k + 1)) (zrange k)) = Z.to_nat k)
      by (rewrite map_length; unfold zrange; rewrite map_length, seq_length; reflexivity).
    destruct (Z.eq_dec j k) as [->|Hne].
    - rewrite nth_error_app2 by lia. rewrite L, Nat.sub_diag. simpl. f_equal.
      rewrite Z.mul_comm, Z.div_mul by lia. reflexivity.
    - rewrite nth_error_app1 by lia.
      destruct (entry_map (exact_point n (k + 1)) (zrange_entry (n := k) (i := j) ltac:(lia))) as [_ E].
      rewrite E. unfold exact_point. do 2 f_equal. lia. }
  unfold cluster_size in Hs. rewrite Hnc in Hs. unfold in_range in Hs.
  destruct (Z.leb_spec 0 i); [|discriminate]. destruct (Z.ltb_spec i k); [|discriminate]. cbn [andb] in Hs.
  rewrite !St in Hs by lia. cbn [bind] in Hs. injection Hs as <-. rewrite Hnc.
  assert (B : n / k <= (i + 1) * n / k - i * n / k <= n / k + 1).
  { pose proof (Z.div_mod ((i + 1) * n) k ltac:(lia)). pose proof (Z.mod_pos_bound ((i + 1) * n) k ltac:(lia)).
    pose proof (Z.div_mod (i * n) k ltac:(lia)). pose proof (Z.mod_pos_bound (i * n) k ltac:(lia)).
    pose proof (Z.div_mod n k ltac:(lia)). pose proof (Z.mod_pos_bound n k ltac:(lia)). nia. }
  split; [exact B|].
  assert (Nk : n < (k + 1) * M).
  { pose proof (Z.div_mod n M ltac:(lia)). pose proof (Z.mod_pos_bound n M ltac:(lia)). unfold k. nia. }
  assert (2 * (n / k) <= 3 * M); [|lia].
  destruct (Z.max_spec (n / M) 2) as [[Hlt Ek]|[Hge Ek]].
  - fold k in Ek. assert (n < 2 * M).
    { pose proof (Z.div_mod n M ltac:(lia)). pose proof (Z.mod_pos_bound n M ltac:(lia)). nia. }
    rewrite Ek. pose proof (Z.mul_div_le n 2 ltac:(lia)). lia.
  - pose proof (Z.mul_div_le n k ltac:(lia)). assert (2 * (k * (n / k)) < 2 * ((k + 1) * M)) by lia.
    assert (2 * (k + 1) <= 3 * k) by lia. nia.
Qed.
Print Assumptions plain_partition_balanced.
Example plain_partition_case :
  partition_plain exact_point 2 1 11 (Some 4) = Ok (IL (zrange 11) [0; 5; 11]) /\
  good_points (exact_point 11 3) 11 2.
Proof. split; [reflexivity|]. apply (@exact_good 11 2); lia. Qed.

(** Space curves are rejected ... *)
Theorem plain_partition_space_curve : forall point ambient_dim ndofs m, ambient_dim <> 2 ->
  partition_plain point ambient_dim 1 ndofs m = Err ValueError.
Proof.
  intros. unfold partition_plain. destruct (Z.eqb_spec ambient_dim 2); [contradiction|]. reflexivity.
Qed.
Print Assumptions plain_partition_space_curve.

(** ** C71: documented guarantees that do not hold *)

(** ... but surfaces are not, although "only curves are supported". *)
Theorem plain_partition_only_curves_refuted :
  is_ok (partition_plain exact_point 3 2 100 None) = true.
Proof. reflexivity. Qed.
Print Assumptions plain_partition_only_curves_refuted.

(** Clusters may have more points than max_particles_in_box. *)
Theorem plain_partition_max_particles_refuted : exists il,
  partition_plain exact_point 2 1 95 (Some 32) = Ok il /\ cluster_size il 1 = Ok 48.
Proof. eexists. split; [vm_compute; reflexivity|]. vm_compute. reflexivity. Qed.
Print Assumptions plain_partition_max_particles_refuted.

(** A curve with a single node gets an empty cluster. *)
Theorem plain_partition_nonempty_refuted : exists il,
  partition_plain exact_point 2 1 1 None = Ok il /\ cluster_size il 0 = Ok 0.
Proof. eexists. split; reflexivity. Qed.
Print Assumptions plain_partition_nonempty_refuted.

(** "Inside the proxy ball but outside the cluster itself": with a target list that differs from
    the source list, points of the ball's own cluster are reported as its neighbors. *)
Theorem neighbors_outside_own_cluster_refuted : exists il,
  gather_neighbors zdist Z.leb flat_tree flat_query [10; 11; 12; 20] (IL [0; 1; 2; 3] [0; 2; 4])
    [10; 16] [1; 4] (Some (IL [2; 3; 0; 1] [0; 2; 4])) = Ok il /\
  cluster_indices (IL [0; 1; 2; 3] [0; 2; 4]) 0 = Ok [0; 1] /\ cluster_indices il 0 = Ok [0; 1].
Proof. eexists. split; [vm_compute; reflexivity|]. split; reflexivity. Qed.
Print Assumptions neighbors_outside_own_cluster_refuted.
