(** C108, C109: what the proxy skeletonization of an operator asks for, block by block.
    Vocabulary: SkwSpec.v. *)
From Coq Require Import Ring.
From Verif Require Import Base DofModel DofProps CollModel MatVecModel SymModel SymProofs SymProofs2 ProxyModel IndexModel IndexSpec IndexProofs IndexProofs2 IndexProps MatModel MatProofs MatProps PgModel PgSpec PgProofs PgProofs2 PgProps SkModel SkSpec SkProofs SkProofs2 SkProofs3 SkProofs4 SkProofs5 SkProofs6 SkProps SkProps2 SkwModel SkwSpec SkwProofs.
Set Implicit Arguments.
Open Scope string_scope. Open Scope list_scope. Open Scope nat_scope.

Section C108.
Variable R : rops.
Variables (P D : Type).
Variable ps : places.
Variable get_discr : dofdesc -> result (discr R P).
Variable balls : dofdesc -> list P -> indexlist -> result (list P * list D).
Variable ref_points : list P.
Variable put : P -> D -> P -> P.
Variables (dist : P -> P -> D) (within : D -> D -> bool).
Variables (build_tree : list P -> ptree P) (area_query : ptree P -> list P -> list D -> aquery).
Variables (dP : P) (dD : D).
Variable run : what P -> tscl -> result (list (option R)).
Notation block_interactions := (block_interactions ps get_discr balls ref_points put dist within build_tree area_query dP dD run).
Notation cluster_geometry := (cluster_geometry balls dist within build_tree area_query).
Notation np := (length ref_points).

(** C108.  Block (i, j): for every cluster, the matrix decomposed for the sources has first a row
    per proxy of that cluster, with the entries of the proxy expression i for sources (towards
    proxy targets, without exclusion of equal indices), then a row per neighbor, with the entries
    of expression i; the matrix decomposed for the targets has the columns for proxy sources,
    with the entries of the proxy expression i for targets times the mean quadrature weight of the
    neighbors, then those for the neighbors.  All entries are those of the dependence on input j,
    the other inputs being zero.  The neighbors are the points of the other clusters inside of the
    cluster's ball. *)
Theorem block_matrices : forall w t s tcs scs i j e se te x dd d g cs rs ct rt ent,
  (forall pts, tree_of pts (build_tree pts)) ->
  ref_points <> [] ->
  length tcs = length scs -> length tcs <> 1 ->
  nth_error (w_exprs w) i = Some e -> nth_error (w_source_proxy_exprs w) i = Some se ->
  nth_error (w_target_proxy_exprs w) i = Some te ->
  nth_error (w_inputs w) j = Some x -> nth_error (w_domains w) j = Some dd ->
  get_discr dd = Ok d -> length (d_waa d) = length (d_nodes d) ->
  geometry dd = Some g -> (exists pre post, ps = pre ++ (g, PQbx) :: post /\ ~ In g (map fst pre)) ->
  ~ In PROXY_SOURCE (map fst ps) -> ~ In PROXY_TARGET (map fst ps) ->
  cluster_geometry dd (d_nodes d) scs s cs rs -> cluster_geometry dd (d_nodes d) tcs t ct rt ->
  let request b expr added weighted excl := What b expr x (without j (w_inputs w)) dd added weighted excl in
  let ask_sp pts := request (w_proxy_source_builder w) se (Some (PROXY_TARGET, pts)) (w_weighted_sources w) (Some false) in
  let ask_sn := request (w_neighbor_builder w) e None (w_weighted_sources w) None in
  let ask_tp pts := request (w_proxy_target_builder w) te (Some (PROXY_SOURCE, pts)) false (Some false) in
  let ask_tn := request (w_neighbor_builder w) e None (w_weighted_targets w) None in
  (forall pts, serves R run (ask_sp pts) (ent (ask_sp pts))) -> serves R run ask_sn (ent ask_sn) ->
  (forall pts, serves R run (ask_tp pts) (ent (ask_tp pts))) -> serves R run ask_tn (ent ask_tn) ->
  exists sr tr spts tpts, block_interactions w (TS t s) i j = Ok (sr, tr) /\
  (forall c scl center radius, nth_error scs c = Some scl -> nth_error cs c = Some center -> nth_error rs c = Some radius ->
     proxies_on put ref_points c center radius spts /\
     exists ncl p n O, neighbors_in dist within (d_nodes d) (concat scs) scl center radius ncl /\
       er_get sr (Z.of_nat c) = Ok (p, n) /\ vstack p n = Ok O /\
       mr O = np + length ncl /\ mc O = length scl /\
       forall b y, nth_error scl b = Some y ->
         (forall q, q < np -> el O q b = ent (ask_sp spts) (Z.of_nat (c * np + q)) y) /\
         (forall q z, nth_error ncl q = Some z -> el O (np + q) b = ent ask_sn z y)) /\
  (forall c tcl center radius, nth_error tcs c = Some tcl -> nth_error ct c = Some center -> nth_error rt c = Some radius ->
     proxies_on put ref_points c center radius tpts /\
     exists ncl p n O, neighbors_in dist within (d_nodes d) (concat tcs) tcl center radius ncl /\
       er_get tr (Z.of_nat c) = Ok (p, n) /\ hstack p n = Ok O /\
       mr O = length tcl /\ mc O = np + length ncl /\
       forall a y, nth_error tcl a = Some y ->
         (forall q, q < np -> el O a q =
            proxy_weight R (w_weighted_targets w) (d_waa d) ncl (ent (ask_tp tpts) y (Z.of_nat (c * np + q)))) /\
         (forall q z, nth_error ncl q = Some z -> el O a (np + q) = ent ask_tn y z)).
Proof.
  intros w t s tcs scs i j e se te x dd d g cs rs ct rt ent Htree Href Hl Hl1 He Hse Hte Hx Hdd Hd Hwaa Hg (pre & post & Hps & Hpre)
    HnS HnT Hgs Hgt request ask_sp ask_sn ask_tp ask_tn Ssp Ssn Stp Stn.
  destruct (neighbors_of Htree Hgs) as (snbr & sncs & Esn & Hsn & Lsn & HNs).
  destruct (neighbors_of Htree Hgt) as (tnbr & tncs & Etn & Htn & Ltn & HNt).
  destruct Hgs as (Hofs & NDs & Rs & Bs & Lcs & Lrs & Cs). destruct Hgt as (Hoft & NDt & Rt & Bt & Lct & Lrt & Ct).
  assert (Ns : nclusters s = Z.of_nat (length scs)) by (apply clusters_n; exact Hofs).
  assert (Nt : nclusters t = Z.of_nat (length tcs)) by (apply clusters_n; exact Hoft).
  assert (Hs0 : length scs <> 0). { apply of_clusters_mk in Hofs. destruct Hofs as [_ H]. destruct scs; [congruence|discriminate]. }
  destruct (@generate_clusters P P (fun i r => put (nth (Z.to_nat i) cs dP) (nth (Z.to_nat i) rs dD) r) ref_points s (length scs) Href Ns Hs0)
    as (spts & spx & spcs & Egs & Hops & Lps & Hpcs & Hpts).
  destruct (@generate_clusters P P (fun i r => put (nth (Z.to_nat i) ct dP) (nth (Z.to_nat i) rt dD) r) ref_points t (length tcs) Href Nt ltac:(lia))
    as (tpts & tpx & tpcs & Egt & Hopt & Lpt & Hpct & Hptt).
  assert (EvalQ : assert_qbx ps (geometry dd) = Ok tt).
  { unfold assert_qbx. rewrite Hg, Hps. clear - Hpre. induction pre as [|[h k] pre IH]; cbn [app find fst].
    - assert (Hgg : opt_eqb geom_eqb (Some g) (Some g) = true).
      { cbn. destruct g as [| | | |[]|[]|]; try reflexivity. cbn. apply String.eqb_refl. }
      rewrite Hgg. reflexivity.
    - assert (Hne : opt_eqb geom_eqb (Some h) (Some g) = false).
      { cbn. destruct (geom_eqb h g) eqn:Eh; [|reflexivity]. exfalso. apply Hpre. left. cbn.
        destruct h as [| | | |[]|[]|], g as [| | | |[]|[]|]; cbn in Eh; try discriminate; try reflexivity.
        apply String.eqb_eq in Eh. subst. reflexivity. }
      rewrite Hne. apply IH. intros H. apply Hpre. right. exact H. }
  assert (EvalA : forall h, ~ In h (map fst ps) -> add_geometry1 ps h = Ok tt).
  { intros h Hh. unfold add_geometry1. destruct (existsb (fun np => geom_eqb (fst np) h) ps) eqn:Ex; [|reflexivity].
    exfalso. apply existsb_exists in Ex. destruct Ex as ([k v] & Hin & Hk). apply Hh. cbn in Hk.
    assert (k = h) as <-. { destruct k as [| | | |[]|[]|], h as [| | | |[]|[]|]; cbn in Hk; try discriminate; try reflexivity.
      apply String.eqb_eq in Hk. subst. reflexivity. }
    apply in_map_iff. exists (k, v). auto. }
  assert (Eval : forall b added ix expr wt ex,
     evaluate_expr get_discr run w b added ix expr j wt ex = run (request b expr added wt ex) ix).
  { intros. unfold evaluate_expr, getn. rewrite Hdd. cbn [bind]. rewrite Hd. cbn [bind]. rewrite Hx. cbn [bind].
    rewrite without_slices. reflexivity. }
  assert (Gs : generate get_discr balls ref_points put dP dD dd s = Ok (Pxy dd s spx spts cs rs)).
  { unfold generate. rewrite Hd. cbn [bind]. rewrite Bs. cbn [bind]. rewrite Egs. reflexivity. }
  assert (Gt : generate get_discr balls ref_points put dP dD dd t = Ok (Pxy dd t tpx tpts ct rt)).
  { unfold generate. rewrite Hd. cbn [bind]. rewrite Bt. cbn [bind]. rewrite Egt. reflexivity. }
  assert (Mts : forall a b (l l' : list (list Z)), of_clusters l a -> of_clusters l' b -> length l = length l' -> make_ts a b = Ok (TS a b)).
  { intros a b l l' H1 H2 H3. unfold make_ts. rewrite (clusters_n H1), (clusters_n H2). unfold zlen. rewrite H3, Z.eqb_refl. reflexivity. }
  (* sources *)
  destruct (@source_interaction_matrix R scs spcs sncs s spx snbr _ _ Hofs Hops Hsn ltac:(lia) Lps Lsn
      (served_blocks _ (ent (ask_sp spts)) (combine spcs scs)) (served_blocks _ (ent ask_sn) (combine sncs scs)))
    as (sr & Esr & _ & _ & Hsr).
  destruct (@target_interaction_matrix R (w_weighted_targets w) (d_waa d) tcs tpcs tncs t tpx tnbr _ _ Hoft Hopt Htn Hl1 Lpt Ltn
      (served_blocks _ (ent (ask_tp tpts)) (combine tcs tpcs)) (served_blocks _ (ent ask_tn) (combine tcs tncs)))
    as (tr & Etr & _ & _ & Htr).
  { intros cl z Hcl Hz. apply In_nth_error in Hcl. destruct Hcl as (c & Hc).
    assert (Hcn : c < length tcs) by (rewrite <- Ltn; apply nth_error_Some; congruence).
    destruct (nth_error tcs c) as [tcl|] eqn:E1; [|apply nth_error_None in E1; lia].
    destruct (nth_error ct c) as [cc|] eqn:E2; [|apply nth_error_None in E2; lia].
    destruct (nth_error rt c) as [rr|] eqn:E3; [|apply nth_error_None in E3; lia].
    destruct (HNt c tcl cl cc rr E1 Hc E2 E3) as (_ & Hiff). apply Hiff in Hz. destruct Hz as (Hz & _).
    apply Rt in Hz. unfold zlen in *. rewrite Hwaa. exact Hz. }
  exists sr, tr, spts, tpts. split; [|split].
  - unfold SkwModel.block_interactions, getn. rewrite Hdd. cbn [bind].
    assert (E1 : source_side ps get_discr balls ref_points put dist within build_tree area_query dP dD run w dd (sources (TS t s)) i j = Ok sr).
    { unfold source_side. cbn [sources]. rewrite Ns.
      destruct (Z.eqb_spec (Z.of_nat (length scs)) 1) as [Heq|_]; [lia|]. rewrite Gs. cbn [bind].
      unfold gather. cbn [x_dofdesc x_srcindex x_centers x_radii x_pxyindex]. rewrite Hd. cbn [bind]. rewrite Esn. cbn [bind].
      rewrite <- Esr. unfold source_result. rewrite Ns. destruct (Z.eqb_spec (Z.of_nat (length scs)) 1) as [Heq|_]; [lia|].
      rewrite (Mts _ _ _ _ Hops Hofs Lps). cbn [bind].
      unfold source_proxy at 1, getn. cbn [x_dofdesc x_points]. rewrite EvalQ. cbn [bind]. rewrite (EvalA _ HnT). cbn [bind].
      rewrite Hse. cbn [bind]. rewrite Eval.
      change (request (w_proxy_source_builder w) se (Some (PROXY_TARGET, spts)) (w_weighted_sources w) (Some false)) with (ask_sp spts).
      rewrite (Ssp spts _ _ _ _ Hops Hofs Lps). cbn [bind].
      rewrite (Mts _ _ _ _ Hsn Hofs Lsn). cbn [bind]. unfold source_neighbor, getn. rewrite He. cbn [bind]. rewrite Eval.
      change (request (w_neighbor_builder w) e None (w_weighted_sources w) None) with ask_sn.
      rewrite (Ssn _ _ _ _ Hsn Hofs Lsn). reflexivity. }
    assert (E2 : target_side ps get_discr balls ref_points put dist within build_tree area_query dP dD run w dd (targets (TS t s)) i j = Ok tr).
    { unfold target_side. cbn [targets]. rewrite Nt.
      destruct (Z.eqb_spec (Z.of_nat (length tcs)) 1) as [Heq|_]; [lia|]. rewrite Gt. cbn [bind].
      unfold gather. cbn [x_dofdesc x_srcindex x_centers x_radii x_pxyindex]. rewrite Hd. cbn [bind]. rewrite Etn. cbn [bind].
      unfold getn. rewrite Hdd. cbn [bind]. rewrite Hd. cbn [bind].
      rewrite <- Etr. unfold target_result. rewrite Nt. destruct (Z.eqb_spec (Z.of_nat (length tcs)) 1) as [Heq|_]; [lia|].
      rewrite (Mts _ _ _ _ Hoft Hopt (eq_sym Lpt)). cbn [bind].
      unfold target_proxy at 1, getn. cbn [x_dofdesc x_points]. rewrite EvalQ. cbn [bind]. rewrite (EvalA _ HnS). cbn [bind].
      rewrite Hte. cbn [bind]. rewrite Eval.
      change (request (w_proxy_target_builder w) te (Some (PROXY_SOURCE, tpts)) false (Some false)) with (ask_tp tpts).
      rewrite (Stp tpts _ _ _ _ Hoft Hopt (eq_sym Lpt)). cbn [bind].
      rewrite (Mts _ _ _ _ Hoft Htn (eq_sym Ltn)). cbn [bind].
      destruct (if w_weighted_targets w then _ else _) as [pm|er]; [|reflexivity]. cbn [bind].
      unfold target_neighbor, getn. rewrite He. cbn [bind]. rewrite Eval.
      change (request (w_neighbor_builder w) e None (w_weighted_targets w) None) with ask_tn.
      rewrite (Stn _ _ _ _ Hoft Htn (eq_sym Ltn)). reflexivity. }
    rewrite E1. cbn [bind]. rewrite E2. reflexivity.
  - intros c scl center radius H1 H2 H3.
    assert (Hc : c < length scs) by (apply nth_error_Some; congruence). split.
    { intros q r Hr. rewrite (Hpts c q r Hc Hr). rewrite Nat2Z.id.
      rewrite (nth_error_nth _ _ dP H2), (nth_error_nth _ _ dD H3). reflexivity. }
    destruct (nth_error sncs c) as [ncl|] eqn:En; [|apply nth_error_None in En; lia].
    destruct (nth_error spcs c) as [pcl|] eqn:Ep; [|apply nth_error_None in Ep; lia].
    assert (Eb : nth_error (map (fun c0 => concat (block (ent (ask_sp spts)) c0)) (combine spcs scs)) c
                 = Some (concat (block (ent (ask_sp spts)) (pcl, scl)))).
    { apply (map_nth_error (fun c0 => concat (block (ent (ask_sp spts)) c0))). apply nth_combine_maps; assumption. }
    assert (Eb' : nth_error (map (fun c0 => concat (block (ent ask_sn) c0)) (combine sncs scs)) c
                 = Some (concat (block (ent ask_sn) (ncl, scl)))).
    { apply (map_nth_error (fun c0 => concat (block (ent ask_sn) c0))). apply nth_combine_maps; assumption. }
    destruct (Hsr c scl pcl ncl _ _ H1 Ep En Eb Eb') as (p & n & O & G1 & G2 & G3 & G4 & G5 & G6).
    pose proof (Hpcs c pcl Ep) as Hpcl. assert (Lpcl : length pcl = np) by (rewrite Hpcl, map_length, seq_length; reflexivity).
    exists ncl, p, n, O. split; [apply (HNs c scl ncl center radius H1 En H2 H3)|]. split; [exact G1|]. split; [exact G2|].
    rewrite Lpcl in *. split; [exact G3|]. split; [exact G4|]. intros b y Hb.
    assert (Hbl : b < length scl) by (apply nth_error_Some; congruence). split.
    + intros q Hq. rewrite (G5 q b Hq Hbl). apply (concat_block_nth (ent (ask_sp spts)) pcl scl q b); [|exact Hb].
      rewrite Hpcl. apply (map_nth_error (fun q0 => Z.of_nat (c * np + q0))). rewrite (nth_error_nth' _ 0) by (rewrite seq_length; exact Hq).
      rewrite seq_nth by exact Hq. reflexivity.
    + intros q z Hz. assert (Hq : q < length ncl) by (apply nth_error_Some; congruence).
      rewrite (G6 q b Hq Hbl). apply (concat_block_nth (ent ask_sn) ncl scl q b); assumption.
  - intros c tcl center radius H1 H2 H3.
    assert (Hc : c < length tcs) by (apply nth_error_Some; congruence). split.
    { intros q r Hr. rewrite (Hptt c q r Hc Hr). rewrite Nat2Z.id.
      rewrite (nth_error_nth _ _ dP H2), (nth_error_nth _ _ dD H3). reflexivity. }
    destruct (nth_error tncs c) as [ncl|] eqn:En; [|apply nth_error_None in En; lia].
    destruct (nth_error tpcs c) as [pcl|] eqn:Ep; [|apply nth_error_None in Ep; lia].
    assert (Eb : nth_error (map (fun c0 => concat (block (ent (ask_tp tpts)) c0)) (combine tcs tpcs)) c
                 = Some (concat (block (ent (ask_tp tpts)) (tcl, pcl)))).
    { apply (map_nth_error (fun c0 => concat (block (ent (ask_tp tpts)) c0))). apply nth_combine_maps; assumption. }
    assert (Eb' : nth_error (map (fun c0 => concat (block (ent ask_tn) c0)) (combine tcs tncs)) c
                 = Some (concat (block (ent ask_tn) (tcl, ncl)))).
    { apply (map_nth_error (fun c0 => concat (block (ent ask_tn) c0))). apply nth_combine_maps; assumption. }
    destruct (Htr c tcl pcl ncl _ _ H1 Ep En Eb Eb') as (p & n & O & G1 & G2 & G3 & G4 & G5 & G6).
    pose proof (Hpct c pcl Ep) as Hpcl. assert (Lpcl : length pcl = np) by (rewrite Hpcl, map_length, seq_length; reflexivity).
    exists ncl, p, n, O. split; [apply (HNt c tcl ncl center radius H1 En H2 H3)|]. split; [exact G1|]. split; [exact G2|].
    rewrite Lpcl in *. split; [exact G3|]. split; [exact G4|]. intros a y Ha.
    assert (Hal : a < length tcl) by (apply nth_error_Some; congruence). split.
    + intros q Hq. rewrite (G5 a q Hal Hq). f_equal. replace (a * np + q) with (a * length pcl + q) by (rewrite Lpcl; reflexivity).
      apply (concat_block_nth (ent (ask_tp tpts)) tcl pcl a q); [exact Ha|].
      rewrite Hpcl. apply (map_nth_error (fun q0 => Z.of_nat (c * np + q0))). rewrite (nth_error_nth' _ 0) by (rewrite seq_length; exact Hq).
      rewrite seq_nth by exact Hq. reflexivity.
    + intros q z Hz. assert (Hq : q < length ncl) by (apply nth_error_Some; congruence).
      rewrite (G6 a q Hal Hq). apply (concat_block_nth (ent ask_tn) tcl ncl a q); assumption.
Qed.
End C108.
Print Assumptions block_matrices.

(** C108.  What a wrangler holds: expression i is the i-th one prepared for binding; its proxy
    expressions are those of the prepared expression, from the default source to the proxy
    targets and from the proxy sources to the default target; one domain per input, the default
    source unless given; QBX for neighbors and target proxies, point-to-point for source proxies. *)
Theorem wrangler_contents : forall ps bargs default exprs inputs domains aw wp b1 b2 b3 w,
  make_wrangler ps bargs default exprs inputs domains aw wp b1 b2 b3 = Ok w ->
  exists src tgt, prepare_auto_where aw default = Ok (src, tgt) /\
  w_nrows w = length (to_list exprs) /\ w_ncols w = length (to_list inputs) /\ w_inputs w = to_list inputs /\
  length (w_domains w) = length (to_list inputs) /\
  (domains = DomNone -> forall j dd, nth_error (w_domains w) j = Some dd -> dd = src) /\
  (forall l, domains = DomSeq l -> forall j x dd, nth_error l j = Some x -> nth_error (w_domains w) j = Some dd -> as_dofdesc x = Ok dd) /\
  (forall i e, nth_error (to_list exprs) i = Some e -> exists e' se te,
     prepare_expr ps src tgt e = Ok e' /\ nth_error (w_exprs w) i = Some e' /\
     prepare_proxy bargs src (DD (Some PROXY_TARGET) None NODE) e' = Ok se /\ nth_error (w_source_proxy_exprs w) i = Some se /\
     prepare_proxy bargs (DD (Some PROXY_SOURCE) None NODE) tgt e' = Ok te /\ nth_error (w_target_proxy_exprs w) i = Some te) /\
  parse_weighted wp = Ok (w_weighted_sources w, w_weighted_targets w) /\
  w_proxy_source_builder w = match b1 with Some b => b | None => BP2P end /\
  w_proxy_target_builder w = match b2 with Some b => b | None => BQbx end /\
  w_neighbor_builder w = match b3 with Some b => b | None => BQbx end.
Proof.
  intros ps bargs default exprs inputs domains aw wp b1 b2 b3 w H. unfold make_wrangler in H.
  apply bind_Ok in H. destruct H as ([src tgt] & Haw & H). cbn [fst snd] in H.
  apply bind_Ok in H. destruct H as (doms & Hd & H).
  apply bind_Ok in H. destruct H as (pr & Hp & H).
  cbn [as_dofdesc PROXY_TARGET PROXY_SOURCE dd_init bind] in H.
  apply bind_Ok in H. destruct H as (se & Hse & H).
  apply bind_Ok in H. destruct H as (te & Hte & H).
  apply bind_Ok in H. destruct H as ([s t] & Hw & H). injection H; intros <-. clear H.
  exists src, tgt. split; [exact Haw|]. unfold prepare_exprs, prepare_proxy_exprs in *. cbn [fst snd] in *.
  destruct (mapM_nth _ _ Hp) as [Lp Np]. destruct (mapM_nth _ _ Hse) as [Ls Nse]. destruct (mapM_nth _ _ Hte) as [Lt Nt].
  unfold w_nrows, w_ncols. cbn [w_exprs w_inputs w_domains w_source_proxy_exprs w_target_proxy_exprs w_weighted_sources w_weighted_targets
    w_proxy_source_builder w_proxy_target_builder w_neighbor_builder fst snd].
  split; [exact Lp|]. split; [reflexivity|]. split; [reflexivity|].
  assert (Ld : length doms = length (to_list inputs)).
  { unfold prepare_domains in Hd. destruct domains as [|x|l].
    - cbn in Hd. injection Hd; intros <-. apply repeat_length.
    - apply bind_Ok in Hd. destruct Hd as (y & _ & Hd). injection Hd; intros <-. apply repeat_length.
    - destruct (Nat.eqb_spec (length l) (length (to_list inputs))) as [E|]; [|discriminate].
      destruct (mapM_nth _ _ Hd) as [L _]. congruence. }
  split; [exact Ld|]. split; [|split; [|split]].
  - intros -> j dd Hj. cbn in Hd. injection Hd; intros <-. apply nth_error_In in Hj. apply repeat_spec in Hj. exact Hj.
  - intros l -> j x dd Hx Hj. cbn in Hd. destruct (Nat.eqb_spec (length l) (length (to_list inputs))) as [E|]; [|discriminate].
    destruct (mapM_nth _ _ Hd) as [_ N]. destruct (N _ _ Hj) as (x' & Hx' & Hok). congruence.
  - intros i e He. assert (Hi : i < length (to_list exprs)) by (apply nth_error_Some; congruence).
    destruct (nth_error pr i) as [e'|] eqn:E1; [|apply nth_error_None in E1; lia].
    destruct (nth_error se i) as [s1|] eqn:E2; [|apply nth_error_None in E2; lia].
    destruct (nth_error te i) as [t1|] eqn:E3; [|apply nth_error_None in E3; lia].
    destruct (Np _ _ E1) as (y & Hy & Hok). destruct (Nse _ _ E2) as (y2 & Hy2 & Hok2). destruct (Nt _ _ E3) as (y3 & Hy3 & Hok3).
    assert (y = e) as -> by congruence. assert (y2 = e') as -> by congruence. assert (y3 = e') as -> by congruence.
    exists e', s1, t1. repeat split; assumption.
  - split; [exact Hw|]. destruct b1, b2, b3; repeat split.
Qed.
Print Assumptions wrangler_contents.

(** C108.  The public function: an array with one row per expression and one column per input,
    entry (i, j) being the skeletonization computed from the interactions of block (i, j). *)
Theorem operator_skeletons : forall (R : rops) (P D : Type) ps get_discr (balls : dofdesc -> list P -> indexlist -> result (list P * list D))
    ref_points put dist within build_tree area_query dP dD run
    (E : Type) sli_eps sli_rank (eps_lt1 : E -> bool) eps_int int_eps bargs default tsi exprs inputs domains id_eps id_rank out,
  skeletonize_operator ps get_discr balls ref_points put dist within build_tree area_query dP dD run
    sli_eps sli_rank eps_lt1 eps_int int_eps bargs default tsi exprs inputs domains id_eps id_rank = Ok out ->
  exists w, make_wrangler ps bargs default exprs inputs domains AWNone WNone None None None = Ok w /\
  length out = length (to_list exprs) /\
  forall i row, nth_error out i = Some row -> length row = length (to_list inputs) /\
  forall j sk, nth_error row j = Some sk -> exists sr tr : eval_result R,
    block_interactions ps get_discr balls ref_points put dist within build_tree area_query dP dD run w tsi i j = Ok (sr, tr) /\
    skeletonize sli_eps sli_rank eps_lt1 eps_int int_eps id_rank id_eps tsi sr tr = Ok sk.
Proof.
  intros until out. intros H. unfold skeletonize_operator in H. apply bind_Ok in H. destruct H as (w & Hw & H).
  exists w. split; [exact Hw|]. apply wrangler_contents in Hw. destruct Hw as (_ & _ & _ & Hr & Hc & _).
  rewrite <- Hr, <- Hc. destruct (blocks_of_operator _ _ _ _ _ _ _ _ _ _ _ H) as (H1 & H2). split; [exact H1|]. exact H2.
Qed.
Print Assumptions operator_skeletons.

(** C108.  With the same clusters for targets and sources every interaction between different
    clusters is represented: a point of another cluster is a neighbor or outside of the ball. *)
Theorem interactions_covered : forall (P D : Type) (dist : P -> P -> D) within nodes all cl center radius ncl z pt,
  neighbors_in dist within nodes all cl center radius ncl ->
  In z all -> ~ In z cl -> entry nodes z pt -> In z ncl \/ within (dist pt center) radius = false.
Proof.
  intros P D dist within nodes all cl center radius ncl z pt (_ & H) H1 H2 H3.
  destruct (within (dist pt center) radius) eqn:E; [left|right; reflexivity].
  apply H. eauto.
Qed.
Print Assumptions interactions_covered.

(** C108.  Interactions are only computed if the domain of the input lives on a QBX source, if the
    names of the proxy geometries are free, and for index lists with several clusters. *)
Theorem interaction_requirements : forall (R : rops) (P D : Type) ps get_discr
    (balls : dofdesc -> list P -> indexlist -> result (list P * list D)) ref_points put dist within build_tree area_query dP dD run
    w tsi i j r,
  block_interactions (R := R) ps get_discr balls ref_points put dist within build_tree area_query dP dD run w tsi i j = Ok r ->
  exists dd g d, nth_error (w_domains w) j = Some dd /\ get_discr dd = Ok d /\ geometry dd = Some g /\
  (exists pre post, ps = pre ++ (g, PQbx) :: post /\ ~ In g (map fst pre)) /\
  ~ In PROXY_SOURCE (map fst ps) /\ ~ In PROXY_TARGET (map fst ps) /\
  nclusters (sources tsi) <> 1%Z /\ nclusters (targets tsi) <> 1%Z /\
  i < w_nrows w /\ j < w_ncols w.
Proof.
  intros until r. intros H. unfold block_interactions in H.
  apply bind_Ok in H. destruct H as (dd & Hdd & H). unfold getn in Hdd.
  destruct (nth_error (w_domains w) j) as [dd'|] eqn:Edd; [|discriminate]. assert (dd' = dd) as -> by congruence. clear Hdd.
  apply bind_Ok in H. destruct H as (sr & Hs & H). apply bind_Ok in H. destruct H as (tr & Ht & _).
  unfold source_side in Hs. destruct (nclusters (sources tsi) =? 1)%Z eqn:Ns; [discriminate|].
  unfold target_side in Ht. destruct (nclusters (targets tsi) =? 1)%Z eqn:Nt; [discriminate|].
  apply Z.eqb_neq in Ns. apply Z.eqb_neq in Nt.
  assert (Gx : forall il x, generate get_discr balls ref_points put dP dD dd il = Ok x -> x_dofdesc x = dd).
  { intros il x Hx. unfold generate in Hx. repeat (apply bind_Ok in Hx; destruct Hx as (? & _ & Hx)).
    match type of Hx with context [let '(_, _) := ?p in _] => destruct p end.
    repeat (apply bind_Ok in Hx; destruct Hx as (? & _ & Hx)). injection Hx; intros <-. reflexivity. }
  assert (Aq : forall g u, assert_qbx ps g = Ok u -> exists g', g = Some g' /\ exists pre post, ps = pre ++ (g', PQbx) :: post /\ ~ In g' (map fst pre)).
  { intros g u. unfold assert_qbx. clear. induction ps as [|[n0 p0] l IH]; intros Hq; [discriminate|].
    cbn [find fst] in Hq. destruct g as [g'|].
    - cbn [opt_eqb] in *. destruct (geom_eqb n0 g') eqn:E.
      + apply geom_eqb_eq in E. subst. destruct p0; try discriminate. exists g'. split; [reflexivity|]. exists [], l. split; [reflexivity|]. intros [].
      + destruct (IH Hq) as (g2 & E2 & pre & post & E3 & Hni). injection E2; intros <-. exists g'. split; [reflexivity|].
        exists ((n0, p0) :: pre), post. split; [cbn; rewrite E3; reflexivity|]. cbn [map fst]. intros [E4|E4]; [|auto].
        subst. rewrite (proj2 (geom_eqb_eq _ _) eq_refl) in E. discriminate.
    - cbn [opt_eqb] in *. destruct (IH Hq) as (g2 & E2 & _). discriminate. }
  assert (Ag : forall g u, add_geometry1 ps g = Ok u -> ~ In g (map fst ps)).
  { intros g u. unfold add_geometry1. destruct (existsb _ ps) eqn:E; [discriminate|]. intros _ Hin.
    apply in_map_iff in Hin. destruct Hin as (np & E1 & Hin).
    assert (existsb (fun np => geom_eqb (fst np) g) ps = true); [|congruence].
    apply existsb_exists. exists np. split; [exact Hin|]. apply geom_eqb_eq. exact E1. }
  apply bind_Ok in Hs. destruct Hs as (x & Ex & Hs). apply bind_Ok in Hs. destruct Hs as (nbr & _ & Hs).
  unfold source_result in Hs. destruct (_ =? 1)%Z; [discriminate|]. apply bind_Ok in Hs. destruct Hs as (m & _ & Hs).
  apply bind_Ok in Hs. destruct Hs as (pm & Hp & _).
  unfold source_proxy in Hp. apply bind_Ok in Hp. destruct Hp as (u1 & Hq & Hp). apply bind_Ok in Hp. destruct Hp as (u2 & Ha & Hp).
  apply bind_Ok in Hp. destruct Hp as (se & Hse & Hev). unfold evaluate_expr in Hev.
  apply bind_Ok in Hev. destruct Hev as (dd2 & Hd2 & Hev). unfold getn in Hd2. rewrite Edd in Hd2. assert (dd2 = dd) as -> by congruence.
  apply bind_Ok in Hev. destruct Hev as (d & Hd & Hev). apply bind_Ok in Hev. destruct Hev as (dep & Hdep & _).
  rewrite (Gx _ _ Ex) in Hq. destruct (Aq _ _ Hq) as (g & Eg & Hpl). apply Ag in Ha.
  apply bind_Ok in Ht. destruct Ht as (y & Ey & Ht). apply bind_Ok in Ht. destruct Ht as (nbr' & _ & Ht).
  apply bind_Ok in Ht. destruct Ht as (dd3 & _ & Ht). apply bind_Ok in Ht. destruct Ht as (d' & _ & Ht).
  unfold target_result in Ht. destruct (_ =? 1)%Z; [discriminate|]. apply bind_Ok in Ht. destruct Ht as (m' & _ & Ht).
  apply bind_Ok in Ht. destruct Ht as (pm' & Hp' & Ht).
  unfold target_proxy in Hp'. apply bind_Ok in Hp'. destruct Hp' as (u3 & _ & Hp'). apply bind_Ok in Hp'. destruct Hp' as (u4 & Ha' & _).
  apply Ag in Ha'.
  assert (Hi : i < w_nrows w).
  { repeat match type of Ht with bind _ _ = Ok _ => apply bind_Ok in Ht; destruct Ht as (? & ? & Ht) end.
    match goal with H : target_neighbor _ _ _ _ _ _ = Ok _ |- _ => rename H into Hn end.
    unfold target_neighbor in Hn. apply bind_Ok in Hn. destruct Hn as (e & He & _). unfold getn in He.
    unfold w_nrows. apply nth_error_Some. destruct (nth_error (w_exprs w) i); [discriminate|discriminate He]. }
  assert (Hj : j < w_ncols w).
  { unfold getn in Hdep. unfold w_ncols. apply nth_error_Some. destruct (nth_error (w_inputs w) j); [discriminate|discriminate Hdep]. }
  exists dd, g, d. split; [reflexivity|]. split; [exact Hd|]. split; [exact Eg|]. split; [exact Hpl|]. repeat (split; [assumption|]). exact Hj.
Qed.
Print Assumptions interaction_requirements.

(** *** A builder that serves every request *)
Section Direct.
Variables (R : rops) (P : Type) (ent : what P -> Z -> Z -> option R).
Definition direct (w : what P) (m : tscl) : result (list (option R)) :=
  do tcs <- mapM (cluster_indices (targets m)) (zrange (ts_n m));
  do scs <- mapM (cluster_indices (sources m)) (zrange (ts_n m));
  Ok (concat (map (fun c => concat (block (ent w) c)) (combine tcs scs))).
Lemma all_clusters cs il : of_clusters cs il -> mapM (cluster_indices il) (zrange (zlen cs)) = Ok cs.
Proof.
  intros H. destruct (index_list_of_clusters _ H) as (_ & _ & _ & _ & Hc & _).
  rewrite (@mapM_zrange (list Z) (list Z) (cluster_indices il) (fun x => x) cs [] (zlen cs)) ; [rewrite map_id; reflexivity|reflexivity|].
  intros i Hi. apply Hc. apply nth_error_nth'. exact Hi.
Qed.
Lemma direct_serves w : serves R direct w (ent w).
Proof.
  intros tcs scs t s Ht Hs Hl. unfold direct, ts_n. cbn [targets sources]. rewrite (clusters_n Ht).
  rewrite (all_clusters Ht). cbn [bind]. replace (zlen tcs) with (zlen scs) by (unfold zlen; congruence).
  rewrite (all_clusters Hs). reflexivity.
Qed.
End Direct.

(** *** A concrete world: points on a line, two clusters, reference proxies at -1 and 1. *)
Definition znodes : list Z := [0; 1; 4; 5; 2; 3; 8; 9]%Z.
Definition aplace : places := [(GName "a", PQbx)].
Definition da2 : dofdesc := DD (Some (GName "a")) (Some STAGE2) NODE.
Definition zdiscr (_ : dofdesc) : result (discr ZR Z) := Ok (Discr ZR znodes [1; 1; 1; 1; 1; 1; 1; 1]%Z).
(** Center of the bounding interval (halved), radius times two. *)
Definition zballs (_ : dofdesc) (nodes : list Z) (il : indexlist) : result (list Z * list Z) :=
  do cls <- mapM (cluster_indices il) (zrange (nclusters il));
  let xs cl := map (fun i => nth (Z.to_nat i) nodes 0%Z) cl in
  let lo cl := fold_left Z.min (xs cl) 100%Z in
  let hi cl := fold_left Z.max (xs cl) 0%Z in
  Ok (map (fun cl => (lo cl + hi cl) / 2)%Z cls, map (fun cl => (hi cl - lo cl) * 2)%Z cls).
Definition zput (c r q : Z) : Z := (c + r * q)%Z.
Definition zent (w : what Z) (t s : Z) : option ZR :=
  Some (t * 1000 + s * 10 + match b_class w with BQbx => 1 | BP2P => 2 | BUser _ => 3 end)%Z.
Definition zblock := block_interactions aplace zdiscr zballs [-1; 1]%Z zput zdist Z.leb flat_tree flat_query 0%Z 0%Z (direct ZR zent).
Definition zwr : result wrangler :=
  make_wrangler aplace (fun _ => []) (Some (da2, da2))
    (OOne (Node (HIntG (IntG (KBase 0) [KBase 0] 1 (LInt 1) da2 da2 [])) [Node (HVar "sigma") []]))
    (OSeq ["sigma"; "mu"]) DomNone AWNone WNone None None None.
Definition il_of (cs : list (list Z)) : indexlist := mk cs.

(** The hypotheses of block_matrices hold here ... *)
Lemma flat_covers c r pts : length r = length c ->
  covers zdist (fun d r => (d <=? r)%Z = true) (flat_tree pts) c r (flat_query (flat_tree pts) c r).
Proof.
  intros Hl. split; [exact Hl|]. intros i ci ri Hc Hr. exists [0%Z].
  assert (Hi : (0 <= i < zlen c)%Z) by (eapply entry_lt; exact Hc). split; [|split; [|split]].
  - exists i, (i + 1)%Z. unfold flat_query. cbn [near_starts near_lists].
    split; [apply zrange_entry; lia|]. split; [apply zrange_entry; lia|]. split; [lia|]. rewrite zlen_map. split; [lia|].
    replace (i + 1 - i)%Z with 1%Z by lia. change (Z.to_nat 1) with 1.
    destruct Hc as [_ Hc]. clear - Hc. revert Hc. generalize (Z.to_nat i) as k. induction c as [|x c IH]; intros k H; [destruct k; discriminate|].
    destruct k; [reflexivity|]. cbn in H |- *. apply IH. exact H.
  - constructor; [intros []|constructor].
  - intros b [<-|[]]. split; [lia|reflexivity].
  - intros b k p Hb _ _ _. left. destruct Hb as [H0 Hb]. cbn in Hb. destruct (Z.to_nat b) as [|n] eqn:E; [lia|destruct n; discriminate].
Qed.
Definition cl4 : list (list Z) := [[0; 1; 4; 5]; [2; 3; 6; 7]]%Z.
Example block_matrices_case : exists w, zwr = Ok w /\
  exists sr tr, zblock w (TS (il_of cl4) (il_of cl4)) 0 1 = Ok (sr, tr) /\
  match er_get sr 0, er_get tr 0 with
  | Ok (p, n), Ok (p', n') => (mr p, mc p, mr n, mc n, mr p', mc p', mr n', mc n') = (2, 4, 2, 4, 4, 2, 4, 2)
     /\ el p 1 2 = Some 1042%Z /\ el n 0 3 = Some 2051%Z /\ el n' 3 1 = Some 5031%Z /\ el p' 3 1 = Some 20044%Z
  | _, _ => False end.
Proof. eexists. split; [vm_compute; reflexivity|]. do 2 eexists. split; [vm_compute; reflexivity|]. vm_compute. repeat split. Qed.
Example block_matrices_hypotheses :
  (forall pts, tree_of pts (flat_tree pts)) /\
  (exists cs rs, cluster_geometry zballs zdist Z.leb flat_tree flat_query da2 znodes cl4 (il_of cl4) cs rs) /\
  (forall w, serves ZR (direct ZR zent) w (zent w)) /\
  (exists pre post, aplace = pre ++ (GName "a", PQbx) :: post /\ ~ In (GName "a") (map fst pre)) /\
  ~ In PROXY_SOURCE (map fst aplace) /\ ~ In PROXY_TARGET (map fst aplace).
Proof.
  split; [exact flat_tree_ok|]. split; [|split; [intros w; apply direct_serves|split; [|split]]].
  - exists [1; 6]%Z, [6; 10]%Z. split; [reflexivity|]. split; [|split; [|split; [reflexivity|split; [reflexivity|split; [reflexivity|]]]]].
    + cbn. repeat constructor; cbn; intuition discriminate.
    + intros x Hx. cbn in Hx. unfold zlen. cbn [length znodes Z.of_nat Pos.of_succ_nat Pos.succ]. intuition (subst; lia).
    + intros pts. apply flat_covers. reflexivity.
  - exists [], []. split; [reflexivity|tauto].
  - cbn. intuition discriminate.
  - cbn. intuition discriminate.
Qed.

(** ** C109: what does not hold *)

(** Targets and sources with different indices: the neighbors of a target cluster are taken from
    the targets, not from the sources that act on it, and conversely.  Here source 4, of cluster 1,
    is in the ball of target cluster 0, but not among its neighbors; no source is. *)
Theorem different_index_sets_refuted : exists w sr tr,
  let tcs := [[0; 1]; [2; 3]]%Z in let scs := [[6; 7]; [4; 5]]%Z in
  zwr = Ok w /\ zblock w (TS (il_of tcs) (il_of scs)) 0 0 = Ok (sr, tr) /\
  zballs da2 znodes (il_of tcs) = Ok ([0; 4]%Z, [2; 2]%Z) /\
  (zdist 2 0 <=? 2)%Z = true /\ nth_error znodes 4 = Some 2%Z /\
  cluster_indices (sources (er_nbrindex tr)) 0 = Ok [] /\
  cluster_indices (sources (er_nbrindex tr)) 1 = Ok [] /\
  (* ... and target 2 is in the ball of source cluster 1 *)
  zballs da2 znodes (il_of scs) = Ok ([8; 2]%Z, [2; 2]%Z) /\ (zdist 4 2 <=? 2)%Z = true /\
  nth_error znodes 2 = Some 4%Z /\
  cluster_indices (targets (er_nbrindex sr)) 0 = Ok [] /\ cluster_indices (targets (er_nbrindex sr)) 1 = Ok [].
Proof. do 3 eexists. cbv zeta. split; [vm_compute; reflexivity|]. split; [vm_compute; reflexivity|]. vm_compute. repeat split. Qed.
Print Assumptions different_index_sets_refuted.

(** Targets on another geometry than the sources: their proxies and neighbors are computed from
    the nodes of the sources' domain; the nodes of the targets are never looked at. *)
Theorem target_geometry_refuted : forall (R : rops) (P D : Type) ps get_discr get_discr'
    (balls : dofdesc -> list P -> indexlist -> result (list P * list D)) ref_points put dist within build_tree area_query dP dD run
    w tsi i j,
  (forall dd, In dd (w_domains w) -> get_discr dd = get_discr' dd) ->
  block_interactions (R := R) ps get_discr balls ref_points put dist within build_tree area_query dP dD run w tsi i j
  = block_interactions ps get_discr' balls ref_points put dist within build_tree area_query dP dD run w tsi i j.
Proof.
  intros until j. intros H. unfold block_interactions, getn. destruct (nth_error (w_domains w) j) as [dd|] eqn:Ej; [|reflexivity].
  cbn [bind]. assert (Hdd : get_discr dd = get_discr' dd) by (apply H; eapply nth_error_In; exact Ej).
  assert (Ev : forall b a ix e wt ex, evaluate_expr get_discr run w b a ix e j wt ex = evaluate_expr get_discr' run w b a ix e j wt ex).
  { intros. unfold evaluate_expr, getn. rewrite Ej. cbn [bind]. rewrite Hdd. reflexivity. }
  assert (G : forall il, generate get_discr balls ref_points put dP dD dd il = generate get_discr' balls ref_points put dP dD dd il).
  { intros il. unfold generate. rewrite Hdd. reflexivity. }
  assert (Gx : forall il x, generate get_discr' balls ref_points put dP dD dd il = Ok x -> x_dofdesc x = dd).
  { intros il x Hx. unfold generate in Hx. repeat (apply bind_Ok in Hx; destruct Hx as (? & _ & Hx)).
    match type of Hx with context [let '(_, _) := ?p in _] => destruct p end.
    repeat (apply bind_Ok in Hx; destruct Hx as (? & _ & Hx)). injection Hx; intros <-. reflexivity. }
  assert (Gg : forall x, x_dofdesc x = dd -> gather get_discr dist within build_tree area_query x = gather get_discr' dist within build_tree area_query x).
  { intros x Hx. unfold gather. rewrite Hx, Hdd. reflexivity. }
  assert (S1 : source_side ps get_discr balls ref_points put dist within build_tree area_query dP dD run w dd (sources tsi) i j
             = source_side ps get_discr' balls ref_points put dist within build_tree area_query dP dD run w dd (sources tsi) i j).
  { unfold source_side. destruct (_ =? 1)%Z; [reflexivity|]. rewrite G. destruct (generate get_discr' _ _ _ _ _ _ _) as [x|] eqn:Ex; [|reflexivity].
    cbn [bind]. rewrite (Gg x (Gx _ _ Ex)). destruct (gather get_discr' _ _ _ _ _) as [nbr|]; [|reflexivity]. cbn [bind].
    unfold source_result. destruct (_ =? 1)%Z; [reflexivity|]. destruct (make_ts (x_pxyindex x) _) as [p|]; [|reflexivity]. cbn [bind].
    assert (E1 : forall ix, source_proxy ps get_discr run w x i j ix = source_proxy ps get_discr' run w x i j ix).
    { intros ix. unfold source_proxy, getn. destruct (assert_qbx _ _); [|reflexivity]. cbn [bind]. destruct (add_geometry1 _ _); [|reflexivity].
      cbn [bind]. destruct (nth_error _ i); [|reflexivity]. cbn [bind]. apply Ev. }
    assert (E2 : forall ix, source_neighbor get_discr run w i j ix = source_neighbor get_discr' run w i j ix).
    { intros ix. unfold source_neighbor, getn. destruct (nth_error _ i); [|reflexivity]. cbn [bind]. apply Ev. }
    rewrite E1. destruct (source_proxy _ _ _ _ _ _ _ _); [|reflexivity]. cbn [bind]. destruct (make_ts nbr _) as [q|]; [|reflexivity]. cbn [bind].
    rewrite E2. reflexivity. }
  assert (S2 : target_side ps get_discr balls ref_points put dist within build_tree area_query dP dD run w dd (targets tsi) i j
             = target_side ps get_discr' balls ref_points put dist within build_tree area_query dP dD run w dd (targets tsi) i j).
  { unfold target_side. destruct (_ =? 1)%Z; [reflexivity|]. rewrite G. destruct (generate get_discr' _ _ _ _ _ _ _) as [x|] eqn:Ex; [|reflexivity].
    cbn [bind]. rewrite (Gg x (Gx _ _ Ex)). destruct (gather get_discr' _ _ _ _ _) as [nbr|]; [|reflexivity]. cbn [bind].
    unfold getn. rewrite Ej. cbn [bind]. rewrite Hdd. destruct (get_discr' dd) as [d|]; [|reflexivity]. cbn [bind].
    unfold target_result. destruct (_ =? 1)%Z; [reflexivity|]. destruct (make_ts _ (x_pxyindex x)) as [p|]; [|reflexivity]. cbn [bind].
    assert (E1 : forall ix, target_proxy ps get_discr run w x i j ix = target_proxy ps get_discr' run w x i j ix).
    { intros ix. unfold target_proxy, getn. destruct (assert_qbx _ _); [|reflexivity]. cbn [bind]. destruct (add_geometry1 _ _); [|reflexivity].
      cbn [bind]. destruct (nth_error _ i); [|reflexivity]. cbn [bind]. apply Ev. }
    assert (E2 : forall ix, target_neighbor get_discr run w i j ix = target_neighbor get_discr' run w i j ix).
    { intros ix. unfold target_neighbor, getn. destruct (nth_error _ i); [|reflexivity]. cbn [bind]. apply Ev. }
    rewrite E1. destruct (target_proxy _ _ _ _ _ _ _ _); [|reflexivity]. cbn [bind].
    destruct (if w_weighted_targets w then _ else _); [|reflexivity]. cbn [bind]. destruct (make_ts _ nbr) as [q|]; [|reflexivity]. cbn [bind].
    rewrite E2. reflexivity. }
  rewrite S1, S2. reflexivity.
Qed.
Print Assumptions target_geometry_refuted.

(** A collection without a stage in its auto_where (the default): every layer potential of the
    source is evaluated on the upsampled quadrature discretization of an interpolated density; the
    cluster builders cannot interpolate, so the public function fails. *)
Fixpoint interpolates (e : sexpr) : bool :=
  let 'Node h cs := e in match h with HInterp _ _ => true | _ => existsb interpolates cs end.
Theorem default_stage_refuted : forall (R : rops) (P D : Type) get_discr
    (balls : dofdesc -> list P -> indexlist -> result (list P * list D)) ref_points put dist within build_tree area_query dP dD run
    (E : Type) sli_eps sli_rank (eps_lt1 : E -> bool) eps_int int_eps tsi id_eps id_rank,
  let da := DD (Some (GName "a")) None NODE in
  (forall w ix, interpolates (b_expr w) = true -> exists er, run w ix = Err er) ->
  forall out : list (list (skel_result R)),
  skeletonize_operator aplace get_discr balls ref_points put dist within build_tree area_query dP dD run
    sli_eps sli_rank eps_lt1 eps_int int_eps (fun _ => []) (Some (da, da)) tsi
    (OOne (Node (HIntG (IntG (KBase 0) [KBase 0] 1 (LInt 1) da da [])) [Node (HVar "sigma") []])) (OOne "sigma") DomNone id_eps id_rank
  <> Ok out.
Proof.
  intros until id_rank. intros da Hrun out H. unfold skeletonize_operator in H. apply bind_Ok in H. destruct H as (w & Hw & H).
  destruct (blocks_of_operator _ _ _ _ _ _ _ _ _ _ _ H) as (Hl & Hb).
  assert (W : w_nrows w = 1 /\ w_ncols w = 1 /\ exists se, w_source_proxy_exprs w = [se] /\ interpolates se = true).
  { vm_compute in Hw. injection Hw; intros <-. split; [reflexivity|]. split; [reflexivity|]. eexists. split; reflexivity. }
  destruct W as (Wr1 & Wc1 & se & Wse & Wi). clear Hw. rewrite Wr1 in Hl.
  destruct out as [|row [|? ?]]; try discriminate. destruct (Hb 0 row eq_refl) as (Hr & Hj). rewrite Wc1 in Hr.
  destruct row as [|sk [|? ?]]; try discriminate. destruct (Hj 0 sk eq_refl) as (sr & tr & He & _).
  unfold block_interactions in He. apply bind_Ok in He. destruct He as (dd & _ & He). apply bind_Ok in He. destruct He as (sr' & He & _).
  unfold source_side in He. destruct (_ =? 1)%Z; [discriminate|]. apply bind_Ok in He. destruct He as (x & _ & He).
  apply bind_Ok in He. destruct He as (nbr & _ & He). unfold source_result in He. destruct (_ =? 1)%Z; [discriminate|].
  apply bind_Ok in He. destruct He as (m & _ & He). apply bind_Ok in He. destruct He as (pm & He & _).
  unfold source_proxy in He. apply bind_Ok in He. destruct He as (u1 & _ & He). apply bind_Ok in He. destruct He as (u2 & _ & He).
  unfold getn in He at 1. rewrite Wse in He. cbn [nth_error bind] in He. unfold evaluate_expr in He.
  apply bind_Ok in He. destruct He as (d1 & _ & He). apply bind_Ok in He. destruct He as (d2 & _ & He). apply bind_Ok in He. destruct He as (d3 & _ & He).
  match type of He with run ?q ?ix = _ => destruct (Hrun q ix Wi) as (er & Her) end. congruence.
Qed.
Print Assumptions default_stage_refuted.
