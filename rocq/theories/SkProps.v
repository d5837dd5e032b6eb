(** C39, C72, C73: skeletonization by proxy points. *)
From Coq Require Import Ring.
From Verif Require Import Base IndexModel IndexSpec IndexProofs IndexProofs2 IndexProps MatModel MatProofs SymProofs SymProofs2 SkModel SkSpec SkProofs SkProofs2 SkProofs3 SkProofs4 SkProofs5 SkProofs6.
Set Implicit Arguments.
Open Scope string_scope. Open Scope list_scope. Open Scope nat_scope.

Section C39.
Variable R : rops.
Variable E : Type.
Variable sli_eps : mat R -> E -> result (Z * list nat * mat R).
Variable sli_rank : mat R -> Z -> result (list nat * mat R).
Variables (eps_lt1 : E -> bool) (eps_int : E -> Z) (int_eps : Z -> E).
Notation skeletonize := (skeletonize sli_eps sli_rank eps_lt1 eps_int int_eps).
Notation skeletonize_by_proxy := (skeletonize_by_proxy sli_eps sli_rank eps_lt1 eps_int int_eps).
Notation interp_decomp := (interp_decomp R sli_eps sli_rank eps_lt1 eps_int int_eps).

(** C39.  Whatever the matrix entries and the answers of scipy's decompositions (which are only
    assumed to have the documented shapes): if skeletonization gives a result, then every
    cluster has skeletons that are subsets of its targets and of its sources, of the same size
    k >= 1, with an interpolation matrix of matching shape that is the identity on the skeleton;
    k is at most the number of proxies and neighbors of the cluster. *)
Theorem skeletons_are_subsets : oracle_shape R sli_eps sli_rank ->
  forall id_rank id_eps tsi tcs scs w waa pxs nbs pxt nbt pms nms pmt nmt sr tr sk,
  of_clusters tcs (targets tsi) -> of_clusters scs (sources tsi) -> length scs = length tcs ->
  source_result R (sources tsi) pxs nbs pms nms = Ok sr ->
  target_result R w waa (targets tsi) pxt nbt pmt nmt = Ok tr ->
  skeletonize id_rank id_eps tsi sr tr = Ok sk ->
  sk_index sk = tsi /\ 2 <= length tcs /\
  exists vs, is_skeleton tcs scs sk vs /\
    prefix_sums (map (fun v => zlen (c_tsk v)) vs) (starts (targets (sk_skel sk))) /\
    starts (sources (sk_skel sk)) = starts (targets (sk_skel sk)) /\
    forall i v, nth_error vs i = Some v ->
      exists nps nns npt nnt, cluster_size pxs (Z.of_nat i) = Ok (Z.of_nat nps) /\
        cluster_size nbs (Z.of_nat i) = Ok (Z.of_nat nns) /\
        cluster_size pxt (Z.of_nat i) = Ok (Z.of_nat npt) /\
        cluster_size nbt (Z.of_nat i) = Ok (Z.of_nat nnt) /\
        length (c_tsk v) <= nps + nns /\ length (c_tsk v) <= npt + nnt.
Proof.
  intros Hor id_rank id_eps tsi tcs scs w waa pxs nbs pxt nbt pms nms pmt nmt sr tr sk Ht Hs Hl Hsr Htr H.
  destruct (source_index _ _ _ _ _ Hsr) as (_ & S1 & S2 & _). destruct (target_index _ _ _ _ _ _ _ Htr) as (_ & T1 & T2 & _).
  destruct (@skeletonize_view R E sli_eps sli_rank eps_lt1 eps_int int_eps Hor id_rank id_eps tsi tcs scs sr tr sk)
    as (V1 & V2 & vs & V3 & V4); auto; try (rewrite S1; reflexivity); try (rewrite T1; reflexivity).
  split; [exact V1|]. split; [exact V2|]. exists vs. split; [exact V3|].
  pose proof V3 as (I1 & I2 & I3 & I4 & L1 & L2 & L3 & L4 & I5).
  pose proof (index_list_of_clusters _ I3) as (P1 & _). pose proof (index_list_of_clusters _ I4) as (P2 & _).
  rewrite map_map in P1, P2. split; [exact P1|].
  assert (HC : forall i v, nth_error vs i = Some v -> exists tcl scl L Rm,
     nth_error (sk_L sk) i = Some L /\ nth_error (sk_R sk) i = Some Rm /\
     cluster_skeleton R tcl scl (c_tp v) (c_sp v) (c_tsk v) (c_ssk v) L Rm).
  { intros i v Hv. assert (Hi : i < length vs) by (apply nth_error_Some; congruence).
    destruct (@nth_error_lt _ tcs i) as (tcl & Et); [lia|]. destruct (@nth_error_lt _ scs i) as (scl & Es); [lia|].
    destruct (@nth_error_lt _ (sk_L sk) i) as (L & EL); [lia|]. destruct (@nth_error_lt _ (sk_R sk) i) as (Rm & ER); [lia|].
    exists tcl, scl, L, Rm. split; [exact EL|]. split; [exact ER|]. eapply I5; eauto. }
  split.
  - apply of_clusters_mk in I3, I4. destruct I3 as [-> _], I4 as [-> _]. unfold mk. cbn [starts]. f_equal.
    rewrite !map_map. apply map_ext_in. intros v Hv. destruct (In_nth_error _ _ Hv) as (i & Hi).
    destruct (HC i v Hi) as (tcl & scl & L & Rm & _ & _ & HCi). destruct (cs_len HCi) as [K1 K2].
    unfold zlen. destruct HCi as (_ & _ & _ & K3 & _). lia.
  - intros i v Hv. destruct (HC i v Hv) as (tcl & scl & L & Rm & EL & ER & HCi).
    destruct (V4 i v L Rm Hv EL ER) as (T & S & k & kt & idxt & it & idxs & X1 & X2 & X3 & X4 & X5 & X6 & X7 & X8 & X9).
    destruct (tgt_shape X1) as (npt & nnt & Z1 & Z2 & Z3 & Z4).
    destruct (src_shape X2) as (nps & nns & Z5 & Z6 & Z7 & Z8).
    rewrite T1, T2 in *. rewrite S1, S2 in *. cbn [targets sources] in *.
    exists nps, nns, npt, nnt. repeat (split; [assumption|]). destruct (cs_len HCi) as [K1 _]. lia.
Qed.

(** A single cluster is rejected, whatever else is passed, also by the public function. *)
Theorem single_cluster_rejected : forall tsi, ts_n tsi = 1%Z ->
  (forall id_rank id_eps sr tr, skeletonize id_rank id_eps tsi sr tr = Err ValueError) /\
  (forall nrows ncols id_rank id_eps ev, 1 <= nrows -> 1 <= ncols ->
     skeletonize_by_proxy nrows ncols id_rank id_eps tsi ev = Err ValueError) /\
  (forall w waa pxt nbt pmt nmt, target_result R w waa (targets tsi) pxt nbt pmt nmt = Err ValueError).
Proof.
  intros tsi H. split; [|split].
  - intros. unfold SkModel.skeletonize. rewrite H. reflexivity.
  - intros nrows ncols id_rank id_eps ev Hr Hc. unfold SkModel.skeletonize_by_proxy. rewrite H.
    destruct nrows; [lia|]. destruct ncols; [lia|]. reflexivity.
  - intros. unfold target_result. change (nclusters (targets tsi)) with (ts_n tsi). rewrite H. reflexivity.
Qed.

(** Exactly one of a rank and a tolerance must be given, and the rank must be at least 1, the
    tolerance less than 1; else no result.  Both or none: ValueError. *)
Theorem id_options_checked : oracle_shape R sli_eps sli_rank ->
  (forall A rank eps, (rank = None <-> eps = None) -> interp_decomp A rank eps = Err ValueError) /\
  forall id_rank id_eps tsi sr tr sk,
  skeletonize id_rank id_eps tsi sr tr = Ok sk ->
  (exists k, id_rank = Some k /\ id_eps = None /\ (1 <= k)%Z) \/
  (exists e, id_rank = None /\ id_eps = Some e /\ eps_lt1 e = true).
Proof.
  intros Hor. split.
  - intros A [k|] [e|] [H1 H2]; try reflexivity; [discriminate H2|discriminate H1]; reflexivity.
  - intros id_rank id_eps tsi sr tr sk H.
    destruct (@skeletonize_ok _ _ _ _ _ _ _ Hor _ _ _ _ _ _ H) as (cs & Hcs & Hne & _).
    destruct cs as [|s cs]; [congruence|].
    destruct (mapM_In_inv _ _ Hcs s (or_introl eq_refl)) as (i & _ & Hi).
    destruct (@skel_cluster_ok _ _ _ _ _ _ _ Hor _ _ _ _ _ _ _ Hi) as (T & S & tcl & scl & tp & sp & kt & idxt & it & idxs & X).
    destruct X as (_ & _ & _ & _ & X & _).
    destruct (@interp_Ok _ _ _ _ _ _ _ _ _ _ _ _ _ X) as (proj & _ & [(e & -> & -> & He & _)|(-> & -> & Hk & _)]); eauto.
Qed.

(** Conversely: at least two clusters, finite interaction matrices with at least one row and one
    column, valid options and decompositions that exist, with ranks of at least one, give a
    result. *)
Theorem skeletonize_succeeds : oracle_shape R sli_eps sli_rank ->
  forall id_rank id_eps tsi tcs scs sr tr,
  of_clusters tcs (targets tsi) -> of_clusters scs (sources tsi) -> length scs = length tcs -> 2 <= length tcs ->
  targets (er_pxyindex tr) = targets tsi -> sources (er_pxyindex sr) = sources tsi ->
  match id_rank, id_eps with
  | Some k, None => (1 <= k)%Z
  | None, Some e => eps_lt1 e = true
  | _, _ => False end ->
  (forall i, i < length tcs -> exists T S k idx proj idx' proj',
     tgt_interaction tr (Z.of_nat i) T /\ src_interaction sr (Z.of_nat i) S /\
     1 <= mr T /\ 1 <= mc T /\ 1 <= mr S /\ 1 <= mc S /\
     decomposes R sli_eps sli_rank id_rank id_eps (mtr T) k idx proj /\ (1 <= k)%Z /\
     sli_rank S (Z.min k (Z.of_nat (Nat.min (Nat.min (mr S) (mc S)) (Nat.min (mr T) (mc T))))) = Ok (idx', proj')) ->
  exists sk, skeletonize id_rank id_eps tsi sr tr = Ok sk.
Proof.
  intros Hor id_rank id_eps [ti si] tcs scs sr tr Ht Hs Hl Hn Et Es Hopt Hcl. cbn [targets sources] in *.
  apply of_clusters_mk in Ht, Hs. destruct Ht as [-> Hne], Hs as [-> Hne'].
  assert (Htn : ts_n (TS (mk tcs) (mk scs)) = Z.of_nat (length tcs)) by (unfold ts_n; cbn [targets]; apply (il_n tcs)).
  assert (HC : forall i, i < length tcs -> exists s,
     skel_cluster sli_eps sli_rank eps_lt1 eps_int int_eps id_rank id_eps (TS (mk tcs) (mk scs)) sr tr (Z.of_nat i) = Ok s).
  { intros i Hi. destruct (Hcl i Hi) as (T & S & k & idx & proj & idx' & proj' & HT & HS & D1 & D2 & D3 & D4 & HD & Hk & Hr).
    destruct (@nth_error_lt _ tcs i) as (tcl & Etc); [lia|]. destruct (@nth_error_lt _ scs i) as (scl & Esc); [lia|].
    destruct (mk_cluster _ _ Etc) as [C1 C2]. destruct (mk_cluster _ _ Esc) as [C3 C4].
    assert (HmT : mr T = length tcl).
    { destruct (tgt_shape HT) as (np & nn & Hz & _). rewrite Et, C2 in Hz. injection Hz. unfold zlen. lia. }
    assert (HmS : mc S = length scl).
    { destruct (src_shape HS) as (np & nn & Hz & _). rewrite Es, C4 in Hz. injection Hz. unfold zlen. lia. }
    assert (Hsh : id_shape R (mtr T) k idx proj).
    { destruct Hor as [O1 O2]. unfold decomposes in HD. destruct id_rank as [k0|], id_eps as [e|]; try tauto; [|eauto].
      destruct HD as [<- HD]. eauto. }
    set (mx := Z.of_nat (Nat.min (Nat.min (mr S) (mc S)) (Nat.min (mr T) (mc T)))) in *.
    assert (Hsh' : id_shape R S (Z.min k mx) idx' proj') by (apply (proj2 Hor); exact Hr).
    destruct Hsh as (HP & Hmr & Hmc). destruct Hsh' as (HP' & Hmr' & Hmc'). cbn [mtr mr mc] in *.
    destruct (@perm_idx _ _ HP) as (Hnd & Hlen & Hin). destruct (@perm_idx _ _ HP') as (Hnd' & Hlen' & Hin').
    destruct HT as (p & n & TO & G1 & G2 & G3 & ->). destruct HS as (p' & n' & SO & G4 & G5 & G6 & ->).
    unfold skel_cluster. rewrite G4. cbn [bind fst snd]. rewrite G5. cbn [bind]. rewrite G1. cbn [bind fst snd].
    rewrite G2. cbn [bind]. rewrite G3, G6. cbn [assert_ bind]. cbv zeta. fold mx.
    assert (HI : interp_decomp (mtr (numbers R TO)) id_rank id_eps = Ok (k, idx, reconstruct R idx proj)).
    { unfold SkModel.interp_decomp, decomposes in *. destruct id_rank as [k0|], id_eps as [e|]; try tauto.
      - destruct HD as [<- HD]. unfold sli_interp_decomp. destruct (Z.ltb_spec k0 1); [lia|].
        unfold sli_by_rank. rewrite HD. reflexivity.
      - unfold sli_interp_decomp. rewrite Hopt. unfold sli_by_eps. rewrite HD. reflexivity. }
    rewrite HI. cbn [bind].
    assert (A1 : ((0 <? k)%Z && (k <=? zlen idx)%Z) = true).
    { rewrite andb_true_iff, Z.ltb_lt, Z.leb_le. unfold zlen. lia. }
    rewrite A1. cbn [assert_ bind].
    assert (HX : exists it', (if (mx <? k)%Z then (mx, take_rows (Z.to_nat mx) (reconstruct R idx proj)) else (k, reconstruct R idx proj))
        = (Z.min k mx, it') /\ Z.of_nat (mr it') = Z.min k mx /\ mc it' = mr (numbers R TO)).
    { destruct (Z.ltb_spec mx k) as [Hc|Hc].
      - eexists. split; [rewrite Z.min_r by lia; reflexivity|]. unfold take_rows, reconstruct. cbn [mr mc]. lia.
      - eexists. split; [rewrite Z.min_l by lia; reflexivity|]. unfold reconstruct. cbn [mr mc]. lia. }
    destruct HX as (it' & HX & HX1 & HX2). rewrite HX.
    cbn [targets sources]. rewrite C1. cbn [bind].
    assert (Hsel : forall (cl : list Z) ix m, (forall q, In q ix -> q < length cl) ->
       exists r, mapM (fun q => pyget cl (Z.of_nat q)) (firstn m ix) = Ok r /\ length r = Nat.min m (length ix)).
    { intros cl ix m Hq. destruct (@mapM_nth_ok _ _ (fun q => pyget cl (Z.of_nat q)) (firstn m ix)) as (r & Hr0).
      - intros q Hq0. assert (Hq1 : In q ix) by (rewrite <- (firstn_skipn m ix); apply in_or_app; auto).
        apply Hq in Hq1. destruct (nth_error_lt _ Hq1) as (y & Hy). exists y. apply pyget_entry. exact Hy.
      - exists r. split; [exact Hr0|]. rewrite (proj1 (mapM_nth _ _ Hr0)), firstn_length. reflexivity. }
    destruct (Hsel tcl idx (Z.to_nat (Z.min k mx))) as (tsk & HT1 & HT2); [intros q Hq; apply Hin in Hq; lia|].
    rewrite HT1. cbn [bind].
    assert (A2 : ((Z.of_nat (mr it') =? Z.min k mx)%Z && (mc it' =? mr (numbers R TO))) = true).
    { rewrite andb_true_iff, Z.eqb_eq, Nat.eqb_eq. auto. }
    rewrite A2. cbn [assert_ bind].
    assert (HI' : interp_decomp (numbers R SO) (Some (Z.min k mx)) None = Ok (Z.min k mx, idx', reconstruct R idx' proj')).
    { unfold SkModel.interp_decomp, sli_interp_decomp. destruct (Z.ltb_spec (Z.min k mx) 1); [lia|].
      unfold sli_by_rank. rewrite Hr. reflexivity. }
    rewrite HI'. cbn [bind].
    assert (A3 : ((0 <? Z.min k mx)%Z && (Z.min k mx <=? zlen idx')%Z) = true).
    { rewrite andb_true_iff, Z.ltb_lt, Z.leb_le. unfold zlen. lia. }
    rewrite A3. cbn [assert_ bind targets sources]. rewrite C3. cbn [bind].
    destruct (Hsel scl idx' (Z.to_nat (Z.min k mx))) as (ssk & HS1 & HS2); [intros q Hq; apply Hin' in Hq; lia|].
    rewrite HS1. cbn [bind].
    assert (A4 : ((Z.of_nat (mr (reconstruct R idx' proj')) =? Z.min k mx)%Z && (mc (reconstruct R idx' proj') =? mc (numbers R SO))) = true).
    { rewrite andb_true_iff, Z.eqb_eq, Nat.eqb_eq. unfold reconstruct. cbn [mr mc]. split; lia. }
    rewrite A4. cbn [assert_ bind].
    assert (A5 : (zlen tsk =? zlen ssk)%Z = true). { apply Z.eqb_eq. unfold zlen. lia. }
    rewrite A5. cbn [assert_ bind]. eauto. }
  unfold SkModel.skeletonize. rewrite Htn. destruct (Z.eqb_spec (Z.of_nat (length tcs)) 1); [lia|].
  destruct (@mapM_nth_ok _ _ (skel_cluster sli_eps sli_rank eps_lt1 eps_int int_eps id_rank id_eps (TS (mk tcs) (mk scs)) sr tr)
     (zrange (Z.of_nat (length tcs)))) as (cs & Hcs).
  { intros z Hz. apply zrange_In' in Hz. destruct Hz as (i & -> & Hi). apply HC. exact Hi. }
  rewrite Hcs. cbn [bind].
  assert (Hlc : length cs = length tcs) by (rewrite (proj1 (mapM_nth _ _ Hcs)); apply zrange_len').
  assert (Hk : map (@s1_k R) cs = map zlen (map (@s1_tgt R) cs) /\ map (@s1_k R) cs = map zlen (map (@s1_src R) cs)).
  { assert (HF : forall s, In s cs -> s1_k s = zlen (s1_tgt s) /\ s1_k s = zlen (s1_src s)).
    { intros s Hsi. destruct (mapM_In_inv _ _ Hcs s Hsi) as (i & _ & Hi).
      destruct (@skel_cluster_ok _ _ _ _ _ _ _ Hor _ _ _ _ _ _ _ Hi) as (T & S & tcl & scl & tp & sp & kt & idxt & it & idxs & H').
      decompose [and] H'. unfold zlen.
      match goal with h : map _ tp = _, h' : map _ sp = _ |- _ =>
        apply (f_equal (@length _)) in h; apply (f_equal (@length _)) in h'; rewrite !map_length in h, h' end.
      split; lia. }
    rewrite !map_map. split; apply map_ext_in; intros s Hsi; apply (HF s Hsi). }
  destruct cs as [|s0 cs0] eqn:Ecs; [cbn in Hlc; lia|]. rewrite <- Ecs in *. clear Ecs. cbn [bind].
  assert (M : forall f : skel1 R -> list Z, map (@s1_k R) cs = map zlen (map f cs) ->
     make_index_list_starts (concat (map f cs)) (IndexModel.cumsum0 (map (@s1_k R) cs))
     = Ok (IL (concat (map f cs)) (IndexModel.cumsum0 (map (@s1_k R) cs)))).
  { intros f Hf. unfold make_index_list_starts. rewrite cumsum_last. cbn [bind].
    assert (Es' : (sum (map (@s1_k R) cs) =? zlen (concat (map f cs)))%Z = true).
    { apply Z.eqb_eq. rewrite Hf. rewrite (il_total (map f cs)). reflexivity. }
    rewrite Es'. reflexivity. }
  rewrite (M _ (proj2 Hk)). cbn [bind]. rewrite (M _ (proj1 Hk)). cbn [bind].
  unfold make_ts. cbn [starts nclusters].
  match goal with |- context [(?a =? ?b)%Z] => change (b) with a; rewrite (Z.eqb_refl a) end. cbn [bind].
  unfold make_skel_result.
  assert (Hsn : ts_n (TS (IL (concat (map (@s1_tgt R) cs)) (IndexModel.cumsum0 (map (@s1_k R) cs)))
                  (IL (concat (map (@s1_src R) cs)) (IndexModel.cumsum0 (map (@s1_k R) cs)))) = Z.of_nat (length tcs)).
  { unfold ts_n, nclusters. cbn [targets starts]. unfold zlen, IndexModel.cumsum0. rewrite cumsum_len, map_length. lia. }
  rewrite Hsn, Htn, Z.eqb_refl. unfold zlen. rewrite !map_length, Hlc, Z.eqb_refl. cbn [negb]. eauto.
Qed.

(** Every block of the operator is skeletonized with its own interactions. *)
Theorem blocks_of_operator : forall nrows ncols id_rank id_eps tsi ev out,
  skeletonize_by_proxy nrows ncols id_rank id_eps tsi ev = Ok out ->
  length out = nrows /\
  forall i row, nth_error out i = Some row -> length row = ncols /\
  forall j sk, nth_error row j = Some sk ->
    exists sr tr, ev i j = Ok (sr, tr) /\ skeletonize id_rank id_eps tsi sr tr = Ok sk.
Proof.
  intros nrows ncols id_rank id_eps tsi ev out H. unfold SkModel.skeletonize_by_proxy in H.
  destruct (mapM_nth _ _ H) as [Hl Hn]. rewrite seq_length in Hl. split; [exact Hl|]. intros i row Hr.
  destruct (Hn _ _ Hr) as (i' & Hi' & Hrow).
  assert (i' = i) as ->.
  { assert (Hi : i < nrows) by (rewrite <- Hl; apply nth_error_Some; congruence).
    rewrite (nth_error_nth' _ 0) in Hi' by (rewrite seq_length; exact Hi). rewrite seq_nth in Hi' by exact Hi. injection Hi'; lia. }
  destruct (mapM_nth _ _ Hrow) as [Hl2 Hn2]. rewrite seq_length in Hl2. split; [exact Hl2|]. intros j sk Hj.
  destruct (Hn2 _ _ Hj) as (j' & Hj' & Hsk).
  assert (j' = j) as ->.
  { assert (Hj0 : j < ncols) by (rewrite <- Hl2; apply nth_error_Some; congruence).
    rewrite (nth_error_nth' _ 0) in Hj' by (rewrite seq_length; exact Hj0). rewrite seq_nth in Hj' by exact Hj0. injection Hj'; lia. }
  destruct (ts_n tsi =? 1)%Z; [discriminate|]. apply bind_Ok in Hsk. destruct Hsk as ([sr tr] & He & Hsk). eauto.
Qed.
End C39.
Print Assumptions skeletons_are_subsets.
Print Assumptions single_cluster_rejected.
Print Assumptions id_options_checked.
Print Assumptions skeletonize_succeeds.
Print Assumptions blocks_of_operator.
