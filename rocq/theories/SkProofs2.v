(** Shapes of the interaction matrices, and whole results. *)
From Verif Require Import Base IndexModel IndexSpec IndexProofs IndexProofs2 IndexProps MatModel SymProofs SymProofs2 SkModel SkSpec SkProofs.
Set Implicit Arguments.
Open Scope nat_scope.

Lemma mapM_nth (A B : Type) (f : A -> result B) l : forall r, mapM f l = Ok r ->
  length r = length l /\
  forall i y, nth_error r i = Some y -> exists x, nth_error l i = Some x /\ f x = Ok y.
Proof.
  induction l as [|a l IH]; intros r H; cbn in H.
  { injection H; intros <-. split; [reflexivity|]. intros [|i] y Hy; discriminate. }
  apply bind_Ok in H. destruct H as (v & Hv & H). apply bind_Ok in H. destruct H as (vs & Hvs & H).
  injection H; intros <-. destruct (IH _ Hvs) as [Hl Hi]. split; [cbn; congruence|].
  intros [|i] y Hy; cbn in Hy.
  - injection Hy; intros <-. exists a. auto.
  - apply Hi. exact Hy.
Qed.
Lemma zrange_nth n i z : nth_error (zrange n) i = Some z -> z = Z.of_nat i /\ (i < Z.to_nat n).
Proof.
  unfold zrange. intros H. rewrite nth_error_map in H. destruct (nth_error (seq 0 _) i) as [q|] eqn:Hq; [|discriminate].
  assert (Hi : i < Z.to_nat n). { rewrite <- (seq_length (Z.to_nat n) 0). apply nth_error_Some. congruence. }
  rewrite (nth_error_nth' _ 0) in Hq by (rewrite seq_length; exact Hi). rewrite seq_nth in Hq by exact Hi.
  cbn in Hq. injection H; intros <-. injection Hq; intros <-. auto.
Qed.

Lemma of_clusters_mk cs il : of_clusters cs il -> il = mk cs /\ cs <> [].
Proof. unfold of_clusters, make_index_list, mk. destruct cs; [discriminate|]. intros H; injection H; intros <-. split; [reflexivity|discriminate]. Qed.
Lemma mk_of_clusters cs : cs <> [] -> of_clusters cs (mk cs).
Proof. destruct cs; [congruence|]. reflexivity. Qed.

Section P2.
Variable R : rops.

Lemma block_shape flat m i b : block_of R flat m i = Ok b ->
  cluster_size (targets m) i = Ok (Z.of_nat (mr b)) /\ cluster_size (sources m) i = Ok (Z.of_nat (mc b)).
Proof.
  intros H. unfold block_of in H. apply bind_Ok in H. destruct H as ([a c] & Hs & H).
  apply bind_Ok in H. destruct H as (l & _ & H). apply bind_Ok in H. destruct H as (rows & Hr & H).
  injection H; intros <-. unfold cluster_shape in Hs. apply bind_Ok in Hs. destruct Hs as (a' & Ha & Hs).
  apply bind_Ok in Hs. destruct Hs as (c' & Hc & Hs). injection Hs; intros <- <-.
  unfold reshape in Hr. cbn [fst snd] in Hr.
  destruct (_ =? zlen l)%Z; [|discriminate]. destruct (Z.leb_spec 0 a'); [|discriminate].
  destruct (Z.leb_spec 0 c'); [|discriminate]. cbn [of_rows mr mc fst snd].
  rewrite !Z2Nat.id by assumption. auto.
Qed.

Lemma tgt_shape (r : eval_result R) i T : tgt_interaction r i T ->
  exists np nn, cluster_size (targets (er_pxyindex r)) i = Ok (Z.of_nat (mr T)) /\
    cluster_size (sources (er_pxyindex r)) i = Ok (Z.of_nat np) /\
    cluster_size (sources (er_nbrindex r)) i = Ok (Z.of_nat nn) /\ mc T = np + nn.
Proof.
  intros (p & n & O & Hg & Hh & _ & ->). unfold er_get in Hg. apply bind_Ok in Hg. destruct Hg as (nb & Hnb & Hg).
  apply bind_Ok in Hg. destruct Hg as (pb & Hpb & Hg). injection Hg; intros -> ->.
  apply block_shape in Hnb. apply block_shape in Hpb. unfold hstack in Hh.
  destruct (Nat.eqb_spec (mr p) (mr n)) as [He|]; [|discriminate]. injection Hh; intros <-.
  cbn [numbers mr mc]. exists (mc p), (mc n). tauto.
Qed.
Lemma src_shape (r : eval_result R) i S : src_interaction r i S ->
  exists np nn, cluster_size (sources (er_pxyindex r)) i = Ok (Z.of_nat (mc S)) /\
    cluster_size (targets (er_pxyindex r)) i = Ok (Z.of_nat np) /\
    cluster_size (targets (er_nbrindex r)) i = Ok (Z.of_nat nn) /\ mr S = np + nn.
Proof.
  intros (p & n & O & Hg & Hh & _ & ->). unfold er_get in Hg. apply bind_Ok in Hg. destruct Hg as (nb & Hnb & Hg).
  apply bind_Ok in Hg. destruct Hg as (pb & Hpb & Hg). injection Hg; intros -> ->.
  apply block_shape in Hnb. apply block_shape in Hpb. unfold vstack in Hh.
  destruct (Nat.eqb_spec (mc p) (mc n)) as [He|]; [|discriminate]. injection Hh; intros <-.
  cbn [numbers mr mc]. exists (mr p), (mr n). tauto.
Qed.

Lemma source_index si pi ni pm nm r : source_result R si pi ni pm nm = Ok r ->
  nclusters si <> 1%Z /\ er_pxyindex r = TS pi si /\ er_nbrindex r = TS ni si /\
  nclusters pi = nclusters si /\ nclusters ni = nclusters si.
Proof.
  unfold source_result. destruct (Z.eqb_spec (nclusters si) 1); [discriminate|]. intros H.
  apply bind_Ok in H. destruct H as (p & Hp & H). apply bind_Ok in H. destruct H as (pm' & _ & H).
  apply bind_Ok in H. destruct H as (q & Hq & H). apply bind_Ok in H. destruct H as (nm' & _ & H).
  injection H; intros <-. apply cluster_counts_checked in Hp, Hq. destruct Hp as [Hp ->], Hq as [Hq ->]. auto.
Qed.
Lemma target_index w waa ti pi ni pm nm r : target_result R w waa ti pi ni pm nm = Ok r ->
  nclusters ti <> 1%Z /\ er_pxyindex r = TS ti pi /\ er_nbrindex r = TS ti ni /\
  nclusters pi = nclusters ti /\ nclusters ni = nclusters ti.
Proof.
  unfold target_result. destruct (Z.eqb_spec (nclusters ti) 1); [discriminate|]. intros H.
  apply bind_Ok in H. destruct H as (p & Hp & H). apply bind_Ok in H. destruct H as (pm1 & _ & H).
  apply bind_Ok in H. destruct H as (pm2 & _ & H).
  apply bind_Ok in H. destruct H as (q & Hq & H). apply bind_Ok in H. destruct H as (nm' & _ & H).
  injection H; intros <-. apply cluster_counts_checked in Hp, Hq. destruct Hp as [Hp ->], Hq as [Hq ->]. auto.
Qed.

Variable E : Type.
Variable sli_eps : mat R -> E -> result (Z * list nat * mat R).
Variable sli_rank : mat R -> Z -> result (list nat * mat R).
Variables (eps_lt1 : E -> bool) (eps_int : E -> Z) (int_eps : Z -> E).
Hypothesis Hor : oracle_shape R sli_eps sli_rank.
Notation interp_decomp := (interp_decomp R sli_eps sli_rank eps_lt1 eps_int int_eps).
Notation skel_cluster := (skel_cluster sli_eps sli_rank eps_lt1 eps_int int_eps).
Notation skeletonize := (skeletonize sli_eps sli_rank eps_lt1 eps_int int_eps).

Lemma mk_cluster cs i cl : nth_error cs i = Some cl ->
  cluster_indices (mk cs) (Z.of_nat i) = Ok cl /\ cluster_size (mk cs) (Z.of_nat i) = Ok (zlen cl).
Proof.
  intros H. assert (Hi : i < length cs) by (apply nth_error_Some; congruence).
  rewrite (nth_error_nth' _ []) in H by exact Hi. injection H; intros <-. unfold mk.
  split; [apply il_cluster|apply il_size]; exact Hi.
Qed.

(** One cluster of a result, with the decompositions behind it. *)
Lemma cluster_result id_rank id_eps tcs scs sr tr i s tcl scl :
  er_pxyindex tr = TS (mk tcs) (sources (er_pxyindex tr)) ->
  er_pxyindex sr = TS (targets (er_pxyindex sr)) (mk scs) ->
  nth_error tcs i = Some tcl -> nth_error scs i = Some scl ->
  skel_cluster id_rank id_eps (TS (mk tcs) (mk scs)) sr tr (Z.of_nat i) = Ok s ->
  exists T S tp sp kt idxt it idxs,
    tgt_interaction tr (Z.of_nat i) T /\ src_interaction sr (Z.of_nat i) S /\
    mr T = length tcl /\ mc S = length scl /\
    interp_decomp (mtr T) id_rank id_eps = Ok (kt, idxt, it) /\
    interp_decomp S (Some (s1_k s)) None = Ok (s1_k s, idxs, s1_R s) /\
    s1_k s = Z.min kt (Z.of_nat (Nat.min (Nat.min (mr S) (mc S)) (Nat.min (mr T) (mc T)))) /\
    s1_L s = mtr (take_rows (Z.to_nat (s1_k s)) it) /\
    tp = firstn (Z.to_nat (s1_k s)) idxt /\ sp = firstn (Z.to_nat (s1_k s)) idxs /\
    s1_k s = Z.of_nat (length tp) /\
    cluster_skeleton R tcl scl tp sp (s1_tgt s) (s1_src s) (s1_L s) (s1_R s).
Proof.
  intros Et Es Htc Hsc H.
  destruct (@skel_cluster_ok _ _ _ _ _ _ _ Hor _ _ _ _ _ _ _ H) as (T & S & tcl' & scl' & tp & sp & kt & idxt & it & idxs & H').
  destruct H' as (HT & HS & Htcl & Hscl & Hit & Hkt & Hk & HL & His & Htp & Hsp & Hk1 & Hlt & Hls & Hmt & Hms).
  cbn [targets sources] in Htcl, Hscl.
  destruct (mk_cluster _ _ Htc) as [Hc1 Hc2]. destruct (mk_cluster _ _ Hsc) as [Hc3 Hc4].
  assert (tcl' = tcl) as -> by congruence. assert (scl' = scl) as -> by congruence.
  assert (HmT : mr T = length tcl).
  { destruct (tgt_shape HT) as (np & nn & Hz & _). rewrite Et in Hz. cbn [targets] in Hz.
    rewrite Hc2 in Hz. injection Hz. unfold zlen. lia. }
  assert (HmS : mc S = length scl).
  { destruct (src_shape HS) as (np & nn & Hz & _). rewrite Es in Hz. cbn [sources] in Hz.
    rewrite Hc4 in Hz. injection Hz. unfold zlen. lia. }
  exists T, S, tp, sp, kt, idxt, it, idxs.
  repeat (split; [first [assumption|lia]|]).
  destruct (@interp_shape _ _ _ _ _ _ _ Hor _ _ _ _ _ _ Hit) as (HPt & Hmrt & Hmct & Hlet & Hdt).
  destruct (@interp_shape _ _ _ _ _ _ _ Hor _ _ _ _ _ _ His) as (HPs & Hmrs & Hmcs & Hles & Hds).
  destruct (@perm_idx _ _ HPt) as (Hndt & Hlit & _). destruct (@perm_idx _ _ HPs) as (Hnds & Hlis & _).
  cbn [mtr mr mc] in *.
  split; [split; [subst tp; apply NoDup_firstn; exact Hndt|exact Hmt]|].
  split; [split; [subst sp; apply NoDup_firstn; exact Hnds|exact Hms]|].
  split; [lia|]. split; [exact Hls|]. rewrite HL. cbn [mtr take_rows mr mc el].
  split; [lia|]. split; [lia|]. split; [lia|]. split; [lia|]. split.
  - intros a b Ha Hb. subst tp. rewrite nth_firstn' by lia. rewrite Hdt by lia. reflexivity.
  - intros a b Ha Hb. subst sp. rewrite nth_firstn' by lia. rewrite Hds by lia.
    unfold delta. rewrite Nat.eqb_sym. reflexivity.
Qed.
End P2.
