(** Proofs for C39, C72, C73. *)
From Verif Require Import Base IndexModel IndexSpec IndexProofs MatModel MatProofs SymProofs SymProofs2 SkModel SkSpec.
Set Implicit Arguments.
Open Scope nat_scope.

Lemma find_pos_nth idx : NoDup idx -> forall j, j < length idx -> find_pos (nth j idx 0) idx = Some j.
Proof.
  induction 1 as [|x idx Hx Hnd IH]; intros j Hj; simpl in Hj; [lia|]. destruct j as [|j]; simpl.
  - rewrite Nat.eqb_refl. reflexivity.
  - destruct (Nat.eqb_spec x (nth j idx 0)) as [E|E].
    + exfalso. apply Hx. rewrite E. apply nth_In. lia.
    + rewrite IH by lia. reflexivity.
Qed.

Lemma perm_idx n idx : Permutation idx (seq 0 n) -> NoDup idx /\ length idx = n /\ forall p, In p idx <-> p < n.
Proof.
  intros HP. split; [|split].
  - apply (Permutation_NoDup (Permutation_sym HP)), seq_NoDup.
  - rewrite (Permutation_length HP). apply seq_length.
  - intros p. split; intros H.
    + apply (Permutation_in _ HP) in H. apply in_seq in H. lia.
    + apply (Permutation_in _ (Permutation_sym HP)). apply in_seq. lia.
Qed.

Lemma NoDup_firstn (A : Type) (l : list A) : NoDup l -> forall k, NoDup (firstn k l).
Proof.
  induction 1 as [|x l Hx H IH]; intros [|k]; simpl; try constructor; auto.
  intros Hin. apply Hx. rewrite <- (firstn_skipn k l). apply in_or_app. auto.
Qed.
Lemma nth_firstn' (A : Type) (l : list A) d : forall k j, j < k -> nth j (firstn k l) d = nth j l d.
Proof. induction l as [|x l IH]; intros [|k] [|j] H; simpl; auto; try lia. apply IH. lia. Qed.

Lemma assert_Ok b u : assert_ b = Ok u -> b = true.
Proof. destruct b; [auto|discriminate]. Qed.

Lemma select_ok (cl : list Z) : forall ps sk, mapM (fun p => pyget cl (Z.of_nat p)) ps = Ok sk ->
  map (nth_error cl) ps = map Some sk.
Proof.
  induction ps as [|p ps IH]; intros sk H; cbn in H; [injection H; intros <-; reflexivity|].
  apply bind_Ok in H. destruct H as (v & Hv & H). apply bind_Ok in H. destruct H as (vs & Hvs & H).
  injection H; intros <-. cbn. rewrite (IH _ Hvs). f_equal. rewrite pyget_nat in Hv.
  destruct (nth_error cl p); [congruence|discriminate].
Qed.

Lemma mapM_In_inv (A B : Type) (f : A -> result B) l : forall r, mapM f l = Ok r ->
  forall y, In y r -> exists x, In x l /\ f x = Ok y.
Proof.
  induction l as [|a l IH]; intros r H y Hy; cbn in H; [injection H; intros <-; destruct Hy|].
  apply bind_Ok in H. destruct H as (v & Hv & H). apply bind_Ok in H. destruct H as (vs & Hvs & H).
  injection H; intros <-. destruct Hy as [<-|Hy].
  - exists a. split; [left; reflexivity|exact Hv].
  - destruct (IH _ Hvs y Hy) as (x & Hx & Hf). exists x. split; [right; exact Hx|exact Hf].
Qed.

Section P.
Variable R : rops.
Variable E : Type.
Variable sli_eps : mat R -> E -> result (Z * list nat * mat R).
Variable sli_rank : mat R -> Z -> result (list nat * mat R).
Variables (eps_lt1 : E -> bool) (eps_int : E -> Z) (int_eps : Z -> E).
Hypothesis Hor : oracle_shape R sli_eps sli_rank.

Notation interp_decomp := (interp_decomp R sli_eps sli_rank eps_lt1 eps_int int_eps).
Notation skel_cluster := (skel_cluster sli_eps sli_rank eps_lt1 eps_int int_eps).
Notation skeletonize := (skeletonize sli_eps sli_rank eps_lt1 eps_int int_eps).

(** Where an answer of interp_decomp comes from. *)
Lemma interp_Ok A rank eps k idx interp : interp_decomp A rank eps = Ok (k, idx, interp) ->
  exists proj, interp = reconstruct R idx proj /\
   ((exists e, rank = None /\ eps = Some e /\ eps_lt1 e = true /\ sli_eps A e = Ok (k, idx, proj)) \/
    (rank = Some k /\ eps = None /\ (1 <= k)%Z /\ sli_rank A k = Ok (idx, proj))).
Proof.
  unfold SkModel.interp_decomp. destruct rank as [k0|], eps as [e|]; try discriminate; intros H;
    apply bind_Ok in H; destruct H as (o & Ho & H).
  - unfold sli_interp_decomp in Ho. destruct (Z.ltb_spec k0 1) as [Hk|Hk].
    + unfold sli_by_eps in Ho. apply bind_Ok in Ho. destruct Ho as (r & _ & Hr). injection Hr; intros <-. discriminate.
    + unfold sli_by_rank in Ho. apply bind_Ok in Ho. destruct Ho as ([i p] & Hs & Hr). injection Hr; intros <-.
      cbn in H. injection H; intros <- <- <-. exists p. split; [reflexivity|]. right. auto.
  - unfold sli_interp_decomp in Ho. destruct (eps_lt1 e) eqn:He.
    + unfold sli_by_eps in Ho. apply bind_Ok in Ho. destruct Ho as ([[k1 i] p] & Hs & Hr). injection Hr; intros <-.
      cbn in H. injection H; intros <- <- <-. exists p. split; [reflexivity|]. left. exists e. auto.
    + unfold sli_by_rank in Ho. apply bind_Ok in Ho. destruct Ho as (r & _ & Hr). injection Hr; intros <-. discriminate.
Qed.

Lemma interp_shape A rank eps k idx interp : interp_decomp A rank eps = Ok (k, idx, interp) ->
  Permutation idx (seq 0 (mc A)) /\ Z.of_nat (mr interp) = k /\ mc interp = mc A /\ mr interp <= mc A /\
  (forall a b, a < mr interp -> b < mr interp -> el interp a (nth b idx 0) = delta R b a).
Proof.
  intros H. apply interp_Ok in H. destruct H as (proj & -> & H).
  assert (Hs : id_shape R A k idx proj).
  { destruct Hor as [H1 H2]. destruct H as [(e & _ & _ & _ & H)|(_ & _ & _ & H)]; eauto. }
  destruct Hs as (HP & Hk & Hm). destruct (@perm_idx _ _ HP) as (Hnd & Hl & _).
  unfold reconstruct. cbn [mr mc el]. repeat (split; [first [assumption|lia]|]).
  intros a b Ha Hb. rewrite find_pos_nth by (auto; lia).
  destruct (Nat.ltb_spec b (mr proj)); [reflexivity|lia].
Qed.

(** The tail columns. *)
Lemma reconstruct_tail idx (proj : mat R) a b : NoDup idx -> mr proj + b < length idx ->
  el (reconstruct R idx proj) a (nth (mr proj + b) idx 0) = el proj a b.
Proof.
  intros Hnd Hb. unfold reconstruct. cbn [el]. rewrite find_pos_nth by auto.
  destruct (Nat.ltb_spec (mr proj + b) (mr proj)); [lia|]. f_equal. lia.
Qed.

Section Cluster.
Variables (id_rank : option Z) (id_eps : option E) (tsi : tscl) (sr tr : eval_result R).

Lemma skel_cluster_ok i s : skel_cluster id_rank id_eps tsi sr tr i = Ok s ->
  exists T S tcl scl tp sp kt idxt it idxs,
    tgt_interaction tr i T /\ src_interaction sr i S /\
    cluster_indices (targets tsi) i = Ok tcl /\ cluster_indices (sources tsi) i = Ok scl /\
    interp_decomp (mtr T) id_rank id_eps = Ok (kt, idxt, it) /\ (0 < kt)%Z /\
    s1_k s = Z.min kt (Z.of_nat (Nat.min (Nat.min (mr S) (mc S)) (Nat.min (mr T) (mc T)))) /\
    s1_L s = mtr (take_rows (Z.to_nat (s1_k s)) it) /\
    interp_decomp S (Some (s1_k s)) None = Ok (s1_k s, idxs, s1_R s) /\
    tp = firstn (Z.to_nat (s1_k s)) idxt /\ sp = firstn (Z.to_nat (s1_k s)) idxs /\
    (1 <= s1_k s)%Z /\ length tp = Z.to_nat (s1_k s) /\ length sp = length tp /\
    map (nth_error tcl) tp = map Some (s1_tgt s) /\ map (nth_error scl) sp = map Some (s1_src s).
Proof.
  intros H. unfold SkModel.skel_cluster in H.
  apply bind_Ok in H. destruct H as ([sp0 sn0] & Hse & H).
  apply bind_Ok in H. destruct H as (SO & HSO & H). cbn [fst snd] in HSO.
  apply bind_Ok in H. destruct H as ([tp0 tn0] & Hte & H).
  apply bind_Ok in H. destruct H as (TO & HTO & H). cbn [fst snd] in HTO.
  apply bind_Ok in H. destruct H as (u1 & Hft & H). apply assert_Ok in Hft.
  apply bind_Ok in H. destruct H as (u2 & Hfs & H). apply assert_Ok in Hfs. cbv zeta in H.
  apply bind_Ok in H. destruct H as ([[kt idxt] it] & Hit & H).
  apply bind_Ok in H. destruct H as (u3 & Hk3 & H). apply assert_Ok in Hk3.
  apply andb_true_iff in Hk3. destruct Hk3 as [Hk0 Hk1].
  apply Z.ltb_lt in Hk0. apply Z.leb_le in Hk1.
  set (T := numbers R TO) in *. set (S := numbers R SO) in *.
  set (mx := Z.of_nat (Nat.min (Nat.min (mr S) (mc S)) (Nat.min (mr T) (mc T)))) in *.
  pose proof (interp_shape _ _ _ Hit) as (HPt & Hmrt & Hmct & Hlet & _).
  assert (HC : exists k it', (if (mx <? kt)%Z then (mx, take_rows (Z.to_nat mx) it) else (kt, it)) = (k, it') /\
      k = Z.min kt mx /\ mtr it' = mtr (take_rows (Z.to_nat k) it) /\ mr it' = Z.to_nat k /\ mc it' = mc it).
  { destruct (Z.ltb_spec mx kt) as [Hc|Hc].
    - do 2 eexists. split; [reflexivity|]. split; [lia|]. split; [reflexivity|]. cbn [take_rows mr mc]. split; lia.
    - do 2 eexists. split; [reflexivity|]. split; [lia|]. split; [|split; lia].
      unfold mtr, take_rows. cbn [mr mc el]. f_equal. lia. }
  destruct HC as (k & it' & HC & Hk & HL & Hmr' & Hmc'). rewrite HC in H.
  apply bind_Ok in H. destruct H as (tcl & Htcl & H).
  apply bind_Ok in H. destruct H as (tsk & Htsk & H).
  apply bind_Ok in H. destruct H as (u4 & Hk4 & H). apply assert_Ok in Hk4.
  apply bind_Ok in H. destruct H as ([[ks idxs] is_] & His & H).
  apply bind_Ok in H. destruct H as (u5 & Hk5 & H). apply assert_Ok in Hk5.
  apply bind_Ok in H. destruct H as (scl & Hscl & H).
  apply bind_Ok in H. destruct H as (ssk & Hssk & H).
  apply bind_Ok in H. destruct H as (u6 & Hk6 & H). apply assert_Ok in Hk6.
  apply bind_Ok in H. destruct H as (u7 & Hk7 & H). apply assert_Ok in Hk7.
  injection H; intros <-. clear H. cbn [s1_k s1_L s1_R s1_tgt s1_src].
  assert (ks = k) as ->.
  { destruct (interp_Ok _ _ _ His) as (p & _ & [(e & ? & _)|(? & _)]); congruence. }
  apply select_ok in Htsk. apply select_ok in Hssk.
  apply andb_true_iff in Hk5. destruct Hk5 as [Hk5 Hk5']. apply Z.ltb_lt in Hk5. apply Z.leb_le in Hk5'.
  unfold zlen in Hk1, Hk5'.
  exists T, S, tcl, scl, (firstn (Z.to_nat k) idxt), (firstn (Z.to_nat k) idxs), kt, idxt, it, idxs.
  assert (HlT : length (firstn (Z.to_nat k) idxt) = Z.to_nat k) by (rewrite firstn_length; lia).
  assert (HlS : length (firstn (Z.to_nat k) idxs) = Z.to_nat k) by (rewrite firstn_length; lia).
  split; [do 3 eexists; eauto|]. split; [do 3 eexists; eauto|].
  repeat (split; [first [assumption|lia|reflexivity]|]). assumption.
Qed.
Lemma skeletonize_ok sk : skeletonize id_rank id_eps tsi sr tr = Ok sk ->
  exists cs, mapM (skel_cluster id_rank id_eps tsi sr tr) (zrange (ts_n tsi)) = Ok cs /\
    cs <> [] /\ ts_n tsi <> 1%Z /\
    sk = SR R (map (@s1_L R) cs) (map (@s1_R R) cs) tsi
            (TS (IL (concat (map (@s1_tgt R) cs)) (IndexModel.cumsum0 (map zlen (map (@s1_tgt R) cs))))
                (IL (concat (map (@s1_src R) cs)) (IndexModel.cumsum0 (map zlen (map (@s1_src R) cs))))).
Proof.
  intros H. unfold SkModel.skeletonize in H. destruct (Z.eqb_spec (ts_n tsi) 1) as [Hn|Hn]; [discriminate|].
  apply bind_Ok in H. destruct H as (cs & Hcs & H). exists cs. split; [exact Hcs|].
  apply bind_Ok in H. destruct H as (u & Hu & H). split; [destruct cs; [discriminate|congruence]|].
  split; [exact Hn|].
  assert (Hk : map (@s1_k R) cs = map zlen (map (@s1_tgt R) cs) /\ map (@s1_k R) cs = map zlen (map (@s1_src R) cs)).
  { assert (HF : forall s, In s cs -> s1_k s = zlen (s1_tgt s) /\ s1_k s = zlen (s1_src s)).
    { intros s Hs. destruct (mapM_In_inv _ _ Hcs s Hs) as (i & _ & Hi).
      destruct (skel_cluster_ok _ Hi) as (T & S & tcl & scl & tp & sp & kt & idxt & it & idxs & H').
      decompose [and] H'. unfold zlen.
      match goal with h : map _ tp = _, h' : map _ sp = _ |- _ =>
        apply (f_equal (@length _)) in h; apply (f_equal (@length _)) in h'; rewrite !map_length in h, h' end.
      split; lia. }
    rewrite !map_map. split; apply map_ext_in; intros s Hs; apply (HF s Hs). }
  destruct Hk as [Hk1 Hk2].
  apply bind_Ok in H. destruct H as (si & Hsi & H). apply bind_Ok in H. destruct H as (ti & Hti & H).
  apply bind_Ok in H. destruct H as (m & Hm & H).
  unfold make_index_list_starts in Hsi, Hti. apply bind_Ok in Hsi. destruct Hsi as (e1 & _ & Hsi).
  apply bind_Ok in Hti. destruct Hti as (e2 & _ & Hti).
  destruct (e1 =? _)%Z in Hsi; [|discriminate]. destruct (e2 =? _)%Z in Hti; [|discriminate].
  unfold make_ts in Hm. destruct (_ =? _)%Z in Hm; [|discriminate].
  unfold make_skel_result in H.
  destruct (negb _) in H; [discriminate|]. destruct (negb _) in H; [discriminate|].
  destruct (negb _) in H; [discriminate|].
  assert (E1 : si = IL (concat (map (@s1_src R) cs)) (IndexModel.cumsum0 (map (@s1_k R) cs))) by congruence.
  assert (E2 : ti = IL (concat (map (@s1_tgt R) cs)) (IndexModel.cumsum0 (map (@s1_k R) cs))) by congruence.
  rewrite <- Hk1, <- Hk2. congruence.
Qed.
End Cluster.
End P.
