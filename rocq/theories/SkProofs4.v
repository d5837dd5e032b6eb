(** Whole results and the error measures. *)
From Coq Require Import Ring.
From Verif Require Import Base IndexModel IndexSpec IndexProofs IndexProofs2 IndexProps MatModel MatProofs SymProofs SymProofs2 SkModel SkSpec SkProofs SkProofs2 SkProofs3.
Set Implicit Arguments.
Open Scope nat_scope.

Lemma nth_error_lt (A : Type) (l : list A) i : i < length l -> exists x, nth_error l i = Some x.
Proof. intros H. destruct (nth_error l i) eqn:E; [eauto|]. apply nth_error_None in E. lia. Qed.
Lemma pyget_entry (A : Type) (l : list A) i x : nth_error l i = Some x -> pyget l (Z.of_nat i) = Ok x.
Proof. intros H. rewrite pyget_nat, H. reflexivity. Qed.
Lemma clusters_get cs il i cl : of_clusters cs il -> nth_error cs i = Some cl -> cluster_indices il (Z.of_nat i) = Ok cl.
Proof. intros H Hi. apply of_clusters_mk in H. destruct H as [-> _]. apply mk_cluster. exact Hi. Qed.
Lemma clusters_n cs il : of_clusters cs il -> nclusters il = zlen cs.
Proof. intros H. apply of_clusters_mk in H. destruct H as [-> _]. unfold mk. apply il_n. Qed.

Lemma last_pos_spec x l : match last_pos x l with
  | Some p => p < length l /\ nth p l 0%Z = x
  | None => ~ In x l end.
Proof.
  induction l as [|y l IH]; simpl; [tauto|]. destruct (last_pos x l) as [p|].
  - destruct IH. split; [lia|assumption].
  - destruct (Z.eqb_spec y x) as [->|Hn]; [split; [lia|reflexivity]|tauto].
Qed.

Section P4.
Variable R : rops.
Variable E : Type.
Variable sli_eps : mat R -> E -> result (Z * list nat * mat R).
Variable sli_rank : mat R -> Z -> result (list nat * mat R).
Variables (eps_lt1 : E -> bool) (eps_int : E -> Z) (int_eps : Z -> E).
Hypothesis Hor : oracle_shape R sli_eps sli_rank.
Notation interp_decomp := (interp_decomp R sli_eps sli_rank eps_lt1 eps_int int_eps).
Notation skeletonize := (skeletonize sli_eps sli_rank eps_lt1 eps_int int_eps).

Lemma skeletonize_view id_rank id_eps tsi tcs scs sr tr sk :
  of_clusters tcs (targets tsi) -> of_clusters scs (sources tsi) -> length scs = length tcs ->
  targets (er_pxyindex tr) = targets tsi -> sources (er_pxyindex sr) = sources tsi ->
  skeletonize id_rank id_eps tsi sr tr = Ok sk ->
  sk_index sk = tsi /\ 2 <= length tcs /\
  exists vs, is_skeleton tcs scs sk vs /\
  forall i v L Rm, nth_error vs i = Some v -> nth_error (sk_L sk) i = Some L -> nth_error (sk_R sk) i = Some Rm ->
    exists T S k kt idxt it idxs,
      tgt_interaction tr (Z.of_nat i) T /\ src_interaction sr (Z.of_nat i) S /\
      interp_decomp (mtr T) id_rank id_eps = Ok (kt, idxt, it) /\
      interp_decomp S (Some k) None = Ok (k, idxs, Rm) /\
      k = Z.min kt (Z.of_nat (Nat.min (Nat.min (mr S) (mc S)) (Nat.min (mr T) (mc T)))) /\
      L = mtr (take_rows (Z.to_nat k) it) /\ k = Z.of_nat (length (c_tp v)) /\
      c_tp v = firstn (Z.to_nat k) idxt /\ c_sp v = firstn (Z.to_nat k) idxs.
Proof.
  intros Ht Hs Hlen Et Es H. destruct tsi as [ti si]. cbn [targets sources] in *.
  destruct (@skeletonize_ok _ _ _ _ _ _ _ Hor _ _ _ _ _ _ H) as (cs & Hcs & Hne & Hn1 & ->).
  assert (Hti : ti = mk tcs /\ tcs <> []) by (apply of_clusters_mk; exact Ht).
  assert (Hsi : si = mk scs /\ scs <> []) by (apply of_clusters_mk; exact Hs).
  destruct Hti as [-> Hne1], Hsi as [-> Hne2].
  destruct (mapM_nth _ _ Hcs) as [Hlc Hnth].
  assert (Hn : ts_n (TS (mk tcs) (mk scs)) = Z.of_nat (length tcs)) by (unfold ts_n; cbn [targets]; apply (il_n tcs)).
  rewrite Hn in *. unfold zrange in Hlc. rewrite map_length, seq_length, Nat2Z.id in Hlc.
  cbn [sk_index sk_L sk_R sk_skel]. split; [reflexivity|].
  split; [destruct tcs as [|? [|? ?]]; cbn in *; try congruence; try lia|].
  assert (HX : forall i s tcl scl, nth_error cs i = Some s -> nth_error tcs i = Some tcl -> nth_error scs i = Some scl ->
     exists T S tp sp kt idxt it idxs,
     tgt_interaction tr (Z.of_nat i) T /\ src_interaction sr (Z.of_nat i) S /\
     mr T = length tcl /\ mc S = length scl /\
     interp_decomp (mtr T) id_rank id_eps = Ok (kt, idxt, it) /\
     interp_decomp S (Some (s1_k s)) None = Ok (s1_k s, idxs, s1_R s) /\
     s1_k s = Z.min kt (Z.of_nat (Nat.min (Nat.min (mr S) (mc S)) (Nat.min (mr T) (mc T)))) /\
     s1_L s = mtr (take_rows (Z.to_nat (s1_k s)) it) /\
     tp = firstn (Z.to_nat (s1_k s)) idxt /\ sp = firstn (Z.to_nat (s1_k s)) idxs /\
     s1_k s = Z.of_nat (length tp) /\
     cluster_skeleton R tcl scl tp sp (s1_tgt s) (s1_src s) (s1_L s) (s1_R s)).
  { intros i s tcl scl Hsi Htc Hsc. destruct (Hnth _ _ Hsi) as (z & Hz & Hf).
    apply zrange_nth in Hz. destruct Hz as [-> Hz].
    apply (@cluster_result R E sli_eps sli_rank eps_lt1 eps_int int_eps Hor id_rank id_eps tcs scs sr tr i s tcl scl); auto.
    - rewrite <- Et. destruct (er_pxyindex tr); reflexivity.
    - rewrite <- Es. destruct (er_pxyindex sr); reflexivity. }
  (* choose positions for every cluster *)
  assert (HV : forall l n, (forall j s, nth_error l j = Some s -> nth_error cs (n + j) = Some s) ->
    exists vs, length vs = length l /\ map c_tsk vs = map (@s1_tgt R) l /\ map c_ssk vs = map (@s1_src R) l /\
    forall j s v tcl scl, nth_error l j = Some s -> nth_error vs j = Some v ->
      nth_error tcs (n + j) = Some tcl -> nth_error scs (n + j) = Some scl ->
      (exists T S kt idxt it idxs,
       tgt_interaction tr (Z.of_nat (n + j)) T /\ src_interaction sr (Z.of_nat (n + j)) S /\
       interp_decomp (mtr T) id_rank id_eps = Ok (kt, idxt, it) /\
       interp_decomp S (Some (s1_k s)) None = Ok (s1_k s, idxs, s1_R s) /\
       s1_k s = Z.min kt (Z.of_nat (Nat.min (Nat.min (mr S) (mc S)) (Nat.min (mr T) (mc T)))) /\
       s1_L s = mtr (take_rows (Z.to_nat (s1_k s)) it) /\
       s1_k s = Z.of_nat (length (c_tp v)) /\
       c_tp v = firstn (Z.to_nat (s1_k s)) idxt /\ c_sp v = firstn (Z.to_nat (s1_k s)) idxs) /\
      cluster_skeleton R tcl scl (c_tp v) (c_sp v) (c_tsk v) (c_ssk v) (s1_L s) (s1_R s)).
  { induction l as [|s l IH]; intros n Hl.
    - exists []. repeat (split; [reflexivity|]). intros [|j]; discriminate.
    - destruct (IH (S n)) as (vs & Hv1 & Hv2 & Hv3 & Hv4).
      { intros j s' Hj. replace (S n + j) with (n + S j) by lia. apply Hl. exact Hj. }
      pose proof (Hl 0 s eq_refl) as Hs0.
      assert (Hlt : n + 0 < length cs) by (apply nth_error_Some; congruence).
      destruct (@nth_error_lt _ tcs (n + 0)) as (tcl & Htc); [lia|].
      destruct (@nth_error_lt _ scs (n + 0)) as (scl & Hsc); [lia|].
      destruct (HX _ _ _ _ Hs0 Htc Hsc) as (T & S & tp & sp & kt & idxt & it & idxs & X1 & X2 & X3 & X4 & X5 & X6 & X7 & X8 & X9 & X10 & X11 & X12).
      exists (Ch tp (s1_tgt s) sp (s1_src s) :: vs). cbn [length map c_tsk c_ssk]. rewrite Hv1, Hv2, Hv3.
      repeat (split; [reflexivity|]). intros [|j] s' v tcl' scl' Hj Hvj Htc' Hsc'; cbn [nth_error] in Hj, Hvj.
      + injection Hj; intros <-. injection Hvj; intros <-. cbn [c_tp c_sp c_tsk c_ssk].
        assert (tcl' = tcl) as -> by congruence. assert (scl' = scl) as -> by congruence.
        split; [|exact X12]. exists T, S, kt, idxt, it, idxs. tauto.
      + replace (n + Datatypes.S j) with (Datatypes.S n + j) in * by lia. eapply Hv4; eauto. }
  destruct (HV cs 0) as (vs & Hv1 & Hv2 & Hv3 & Hv4); [auto|]. exists vs. split.
  - unfold is_skeleton. cbn [sk_index sk_L sk_R sk_skel targets sources]. rewrite Hv2, Hv3, !map_length.
    split; [exact Ht|]. split; [exact Hs|].
    split; [apply (@mk_of_clusters (map (@s1_tgt R) cs)); destruct cs; [congruence|discriminate]|].
    split; [apply (@mk_of_clusters (map (@s1_src R) cs)); destruct cs; [congruence|discriminate]|].
    repeat (split; [lia|]). intros i tcl scl v L Rm H1 H2 H3 H4 H5.
    rewrite nth_error_map in H4, H5. destruct (nth_error cs i) as [s|] eqn:Hs0; [|discriminate].
    injection H4; intros <-. injection H5; intros <-. eapply Hv4; eauto.
  - intros i v L Rm H3 H4 H5.
    rewrite nth_error_map in H4, H5. destruct (nth_error cs i) as [s|] eqn:Hs0; [|discriminate].
    injection H4; intros <-. injection H5; intros <-.
    assert (Hlt : i < length cs) by (apply nth_error_Some; congruence).
    destruct (@nth_error_lt _ tcs i) as (tcl & Htc); [lia|]. destruct (@nth_error_lt _ scs i) as (scl & Hsc); [lia|].
    destruct (Hv4 i s v tcl scl Hs0 H3 Htc Hsc) as [(T & S & kt & idxt & it & idxs & X) _].
    exists T, S, (s1_k s), kt, idxt, it, idxs. exact X.
Qed.
End P4.
