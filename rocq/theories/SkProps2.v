(** C39 (evaluation and weights), C72, C73. *)
From Coq Require Import Ring.
From Verif Require Import Base IndexModel IndexSpec IndexProofs IndexProofs2 IndexProps MatModel MatProofs SymProofs SymProofs2 SkModel SkSpec SkProofs SkProofs2 SkProofs3 SkProofs4 SkProofs5 SkProofs6 SkProps.
Set Implicit Arguments.
Open Scope string_scope. Open Scope list_scope. Open Scope nat_scope.

Lemma nth_combine_maps (A B : Type) (l : list A) (l' : list B) i x y :
  nth_error l i = Some x -> nth_error l' i = Some y -> nth_error (combine l l') i = Some (x, y).
Proof.
  revert l l'. induction i as [|i IH]; intros [|a l] [|b l'] H1 H2; try discriminate; cbn in *; [congruence|auto].
Qed.
Lemma map_fst_combine (A B : Type) (l : list A) : forall l' : list B, length l = length l' -> map fst (combine l l') = l.
Proof. induction l as [|a l IH]; intros [|b l'] H; try discriminate; cbn in *; [reflexivity|]. f_equal. apply IH. lia. Qed.
Lemma map_snd_combine (A B : Type) (l : list A) : forall l' : list B, length l = length l' -> map snd (combine l l') = l'.
Proof. induction l as [|a l IH]; intros [|b l'] H; try discriminate; cbn in *; [reflexivity|]. f_equal. apply IH. lia. Qed.

Section Eval.
Variable R : rops.
Notation wblocks := (wblocks R).
Notation mean_of := (mean_of R).

(** The number by which the proxy block of a cluster is multiplied. *)
Definition proxy_weight (weighted : bool) (waa : list R) (ncl : list Z) (x : option R) : option R :=
  if weighted then match x, mean_of waa ncl with Some a, Some b => Some (rmul R a b) | _, _ => None end else x.

(** C39.  The matrix decomposed for the targets of a cluster: its interactions with the proxies,
    each times the mean of the quadrature weights of the cluster's neighbors, then those with
    the neighbors; the flat arrays of the matrix builders are read block by block. *)
Theorem target_interaction_matrix : forall weighted waa tcs pcs ncs ti pt nt bp bn,
  of_clusters tcs ti -> of_clusters pcs pt -> of_clusters ncs nt ->
  length tcs <> 1 -> length pcs = length tcs -> length ncs = length tcs ->
  flat_blocks (combine tcs pcs) bp -> flat_blocks (combine tcs ncs) bn ->
  (forall cl z, In cl ncs -> In z cl -> (0 <= z < zlen waa)%Z) ->
  exists tr, target_result R weighted waa ti pt nt (fun _ => Ok (concat bp)) (fun _ => Ok (concat bn)) = Ok tr /\
  er_pxyindex tr = TS ti pt /\ er_nbrindex tr = TS ti nt /\
  forall i tcl pcl ncl b b', nth_error tcs i = Some tcl -> nth_error pcs i = Some pcl -> nth_error ncs i = Some ncl ->
    nth_error bp i = Some b -> nth_error bn i = Some b' ->
    exists p n O, er_get tr (Z.of_nat i) = Ok (p, n) /\ hstack p n = Ok O /\
      mr O = length tcl /\ mc O = length pcl + length ncl /\
      (forall a q, a < length tcl -> q < length pcl ->
         el O a q = proxy_weight weighted waa ncl (nth (a * length pcl + q) b None)) /\
      (forall a q, a < length tcl -> q < length ncl ->
         el O a (length pcl + q) = nth (a * length ncl + q) b' None).
Proof.
  intros weighted waa tcs pcs ncs ti pt nt bp bn Ht Hp Hn Hne1 Lp Ln Hbp Hbn Hw.
  apply of_clusters_mk in Ht, Hp, Hn. destruct Ht as [-> Ht], Hp as [-> Hp], Hn as [-> Hn].
  assert (Ct : nclusters (mk tcs) = zlen tcs) by apply (il_n tcs).
  assert (Cp : nclusters (mk pcs) = zlen tcs) by (unfold zlen; rewrite <- Lp; apply (il_n pcs)).
  assert (Cn : nclusters (mk ncs) = zlen tcs) by (unfold zlen; rewrite <- Ln; apply (il_n ncs)).
  unfold target_result. rewrite Ct. destruct (Z.eqb_spec (zlen tcs) 1) as [He|_]; [unfold zlen in He; lia|].
  unfold make_ts. rewrite Ct, Cp, Cn, Z.eqb_refl. cbn [bind].
  assert (Lbp : length bp = length tcs).
  { apply (f_equal (@length _)) in Hbp. rewrite !map_length, combine_length in Hbp. lia. }
  assert (Lbn : length bn = length tcs).
  { apply (f_equal (@length _)) in Hbn. rewrite !map_length, combine_length in Hbn. lia. }
  assert (Ets : TS (mk tcs) (mk pcs) = TS (mk (map fst (combine tcs pcs))) (mk (map snd (combine tcs pcs)))).
  { rewrite map_fst_combine, map_snd_combine by lia. reflexivity. }
  assert (Etn : TS (mk tcs) (mk ncs) = TS (mk (map fst (combine tcs ncs))) (mk (map snd (combine tcs ncs)))).
  { rewrite map_fst_combine, map_snd_combine by lia. reflexivity. }
  assert (HW : exists bp', (if weighted then apply_weights R (concat bp) waa (TS (mk tcs) (mk pcs)) (mk ncs) else Ok (concat bp)) = Ok (concat bp') /\
     flat_blocks (combine tcs pcs) bp' /\
     forall i b ncl, nth_error bp i = Some b -> nth_error ncs i = Some ncl ->
       exists bw, nth_error bp' i = Some bw /\ forall j, j < length b -> nth j bw None = proxy_weight weighted waa ncl (nth j b None)).
  { destruct weighted.
    - exists (wblocks bp (map (mean_of waa) ncs)). split; [|split].
      + unfold apply_weights. assert (Ec : (ts_n (TS (mk tcs) (mk pcs)) =? nclusters (mk ncs))%Z = true).
        { apply Z.eqb_eq. unfold ts_n. cbn [targets]. lia. }
        rewrite Ec. cbn [assert_ bind]. rewrite (mean_ok R waa Hn Hw). cbn [bind].
        rewrite Ets at 1. rewrite fstarts. cbn [bind]. rewrite <- Hbp.
        unfold ts_n. cbn [targets]. rewrite Ct. unfold zrange, zlen. rewrite Nat2Z.id.
        rewrite <- Lbp. rewrite <- (@weight_steps_ok R bp (map (mean_of waa) ncs)) with (n := length bp) (i := 0);
          [|rewrite map_length; lia|lia]. reflexivity.
      + unfold flat_blocks in *. rewrite <- Hbp. unfold SkSpec.wblocks. rewrite map_map.
        assert (Lw : length bp = length (map (mean_of waa) ncs)) by (rewrite map_length; lia).
        revert Lw. generalize (map (mean_of waa) ncs). clear. induction bp as [|b bp IH]; intros [|w ws] H; try discriminate; cbn in *; [reflexivity|].
        f_equal; [unfold zlen; cbn; rewrite map_length; reflexivity|]. apply IH. lia.
      + intros i b ncl Hb Hncl. exists (map (fun x => match x, mean_of waa ncl with Some a, Some b => Some (rmul R a b) | _, _ => None end) b).
        split.
        * unfold SkSpec.wblocks. rewrite nth_error_map.
          rewrite (nth_combine_maps _ _ i Hb (map_nth_error (mean_of waa) _ _ Hncl)). reflexivity.
        * intros j Hj. unfold proxy_weight.
          set (g := fun x => match x, mean_of waa ncl with Some a, Some b => Some (rmul R a b) | _, _ => None end).
          change None with (g None) at 1. rewrite map_nth. reflexivity.
    - exists bp. split; [reflexivity|]. split; [exact Hbp|]. intros i b ncl Hb _. exists b. split; [exact Hb|reflexivity]. }
  destruct HW as (bp' & HW1 & HW2 & HW3). rewrite HW1. cbn [bind].
  eexists. split; [reflexivity|]. cbn [er_pxyindex er_nbrindex]. split; [reflexivity|]. split; [reflexivity|].
  intros i tcl pcl ncl b b' Et Ep En Eb Eb'. destruct (HW3 i b ncl Eb En) as (bw & Ebw & Hbw).
  pose proof (@block_of_ok R (combine tcs pcs) bp' i (tcl, pcl) bw HW2 (nth_combine_maps _ _ i Et Ep) Ebw) as B1.
  pose proof (@block_of_ok R (combine tcs ncs) bn i (tcl, ncl) b' Hbn (nth_combine_maps _ _ i Et En) Eb') as B2.
  rewrite <- Ets in B1. rewrite <- Etn in B2. unfold er_get. cbn [er_pxymat er_pxyindex er_nbrmat er_nbrindex].
  rewrite B1, B2. cbn [bind]. do 3 eexists. split; [reflexivity|]. unfold hstack. cbn [mr mc fst snd].
  rewrite Nat.eqb_refl. split; [reflexivity|]. cbn [mr mc el]. split; [reflexivity|]. split; [reflexivity|].
  assert (Lb : length b = length tcl * length pcl).
  { apply (map_nth_error zlen) in Eb. rewrite Hbp in Eb. rewrite (map_nth_error _ _ _ (nth_combine_maps _ _ i Et Ep)) in Eb.
    injection Eb. unfold zlen. cbn [fst snd]. lia. }
  split; intros a q Ha Hq.
  - destruct (Nat.ltb_spec q (length pcl)); [|lia]. rewrite chunks_nth by assumption. apply Hbw. nia.
  - destruct (Nat.ltb_spec (length pcl + q) (length pcl)); [lia|].
    rewrite chunks_nth by lia. f_equal. lia.
Qed.

(** ... and for the sources: interactions of the proxies, then of the neighbors, with the sources. *)
Theorem source_interaction_matrix : forall scs pcs ncs si ps ns bp bn,
  of_clusters scs si -> of_clusters pcs ps -> of_clusters ncs ns ->
  length scs <> 1 -> length pcs = length scs -> length ncs = length scs ->
  flat_blocks (combine pcs scs) bp -> flat_blocks (combine ncs scs) bn ->
  exists sr, source_result R si ps ns (fun _ => Ok (concat bp)) (fun _ => Ok (concat bn)) = Ok sr /\
  er_pxyindex sr = TS ps si /\ er_nbrindex sr = TS ns si /\
  forall i scl pcl ncl b b', nth_error scs i = Some scl -> nth_error pcs i = Some pcl -> nth_error ncs i = Some ncl ->
    nth_error bp i = Some b -> nth_error bn i = Some b' ->
    exists p n O, er_get sr (Z.of_nat i) = Ok (p, n) /\ vstack p n = Ok O /\
      mr O = length pcl + length ncl /\ mc O = length scl /\
      (forall q c, q < length pcl -> c < length scl -> el O q c = nth (q * length scl + c) b None) /\
      (forall q c, q < length ncl -> c < length scl -> el O (length pcl + q) c = nth (q * length scl + c) b' None).
Proof.
  intros scs pcs ncs si ps ns bp bn Hs Hp Hn Hne1 Lp Ln Hbp Hbn.
  apply of_clusters_mk in Hs, Hp, Hn. destruct Hs as [-> Hs], Hp as [-> Hp], Hn as [-> Hn].
  assert (Ct : nclusters (mk scs) = zlen scs) by apply (il_n scs).
  assert (Cp : nclusters (mk pcs) = zlen scs) by (unfold zlen; rewrite <- Lp; apply (il_n pcs)).
  assert (Cn : nclusters (mk ncs) = zlen scs) by (unfold zlen; rewrite <- Ln; apply (il_n ncs)).
  unfold source_result. rewrite Ct. destruct (Z.eqb_spec (zlen scs) 1) as [He|_]; [unfold zlen in He; lia|].
  unfold make_ts. rewrite Ct, Cp, Cn, Z.eqb_refl. cbn [bind].
  assert (Ets : TS (mk pcs) (mk scs) = TS (mk (map fst (combine pcs scs))) (mk (map snd (combine pcs scs)))).
  { rewrite map_fst_combine, map_snd_combine by lia. reflexivity. }
  assert (Etn : TS (mk ncs) (mk scs) = TS (mk (map fst (combine ncs scs))) (mk (map snd (combine ncs scs)))).
  { rewrite map_fst_combine, map_snd_combine by lia. reflexivity. }
  eexists. split; [reflexivity|]. cbn [er_pxyindex er_nbrindex]. split; [reflexivity|]. split; [reflexivity|].
  intros i scl pcl ncl b b' Et Ep En Eb Eb'.
  pose proof (@block_of_ok R (combine pcs scs) bp i (pcl, scl) b Hbp (nth_combine_maps _ _ i Ep Et) Eb) as B1.
  pose proof (@block_of_ok R (combine ncs scs) bn i (ncl, scl) b' Hbn (nth_combine_maps _ _ i En Et) Eb') as B2.
  rewrite <- Ets in B1. rewrite <- Etn in B2. unfold er_get. cbn [er_pxymat er_pxyindex er_nbrmat er_nbrindex].
  rewrite B1, B2. cbn [bind]. do 3 eexists. split; [reflexivity|]. unfold vstack. cbn [mr mc fst snd].
  rewrite Nat.eqb_refl. split; [reflexivity|]. cbn [mr mc el]. split; [reflexivity|]. split; [reflexivity|].
  split; intros q c Hq Hc.
  - destruct (Nat.ltb_spec q (length pcl)); [|lia]. rewrite chunks_nth by assumption. reflexivity.
  - destruct (Nat.ltb_spec (length pcl + q) (length pcl)); [lia|].
    rewrite chunks_nth by lia. f_equal. lia.
Qed.

(** The option _weighted_proxy. *)
Theorem weighted_proxy_option : forall w st, parse_weighted w = Ok st <->
  match w with
  | WNone => st = (true, true)
  | WBool b => st = (b, b)
  | WTuple l => l = [fst st; snd st]
  | WOther => False end.
Proof.
  intros [|b|l|] [s t]; cbn; try (split; congruence).
  - destruct l as [|s' [|t' [|x l]]]; split; intros H; try discriminate; try congruence; injection H; intros; subst; reflexivity.
  - split; [discriminate|tauto].
Qed.
End Eval.
Print Assumptions target_interaction_matrix.
Print Assumptions source_interaction_matrix.
Print Assumptions weighted_proxy_option.
