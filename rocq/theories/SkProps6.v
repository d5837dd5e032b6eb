(** C39, C73: exactly when skeletonization succeeds. *)
From Verif Require Import Base IndexModel IndexSpec IndexProofs IndexProofs2 IndexProps MatModel MatProps SymProofs SymProofs2 SkModel SkSpec SkProofs SkProofs2 SkProofs4 SkProofs5 SkProofs6 SkProps SkProps2 SkProps3 SkProps4 SkProps5.
Set Implicit Arguments.
Open Scope string_scope. Open Scope list_scope. Open Scope nat_scope.

Section Skel.
Variable R : rops.
Variable E : Type.
Variable sli_eps : mat R -> E -> result (Z * list nat * mat R).
Variable sli_rank : mat R -> Z -> result (list nat * mat R).
Variables (eps_lt1 : E -> bool) (eps_int : E -> Z) (int_eps : Z -> E).
Notation skeletonize := (skeletonize sli_eps sli_rank eps_lt1 eps_int int_eps).

(** Valid options: a rank of at least one, or a tolerance below one, not both. *)
Definition options_ok (id_rank : option Z) (id_eps : option E) : Prop :=
  match id_rank, id_eps with
  | Some k, None => (1 <= k)%Z
  | None, Some e => eps_lt1 e = true
  | _, _ => False end.
(** What one cluster needs: finite interaction matrices (for which some neighbors are needed
    with weighted targets) with at least one row and one column, a decomposition of the target
    interactions with rank at least one, and a decomposition of the source interactions at that
    rank, cut to the smallest of the four dimensions. *)
Definition cluster_can (id_rank : option Z) (id_eps : option E) (sr tr : eval_result R) (i : Z) : Prop :=
  exists T S k idx proj idx' proj',
    tgt_interaction tr i T /\ src_interaction sr i S /\
    1 <= mr T /\ 1 <= mc T /\ 1 <= mr S /\ 1 <= mc S /\
    decomposes R sli_eps sli_rank id_rank id_eps (mtr T) k idx proj /\ (1 <= k)%Z /\
    sli_rank S (Z.min k (Z.of_nat (Nat.min (Nat.min (mr S) (mc S)) (Nat.min (mr T) (mc T))))) = Ok (idx', proj').

(** C39, C73.  For two clusters or more (one is refused). *)
Theorem skeletonize_succeeds_iff : oracle_shape R sli_eps sli_rank ->
  forall id_rank id_eps tsi tcs scs sr tr,
  of_clusters tcs (targets tsi) -> of_clusters scs (sources tsi) -> length scs = length tcs -> 2 <= length tcs ->
  targets (er_pxyindex tr) = targets tsi -> sources (er_pxyindex sr) = sources tsi ->
  ((exists sk, skeletonize id_rank id_eps tsi sr tr = Ok sk) <->
   options_ok id_rank id_eps /\ forall i, i < length tcs -> cluster_can id_rank id_eps sr tr (Z.of_nat i)).
Proof.
  intros Hor id_rank id_eps tsi tcs scs sr tr Ht Hs Hl Hn Et Es. split.
  - intros (sk & H).
    destruct (@skeletonize_ok _ _ _ _ _ _ _ Hor _ _ _ _ _ _ H) as (cs & Hcs & _).
    assert (HC : forall i, i < length tcs -> options_ok id_rank id_eps /\ cluster_can id_rank id_eps sr tr (Z.of_nat i)).
    { intros i Hi.
      assert (Hz : nth_error (zrange (ts_n tsi)) i = Some (Z.of_nat i)).
      { unfold ts_n. rewrite (clusters_n Ht). unfold zlen. apply zrange_nth_error. exact Hi. }
      destruct (mapM_nth' _ _ i Hcs Hz) as (s & _ & Hsk).
      destruct (@skel_cluster_ok _ _ _ _ _ _ _ Hor _ _ _ _ _ _ _ Hsk)
        as (T & S & tcl & scl & tp & sp & kt & idxt & it & idxs & HT & HS & _ & _ & Dt & Kt & Ks & _ & Ds & _ & _ & K1 & _).
      apply interp_Ok in Dt. destruct Dt as (pt & _ & Dt). apply interp_Ok in Ds. destruct Ds as (ps & _ & Ds).
      destruct Ds as [(e & D & _)|(_ & _ & _ & Ds)]; [discriminate|]. rewrite Ks in Ds, K1.
      split.
      - destruct Dt as [(e & -> & -> & He & _)|(-> & -> & Hk & _)]; cbn [options_ok]; assumption.
      - exists T, S, kt, idxt, pt, idxs, ps. split; [exact HT|]. split; [exact HS|].
        repeat (split; [lia|]). split; [|split; [lia|exact Ds]].
        destruct Dt as [(e & -> & -> & _ & D)|(-> & -> & _ & D)]; cbn [decomposes]; auto. }
    split; [apply (HC 0); lia|]. intros i Hi. apply HC. exact Hi.
  - intros (Ho & Hc). eapply (@skeletonize_succeeds R E); eauto.
Qed.
(** C73.  The tolerance and the rank are about the targets only: where skeletonization
    succeeds, both sides of a cluster have the rank of the target decomposition, cut to the
    smallest dimension. *)
Theorem skeleton_ranks_are_target_ranks : oracle_shape R sli_eps sli_rank ->
  forall id_rank id_eps tsi tcs sr tr sk, of_clusters tcs (targets tsi) ->
  skeletonize id_rank id_eps tsi sr tr = Ok sk ->
  forall i L Rm, nth_error (sk_L sk) i = Some L -> nth_error (sk_R sk) i = Some Rm -> i < length tcs ->
  exists T S k idx proj, tgt_interaction tr (Z.of_nat i) T /\ src_interaction sr (Z.of_nat i) S /\
    decomposes R sli_eps sli_rank id_rank id_eps (mtr T) k idx proj /\
    let r := Z.min k (Z.of_nat (Nat.min (Nat.min (mr S) (mc S)) (Nat.min (mr T) (mc T)))) in
    Z.of_nat (mc L) = r /\ Z.of_nat (mr Rm) = r.
Proof.
  intros Hor id_rank id_eps tsi tcs sr tr sk Ht H i L Rm HL HR Hi.
  destruct (@skeletonize_ok _ _ _ _ _ _ _ Hor _ _ _ _ _ _ H) as (cs & Hcs & X).
  assert (Hz : nth_error (zrange (ts_n tsi)) i = Some (Z.of_nat i)).
  { unfold ts_n. rewrite (clusters_n Ht). unfold zlen. apply zrange_nth_error. exact Hi. }
  destruct (mapM_nth' _ _ i Hcs Hz) as (s & Hsi & Hsk).
  destruct (@skel_cluster_ok _ _ _ _ _ _ _ Hor _ _ _ _ _ _ _ Hsk)
    as (T & S & tcl & scl & tp & sp & kt & idxt & it & idxs & HT & HS & _ & _ & Dt & Kt & Ks & EL & Ds & _ & _ & K1 & _).
  destruct X as (_ & _ & ->). cbn [sk_L sk_R] in HL, HR.
  rewrite nth_error_map, Hsi in HL. cbn [option_map] in HL. injection HL as <-.
  rewrite nth_error_map, Hsi in HR. cbn [option_map] in HR. injection HR as <-.
  destruct (@interp_shape _ _ _ _ _ _ _ Hor _ _ _ _ _ _ Ds) as (_ & Hm & _).
  destruct (@interp_shape _ _ _ _ _ _ _ Hor _ _ _ _ _ _ Dt) as (_ & Hmt & _).
  apply interp_Ok in Dt. destruct Dt as (pt & _ & Dt).
  exists T, S, kt, idxt, pt. split; [exact HT|]. split; [exact HS|]. split.
  { destruct Dt as [(e & -> & -> & _ & D)|(-> & -> & _ & D)]; cbn [decomposes]; auto. }
  cbv zeta. rewrite <- Ks. split; [|exact Hm]. rewrite EL. unfold mtr, take_rows. cbn [mr mc]. lia.
Qed.
End Skel.
Print Assumptions skeletonize_succeeds_iff.
Print Assumptions skeleton_ranks_are_target_ranks.

(** The small world of SkProps5.v: it has two clusters and gives a result, so that both
    directions can be used. *)
Open Scope Z_scope.
Example ex_succeeds : match zworld cl2 cl2 [[0]; [1]] [[0]; [1]] [[2]; [0]] [[2]; [0]]
    (fun r c => u r * v c) (fun r _ => u r) (fun _ c => v c) with
  | Ok (sr, tr, sk) => map (fun L : mat ZR => mc L) (sk_L sk) = [1; 1]%nat /\ map (fun L : mat ZR => mr L) (sk_R sk) = [1; 1]%nat
  | Err _ => False end.
Proof. vm_compute. repeat split. Qed.
