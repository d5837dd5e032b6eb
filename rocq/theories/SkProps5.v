(** C73: what skeletonization does not give; and examples for C39 and C72. *)
From Verif Require Import Base IndexModel IndexSpec IndexProofs IndexProofs2 IndexProps MatModel MatProps SymProofs SymProofs2 SkModel SkSpec SkProofs SkProofs2 SkProofs4 SkProofs5 SkProofs6 SkProps SkProps2 SkProps3 SkProps4.
Set Implicit Arguments.
Open Scope string_scope. Open Scope list_scope. Open Scope nat_scope.

(** C73.  With weighted targets (the default), a cluster with targets and proxies but without
    neighbors never gives a result: the mean weight of no points is not finite. *)
Theorem isolated_cluster_refuted : forall (R : rops) (E : Type) sli_eps sli_rank eps_lt1 eps_int int_eps
    (id_rank : option Z) (id_eps : option E) waa tcs pcs ncs pt nt bp bn tsi sr tr i tcl pcl,
  oracle_shape R sli_eps sli_rank ->
  of_clusters tcs (targets tsi) -> of_clusters pcs pt -> of_clusters ncs nt ->
  length pcs = length tcs -> length ncs = length tcs ->
  flat_blocks (combine tcs pcs) bp -> flat_blocks (combine tcs ncs) bn ->
  (forall cl z, In cl ncs -> In z cl -> (0 <= z < zlen waa)%Z) ->
  target_result R true waa (targets tsi) pt nt (fun _ => Ok (concat bp)) (fun _ => Ok (concat bn)) = Ok tr ->
  nth_error tcs i = Some tcl -> nth_error pcs i = Some pcl -> nth_error ncs i = Some [] -> tcl <> [] -> pcl <> [] ->
  forall sk, skeletonize sli_eps sli_rank eps_lt1 eps_int int_eps id_rank id_eps tsi sr tr <> Ok sk.
Proof.
  intros R E sli_eps sli_rank eps_lt1 eps_int int_eps id_rank id_eps waa tcs pcs ncs pt nt bp bn tsi sr tr i tcl pcl
    Hor Ht Hp Hn Lp Ln Hbp Hbn Hw Htr Et Ep En Hne1 Hne2 sk H.
  destruct (target_index _ _ _ _ _ _ _ Htr) as (N1 & _). rewrite (clusters_n Ht) in N1.
  destruct (@target_interaction_matrix R true waa tcs pcs ncs (targets tsi) pt nt bp bn Ht Hp Hn) as (tr' & Htr' & _ & _ & HI); auto.
  { unfold zlen in N1. lia. }
  assert (tr' = tr) as -> by congruence.
  assert (Hi : i < length tcs) by (apply nth_error_Some; congruence).
  assert (Lbp : length bp = length tcs).
  { apply (f_equal (@length _)) in Hbp. rewrite !map_length, combine_length in Hbp. lia. }
  assert (Lbn : length bn = length tcs).
  { apply (f_equal (@length _)) in Hbn. rewrite !map_length, combine_length in Hbn. lia. }
  destruct (@nth_error_lt _ bp i) as (b & Eb); [lia|]. destruct (@nth_error_lt _ bn i) as (b' & Eb'); [lia|].
  destruct (HI i tcl pcl [] b b' Et Ep En Eb Eb') as (p & n & O & G1 & G2 & G3 & G4 & G5 & _).
  destruct (@skeletonize_ok _ _ _ _ _ _ _ Hor _ _ _ _ _ _ H) as (cs & Hcs & _).
  assert (Hz : nth_error (zrange (ts_n tsi)) i = Some (Z.of_nat i)).
  { unfold ts_n. rewrite (clusters_n Ht). unfold zlen. apply zrange_nth_error. exact Hi. }
  destruct (mapM_nth' _ _ i Hcs Hz) as (s & _ & Hs).
  destruct (@skel_cluster_ok _ _ _ _ _ _ _ Hor _ _ _ _ _ _ _ Hs) as (T & S & X).
  destruct X as (tcl' & scl' & tp & sp & kt & idxt & it & idxs & (p' & n' & O' & X1 & X2 & X3 & _) & _).
  assert (O' = O) as -> by congruence.
  rewrite all_finite_spec in X3. destruct tcl as [|t0 tcl]; [congruence|]. destruct pcl as [|p0 pcl]; [congruence|].
  apply (X3 0 0); [cbn in G3; lia|cbn in G4; lia|].
  rewrite G5 by (cbn; lia). unfold proxy_weight, mean_of. destruct (nth _ b None); reflexivity.
Qed.
Print Assumptions isolated_cluster_refuted.

(** ** A small world: integers, two clusters. *)

(** A decomposition for integer matrices: rank 2 if the leading 2 x 2 minor is not zero, else
    rank 1 with quotients of the first row. *)
Definition zproj1 (A : mat ZR) : mat ZR := Mt 1 (mc A - 1) (fun _ j => (el A 0 (S j) / el A 0 0)%Z).
Definition zproj2 (A : mat ZR) : mat ZR := Mt 2 (mc A - 2) (fun _ _ => 0%Z).
Definition zrank (A : mat ZR) (k : Z) : result (list nat * mat ZR) :=
  if (k =? 1)%Z && (1 <=? mc A) then Ok (seq 0 (mc A), zproj1 A) else
  if (k =? 2)%Z && (2 <=? mc A) then Ok (seq 0 (mc A), zproj2 A) else Err ValueError.
Definition zeps (A : mat ZR) (_ : unit) : result (Z * list nat * mat ZR) :=
  let minor := (el A 0 0 * el A 1 1 - el A 0 1 * el A 1 0)%Z in
  let k := if (2 <=? mr A) && (2 <=? mc A) && negb (minor =? 0)%Z then 2%Z else 1%Z in
  do r <- zrank A k; Ok (k, fst r, snd r).
Lemma zoracle : oracle_shape ZR zeps zrank.
Proof.
  assert (HR : forall A k idx proj, zrank A k = Ok (idx, proj) -> id_shape ZR A k idx proj).
  { intros A k idx proj H. unfold zrank in H. destruct (Z.eqb_spec k 1) as [->|_]; cbn [andb] in H.
    - destruct (Nat.leb_spec 1 (mc A)); [|discriminate]. injection H; intros <- <-.
      split; [apply Permutation_refl|]. unfold zproj1; cbn [mr mc]. split; [reflexivity|lia].
    - destruct (Z.eqb_spec k 2) as [->|_]; [|discriminate]. destruct (Nat.leb_spec 2 (mc A)); [|discriminate].
      injection H; intros <- <-. split; [apply Permutation_refl|]. unfold zproj2; cbn [mr mc]. split; [reflexivity|lia]. }
  split; [|exact HR]. intros A e k idx proj H. unfold zeps in H. apply bind_Ok in H. destruct H as ([i p] & H1 & H2).
  injection H2; intros <- <- <-. apply HR. exact H1.
Qed.
Definition zsk := @skeletonize ZR unit zeps zrank (fun _ => true) (fun _ => 0%Z) (fun _ => tt).
Definition znorm (m : mat ZR) : Z :=
  rsum ZR (mr m) (fun i => rsum ZR (mc m) (fun j => Z.abs (el m i j))).
Lemma znorm_ext : extensional ZR znorm.
Proof.
  intros a b (H1 & H2 & H3). unfold znorm. rewrite <- H1, <- H2. apply (MatProofs.rsum_ext ZR). intros i Hi.
  apply (MatProofs.rsum_ext ZR). intros j Hj. rewrite H3; auto.
Qed.

(** The world: target clusters, source clusters, source numbers of the neighbors, target
    numbers of the neighbors, matrix, proxy columns for targets, proxy rows for sources. *)
Definition zflat (A : Z -> Z -> Z) (ts ss : list (list Z)) : list (option ZR) :=
  concat (map (fun c => map (fun p => Some (A (fst p) (snd p))) (list_prod (fst c) (snd c))) (combine ts ss)).
Definition zworld (tcs scs ptc psc nbt nbs : list (list Z)) (A Pt Ps : Z -> Z -> Z)
  : result (eval_result ZR * eval_result ZR * skel_result ZR) :=
  do ti <- make_index_list tcs; do si <- make_index_list scs;
  do pt <- make_index_list ptc; do ps <- make_index_list psc;
  do nt <- make_index_list nbt; do ns <- make_index_list nbs;
  do tsi <- make_ts ti si;
  do sr <- source_result ZR si ps ns (fun _ => Ok (zflat Ps psc scs)) (fun _ => Ok (zflat A nbs scs));
  do tr <- target_result ZR true (repeat 1%Z 4) ti pt nt (fun _ => Ok (zflat Pt tcs ptc)) (fun _ => Ok (zflat A tcs nbt));
  do sk <- zsk None (Some tt) tsi sr tr;
  Ok (sr, tr, sk).

Open Scope Z_scope.
Definition u (r : Z) : Z := nth (Z.to_nat r) [1; 2; 1; 3] 0.
Definition v (c : Z) : Z := nth (Z.to_nat c) [1; 5; 1; 7] 0.
Definition cl2 : list (list Z) := [[0; 1]; [2; 3]].

(** A rank one matrix is reproduced exactly. *)
Example ex_rank_one : match zworld cl2 cl2 [[0]; [1]] [[0]; [1]] [[2]; [0]] [[2]; [0]]
    (fun r c => u r * v c) (fun r _ => u r) (fun _ c => v c) with
  | Ok (sr, tr, sk) =>
      (indices (targets (sk_skel sk)), starts (targets (sk_skel sk)),
       indices (sources (sk_skel sk)), starts (sources (sk_skel sk))) = ([0; 2], [0; 1; 2], [0; 2], [0; 1; 2]) /\
      map (fun L : mat ZR => (el L 0%nat 0%nat, el L 1%nat 0%nat)) (sk_L sk) = [(1, 2); (1, 3)] /\
      map (fun L : mat ZR => (el L 0%nat 0%nat, el L 0%nat 1%nat)) (sk_R sk) = [(1, 5); (1, 7)] /\
      cluster_errors znorm Z.div 0 false (fun r c => u r * v c) sk = Ok ([[0; 0]; [0; 0]], [[0; 0]; [0; 0]]) /\
      skeletonization_error znorm Z.div 4 4 false (fun r c => u r * v c) sk = Ok 0
  | Err _ => False end.
Proof. vm_compute. repeat split. Qed.
(** Errors are seen when there are any: a matrix that is not what was evaluated. *)
Example ex_errors_seen : match zworld cl2 cl2 [[0]; [1]] [[0]; [1]] [[2]; [0]] [[2]; [0]]
    (fun r c => u r * v c) (fun r _ => u r) (fun _ c => v c) with
  | Ok (sr, tr, sk) =>
      cluster_errors znorm Z.div 0 false (fun r c => u r * v c + (if (r =? 1) && (c =? 3) then 1 else 0)) sk
        = Ok ([[0; 1]; [0; 0]], [[0; 1]; [0; 0]]) /\
      skeletonization_error znorm Z.div 4 4 false (fun r c => u r * v c + (if (r =? 1) && (c =? 3) then 1 else 0)) sk = Ok 1
  | Err _ => False end.
Proof. vm_compute. repeat split. Qed.
(** A single cluster, and the isolated cluster, by computation. *)
Example ex_single : zworld [[0; 1]] [[0; 1]] [[0]] [[0]] [[]] [[]] (fun r c => u r * v c) (fun r _ => u r) (fun _ c => v c)
  = Err ValueError.
Proof. reflexivity. Qed.
Example ex_isolated : zworld cl2 cl2 [[0]; [1]] [[0]; [1]] [[2]; []] [[2]; []] (fun r c => u r * v c) (fun r _ => u r) (fun _ c => v c)
  = Err AssertionError.
Proof. vm_compute. reflexivity. Qed.


(** The hypotheses of [exact_reconstruction] about the decompositions can be met: in the rank
    one world both decompositions are exact. *)
Example ex_id_exact : match zworld cl2 cl2 [[0]; [1]] [[0]; [1]] [[2]; [0]] [[2]; [0]]
    (fun r c => u r * v c) (fun r _ => u r) (fun _ c => v c) with
  | Ok (sr, tr, sk) =>
      forall i, In i (zrange 2) ->
      exists T S, tgt_interaction tr i T /\ src_interaction sr i S /\ mr T = 2%nat /\ mc T = 2%nat /\ mr S = 2%nat /\ mc S = 2%nat /\
      zeps (mtr T) tt = Ok (1, [0%nat; 1%nat], zproj1 (mtr T)) /\ id_exact ZR (mtr T) [0%nat; 1%nat] (zproj1 (mtr T)) /\
      zrank S 1 = Ok ([0%nat; 1%nat], zproj1 S) /\ id_exact ZR S [0%nat; 1%nat] (zproj1 S)
  | Err _ => False end.
Proof.
  destruct (zworld _ _ _ _ _ _ _ _ _) as [[[sr tr] sk]|e] eqn:Hw; [|vm_compute in Hw; discriminate].
  vm_compute in Hw. injection Hw; intros _ <- <-. clear Hw.
  intros i [<-|[<-|[]]]; eexists; eexists;
    (split; [eexists; eexists; eexists; split; [vm_compute; reflexivity|]; split; [vm_compute; reflexivity|]; split; [vm_compute; reflexivity|reflexivity]|]);
    (split; [eexists; eexists; eexists; split; [vm_compute; reflexivity|]; split; [vm_compute; reflexivity|]; split; [vm_compute; reflexivity|reflexivity]|]);
    do 4 (split; [reflexivity|]);
    (split; [vm_compute; reflexivity|]); (split; [|split; [reflexivity|]]);
    intros [|[|a]] [|b] Ha Hb; cbn in Ha, Hb; try lia; vm_compute; reflexivity.
Qed.

(** Interaction matrices of a computed world. *)
Lemma tgt_get : forall r i p n O, er_get r i = Ok (p, n) -> hstack p n = Ok O ->
  forall T, tgt_interaction (R := ZR) r i T -> T = numbers ZR O.
Proof. intros r i p n O H1 H2 T (p' & n' & O' & G1 & G2 & _ & ->). congruence. Qed.
Lemma src_get : forall r i p n O, er_get r i = Ok (p, n) -> vstack p n = Ok O ->
  forall T, src_interaction (R := ZR) r i T -> T = numbers ZR O.
Proof. intros r i p n O H1 H2 T (p' & n' & O' & G1 & G2 & _ & ->). congruence. Qed.

(** C73.  The tolerance controls the rank of the targets only: the sources are decomposed at
    that rank whatever the error.  Here the target interactions have rank one and the source
    interactions have rank two; decomposing to the tolerance is exact for both, and still the
    source errors are not zero. *)
Theorem source_tolerance_refuted : exists tcs scs ptc psc nbt nbs A Pt Ps sr tr sk,
  zworld tcs scs ptc psc nbt nbs A Pt Ps = Ok (sr, tr, sk) /\
  (forall i T, In i (zrange 2) -> tgt_interaction tr i T ->
     exists k idx proj, zeps (mtr T) tt = Ok (k, idx, proj) /\ id_exact ZR (mtr T) idx proj) /\
  (forall i S, In i (zrange 2) -> src_interaction sr i S ->
     exists k idx proj, zeps S tt = Ok (k, idx, proj) /\ id_exact ZR S idx proj) /\
  exists te se, cluster_errors znorm Z.div 0 false A sk = Ok (te, se) /\
  (forall row x, In row te -> In x row -> x = 0) /\ exists row x, In row se /\ In x row /\ x <> 0.
Proof.
  exists cl2, cl2, [[0]; [1]], [[0]; [1]], [[2]; [0]], [[2]; [0]],
    (fun r c => u r * v c), (fun r _ => u r), (fun _ c => if c =? 0 then 1 else if c =? 2 then 1 else 0).
  destruct (zworld _ _ _ _ _ _ _ _ _) as [[[sr tr] sk]|e] eqn:Hw; [|vm_compute in Hw; discriminate].
  exists sr, tr, sk. split; [reflexivity|].
  vm_compute in Hw. injection Hw; intros <- <- <-. clear Hw.
  split; [|split].
  - intros i T [<-|[<-|[]]] HT; (eapply tgt_get in HT; [|vm_compute; reflexivity|vm_compute; reflexivity]); subst T;
      (eexists; eexists; eexists; split; [vm_compute; reflexivity|]);
      intros [|[|a]] [|b] Ha Hb; cbn in Ha, Hb; try lia; vm_compute; reflexivity.
  - intros i T [<-|[<-|[]]] HT; (eapply src_get in HT; [|vm_compute; reflexivity|vm_compute; reflexivity]); subst T;
      (eexists; eexists; eexists; split; [vm_compute; reflexivity|]);
      intros [|[|a]] [|b] Ha Hb; cbn in Ha, Hb; try lia; vm_compute; reflexivity.
  - eexists; eexists. split; [vm_compute; reflexivity|]. split.
    + intros row x [<-|[<-|[]]] [<-|[<-|[]]]; reflexivity.
    + eexists; eexists. split; [left; reflexivity|]. split; [right; left; reflexivity|]. discriminate.
Qed.
Print Assumptions source_tolerance_refuted.

(** C73.  A target rank above what the sources allow is cut: the rows beyond the allowed rank
    are dropped from the interpolation matrix, without recomputing it.  The target decomposition
    is exact and the target errors are not zero.  And the first array that comes back has the
    target errors, while the documentation promises (source errors, target errors). *)
Theorem clamped_rank_refuted : exists tcs scs ptc psc nbt nbs A Pt Ps sr tr sk,
  zworld tcs scs ptc psc nbt nbs A Pt Ps = Ok (sr, tr, sk) /\
  (forall i T, In i (zrange 2) -> tgt_interaction tr i T ->
     exists k idx proj, zeps (mtr T) tt = Ok (k, idx, proj) /\ id_exact ZR (mtr T) idx proj) /\
  exists e1 e2, cluster_errors znorm Z.div 0 false A sk = Ok (e1, e2) /\
  (exists row x, In row e1 /\ In x row /\ x <> 0) /\ (forall row x, In row e2 -> In x row -> x = 0).
Proof.
  exists cl2, [[0]; [1]], [[0]; [1]], [[0]; [1]], [[1]; [0]], [[2]; [0]],
    (fun r c => if r =? 0 then 0 else if r =? 2 then 0 else 1), (fun r _ => if r =? 0 then 1 else if r =? 2 then 1 else 0), (fun _ _ => 1).
  destruct (zworld _ _ _ _ _ _ _ _ _) as [[[sr tr] sk]|e] eqn:Hw; [|vm_compute in Hw; discriminate].
  exists sr, tr, sk. split; [reflexivity|].
  vm_compute in Hw. injection Hw; intros <- <- <-. clear Hw.
  split.
  - intros i T [<-|[<-|[]]] HT; (eapply tgt_get in HT; [|vm_compute; reflexivity|vm_compute; reflexivity]); subst T;
      (eexists; eexists; eexists; split; [vm_compute; reflexivity|]);
      intros [|[|a]] [|b] Ha Hb; cbn in Ha, Hb; try lia; vm_compute; reflexivity.
  - eexists; eexists. split; [vm_compute; reflexivity|]. split.
    + eexists; eexists. split; [left; reflexivity|]. split; [right; left; reflexivity|]. discriminate.
    + intros row x [<-|[<-|[]]] [<-|[<-|[]]]; reflexivity.
Qed.
Print Assumptions clamped_rank_refuted.

(** C73.  Versions of scipy are compared as strings: the argument rng, which interp_decomp has
    since 1.15.0, is passed to 1.9.3 too and is not passed to 1.100.0. *)
Theorem scipy_version_refuted : passes_rng "1.9.3" = true /\ passes_rng "1.100.0" = false /\
  passes_rng "1.15.0" = true /\ passes_rng "1.14.1" = false.
Proof. repeat split. Qed.
Print Assumptions scipy_version_refuted.
