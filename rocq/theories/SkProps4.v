(** C72 (exactness) and C73. *)
From Coq Require Import Ring.
From Verif Require Import Base IndexModel IndexSpec IndexProofs IndexProofs2 IndexProps MatModel MatProofs MatProps SymProofs SymProofs2 SkModel SkSpec SkProofs SkProofs2 SkProofs3 SkProofs4 SkProofs5 SkProofs6 SkProps SkProps2 SkProps3.
Set Implicit Arguments.
Open Scope string_scope. Open Scope list_scope. Open Scope nat_scope.

Section C72b.
Variable R : rops.
Variable Rth : ring_theory (r0 R) (r1 R) (radd R) (rmul R) (rsub R) (ropp R) eq.
Add Ring Rr72b : Rth.
Infix "-r" := (rsub R) (at level 50, left associativity).
Notation sum_prod := (sum_prod R).
Notation LT := (LT R). Notation SRm := (SRm R). Notation LSR := (LSR R).
Variable E : Type.
Variable sli_eps : mat R -> E -> result (Z * list nat * mat R).
Variable sli_rank : mat R -> Z -> result (list nat * mat R).
Variables (eps_lt1 : E -> bool) (eps_int : E -> Z) (int_eps : Z -> E).
Notation skeletonize := (skeletonize sli_eps sli_rank eps_lt1 eps_int int_eps).

(** C72.  If the decompositions are exact, the target rank need not be clamped and the blocks
    factor through the interaction matrices, then the skeletonization reproduces every
    off-diagonal block from its skeleton, and both error measures are zero. *)
Theorem exact_reconstruction : oracle_shape R sli_eps sli_rank ->
  forall id_rank id_eps tsi tcs scs w waa pxs nbs pxt nbt pms nms pmt nmt sr tr sk A,
  of_clusters tcs (targets tsi) -> of_clusters scs (sources tsi) -> length scs = length tcs ->
  source_result R (sources tsi) pxs nbs pms nms = Ok sr ->
  target_result R w waa (targets tsi) pxt nbt pmt nmt = Ok tr ->
  skeletonize id_rank id_eps tsi sr tr = Ok sk ->
  (forall i T S k idx proj, tgt_interaction tr (Z.of_nat i) T -> src_interaction sr (Z.of_nat i) S ->
     decomposes R sli_eps sli_rank id_rank id_eps (mtr T) k idx proj ->
     id_exact R (mtr T) idx proj /\ (k <= Z.of_nat (mr S))%Z /\ (k <= Z.of_nat (mc S))%Z /\ (k <= Z.of_nat (mc T))%Z /\
     forall idx' proj', sli_rank S k = Ok (idx', proj') -> id_exact R S idx' proj') ->
  (forall i j tcl scl T S, i <> j -> nth_error tcs i = Some tcl -> nth_error scs j = Some scl ->
     tgt_interaction tr (Z.of_nat i) T -> src_interaction sr (Z.of_nat j) S ->
     (exists X, forall a b, a < length tcl -> b < length scl ->
        A (nth a tcl 0%Z) (nth b scl 0%Z) = sum_prod (mc T) (el T a) (fun q => X q b)) /\
     (exists Y, forall a b, a < length tcl -> b < length scl ->
        A (nth a tcl 0%Z) (nth b scl 0%Z) = sum_prod (mr S) (Y a) (fun q => el S q b))) ->
  exists vs, is_skeleton tcs scs sk vs /\
  (forall i j a b tcl scl vi vj L Rm, i <> j ->
     nth_error tcs i = Some tcl -> nth_error scs j = Some scl ->
     nth_error vs i = Some vi -> nth_error vs j = Some vj ->
     nth_error (sk_L sk) i = Some L -> nth_error (sk_R sk) j = Some Rm ->
     a < length tcl -> b < length scl ->
     LT A L (c_tsk vi) scl a b = A (nth a tcl 0%Z) (nth b scl 0%Z) /\
     SRm A Rm tcl (c_ssk vj) a b = A (nth a tcl 0%Z) (nth b scl 0%Z) /\
     LSR A L Rm (c_tsk vi) (c_ssk vj) a b = A (nth a tcl 0%Z) (nth b scl 0%Z)) /\
  forall (V : Type) (norm : mat R -> V) vdiv vzero, extensional R norm ->
    (forall n m, norm (Mt n m (fun _ _ => r0 R)) = vzero) ->
    (exists te se, cluster_errors norm vdiv vzero false A sk = Ok (te, se) /\
       forall row x, In row te \/ In row se -> In x row -> x = vzero) /\
    forall n m, skeletonization_error norm vdiv n m false A sk = Ok vzero.
Proof.
  intros Hor id_rank id_eps tsi tcs scs w waa pxs nbs pxt nbt pms nms pmt nmt sr tr sk A Ht Hs Hl Hsr Htr H Hex Hfac.
  destruct (source_index _ _ _ _ _ Hsr) as (_ & S1 & S2 & _). destruct (target_index _ _ _ _ _ _ _ Htr) as (_ & T1 & T2 & _).
  destruct (@skeletonize_view R E sli_eps sli_rank eps_lt1 eps_int int_eps Hor id_rank id_eps tsi tcs scs sr tr sk)
    as (V1 & V2 & vs & V3 & V4); auto; try (rewrite S1; reflexivity); try (rewrite T1; reflexivity).
  exists vs. split; [exact V3|].
  (* every factor reproduces its interaction matrix *)
  assert (HR : forall i v L Rm, nth_error vs i = Some v -> nth_error (sk_L sk) i = Some L -> nth_error (sk_R sk) i = Some Rm ->
     exists T S, tgt_interaction tr (Z.of_nat i) T /\ src_interaction sr (Z.of_nat i) S /\
     (forall a q, a < mr T -> q < mc T -> el T a q = sum_prod (length (c_tp v)) (el L a) (fun l => el T (nth l (c_tp v) 0) q)) /\
     (forall q b, q < mr S -> b < mc S -> el S q b = sum_prod (length (c_sp v)) (fun l => el S q (nth l (c_sp v) 0)) (fun l => el Rm l b))).
  { intros i v L Rm Hv HL HRm.
    destruct (V4 i v L Rm Hv HL HRm) as (T & S & k & kt & idxt & it & idxs & X1 & X2 & X3 & X4 & X5 & X6 & X7 & X8 & X9).
    exists T, S. split; [exact X1|]. split; [exact X2|].
    destruct (@interp_Ok _ _ _ _ _ _ _ _ _ _ _ _ _ X3) as (projt & -> & HD).
    assert (HD' : decomposes R sli_eps sli_rank id_rank id_eps (mtr T) kt idxt projt).
    { destruct HD as [(e & -> & -> & _ & HD)|(-> & -> & _ & HD)]; cbn; auto. }
    assert (Hsh : id_shape R (mtr T) kt idxt projt).
    { destruct HD as [(e & _ & _ & _ & HD)|(_ & _ & _ & HD)]; [apply (proj1 Hor _ _ _ _ _ HD)|apply (proj2 Hor _ _ _ _ HD)]. }
    destruct (Hex i T S kt idxt projt X1 X2 HD') as (Ex1 & K1 & K2 & K3 & Ex2).
    destruct (@interp_Ok _ _ _ _ _ _ _ _ _ _ _ _ _ X4) as (projs & -> & [(e & Hbad & _)|(_ & _ & Hk1 & HDs)]); [discriminate|].
    assert (Hshs : id_shape R S k idxs projs) by (apply (proj2 Hor _ _ _ _ HDs)).
    pose proof Hsh as (P1 & P2 & P3). cbn [mtr mr mc] in P2, P3.
    assert (Hkk : kt = k) by lia.
    pose proof Hshs as (Q1 & Q2 & Q3).
    destruct (@perm_idx _ _ P1) as (_ & Hli & _). destruct (@perm_idx _ _ Q1) as (_ & Hlj & _). cbn [mtr mc] in Hli.
    split.
    - intros a q Ha Hq.
      pose proof (@exact_reproduces R Rth (mtr T) kt idxt projt Hsh Ex1 q a Hq Ha) as G.
      cbn [mtr el] in G. rewrite G. unfold SkSpec.sum_prod. rewrite X6, X8, firstn_length.
      replace (Nat.min (Z.to_nat k) (length idxt)) with (mr projt) by lia.
      apply rsum_ext. intros l Hll. cbn [mtr take_rows el]. rewrite nth_firstn' by lia. ring.
    - intros q b Hq Hb.
      pose proof (@exact_reproduces R Rth S k idxs projs Hshs (Ex2 idxs projs ltac:(rewrite Hkk; exact HDs)) q b Hq Hb) as G.
      rewrite G. unfold SkSpec.sum_prod. rewrite X9, firstn_length.
      replace (Nat.min (Z.to_nat k) (length idxs)) with (mr projs) by lia.
      apply rsum_ext. intros l Hll. rewrite nth_firstn' by lia. reflexivity. }
  assert (HP : forall i j a b tcl scl vi vj L Rm, i <> j ->
     nth_error tcs i = Some tcl -> nth_error scs j = Some scl ->
     nth_error vs i = Some vi -> nth_error vs j = Some vj ->
     nth_error (sk_L sk) i = Some L -> nth_error (sk_R sk) j = Some Rm ->
     a < length tcl -> b < length scl ->
     LT A L (c_tsk vi) scl a b = A (nth a tcl 0%Z) (nth b scl 0%Z) /\
     SRm A Rm tcl (c_ssk vj) a b = A (nth a tcl 0%Z) (nth b scl 0%Z) /\
     LSR A L Rm (c_tsk vi) (c_ssk vj) a b = A (nth a tcl 0%Z) (nth b scl 0%Z)).
  { intros i j a b tcl scl vi vj L Rm Hne E1 E2 E3 E4 E5 E6 Ha Hb.
    assert (Hi : i < length tcs) by (apply nth_error_Some; congruence).
    assert (Hj : j < length tcs) by (rewrite <- Hl; apply nth_error_Some; congruence).
    destruct (@sk_parts R tcs scs sk vs V3 i Hi) as (tcl1 & scl1 & v1 & L1 & R1 & P1 & P2 & P3 & P4 & P5 & _ & _ & _ & _ & _ & _ & PC).
    destruct (@sk_parts R tcs scs sk vs V3 j Hj) as (tcl2 & scl2 & v2 & L2 & R2 & Q1 & Q2 & Q3 & Q4 & Q5 & _ & _ & _ & _ & _ & _ & QC).
    assert (tcl1 = tcl) as -> by congruence. assert (v1 = vi) as -> by congruence. assert (L1 = L) as -> by congruence.
    assert (scl2 = scl) as -> by congruence. assert (v2 = vj) as -> by congruence. assert (R2 = Rm) as -> by congruence.
    destruct (HR i vi L R1 E3 E5 P5) as (T & S' & HT & _ & RT & _).
    destruct (HR j vj L2 Rm E4 Q4 E6) as (T' & S & _ & HS & _ & RS).
    destruct (Hfac i j tcl scl T S Hne E1 E2 HT HS) as ((X & HX) & (Y & HY)).
    assert (MT : mr T = length tcl).
    { destruct (tgt_shape HT) as (np & nn & Hz & _). rewrite T1 in Hz. cbn [targets] in Hz.
      apply of_clusters_mk in Ht. destruct Ht as [Ht _]. rewrite Ht in Hz. rewrite (proj2 (mk_cluster _ _ E1)) in Hz. injection Hz. unfold zlen. lia. }
    assert (MS : mc S = length scl).
    { destruct (src_shape HS) as (np & nn & Hz & _). rewrite S1 in Hz. cbn [sources] in Hz.
      apply of_clusters_mk in Hs. destruct Hs as [Hs _]. rewrite Hs in Hz. rewrite (proj2 (mk_cluster _ _ E2)) in Hz. injection Hz. unfold zlen. lia. }
    destruct (@block_error_identity R Rth _ _ _ _ _ _ _ _ _ _ _ _ _ _ _ _ PC QC A T S X Y MT MS HX HY a b Ha Hb) as (G1 & G2 & G3).
    assert (Z1 : sum_prod (mc T) (fun q => el T a q -r sum_prod (length (c_tp vi)) (el L a) (fun l => el T (nth l (c_tp vi) 0) q)) (fun q => X q b) = r0 R).
    { apply (rsum_zero R Rth). intros q Hq. rewrite <- RT by lia. ring. }
    assert (Z2 : forall a', sum_prod (mr S) (Y a') (fun q => el S q b -r sum_prod (length (c_sp vj)) (fun l => el S q (nth l (c_sp vj) 0)) (fun l => el Rm l b)) = r0 R).
    { intros a'. apply (rsum_zero R Rth). intros q Hq. rewrite <- RS by lia. ring. }
    cbv zeta in G1, G2, G3. rewrite Z1 in G1, G3. rewrite Z2 in G2.
    assert (Z3 : sum_prod (length (c_tp vi)) (el L a) (fun l => sum_prod (mr S) (Y (nth l (c_tp vi) 0)) (fun q => el S q b -r sum_prod (length (c_sp vj)) (fun l => el S q (nth l (c_sp vj) 0)) (fun l => el Rm l b))) = r0 R).
    { apply (rsum_zero R Rth). intros l _. rewrite Z2. ring. }
    rewrite Z3 in G3.
    assert (SU : forall x y : R, x -r y = r0 R -> y = x). { intros x y Hxy. replace y with (rsub R x (rsub R x y)) by ring. rewrite Hxy. ring. }
    split; [apply SU; exact G1|]. split; [apply SU; exact G2|]. apply SU. rewrite G3. ring. }
  split; [exact HP|]. intros V norm vdiv vzero Hext Hz. split.
  - destruct (@cluster_errors_are R V norm vdiv vzero Hext tcs scs sk vs V3 A false) as (te & se & He & Lt & Ls & Lrow & Hij).
    exists te, se. split; [exact He|]. intros row x Hrow Hx.
    apply In_nth_error in Hx. destruct Hx as (j & Hxj).
    assert (Hj : j < length tcs) by (rewrite <- (Lrow row Hrow); apply nth_error_Some; congruence).
    assert (Hi : exists i, i < length tcs /\ (nth_error te i = Some row \/ nth_error se i = Some row)).
    { destruct Hrow as [Hr|Hr]; apply In_nth_error in Hr; destruct Hr as (i & Hi); exists i;
        (split; [|auto]); [rewrite <- Lt|rewrite <- Ls]; apply nth_error_Some; congruence. }
    destruct Hi as (i & Hi & Hrow').
    destruct (@nth_error_lt _ te i) as (rt & Ert); [lia|]. destruct (@nth_error_lt _ se i) as (rs & Ers); [lia|].
    destruct (Hij i j rt rs Ert Ers Hj) as [H1 H2].
    assert (HZ : nth_error rt j = Some vzero /\ nth_error rs j = Some vzero).
    { destruct (Nat.eq_dec i j) as [Heq|Hne]; [apply H1; exact Heq|].
      destruct (@sk_parts R tcs scs sk vs V3 i Hi) as (tcl1 & scl1 & v1 & L1 & R1 & P1 & P2 & P3 & P4 & P5 & _).
      destruct (@sk_parts R tcs scs sk vs V3 j Hj) as (tcl2 & scl2 & v2 & L2 & R2 & Q1 & Q2 & Q3 & Q4 & Q5 & _).
      specialize (H2 Hne tcl1 scl2 v1 v2 L1 R2 P1 Q2 P3 Q3 P4 Q5). cbv zeta in H2. destruct H2 as [-> ->].
      unfold reported. split; f_equal; rewrite <- (Hz (length tcl1) (length scl2)); apply Hext;
        (split; [reflexivity|]); (split; [reflexivity|]); cbn [mr mc el]; intros a b Ha Hb;
        destruct (HP i j a b tcl1 scl2 v1 v2 L1 R2 Hne P1 Q2 P3 Q3 P4 Q5 Ha Hb) as (G1 & G2 & _);
        [rewrite G1|rewrite G2]; ring. }
    destruct HZ as [HZ1 HZ2]. destruct Hrow' as [Hr|Hr]; congruence.
  - intros n m. unfold skeletonization_error. destruct (@recon_ok R tcs scs sk vs V3 A) as (M & HM & Hrc). rewrite HM. cbn [bind].
    unfold mnorm. f_equal. rewrite <- (Hz n m). apply Hext. split; [reflexivity|]. split; [reflexivity|].
    cbn [msub mr mc el]. intros r c _ _.
    destruct (Hrc (Z.of_nat r) (Z.of_nat c)) as [(i & j & p & q & HC & HB)|[_ ->]]; [|ring].
    destruct HC as (_ & C0 & tcl & scl & C1 & C2 & C3 & C4). destruct HB as (vi & vj & L & Rm & B1 & B2 & B3 & B4 & HB).
    assert (Hp : p < length tcl) by (apply nth_error_Some; congruence).
    assert (Hq : q < length scl) by (apply nth_error_Some; congruence).
    destruct (HP i j p q tcl scl vi vj L Rm C0 C1 C2 B1 B2 B3 B4 Hp Hq) as (_ & _ & G).
    rewrite HB, G. rewrite (nth_error_nth _ _ _ C3), (nth_error_nth _ _ _ C4). ring.
Qed.
End C72b.
Print Assumptions exact_reconstruction.
