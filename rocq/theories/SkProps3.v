(** C72: what the skeletonization errors are, and exactness. *)
From Coq Require Import Ring.
From Verif Require Import Base IndexModel IndexSpec IndexProofs IndexProofs2 IndexProps MatModel MatProofs SymProofs SymProofs2 SkModel SkSpec SkProofs SkProofs2 SkProofs3 SkProofs4 SkProofs5 SkProofs6 SkProps.
Set Implicit Arguments.
Open Scope string_scope. Open Scope list_scope. Open Scope nat_scope.

Lemma NoDup_app_inv (A : Type) (l1 l2 : list A) : NoDup (l1 ++ l2) ->
  NoDup l1 /\ NoDup l2 /\ forall x, In x l1 -> In x l2 -> False.
Proof.
  induction l1 as [|y l1 IH]; cbn; intros H; [repeat split; [constructor|exact H|tauto]|].
  inversion H as [|y' l' H1 H2]. destruct (IH H2) as (N1 & N2 & N3). split; [|split].
  - constructor; [intros Hy; apply H1; apply in_or_app; auto|exact N1].
  - exact N2.
  - intros x [<-|Hx] Hx2; [apply H1; apply in_or_app; auto|eauto].
Qed.

Section C72.
Variable R : rops.
Variable Rth : ring_theory (r0 R) (r1 R) (radd R) (rmul R) (rsub R) (ropp R) eq.
Add Ring Rr72 : Rth.
Infix "+r" := (radd R) (at level 50, left associativity).
Infix "-r" := (rsub R) (at level 50, left associativity).
Infix "*r" := (rmul R) (at level 40, left associativity).
Notation sum_prod := (sum_prod R).
Notation LT := (LT R). Notation SRm := (SRm R). Notation LSR := (LSR R).

(** The error reported for a matrix of differences [D] against the exact matrix [X]. *)
Definition reported {V : Type} (norm : mat R -> V) (vdiv : V -> V -> V) (relative : bool) (D X : mat R) : V :=
  if relative then vdiv (norm D) (norm X) else norm D.

(** C72.  cluster_skeletonization_error: entry (i, j), i <> j, of the first array is the norm of
    A_ij - L_i T_ij and of the second one that of A_ij - S_ij R_j; the diagonals are zero. *)
Theorem cluster_errors_are : forall (V : Type) (norm : mat R -> V) vdiv vzero, extensional R norm ->
  forall tcs scs sk vs, is_skeleton tcs scs sk vs -> forall A relative,
  exists te se, cluster_errors norm vdiv vzero relative A sk = Ok (te, se) /\
    length te = length tcs /\ length se = length tcs /\
    (forall row, In row te \/ In row se -> length row = length tcs) /\
    forall i j rt rs, nth_error te i = Some rt -> nth_error se i = Some rs -> j < length tcs ->
      (i = j -> nth_error rt j = Some vzero /\ nth_error rs j = Some vzero) /\
      (i <> j -> forall tcl scl vi vj L Rm, nth_error tcs i = Some tcl -> nth_error scs j = Some scl ->
         nth_error vs i = Some vi -> nth_error vs j = Some vj ->
         nth_error (sk_L sk) i = Some L -> nth_error (sk_R sk) j = Some Rm ->
         let X := Mt (length tcl) (length scl) (fun a b => A (nth a tcl 0%Z) (nth b scl 0%Z)) in
         nth_error rt j = Some (reported norm vdiv relative
           (Mt (length tcl) (length scl) (fun a b => A (nth a tcl 0%Z) (nth b scl 0%Z) -r LT A L (c_tsk vi) scl a b)) X) /\
         nth_error rs j = Some (reported norm vdiv relative
           (Mt (length tcl) (length scl) (fun a b => A (nth a tcl 0%Z) (nth b scl 0%Z) -r SRm A Rm tcl (c_ssk vj) a b)) X)).
Proof.
  intros V norm vdiv vzero Hext tcs scs sk vs Hsk A relative.
  destruct (@errors_ok R tcs scs sk vs Hsk A V norm vdiv vzero relative) as (te & se & He & Lt & Ls & Hij).
  exists te, se. split; [exact He|]. split; [exact Lt|]. split; [exact Ls|]. split.
  - intros row [Hr|Hr]; apply In_nth_error in Hr; destruct Hr as (i & Hi).
    + assert (Hlt : i < length tcs) by (rewrite <- Lt; apply nth_error_Some; congruence).
      destruct (Hij i i Hlt Hlt) as (rt & rs & et & es & H1 & H2 & H3 & H4 & _). congruence.
    + assert (Hlt : i < length tcs) by (rewrite <- Ls; apply nth_error_Some; congruence).
      destruct (Hij i i Hlt Hlt) as (rt & rs & et & es & H1 & H2 & H3 & H4 & _). congruence.
  - intros i j rt rs Hrt Hrs Hj.
    assert (Hi : i < length tcs) by (rewrite <- Lt; apply nth_error_Some; congruence).
    destruct (Hij i j Hi Hj) as (rt' & rs' & et & es & H1 & H2 & _ & _ & H3 & H4 & H5).
    assert (rt' = rt) as -> by congruence. assert (rs' = rs) as -> by congruence. split.
    + intros <-. unfold pair_errors in H5. rewrite Z.eqb_refl in H5. injection H5; intros -> ->. auto.
    + intros Hne tcl scl vi vj L Rm E1 E2 E3 E4 E5 E6 X.
      rewrite (@pair_ok R tcs scs sk vs Hsk A V norm vdiv vzero relative i j tcl scl vi vj L Rm Hne E1 E2 E3 E4 E5 E6) in H5.
      injection H5; intros <- <-. rewrite H3, H4. split; f_equal; unfold mnorm, reported, msub, mat_ix, X; reflexivity.
Qed.

(** C72.  skeletonization_error: with pairwise disjoint clusters, the norm of the difference of
    the n x m matrix A and the matrix with the off-diagonal blocks replaced by L_i S_ij R_j. *)
Theorem skeletonization_error_is : forall (V : Type) (norm : mat R -> V) vdiv, extensional R norm ->
  forall tcs scs sk vs, is_skeleton tcs scs sk vs -> NoDup (concat tcs) -> NoDup (concat scs) ->
  forall A n m relative, exists D,
    skeletonization_error norm vdiv n m relative A sk
      = Ok (reported norm vdiv relative (Mt n m D) (Mt n m (fun r c => A (Z.of_nat r) (Z.of_nat c)))) /\
    (forall i j a b r c tcl scl vi vj L Rm, i <> j ->
       nth_error tcs i = Some tcl -> nth_error scs j = Some scl ->
       nth_error vs i = Some vi -> nth_error vs j = Some vj ->
       nth_error (sk_L sk) i = Some L -> nth_error (sk_R sk) j = Some Rm ->
       nth_error tcl a = Some (Z.of_nat r) -> nth_error scl b = Some (Z.of_nat c) ->
       D r c = A (Z.of_nat r) (Z.of_nat c) -r LSR A L Rm (c_tsk vi) (c_ssk vj) a b) /\
    (forall r c,
       (forall i j tcl scl, i <> j -> nth_error tcs i = Some tcl -> nth_error scs j = Some scl ->
          ~ (In (Z.of_nat r) tcl /\ In (Z.of_nat c) scl)) ->
       D r c = r0 R).
Proof.
  intros V norm vdiv Hext tcs scs sk vs Hsk Ht Hs A n m relative.
  destruct (@recon_ok R tcs scs sk vs Hsk A) as (M & HM & Hrc).
  exists (fun r c => A (Z.of_nat r) (Z.of_nat c) -r M (Z.of_nat r) (Z.of_nat c)).
  split; [unfold skeletonization_error; rewrite HM; reflexivity|].
  assert (Uniq : forall (cs : list (list Z)), NoDup (concat cs) -> forall i i' a a' l l' (z : Z),
     nth_error cs i = Some l -> nth_error cs i' = Some l' -> nth_error l a = Some z -> nth_error l' a' = Some z -> i = i' /\ a = a').
  { clear. induction cs as [|c cs IH]; intros Hnd i i' a a' l l' z H1 H2 H3 H4; [destruct i; discriminate|].
    cbn [concat] in Hnd. apply NoDup_app_inv in Hnd. destruct Hnd as (Hnd1 & Hnd2 & Hdis).
    assert (Hin : forall k l0, nth_error cs k = Some l0 -> forall z0, In z0 l0 -> In z0 (concat cs)).
    { intros k l0 Hk z0 Hz0. apply in_concat. exists l0. split; [eapply nth_error_In; eauto|exact Hz0]. }
    destruct i as [|i], i' as [|i']; cbn in H1, H2.
    - assert (l' = l) as -> by congruence. injection H1; intros ->. split; [reflexivity|].
      apply (proj1 (NoDup_nth_error l) Hnd1); [apply nth_error_Some; congruence|congruence].
    - exfalso. injection H1; intros ->. apply (Hdis z); [eapply nth_error_In; eauto|].
      eapply Hin; [exact H2|]. eapply nth_error_In; eauto.
    - exfalso. injection H2; intros ->. apply (Hdis z); [eapply nth_error_In; eauto|].
      eapply Hin; [exact H1|]. eapply nth_error_In; eauto.
    - destruct (IH Hnd2 i i' a a' l l' z) as [-> ->]; auto. }
  assert (HN : forall i, i < length tcs -> forall j, j < length tcs -> In (i, j) (all_pairs tcs)).
  { intros i Hi j Hj. apply all_pairs_In. auto. }
  assert (Lsc : length scs = length tcs) by apply Hsk.
  split.
  - intros i j a b r c tcl scl vi vj L Rm Hne E1 E2 E3 E4 E5 E6 E7 E8.
    destruct (Hrc (Z.of_nat r) (Z.of_nat c)) as [(i' & j' & p & q & HC & HB)|[Hno _]].
    + destruct HC as (_ & _ & tcl' & scl' & C1 & C2 & C3 & C4).
      destruct (Uniq tcs Ht _ _ _ _ _ _ _ E1 C1 E7 C3) as [<- <-].
      destruct (Uniq scs Hs _ _ _ _ _ _ _ E2 C2 E8 C4) as [<- <-].
      destruct HB as (vi' & vj' & L' & Rm' & B1 & B2 & B3 & B4 & ->).
      assert (vi' = vi) as -> by congruence. assert (vj' = vj) as -> by congruence.
      assert (L' = L) as -> by congruence. assert (Rm' = Rm) as -> by congruence. reflexivity.
    + exfalso. apply (Hno i j a b). split.
      * apply HN; [apply nth_error_Some; congruence|rewrite <- Lsc; apply nth_error_Some; congruence].
      * split; [exact Hne|]. exists tcl, scl. auto.
  - intros r c Hno. destruct (Hrc (Z.of_nat r) (Z.of_nat c)) as [(i' & j' & p & q & HC & HB)|[_ ->]]; [|ring].
    exfalso. destruct HC as (_ & C0 & tcl' & scl' & C1 & C2 & C3 & C4).
    apply (Hno i' j' tcl' scl' C0 C1 C2). split; eapply nth_error_In; eauto.
Qed.

(** C72.  The error of one block, for any skeleton: if the block of targets [tcl] and sources
    [scl] factors through the interaction matrices as T X and as Y S (which is what the proxy
    points are for), the errors are the residuals of the two interpolations, times X and Y. *)
Theorem block_error_identity : forall tcl scl tp sp tsk ssk L Rm tcl' scl' tp' sp' tsk' ssk' L' Rm',
  cluster_skeleton R tcl scl' tp sp' tsk ssk' L Rm' -> cluster_skeleton R tcl' scl tp' sp tsk' ssk L' Rm ->
  forall (A : Z -> Z -> R) (T S : mat R) (X Y : nat -> nat -> R), mr T = length tcl -> mc S = length scl ->
  (forall a b, a < length tcl -> b < length scl ->
     A (nth a tcl 0%Z) (nth b scl 0%Z) = sum_prod (mc T) (el T a) (fun q => X q b)) ->
  (forall a b, a < length tcl -> b < length scl ->
     A (nth a tcl 0%Z) (nth b scl 0%Z) = sum_prod (mr S) (Y a) (fun q => el S q b)) ->
  forall a b, a < length tcl -> b < length scl ->
  let resT q := el T a q -r sum_prod (length tp) (el L a) (fun l => el T (nth l tp 0) q) in
  let resS q := el S q b -r sum_prod (length sp) (fun l => el S q (nth l sp 0)) (fun l => el Rm l b) in
  let err_T := sum_prod (mc T) resT (fun q => X q b) in
  let err_S a' := sum_prod (mr S) (Y a') resS in
  A (nth a tcl 0%Z) (nth b scl 0%Z) -r LT A L tsk scl a b = err_T /\
  A (nth a tcl 0%Z) (nth b scl 0%Z) -r SRm A Rm tcl ssk a b = err_S a /\
  A (nth a tcl 0%Z) (nth b scl 0%Z) -r LSR A L Rm tsk ssk a b
    = err_T +r sum_prod (length tp) (el L a) (fun l => err_S (nth l tp 0)).
Proof.
  intros tcl scl tp sp tsk ssk L Rm tcl' scl' tp' sp' tsk' ssk' L' Rm' HT HS A T S X Y MT MS HX HY a b Ha Hb resT resS err_T err_S.
  destruct HT as (ST & _ & _ & _ & M1 & M2 & _). destruct HS as (_ & SS & _ & _ & _ & _ & M3 & M4 & _).
  destruct (sub_selection_nth ST) as [LTs NT]. destruct (sub_selection_nth SS) as [LSs NS].
  set (B := fun a b => A (nth a tcl 0%Z) (nth b scl 0%Z)).
  assert (G1 : forall b', b' < length scl -> B a b' -r LT A L tsk scl a b'
     = sum_prod (mc T) resT (fun q => X q b')).
  { intros b' Hb'. unfold resT. rewrite <- (@resid_rows R Rth B (el T) X tp (el L a) (mc T) (length tp) a b').
    - f_equal. unfold SkSpec.LT, SkSpec.sum_prod. rewrite LTs. apply rsum_ext. intros l Hl.
      unfold B. rewrite (proj2 (NT l Hl)). reflexivity.
    - apply HX; assumption.
    - intros l Hl. apply HX; [apply NT; exact Hl|exact Hb']. }
  assert (G2 : forall a', a' < length tcl -> B a' b -r SRm A Rm tcl ssk a' b = err_S a').
  { intros a' Ha'. unfold err_S, resS.
    rewrite <- (@resid_cols R Rth B Y (el S) sp (fun l => el Rm l b) (mr S) (length sp) a' b).
    - f_equal. unfold SkSpec.SRm, SkSpec.sum_prod. rewrite LSs. apply rsum_ext. intros l Hl.
      unfold B. rewrite (proj2 (NS l Hl)). reflexivity.
    - apply HY; assumption.
    - intros l Hl. apply HY; [exact Ha'|apply NS; exact Hl]. }
  split; [apply (G1 b Hb)|]. split; [apply (G2 a Ha)|].
  fold (B a b). replace err_T with (B a b -r LT A L tsk scl a b) by (apply (G1 b Hb)).
  (* LSR = sum_l L (sum_m A R) *)
  assert (E1 : LSR A L Rm tsk ssk a b = sum_prod (length tp) (el L a) (fun l => SRm A Rm tcl ssk (nth l tp 0) b)).
  { unfold SkSpec.LSR, SkSpec.SRm, SkSpec.LT, SkSpec.sum_prod. rewrite LTs.
    rewrite <- (rsum_assoc R Rth). apply rsum_ext. intros l Hl. f_equal. apply rsum_ext. intros k Hk.
    rewrite (proj2 (NT l Hl)). reflexivity. }
  assert (E2 : LT A L tsk scl a b = sum_prod (length tp) (el L a) (fun l => B (nth l tp 0) b)).
  { unfold SkSpec.LT, SkSpec.sum_prod. rewrite LTs. apply rsum_ext. intros l Hl. unfold B. rewrite (proj2 (NT l Hl)). reflexivity. }
  assert (E3 : sum_prod (length tp) (el L a) (fun l => err_S (nth l tp 0)) = LT A L tsk scl a b -r LSR A L Rm tsk ssk a b).
  { rewrite E1, E2. unfold SkSpec.sum_prod at 1 2 3. rewrite <- (@rsum_sub R Rth). apply rsum_ext. intros l Hl.
    rewrite <- G2 by (apply NT; exact Hl). ring. }
  rewrite E3. ring.
Qed.
End C72.
Print Assumptions cluster_errors_are.
Print Assumptions skeletonization_error_is.
Print Assumptions block_error_identity.
