From Coq Require Import Reals Lra Psatz.
From Verif Require Import Base DofModel GeoModel GeoSpec GeoProofs GeoProofs2 GeoProofs3 GeoProofs4.
Set Implicit Arguments.
Open Scope R_scope.

Section GS.
Variable W : world.
Variable k n m : nat.
Variable T : nat -> nat -> R.      (* the columns *)

Let V (c : list ge) : nat -> R := vat W c k.
Let B (prev : list (list ge)) (j : nat) : nat -> R := V (nth j prev []).

Lemma map_vat (f : ge -> ge) (c : list ge) a : (a < length c)%nat -> nth a (map f c) (gz 0) = f (nth a c (gz 0)).
Proof.
  intros H. rewrite (nth_indep _ (gz 0) (f (gz 0))) by (rewrite map_length; exact H). apply map_nth.
Qed.

Lemma gs_fold avec prev q0 : length avec = n -> length q0 = n -> (forall b, In b prev -> length b = n) ->
  let q := fold_left (fun q bvec => gzip GSub q (map (GMul (gdot avec bvec)) bvec)) prev q0 in
  length q = n /\ forall a, (a < n)%nat -> V q a = V q0 a - sumR (length prev) (fun j => dot n (V avec) (B prev j) * B prev j a).
Proof.
  intros La Lq. induction prev as [|b prev IH] using rev_ind; intros Hp.
  - cbn [fold_left length sumR]. split; [exact Lq|]. intros a _. ring.
  - cbv zeta in *. rewrite fold_left_app. cbn [fold_left].
    destruct IH as [IL IV]; [intros x Hx; apply Hp, in_or_app; left; exact Hx|].
    set (q := fold_left _ prev q0) in *.
    assert (Lb : length b = n) by (apply Hp, in_or_app; right; left; reflexivity).
    destruct (@gzip_at GSub q (map (GMul (gdot avec b)) b)) as [ZL ZV]; [rewrite map_length; lia|].
    split; [lia|]. intros a Ha. unfold V at 1, vat. rewrite ZV by lia. cbn [gev].
    rewrite map_vat by lia. cbn [gev]. rewrite gdot_ev by lia. rewrite La.
    change (gev W (nth a q (gz 0)) k) with (V q a). rewrite IV by exact Ha.
    rewrite app_length. cbn [length]. rewrite Nat.add_comm. cbn [Nat.add sumR].
    assert (Bb : B (prev ++ [b]) (length prev) = V b) by (unfold B; rewrite app_nth2, Nat.sub_diag by lia; reflexivity).
    rewrite Bb.
    rewrite (@sumR_ext (length prev) (fun j => dot n (V avec) (B (prev ++ [b]) j) * B (prev ++ [b]) j a)
        (fun j => dot n (V avec) (B prev j) * B prev j a)).
    + unfold V. unfold vat. ring.
    + intros j Hj. unfold B. rewrite app_nth1 by exact Hj. reflexivity.
Qed.

(** Orthonormal family with triangular spans. *)
Definition inv (prev : list (list ge)) : Prop :=
  (forall b, In b prev -> length b = n)
  /\ (forall i j, (i < length prev)%nat -> (j < length prev)%nat -> dot n (B prev i) (B prev j) = if Nat.eqb i j then 1 else 0)
  /\ (forall j, (j < length prev)%nat -> exists c, (forall l, (j < l)%nat -> c l = 0)
        /\ forall a, (a < n)%nat -> B prev j a = sumR m (fun l => c l * T l a))
  /\ (forall j, (j < length prev)%nat -> exists c, (forall l, (j < l)%nat -> c l = 0)
        /\ forall a, (a < n)%nat -> T j a = sumR (length prev) (fun l => c l * B prev l a)).

Definition indep : Prop := independent n m T.

Lemma dot_comm p u v : dot p u v = dot p v u.
Proof. unfold dot. apply sumR_ext. intros; ring. Qed.
Lemma dot_lin p c u v w : dot p (fun a => u a + c * v a) w = dot p u w + c * dot p v w.
Proof. unfold dot. rewrite <- sumR_scal, <- sumR_add. apply sumR_ext. intros; ring. Qed.
Lemma dot_sum p q c (v : nat -> nat -> R) w : dot p (fun a => sumR q (fun j => c j * v j a)) w = sumR q (fun j => c j * dot p (v j) w).
Proof.
  unfold dot.
  rewrite (@sumR_ext p _ (fun a => sumR q (fun j => c j * (v j a * w a)))).
  - rewrite sumR_swap. apply sumR_ext. intros. apply sumR_scal.
  - intros a _. rewrite Rmult_comm, <- sumR_scal. apply sumR_ext. intros; ring.
Qed.
Lemma sumR_delta p i (f : nat -> R) : (i < p)%nat -> sumR p (fun j => (if Nat.eqb j i then 1 else 0) * f j) = f i.
Proof.
  induction p; intros H; [lia|]. cbn [sumR]. destruct (Nat.eq_dec i p) as [->|N].
  - rewrite Nat.eqb_refl. rewrite (@sumR_ext p _ (fun _ => 0)); [rewrite sumR_zero; ring|].
    intros j Hj. replace (j =? p)%nat with false by (symmetry; apply Nat.eqb_neq; lia). ring.
  - rewrite IHp by lia. replace (p =? i)%nat with false by (symmetry; apply Nat.eqb_neq; lia). ring.
Qed.
Lemma dot_zero p u : dot p u u = 0 -> forall a, (a < p)%nat -> u a = 0.
Proof.
  induction p; intros H a Ha; [lia|]. unfold dot in *. cbn [sumR] in H.
  assert (0 <= sumR p (fun a => u a * u a)) by apply dot_self_nonneg.
  assert (sumR p (fun a => u a * u a) = 0) by nra. destruct (Nat.eq_dec a p) as [->|]; [nra|]. apply IHp; [assumption|lia].
Qed.

Lemma gs_step_inv prev c : indep -> inv prev -> (length prev < m)%nat -> length c = n ->
  (forall a, (a < n)%nat -> V c a = T (length prev) a) -> inv (prev ++ [gs_step prev (length prev) c]).
Proof.
  intros Hi (I1 & I2 & I3 & I4) Hm Lc Vc. set (p := length prev) in *.
  destruct (@gs_fold c prev c Lc Lc I1) as [Lq Vq]. cbv zeta in *.
  unfold gs_step. set (q := fold_left _ prev c) in *.
  set (al := fun j => dot n (V c) (B prev j)).
  assert (Vq' : forall a, (a < n)%nat -> V q a = T p a - sumR p (fun j => al j * B prev j a)).
  { intros a Ha. rewrite Vq, Vc by exact Ha. reflexivity. }
  (* q is orthogonal to what came before *)
  assert (Qo : forall i, (i < p)%nat -> dot n (V q) (B prev i) = 0).
  { intros i Hip.
    rewrite (@dot_ext n _ _ (fun a => V c a + (-1) * sumR p (fun j => al j * B prev j a)) (B prev i)).
    - rewrite dot_lin, dot_sum.
      rewrite (@sumR_ext p _ (fun j => (if Nat.eqb j i then 1 else 0) * al j)).
      + rewrite sumR_delta by exact Hip. unfold al. ring.
      + intros j Hj. rewrite I2 by assumption. ring.
    - intros a Ha. rewrite Vq', Vc by exact Ha. fold p. ring.
    - reflexivity. }
  (* q is a combination of the first columns with coefficient 1 at p *)
  assert (Ex : exists x, x p = 1 /\ (forall l, (p < l)%nat -> x l = 0) /\ forall a, (a < n)%nat -> V q a = sumR m (fun l => x l * T l a)).
  { assert (S : forall r, (r <= p)%nat -> exists y, (forall l, (p <= l)%nat -> y l = 0)
        /\ forall a, (a < n)%nat -> sumR r (fun j => al j * B prev j a) = sumR m (fun l => y l * T l a)).
    { induction r; intros Hr.
      - exists (fun _ => 0). split; [reflexivity|]. intros a Ha. cbn [sumR].
        rewrite (@sumR_ext m _ (fun _ => 0)); [rewrite sumR_zero; reflexivity|]. intros; ring.
      - destruct IHr as [y [Y0 Y1]]; [lia|]. destruct (I3 r ltac:(fold p; lia)) as [z [Z0 Z1]].
        exists (fun l => y l + al r * z l). split.
        + intros l Hl. rewrite Y0, Z0 by lia. ring.
        + intros a Ha. cbn [sumR]. rewrite Y1, Z1 by exact Ha. rewrite <- sumR_scal, <- sumR_add. apply sumR_ext. intros; ring. }
    destruct (S p (le_n p)) as [y [Y0 Y1]].
    exists (fun l => (if Nat.eqb l p then 1 else 0) + (-1) * y l). split; [|split].
    - rewrite Nat.eqb_refl, Y0 by lia. ring.
    - intros l Hl. replace (l =? p)%nat with false by (symmetry; apply Nat.eqb_neq; lia). rewrite Y0 by lia. ring.
    - intros a Ha. rewrite Vq', Y1 by exact Ha.
      rewrite (@sumR_ext m (fun l => ((if Nat.eqb l p then 1 else 0) + (-1) * y l) * T l a) (fun l => (if Nat.eqb l p then 1 else 0) * T l a + (-1) * (y l * T l a))) by (intros; ring).
      rewrite sumR_add, sumR_scal, (sumR_delta _ Hm). ring. }
  destruct Ex as [x [X1 [X0 XV]]].
  assert (NZ : dot n (V q) (V q) <> 0).
  { intros Z. pose proof (@dot_zero _ _ Z) as Z'. assert (x p = 0); [|lra].
    apply Hi; [|exact Hm]. intros a Ha. rewrite <- XV by exact Ha. apply Z'. exact Ha. }
  pose proof (sqrt_pos_nz (dot_self_nonneg n (V q)) NZ) as [SN [SS SP]].
  set (s := sqrt (dot n (V q) (V q))) in *.
  set (r := cse_ev "orth_pd_vec" _).
  assert (Lr : length r = n) by (unfold r, cse_ev; rewrite !map_length; exact Lq).
  assert (Vr : forall a, (a < n)%nat -> V r a = / s * V q a).
  { intros a Ha. unfold V, vat, r, cse_ev. rewrite map_vat by (rewrite !map_length; lia). cbn [gev].
    unfold cse_eval at 1. cbn [gev]. rewrite map_vat by (rewrite map_length; lia). cbn [gev].
    rewrite map_vat by lia. unfold cse_eval at 1. cbn [gev].
    assert (E : gev W (gsum (map (fun y => GPow y 2) (map (cse_eval "q") q))) k = dot n (V q) (V q)).
    { rewrite gsum_ev. rewrite !map_length, Lq. unfold dot. apply sumR_ext. intros i Hi'. unfold vat.
      rewrite map_vat by (rewrite map_length; lia). cbn [gev]. rewrite map_vat by lia. unfold cse_eval. cbn [gev].
      unfold V, vat. ring. }
    rewrite E. fold s. unfold Rdiv. ring. }
  clearbody r.
  assert (Bo : forall j, (j < p)%nat -> B (prev ++ [r]) j = B prev j) by (intros j Hj; unfold B; rewrite app_nth1 by exact Hj; reflexivity).
  assert (Bn : B (prev ++ [r]) p = V r) by (unfold B; rewrite app_nth2, Nat.sub_diag by (unfold p; lia); reflexivity).
  assert (Rq : forall w, dot n (V r) w = / s * dot n (V q) w).
  { intros w. unfold dot. rewrite <- sumR_scal. apply sumR_ext. intros a Ha. rewrite Vr by exact Ha. ring. }
  unfold inv. rewrite app_length. cbn [length]. replace (length prev + 1)%nat with (S p) by (unfold p; lia).
  split; [|split; [|split]].
  - intros b Hb. apply in_app_or in Hb. destruct Hb as [Hb|[<-|[]]]; [apply I1; exact Hb|exact Lr].
  - intros i j Hi' Hj. destruct (Nat.eq_dec i p) as [->|Ni]; destruct (Nat.eq_dec j p) as [->|Nj].
    + rewrite Bn, Nat.eqb_refl, Rq, dot_comm, Rq. rewrite <- SS. field. exact SN.
    + rewrite Bn, Bo by lia. rewrite Rq, Qo by lia. replace (p =? j)%nat with false by (symmetry; apply Nat.eqb_neq; lia). ring.
    + rewrite Bn, Bo by lia. rewrite dot_comm, Rq, Qo by lia. replace (i =? p)%nat with false by (symmetry; apply Nat.eqb_neq; lia). ring.
    + rewrite !Bo by lia. apply I2; fold p; lia.
  - intros j Hj. destruct (Nat.eq_dec j p) as [->|Nj].
    + exists (fun l => / s * x l). split; [intros l Hl; rewrite X0 by exact Hl; ring|].
      intros a Ha. rewrite Bn, Vr, XV by exact Ha. rewrite <- sumR_scal. apply sumR_ext. intros; ring.
    + destruct (I3 j ltac:(fold p; lia)) as [y [Y0 Y1]]. exists y. split; [exact Y0|]. intros a Ha. rewrite Bo by lia. apply Y1. exact Ha.
  - intros j Hj. destruct (Nat.eq_dec j p) as [->|Nj].
    + exists (fun l => if Nat.eqb l p then s else if Nat.ltb l p then al l else 0). split.
      * intros l Hl. replace (l =? p)%nat with false by (symmetry; apply Nat.eqb_neq; lia).
        replace (l <? p)%nat with false by (symmetry; apply Nat.ltb_ge; lia). reflexivity.
      * intros a Ha. cbn [sumR]. rewrite Nat.eqb_refl, Bn, Vr by exact Ha.
        rewrite (@sumR_ext p _ (fun l => al l * B prev l a)).
        -- rewrite Vq' by exact Ha. field. exact SN.
        -- intros l Hl. replace (l =? p)%nat with false by (symmetry; apply Nat.eqb_neq; lia).
           replace (l <? p)%nat with true by (symmetry; apply Nat.ltb_lt; lia). rewrite Bo by exact Hl. reflexivity.
    + destruct (I4 j ltac:(fold p; lia)) as [y [Y0 Y1]]. exists y. split; [exact Y0|]. intros a Ha. cbn [sumR].
      rewrite (Y0 p) by lia. rewrite Y1 by exact Ha. fold p. rewrite Rmult_0_l, Rplus_0_r. apply sumR_ext. intros l Hl. rewrite Bo by exact Hl. reflexivity.
Qed.

Lemma gram_schmidt_inv cols : indep -> forall prev, inv prev -> (length prev + length cols <= m)%nat ->
  (forall c, In c cols -> length c = n) ->
  (forall i a, (i < length cols)%nat -> (a < n)%nat -> V (nth i cols []) a = T (length prev + i) a) ->
  inv (gram_schmidt prev cols) /\ length (gram_schmidt prev cols) = (length prev + length cols)%nat.
Proof.
  intros Hi. induction cols as [|c cols IH]; intros prev I L LC VC.
  - cbn. split; [exact I | lia].
  - cbn [gram_schmidt length] in *.
    assert (I' : inv (prev ++ [gs_step prev (length prev) c])).
    { apply gs_step_inv; auto; [lia | apply LC; left; reflexivity|].
      intros a Ha. specialize (VC 0%nat a ltac:(lia) Ha). cbn [nth] in VC. rewrite VC. f_equal. lia. }
    destruct (IH _ I') as [A E].
    + rewrite app_length. cbn [length]. lia.
    + intros x Hx. apply LC. right. exact Hx.
    + intros i a Hi' Ha. specialize (VC (S i) a ltac:(lia) Ha). cbn [nth] in VC. rewrite VC. f_equal. rewrite app_length. cbn [length]. lia.
    + split; [exact A|]. rewrite E, app_length. cbn [length]. lia.
Qed.
End GS.

(** Linear independence of the tangents at a node. *)
Lemma onb_ok adim dim o dd d W k : (0 < adim)%nat -> dim_is adim o dim -> as_dofdesc dd = Ok d ->
  indep adim dim (tangent W d k) ->
  exists t, tangential_onb adim o dd = Ok t /\ length t = dim /\ inv W k adim dim (tangent W d k) t.
Proof.
  intros A Ho Hd Hi. unfold tangential_onb. rewrite (odim_is Ho), (pdm_ok _ _ _ Hd). cbn [bind].
  eexists; split; [reflexivity|]. rewrite gtrans_pdmat by exact A.
  destruct (@gram_schmidt_inv W k adim dim (tangent W d k) (map (fun j => map (fun i => pdc d j i) (seq 0 adim)) (seq 0 dim)) Hi []) as [I L].
  - split; [intros b []|]. split; [|split]; cbn [length]; intros; lia.
  - rewrite map_length, seq_length. cbn. lia.
  - intros c Hc. apply in_map_iff in Hc. destruct Hc as [j [<- _]]. rewrite map_length, seq_length. reflexivity.
  - intros i a Hi' Ha. rewrite map_length, seq_length in Hi'.
    rewrite (nth_indep _ [] (map (fun a => pdc d 0 a) (seq 0 adim))) by (rewrite map_length, seq_length; exact Hi').
    rewrite (map_nth (fun j => map (fun i => pdc d j i) (seq 0 adim))), seq_nth by exact Hi'. cbn [Nat.add length].
    apply pdcol_at. exact Ha.
  - rewrite map_length, seq_length in L. cbn [length Nat.add] in L. split; [exact L | exact I].
Qed.
