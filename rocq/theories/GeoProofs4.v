From Coq Require Import Reals Lra Psatz.
From Verif Require Import Base DofModel GeoModel GeoSpec GeoProofs GeoProofs2 GeoProofs3.
Set Implicit Arguments.
Open Scope R_scope.

(** *** Matrix products *)
Lemma is_mat_shape n m M : is_mat n m M -> (0 < n)%nat -> gshape M = (n, m).
Proof.
  intros [L H] P. unfold gshape. rewrite L. destruct M as [|r M]; [cbn in L; lia|].
  rewrite (H r (or_introl eq_refl)). reflexivity.
Qed.
Lemma is_mat_map n m (f : nat -> nat -> ge) : is_mat n m (map (fun i => map (f i) (seq 0 m)) (seq 0 n)).
Proof.
  split; [rewrite map_length, seq_length; reflexivity|]. intros r Hr. apply in_map_iff in Hr.
  destruct Hr as [i [<- _]]. rewrite map_length, seq_length. reflexivity.
Qed.
Lemma is_mat_map2 n m M c : is_mat n m M -> is_mat n m (map (map c) M).
Proof.
  intros [L H]. split; [rewrite map_length; exact L|]. intros r Hr. apply in_map_iff in Hr.
  destruct Hr as [r0 [<- H0]]. rewrite map_length. apply H. exact H0.
Qed.
Lemma gat_map2 n m M c i j : is_mat n m M -> (i < n)%nat -> (j < m)%nat -> gat (map (map c) M) i j = c (gat M i j).
Proof.
  intros [L H] Hi Hj. unfold gat. rewrite (nth_indep _ [] (map c [])) by (rewrite map_length; lia).
  rewrite map_nth. assert (R : In (nth i M []) M) by (apply nth_In; lia). specialize (H _ R).
  rewrite (nth_indep _ (gz 0) (c (gz 0))) by (rewrite map_length; lia). apply map_nth.
Qed.

Lemma gmatmul_mat n m p A B : is_mat n m A -> is_mat m p B -> (0 < m)%nat -> is_mat n p (gmatmul A B).
Proof.
  intros [LA HA] HB P. unfold gmatmul. split; [rewrite map_length; exact LA|]. intros r Hr.
  apply in_map_iff in Hr. destruct Hr as [r0 [<- _]]. rewrite map_length, seq_length, (is_mat_shape HB P). reflexivity.
Qed.
Lemma gcol_at m p B j l : is_mat m p B -> (l < m)%nat -> nth l (gcol B j) (gz 0) = gat B l j.
Proof.
  intros [L H] Hl. unfold gcol, gat. rewrite (nth_indep _ (gz 0) (nth j [] (gz 0))) by (rewrite map_length; lia).
  rewrite (map_nth (fun r => nth j r (gz 0))). reflexivity.
Qed.
Lemma gmatmul_ev W k n m p A B i j : is_mat n m A -> is_mat m p B -> (0 < m)%nat -> (i < n)%nat -> (j < p)%nat ->
  mat W (gmatmul A B) k i j = sumR m (fun l => mat W A k i l * mat W B k l j).
Proof.
  intros HA HB P Hi Hj. unfold mat at 1. unfold gat, gmatmul. rewrite (is_mat_shape HB P). cbn [snd].
  set (F := fun r => map (fun j => gdot r (gcol B j)) (seq 0 p)).
  rewrite (nth_indep _ [] (F [])) by (rewrite map_length; destruct HA; lia). rewrite (map_nth F). unfold F.
  rewrite (nth_indep _ (gz 0) (gdot (nth i A []) (gcol B 0))) by (rewrite map_length, seq_length; lia).
  rewrite (map_nth (fun j => gdot (nth i A []) (gcol B j))), seq_nth by lia. cbn [Nat.add].
  assert (LA : length (nth i A []) = m) by (destruct HA as [L H]; apply H, nth_In; lia).
  assert (LB : length (gcol B j) = m) by (unfold gcol; rewrite map_length; apply HB).
  rewrite gdot_ev by lia. rewrite LA. unfold dot. apply sumR_ext. intros l Hl. unfold vat.
  rewrite (gcol_at _ HB Hl). reflexivity.
Qed.
Lemma gtrans_mat n m A : is_mat n m A -> (0 < n)%nat -> is_mat m n (gtrans A).
Proof.
  intros HA P. unfold gtrans. rewrite (is_mat_shape HA P). cbn [snd]. split; [rewrite map_length, seq_length; reflexivity|].
  intros r Hr. apply in_map_iff in Hr. destruct Hr as [j [<- _]]. unfold gcol. rewrite map_length. apply HA.
Qed.
Lemma gtrans_ev W k n m A i j : is_mat n m A -> (0 < n)%nat -> (i < m)%nat -> (j < n)%nat ->
  mat W (gtrans A) k i j = mat W A k j i.
Proof.
  intros HA P Hi Hj. unfold mat, gtrans. rewrite (is_mat_shape HA P). cbn [snd]. unfold gat at 1.
  rewrite (nth_indep _ [] (gcol A 0)) by (rewrite map_length, seq_length; lia).
  rewrite (map_nth (gcol A)), seq_nth by lia. rewrite (gcol_at _ HA Hj). reflexivity.
Qed.

Lemma pdmat_mat adim dim d : is_mat adim dim (pdmat adim dim d).
Proof. unfold pdmat. apply (@is_mat_map adim dim (fun i j => pdc d j i)). Qed.
Lemma pdmat_ev W k adim dim d i j : (i < adim)%nat -> (j < dim)%nat -> mat W (pdmat adim dim d) k i j = tangent W d k j i.
Proof. intros A B. unfold mat, pdmat. rewrite (@gat_map (fun i j => pdc d j i)) by assumption. apply ev_pdc. Qed.

(** sums *)
Lemma sumR_add n f g : sumR n (fun i => f i + g i) = sumR n f + sumR n g.
Proof. induction n; cbn [sumR]; [ring|]. rewrite IHn. ring. Qed.
Lemma sumR_scal n c f : sumR n (fun i => c * f i) = c * sumR n f.
Proof. induction n; cbn [sumR]; [ring|]. rewrite IHn. ring. Qed.
Lemma sumR_zero n : sumR n (fun _ => 0) = 0.
Proof. induction n; cbn [sumR]; [ring|]. rewrite IHn. ring. Qed.
Lemma sumR_swap n m (f : nat -> nat -> R) : sumR n (fun i => sumR m (f i)) = sumR m (fun j => sumR n (fun i => f i j)).
Proof.
  induction n; cbn [sumR]; [symmetry; apply sumR_zero|]. rewrite IHn, <- sumR_add. reflexivity.
Qed.

(** The largest stretch from the 1x1 or 2x2 matrix of inner products. *)
Definition qform (dim : nat) (q : nat -> nat -> R) (v : nat -> R) : R :=
  sumR dim (fun i => sumR dim (fun j => v i * q i j * v j)).

Lemma max_stretch_q dim m W k (c : string) : is_mat dim dim m -> (dim = 1 \/ dim = 2)%nat ->
  (forall i j, (i < dim)%nat -> (j < dim)%nat -> mat W m k i j = mat W m k j i) ->
  (forall v, 0 <= qform dim (mat W m k) v) ->
  exists l, small_sym_mat_eigenvalues m = Ok l /\
    let s := gev W (GMax (map (fun s => cse_eval c (GSqrt s)) l)) k in
    0 <= s /\ (forall v, qform dim (mat W m k) v <= s * s * dot dim v v)
    /\ exists v, dot dim v v = 1 /\ qform dim (mat W m k) v = s * s.
Proof.
  intros Hm Hd Hs Hp. assert (Sh : gshape m = (dim, dim)) by (apply is_mat_shape; [exact Hm | lia]).
  unfold small_sym_mat_eigenvalues. rewrite Sh, Nat.eqb_refl. cbn [negb].
  destruct Hd as [->| ->].
  - eexists; split; [reflexivity|]. cbn [map GeoModel.gat]. unfold cse_eval. cbn [gev map fold_left].
    change (gev W (gat m 0 0) k) with (mat W m k 0 0).
    assert (P0 : 0 <= mat W m k 0 0) by (specialize (Hp (fun _ => 1)); unfold qform in Hp; cbn [sumR] in Hp; lra).
    split; [apply sqrt_pos|]. rewrite (sqrt_sqrt _ P0). split.
    + intros v. unfold qform, dot. cbn [sumR]. lra.
    + exists (fun _ => 1). unfold qform, dot. cbn [sumR]. split; ring.
  - eexists; split; [reflexivity|]. unfold eig2, cse_eval, gz. cbn [map gev fold_left].
    change (gev W (gat m 0 0) k) with (mat W m k 0 0). change (gev W (gat m 0 1) k) with (mat W m k 0 1).
    change (gev W (gat m 1 1) k) with (mat W m k 1 1).
    replace (2 / 1) with 2 by field. replace (4 / 1) with 4 by field.
    set (a := mat W m k 0 0) in *. set (b := mat W m k 0 1) in *. set (d := mat W m k 1 1) in *.
    assert (Eb : mat W m k 1 0 = b) by (symmetry; apply Hs; lia).
    assert (Q : forall v, qform 2 (mat W m k) v = a * v 0%nat * v 0%nat + 2 * b * v 0%nat * v 1%nat + d * v 1%nat * v 1%nat).
    { intros v. unfold qform. cbn [sumR]. rewrite Eb. fold a b d. ring. }
    destruct (sym2_eig a b d) as [U [x [y [N E]]]]. cbv zeta in *.
    set (s := sqrt (4 * b ^ 2 + (a - d) ^ 2)) in *.
    assert (S0 : 0 <= s) by apply sqrt_pos.
    assert (L0 : 0 <= (a + d + s) / 2).
    { rewrite <- E. specialize (Hp (fun i => match i with 0%nat => x | _ => y end)). rewrite Q in Hp. exact Hp. }
    assert (Mx : Rmax (sqrt ((a + d - s) / 2)) (sqrt ((a + d + s) / 2)) = sqrt ((a + d + s) / 2)).
    { apply Rmax_right, sqrt_le_1_alt. lra. }
    rewrite Mx. split; [apply sqrt_pos|]. rewrite (sqrt_sqrt _ L0). split.
    + intros v. rewrite Q. unfold dot. cbn [sumR]. specialize (U (v 0%nat) (v 1%nat)). lra.
    + exists (fun i => match i with 0%nat => x | _ => y end). rewrite Q. unfold dot. cbn [sumR]. split; lra.
Qed.

(** [J^T J] as a quadratic form. *)
Lemma qform_gram adim dim (A : nat -> nat -> R) v :
  qform dim (fun i j => 4 * sumR adim (fun a => A a i * A a j)) v
  = dot adim (fun a => 2 * sumR dim (fun j => A a j * v j)) (fun a => 2 * sumR dim (fun j => A a j * v j)).
Proof.
  unfold qform, dot.
  transitivity (sumR adim (fun a => 4 * (sumR dim (fun i => sumR dim (fun j => (A a i * v i) * (A a j * v j)))))).
  - rewrite (@sumR_ext _ _ (fun i => sumR adim (fun a => sumR dim (fun j => 4 * (A a i * v i * (A a j * v j)))))).
    + rewrite sumR_swap. apply sumR_ext. intros a _. rewrite <- sumR_scal. apply sumR_ext. intros i _.
      rewrite <- sumR_scal. reflexivity.
    + intros i _. rewrite sumR_swap. apply sumR_ext. intros j _.
      rewrite <- (Rmult_comm (v j)), <- Rmult_assoc.
      replace (v j * v i * (4 * sumR adim (fun a => A a i * A a j))) with ((4 * v i * v j) * sumR adim (fun a => A a i * A a j)) by ring.
      rewrite <- sumR_scal. apply sumR_ext. intros a _. ring.
  - apply sumR_ext. intros a _.
    rewrite (@sumR_ext _ _ (fun i => (A a i * v i) * sumR dim (fun j => A a j * v j))) by (intros i _; apply sumR_scal).
    rewrite (@sumR_ext _ _ (fun i => sumR dim (fun j => A a j * v j) * (A a i * v i))) by (intros i _; ring).
    rewrite sumR_scal. ring.
Qed.

Lemma qform_ext dim q q' v : (forall i j, (i < dim)%nat -> (j < dim)%nat -> q i j = q' i j) -> qform dim q v = qform dim q' v.
Proof. intros H. unfold qform. apply sumR_ext. intros i Hi. apply sumR_ext. intros j Hj. rewrite H by assumption. reflexivity. Qed.
Lemma dot_self_nonneg n u : 0 <= dot n u u.
Proof. unfold dot. induction n; cbn [sumR]; [lra|]. nra. Qed.

(** Common end: 4 J^T J for a matrix with values [A]. *)
Lemma stretch_of_gram adim dim m W k c (A : nat -> nat -> R) : is_mat dim dim m -> (dim = 1 \/ dim = 2)%nat ->
  (forall i j, (i < dim)%nat -> (j < dim)%nat -> mat W m k i j = 4 * sumR adim (fun a => A a i * A a j)) ->
  exists l, small_sym_mat_eigenvalues m = Ok l /\
    op_norm dim adim (fun v a => 2 * sumR dim (fun j => A a j * v j))
      (gev W (GMax (map (fun s => cse_eval c (GSqrt s)) l)) k).
Proof.
  intros Hm Hd Hq.
  assert (QF : forall v, qform dim (mat W m k) v
    = dot adim (fun a => 2 * sumR dim (fun j => A a j * v j)) (fun a => 2 * sumR dim (fun j => A a j * v j))).
  { intros v. rewrite <- qform_gram. apply qform_ext. exact Hq. }
  destruct (@max_stretch_q dim m W k c Hm Hd) as [l [El [P0 [P1 [v [Ev1 Ev2]]]]]].
  - intros i j Hi Hj. rewrite !Hq by assumption. f_equal. apply sumR_ext. intros; ring.
  - intros v. rewrite QF. apply dot_self_nonneg.
  - exists l. split; [exact El|]. cbv zeta in *. split; [exact P0|]. split.
    + intros v0. rewrite <- QF. apply P1.
    + exists v. split; [exact Ev1|]. rewrite <- QF. exact Ev2.
Qed.

Lemma gscale_mat n m c M : is_mat n m M -> is_mat n m (gscale c M).
Proof. apply is_mat_map2. Qed.
Lemma gscale_ev n m c M W k i j : is_mat n m M -> (i < n)%nat -> (j < m)%nat -> mat W (gscale c M) k i j = gev W c k * mat W M k i j.
Proof. intros H Hi Hj. unfold mat, gscale. rewrite (gat_map2 _ H Hi Hj). reflexivity. Qed.
Lemma cse_em_mat n m p M : is_mat n m M -> is_mat n m (cse_em p M).
Proof. apply is_mat_map2. Qed.
Lemma cse_em_ev n m p M W k i j : is_mat n m M -> (i < n)%nat -> (j < m)%nat -> mat W (cse_em p M) k i j = mat W M k i j.
Proof. intros H Hi Hj. unfold mat, cse_em, cse_ev. rewrite (gat_map2 _ H Hi Hj). reflexivity. Qed.

Lemma hyper_ok adim dim o dd d W k : (0 < adim)%nat -> (dim = 1 \/ dim = 2)%nat -> dim_is adim o dim -> as_dofdesc dd = Ok d ->
  exists e, hypercube_stretch adim o dd = Ok e /\ op_norm dim adim (jac2 W dim d k) (gev W e k).
Proof.
  intros A D Ho Hd. unfold hypercube_stretch. rewrite (odim_is Ho).
  rewrite (@ff1_ok adim dim (Some dim) dd d A (or_introl eq_refl) Hd). cbn [bind].
  assert (M : is_mat dim dim (ff1 adim dim d)) by (unfold ff1; apply is_mat_map).
  destruct (@stretch_of_gram adim dim (gscale (gz 4) (ff1 adim dim d)) W k "hypercube_mapping_singval"
      (fun a j => tangent W d k j a)) as [l [El N]].
  - apply gscale_mat, M.
  - exact D.
  - intros i j Hi Hj. rewrite (gscale_ev _ _ _ M Hi Hj), ff1_ev by assumption. cbn [gev gz].
    unfold gz. cbn [gev]. replace (4 / 1) with 4 by field. reflexivity.
  - rewrite El. cbn [bind]. eexists; split; [reflexivity|]. exact N.
Qed.

Lemma equi_ok dim : (dim = 1 \/ dim = 2)%nat -> exists E, equilateral_to_unit dim = Ok E /\ is_mat dim dim E
  /\ forall W k v l, (l < dim)%nat -> sumR dim (fun j => mat W E k l j * v j) = equi dim v l.
Proof.
  intros [->| ->]; eexists; (split; [reflexivity|]); split.
  - split; [reflexivity|]. intros r [<-|[]]. reflexivity.
  - intros W k v [|l] Hl; [|lia]. cbv [mat gat nth gz sumR equi]. cbn [gev]. field.
  - split; [reflexivity|]. intros r [<-|[<-|[]]]; reflexivity.
  - assert (S3 : sqrt 3 <> 0) by (pose proof (sqrt_lt_R0 3); lra).
    intros W k v [|[|l]] Hl; [| |lia]; cbv [mat gat nth gz sumR equi]; cbn [gev];
      replace (3 / 1) with 3 by field; field; exact S3.
Qed.

Lemma simplex_ok adim dim o dd d W k : (0 < adim)%nat -> (dim = 1 \/ dim = 2)%nat -> dim_is adim o dim -> as_dofdesc dd = Ok d ->
  exists e, simplex_stretch adim o dd = Ok e /\ op_norm dim adim (fun v => jac2 W dim d k (equi dim v)) (gev W e k).
Proof.
  intros A D Ho Hd. unfold simplex_stretch, equilateral_pder_mat. rewrite (odim_is Ho).
  cbn [odim]. rewrite (pdm_ok _ _ _ Hd). cbn [bind].
  destruct (equi_ok D) as [E [EE [ME HE]]]. rewrite EE. cbn [bind].
  assert (Dp : (0 < dim)%nat) by lia.
  set (P := cse_em "equilateral_pder_mat" (gmatmul (pdmat adim dim d) E)).
  assert (M0 : is_mat adim dim (gmatmul (pdmat adim dim d) E)) by (apply (@gmatmul_mat adim dim dim); [apply pdmat_mat|exact ME|exact Dp]).
  assert (MP : is_mat adim dim P) by (apply cse_em_mat, M0).
  assert (MT : is_mat dim adim (gtrans P)) by (apply gtrans_mat; [exact MP|exact A]).
  assert (MJ : is_mat dim dim (gmatmul (gtrans P) P)) by (apply (@gmatmul_mat dim adim dim); assumption).
  assert (VP : forall a j, (a < adim)%nat -> (j < dim)%nat -> mat W P k a j = sumR dim (fun l => tangent W d k l a * mat W E k l j)).
  { intros a j Ha Hj. unfold P. rewrite (cse_em_ev _ _ _ M0 Ha Hj).
    rewrite (@gmatmul_ev W k adim dim dim) by (try apply pdmat_mat; assumption).
    apply sumR_ext. intros l Hl. rewrite pdmat_ev by assumption. reflexivity. }
  destruct (@stretch_of_gram adim dim (gscale (gz 4) (cse_em "pd_mat_jtj" (gmatmul (gtrans P) P))) W k "simplex_mapping_singval"
      (fun a j => mat W P k a j)) as [l [El N]].
  - apply gscale_mat, cse_em_mat, MJ.
  - exact D.
  - intros i j Hi Hj. rewrite (gscale_ev _ _ _ (cse_em_mat _ MJ) Hi Hj), (cse_em_ev _ _ _ MJ Hi Hj).
    rewrite (@gmatmul_ev W k dim adim dim) by assumption. unfold gz. cbn [gev]. replace (4 / 1) with 4 by field.
    f_equal. apply sumR_ext. intros a Ha. rewrite (gtrans_ev W k MP A Hi Ha). reflexivity.
  - rewrite El. cbn [bind]. eexists; split; [reflexivity|].
    assert (Ext : forall v a, (a < adim)%nat -> 2 * sumR dim (fun j => mat W P k a j * v j) = jac2 W dim d k (equi dim v) a).
    { intros v a Ha. unfold jac2. f_equal.
      rewrite (@sumR_ext _ _ (fun j => sumR dim (fun l => tangent W d k l a * (mat W E k l j * v j)))).
      - rewrite sumR_swap. apply sumR_ext. intros l0 Hl. rewrite sumR_scal, HE by exact Hl. reflexivity.
      - intros j Hj. rewrite VP by assumption. rewrite Rmult_comm, <- sumR_scal. apply sumR_ext. intros; ring. }
    destruct N as [N0 [N1 [v [N2 N3]]]]. split; [exact N0|]. split.
    + intros v0. rewrite (@dot_ext _ _ _ (fun a => 2 * sumR dim (fun j => mat W P k a j * v0 j)) (fun a => 2 * sumR dim (fun j => mat W P k a j * v0 j))).
      * apply N1.
      * intros a Ha. symmetry. apply Ext. exact Ha.
      * intros a Ha. symmetry. apply Ext. exact Ha.
    + exists v. split; [exact N2|].
      rewrite <- N3. apply dot_ext; intros a Ha; symmetry; apply Ext; exact Ha.
Qed.

(** The operator norm is unique. *)
Lemma op_norm_unique m n A s s' : op_norm m n A s -> op_norm m n A s' -> s = s'.
Proof.
  intros [P0 [P1 [v [P2 P3]]]] [Q0 [Q1 [w [Q2 Q3]]]].
  assert (s * s <= s' * s') by (specialize (Q1 v); rewrite P2, P3 in Q1; lra).
  assert (s' * s' <= s * s) by (specialize (P1 w); rewrite Q2, Q3 in P1; lra).
  apply Rsqr_inj; unfold Rsqr; lra.
Qed.
