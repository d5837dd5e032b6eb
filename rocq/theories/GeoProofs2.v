From Coq Require Import Reals Lra Psatz.
From Verif Require Import Base DofModel GeoModel GeoSpec GeoProofs.
Set Implicit Arguments.
Open Scope R_scope.

Lemma sqrt_pos_nz x : 0 <= x -> x <> 0 -> sqrt x <> 0 /\ sqrt x * sqrt x = x /\ 0 < sqrt x.
Proof.
  intros H0 H1. assert (0 < x) by lra. pose proof (sqrt_lt_R0 x H). split; [lra|]. split; [apply sqrt_sqrt; lra|lra].
Qed.

Lemma ncomp_unit adim dim W d k : hypersurface adim dim -> gram_det W adim dim d k <> 0 ->
  dot adim (ncomp adim dim W d k) (ncomp adim dim W d k) = 1.
Proof.
  intros H Hg. destruct (sqrt_pos_nz (gram_det_nonneg W d k H) Hg) as [N [S _]].
  hs H; unfold dot; cbn [sumR ncomp].
  - revert N S. set (s := sqrt _). intros N S.
    apply Rmult_eq_reg_r with (s * s); [|nra].
    transitivity (gram_det W 2 1 d k); [|lra].
    unfold gram_det, gram, dot; cbn [sumR]. field. exact N.
  - revert N S. set (s := sqrt _). intros N S.
    apply Rmult_eq_reg_r with (s * s); [|nra].
    transitivity (gram_det W 3 2 d k); [|lra].
    unfold gram_det, gram, dot; cbn [sumR]. field. exact N.
Qed.

Lemma ncomp_orth adim dim W d k j : hypersurface adim dim -> gram_det W adim dim d k <> 0 -> (j < dim)%nat ->
  dot adim (ncomp adim dim W d k) (tangent W d k j) = 0.
Proof.
  intros H Hg Hj. destruct (sqrt_pos_nz (gram_det_nonneg W d k H) Hg) as [N [S _]].
  hs H; unfold dot; cbn [sumR ncomp].
  - destruct j as [|j]; [|lia]. field. exact N.
  - destruct j as [|[|j]]; [| |lia]; field; exact N.
Qed.

Lemma ncomp_oriented adim dim W d k : hypersurface adim dim -> gram_det W adim dim d k <> 0 ->
  volume adim W d k (ncomp adim dim W d k) = sqrt (gram_det W adim dim d k).
Proof.
  intros H Hg. destruct (sqrt_pos_nz (gram_det_nonneg W d k H) Hg) as [N [S _]].
  hs H; unfold volume, det2, det3; cbn [ncomp].
  - revert N S. set (s := sqrt _). intros N S. apply Rmult_eq_reg_r with s; [|exact N]. rewrite S.
    unfold gram_det, gram, dot; cbn [sumR]. field. exact N.
  - revert N S. set (s := sqrt _). intros N S. apply Rmult_eq_reg_r with s; [|exact N]. rewrite S.
    unfold gram_det, gram, dot; cbn [sumR]. field. exact N.
Qed.

(** *** fundamental forms *)

Lemma gsum_ev W l k : gev W (gsum l) k = sumR (length l) (vat W l k).
Proof.
  assert (G : forall l x, gev W (fold_left GAdd l x) k = gev W x k + sumR (length l) (fun i => gev W (nth i l (gz 0)) k)).
  { clear l. induction l as [|y l IH] using rev_ind; intros x; [cbn; ring|].
    rewrite fold_left_app. cbn [fold_left gev]. rewrite IH, app_length. cbn [length].
    rewrite Nat.add_comm. cbn [Nat.add sumR].
    rewrite app_nth2, Nat.sub_diag by lia. cbn [nth].
    assert (E : forall n, (n <= length l)%nat -> sumR n (fun i => gev W (nth i (l ++ [y]) (gz 0)) k) = sumR n (fun i => gev W (nth i l (gz 0)) k)).
    { induction n; intros; [reflexivity|]. cbn [sumR]. rewrite IHn by lia. rewrite app_nth1 by lia. reflexivity. }
    rewrite E by lia. ring. }
  destruct l as [|x l]; [cbn; field|]. unfold gsum. rewrite G.
  assert (E : forall n, sumR (S n) (fun i => gev W (nth i (x :: l) (gz 0)) k) = gev W x k + sumR n (fun i => gev W (nth i l (gz 0)) k)).
  { induction n; [cbn; ring|]. cbn [sumR] in *. rewrite <- Rplus_assoc, <- IHn. reflexivity. }
  cbn [length]. unfold vat. rewrite E. reflexivity.
Qed.
Lemma gzip_at f a b : length a = length b -> length (gzip f a b) = length a
    /\ forall i, (i < length a)%nat -> nth i (gzip f a b) (gz 0) = f (nth i a (gz 0)) (nth i b (gz 0)).
Proof.
  revert b. induction a as [|x a IH]; intros [|y b0] L0; cbn in *; try discriminate; [split; [auto|lia]|].
  destruct (IH b0) as [A B]; [lia|]. split; [lia|]. intros [|i] Hi; [reflexivity|]. apply B. lia.
Qed.
Lemma gdot_ev W a b k : length a = length b ->
  gev W (gdot a b) k = dot (length a) (vat W a k) (vat W b k).
Proof.
  intros L. unfold gdot. rewrite gsum_ev. unfold dot.
  destruct (gzip_at GMul a b L) as [A B]. rewrite A.
  assert (E : forall n, (n <= length a)%nat -> sumR n (fun i => gev W (nth i (gzip GMul a b) (gz 0)) k)
     = sumR n (fun i => vat W a k i * vat W b k i)).
  { induction n; intros; [reflexivity|]. cbn [sumR]. rewrite IHn by lia. rewrite B by lia. reflexivity. }
  apply E. lia.
Qed.

Lemma pdmat_col adim dim d j : (j < dim)%nat -> gcol (pdmat adim dim d) j = map (fun i => pdc d j i) (seq 0 adim).
Proof.
  intros H. unfold gcol, pdmat. rewrite map_map. apply map_ext. intros i.
  rewrite (nth_indep _ (gz 0) (pdc d 0 i)) by (rewrite map_length, seq_length; lia).
  rewrite (map_nth (fun j => pdc d j i)), seq_nth by lia. reflexivity.
Qed.
Lemma pdcol_at W d j adim k a : (a < adim)%nat -> vat W (map (fun i => pdc d j i) (seq 0 adim)) k a = tangent W d k j a.
Proof.
  intros H. unfold vat. rewrite (nth_indep _ (gz 0) (pdc d j 0)) by (rewrite map_length, seq_length; lia).
  rewrite (map_nth (fun i => pdc d j i)), seq_nth by lia. apply ev_pdc.
Qed.
Lemma sumR_ext n f g : (forall i, (i < n)%nat -> f i = g i) -> sumR n f = sumR n g.
Proof. induction n; intros H; [reflexivity|]. cbn [sumR]. rewrite IHn by (intros; apply H; lia). rewrite H by lia. reflexivity. Qed.
Lemma dot_ext n u v u' v' : (forall i, (i < n)%nat -> u i = u' i) -> (forall i, (i < n)%nat -> v i = v' i) ->
  dot n u v = dot n u' v'.
Proof. intros A B. unfold dot. apply sumR_ext. intros i Hi. rewrite A, B by exact Hi. reflexivity. Qed.

Lemma pdcol_dot W d i j adim k :
  gev W (gdot (map (fun a => pdc d i a) (seq 0 adim)) (map (fun a => pdc d j a) (seq 0 adim))) k = gram W adim d k i j.
Proof.
  rewrite gdot_ev by (rewrite !map_length; reflexivity). rewrite map_length, seq_length.
  unfold gram. apply dot_ext; intros; apply pdcol_at; assumption.
Qed.

Lemma gat_map (f : nat -> nat -> ge) n m i j : (i < n)%nat -> (j < m)%nat ->
  gat (map (fun i => map (f i) (seq 0 m)) (seq 0 n)) i j = f i j.
Proof.
  intros A B. unfold gat. rewrite (nth_indep _ [] (map (f 0%nat) (seq 0 m))) by (rewrite map_length, seq_length; lia).
  rewrite (map_nth (fun i => map (f i) (seq 0 m))), seq_nth by lia.
  rewrite (nth_indep _ (gz 0) (f (0 + i)%nat 0%nat)) by (rewrite map_length, seq_length; lia).
  rewrite (map_nth (f (0 + i)%nat)), seq_nth by lia. reflexivity.
Qed.

Lemma map_map_mat (c : ge -> ge) (f : nat -> nat -> ge) n m :
  map (map c) (map (fun i => map (f i) (seq 0 m)) (seq 0 n)) = map (fun i => map (fun j => c (f i j)) (seq 0 m)) (seq 0 n).
Proof. rewrite map_map. apply map_ext. intros i. rewrite map_map. reflexivity. Qed.

Lemma gshape_map (f : nat -> nat -> ge) n m : (0 < n)%nat ->
  gshape (map (fun i => map (f i) (seq 0 m)) (seq 0 n)) = (n, m).
Proof.
  intros H. unfold gshape. rewrite map_length, seq_length. destruct n; [lia|]. cbn [seq map].
  rewrite map_length, seq_length. reflexivity.
Qed.
Lemma gshape_pdmat adim dim d : (0 < adim)%nat -> gshape (pdmat adim dim d) = (adim, dim).
Proof. intros H. unfold pdmat. apply (@gshape_map (fun i j => pdc d j i)). exact H. Qed.
Lemma gtrans_pdmat adim dim d : (0 < adim)%nat ->
  gtrans (pdmat adim dim d) = map (fun j => map (fun i => pdc d j i) (seq 0 adim)) (seq 0 dim).
Proof.
  intros H. unfold gtrans. rewrite gshape_pdmat by exact H. cbn [snd].
  apply map_ext_in. intros j Hj. apply in_seq in Hj. apply pdmat_col. lia.
Qed.

(** First fundamental form, any dimension. *)
Definition ff1 (adim dim : nat) (d : dofdesc) : list (list ge) :=
  map (fun i => map (fun j => cse_eval "fundform1"
     (gdot (map (fun a => pdc d i a) (seq 0 adim)) (map (fun a => pdc d j a) (seq 0 adim)))) (seq 0 dim)) (seq 0 dim).
Lemma ff1_ok adim dim o dd d : (0 < adim)%nat -> dim_is adim o dim -> as_dofdesc dd = Ok d ->
  first_fundamental_form adim o dd = Ok (ff1 adim dim d).
Proof.
  intros A Ho Hd. unfold first_fundamental_form. rewrite (odim_is Ho), (pdm_ok _ _ _ Hd). cbn [bind].
  f_equal. unfold cse_em, cse_ev, gmatmul, ff1. rewrite (gtrans_pdmat _ _ A), !map_map.
  apply map_ext. intros i. rewrite gshape_pdmat by exact A. cbn [snd]. rewrite !map_map. apply map_ext_in. intros j Hj. apply in_seq in Hj.
  rewrite pdmat_col by lia. reflexivity.
Qed.
Lemma ff1_ev W adim dim d k i j : (i < dim)%nat -> (j < dim)%nat -> mat W (ff1 adim dim d) k i j = gram W adim d k i j.
Proof. intros A B. unfold mat, ff1. rewrite gat_map by assumption. unfold cse_eval. cbn [gev]. apply pdcol_dot. Qed.

(** Second fundamental form. *)
Definition ff2R (W : world) (d : dofdesc) (k i j : nat) : R :=
  dot 3 (second W d (match i, j with 0%nat, 0%nat => [(0, 2)]%Z | 1%nat, 1%nat => [(1, 2)]%Z | _, _ => [(0, 1); (1, 1)]%Z end) k)
        (ncomp 3 2 W d k).

Lemma nrd_vec ax d : (axes_eqb (sorted ax) ax = true) -> length (dict_keys ax []) = length ax ->
  mapM (fun e => num_reference_derivative e (AxTuple ax) (LDesc d)) (map (fun i => GCoord i d) (seq 0 3))
  = Ok (map (fun i => GDer ax (GCoord i d) d) (seq 0 3)).
Proof.
  intros H1 H2. rewrite (@mapM_map _ _ _ (fun e => GDer ax e d)).
  - rewrite map_map. reflexivity.
  - intros e _. unfold num_reference_derivative, make_der. cbn [as_dofdesc bind]. rewrite H1, H2, Nat.eqb_refl. reflexivity.
Qed.

Lemma ff2_ok o dd d : dim_is 3 o 2 -> as_dofdesc dd = Ok d ->
  exists m, second_fundamental_form 3 o dd = Ok m /\ gshape m = (2, 2)%nat
    /\ forall W k i j, (i < 2)%nat -> (j < 2)%nat -> mat W m k i j = ff2R W d k i j.
Proof.
  intros Ho Hd. unfold second_fundamental_form. rewrite (odim_is Ho). cbn [Nat.eqb andb negb].
  rewrite Hd. cbn [bind].
  rewrite !nrd_vec by reflexivity. cbn [bind].
  destruct (@normal_ev 3 2 (Some 2%nat) (LDesc d) d) as [n [En [Ln Hn]]];
    [right; auto | left; reflexivity | reflexivity |]. rewrite En. cbn [bind].
  eexists; split; [reflexivity|]. split; [reflexivity|]. intros W k i j Hi Hj.
  assert (G : forall ax, gev W (gdot (map (fun i => GDer ax (GCoord i d) d) (seq 0 3)) n) k = dot 3 (second W d ax k) (ncomp 3 2 W d k)).
  { intros ax. rewrite gdot_ev by (rewrite map_length, seq_length; lia). rewrite map_length, seq_length.
    apply dot_ext; intros a Ha.
    - destruct a as [|[|[|a]]]; [reflexivity..|lia].
    - apply Hn. exact Ha. }
  unfold mat, ff2R.
  destruct i as [|[|i]]; [| |lia]; (destruct j as [|[|j]]; [| |lia]); unfold gat; cbn [nth]; unfold cse_eval; cbn [gev]; apply G.
Qed.

(** Shape operator. *)
Definition shop (W : world) (d : dofdesc) (k i j : nat) : R :=
  let E := gram W 3 d k 0 0 in let F := gram W 3 d k 0 1 in let G := gram W 3 d k 1 1 in
  let e := ff2R W d k 0 0 in let f := ff2R W d k 0 1 in let g := ff2R W d k 1 1 in
  1 / (E * G - F * F) *
  match i, j with
  | 0%nat, 0%nat => e * G - f * F
  | 0%nat, _ => f * G - g * F
  | _, 0%nat => f * E - e * F
  | _, _ => g * E - f * F
  end.

Lemma shop_ok o dd d : dim_is 3 o 2 -> as_dofdesc dd = Ok d ->
  exists m, shape_operator 3 o dd = Ok m /\ gshape m = (2, 2)%nat
    /\ forall W k i j, (i < 2)%nat -> (j < 2)%nat -> mat W m k i j = shop W d k i j.
Proof.
  intros Ho Hd. unfold shape_operator. rewrite (odim_is Ho). cbn [Nat.eqb andb negb].
  rewrite (@ff1_ok 3 2 (Some 2%nat) dd d ltac:(lia) (or_introl eq_refl) Hd). cbn [bind].
  destruct (@ff2_ok (Some 2%nat) dd d (or_introl eq_refl) Hd) as [m2 [E2 [_ H2]]]. rewrite E2. cbn [bind].
  eexists; split; [reflexivity|]. split; [reflexivity|]. intros W k i j Hi Hj.
  pose proof (fun i j => @ff1_ev W 3 2 d k i j) as H1. unfold mat in H1, H2.
  unfold mat, shop.
  destruct i as [|[|i]]; [| |lia]; (destruct j as [|[|j]]; [| |lia]);
    unfold cse_em, cse_ev, gscale; cbn [map];
    match goal with |- gev W (gat ?m ?i ?j) k = _ => let v := eval cbn [gat nth] in (gat m i j) in change (gat m i j) with v end;
    unfold cse_eval, gz; cbn [gev]; rewrite !H1, !H2 by lia; unfold Rdiv; rewrite ?Rinv_1; ring.
Qed.
