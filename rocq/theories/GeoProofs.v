From Coq Require Import Reals Lra Psatz.
From Verif Require Import Base DofModel GeoModel GeoSpec.
Set Implicit Arguments.
Open Scope R_scope.

Lemma as_dd_total dd : exists d, as_dofdesc dd = Ok d.
Proof. destruct dd as [d| |[| | | |s|g|n]]; eexists; reflexivity. Qed.

Lemma odim_is adim o dim : dim_is adim o dim -> odim adim o = dim.
Proof. intros [->|[-> ->]]; reflexivity. Qed.

Lemma nrd_ok e j d :
  num_reference_derivative e (AxInt (Z.of_nat j)) (LDesc d) = Ok (GDer [(Z.of_nat j, 1%Z)] e d).
Proof.
  unfold num_reference_derivative, make_der. cbn [as_dofdesc bind].
  cbn [sorted ins dict_keys existsb length]. unfold axes_eqb. rewrite !Z.eqb_refl. reflexivity.
Qed.

Lemma mapM_map A B (f : A -> result B) g (l : list A) :
  (forall x, In x l -> f x = Ok (g x)) -> mapM f l = Ok (map g l).
Proof.
  induction l as [|x l IH]; intros H; [reflexivity|]. cbn [mapM map].
  rewrite H by (left; reflexivity). cbn [bind].
  rewrite IH by (intros y Hy; apply H; right; exact Hy). reflexivity.
Qed.

(** The Jacobian matrix, entry by entry. *)
Definition pdc (d : dofdesc) (j a : nat) : ge := cse "pd_matrix" (GDer [(Z.of_nat j, 1%Z)] (GCoord a d) d).
Definition pdmat (adim dim : nat) (d : dofdesc) : list (list ge) :=
  map (fun i => map (fun j => pdc d j i) (seq 0 dim)) (seq 0 adim).

Lemma refjac_ok func od dim d :
  (od <= length func)%nat ->
  reference_jacobian func od dim (LDesc d)
  = Ok (map (fun i => map (fun j => GDer [(Z.of_nat j, 1%Z)] (nth i func (gz 0)) d) (seq 0 dim)) (seq 0 od)).
Proof.
  intros H. unfold reference_jacobian. cbn [as_dofdesc bind].
  apply mapM_map. intros i Hi. apply in_seq in Hi.
  destruct (nth_error func i) as [f|] eqn:E.
  - rewrite (nth_error_nth _ _ (gz 0) E). apply mapM_map. intros j _. apply nrd_ok.
  - apply nth_error_None in E. lia.
Qed.

Lemma pdm_ok adim dim dd d :
  as_dofdesc dd = Ok d -> parametrization_derivative_matrix adim dim dd = Ok (pdmat adim dim d).
Proof.
  intros H. unfold parametrization_derivative_matrix. rewrite H. cbn [bind].
  rewrite refjac_ok by (rewrite map_length, seq_length; lia). cbn [bind].
  f_equal. unfold cse_m, cse_v, pdmat. rewrite map_map. apply map_ext_in. intros i Hi.
  apply in_seq in Hi. rewrite map_map. apply map_ext. intros j.
  rewrite (nth_indep _ (gz 0) (GCoord 0 d)) by (rewrite map_length, seq_length; lia).
  rewrite (map_nth (fun i => GCoord i d)), seq_nth by lia. reflexivity.
Qed.

Lemma ev_pdc W d k j a : gev W (pdc d j a) k = tangent W d k j a.
Proof. reflexivity. Qed.
Lemma gn_pdc W d j a : gn W (pdc d j a) = Some (w_n W d).
Proof. reflexivity. Qed.

Ltac hs H := destruct H as [[-> ->]|[-> ->]].

Definition pse2 (d : dofdesc) : mv :=
  cse_mv "pseudoscalar" (mv_vec (gcol (pdmat 2 1 d) 0)).
Definition pse3 (d : dofdesc) : mv :=
  cse_mv "pseudoscalar" (mv_maxgrade 3 (mv_geo 3 (mv_vec (gcol (pdmat 3 2 d) 0)) (mv_vec (gcol (pdmat 3 2 d) 1)))).

Lemma pse2_ok o dd d : dim_is 2 o 1 -> as_dofdesc dd = Ok d -> pseudoscalar 2 o dd = Ok (pse2 d).
Proof.
  intros Ho Hd. unfold pseudoscalar, parametrization_derivative. rewrite (odim_is Ho).
  rewrite (pdm_ok _ _ _ Hd). reflexivity.
Qed.
Lemma pse3_ok o dd d : dim_is 3 o 2 -> as_dofdesc dd = Ok d -> pseudoscalar 3 o dd = Ok (pse3 d).
Proof.
  intros Ho Hd. unfold pseudoscalar, parametrization_derivative. rewrite (odim_is Ho).
  rewrite (pdm_ok _ _ _ Hd). reflexivity.
Qed.

Lemma area2_ok o dd d : dim_is 2 o 1 -> as_dofdesc dd = Ok d ->
  area_element 2 o dd = Ok (cse "area_element" (GSqrt (mv_norm2 (pse2 d)))).
Proof. intros Ho Hd. unfold area_element. rewrite (pse2_ok _ Ho Hd). reflexivity. Qed.
Lemma area3_ok o dd d : dim_is 3 o 2 -> as_dofdesc dd = Ok d ->
  area_element 3 o dd = Ok (cse "area_element" (GSqrt (mv_norm2 (pse3 d)))).
Proof. intros Ho Hd. unfold area_element. rewrite (pse3_ok _ Ho Hd). reflexivity. Qed.

Lemma norm2_2 W d k : gev W (mv_norm2 (pse2 d)) k = gram_det W 2 1 d k.
Proof.
  cbv [mv_norm2 pse2 cse_mv mv_vec gcol pdmat map seq combine gsum fold_left length nth snd fst cse].
  cbn [gev]. rewrite !ev_pdc. unfold gram_det, gram, dot. cbn [sumR]. ring.
Qed.

Lemma pse3_val d :
  let c i j := pdc d j i in
  pse3 d = [(3%nat, cse "pseudoscalar" (GAdd (GMul (GMul (gz 1) (c 0%nat 0%nat)) (c 1%nat 1%nat)) (GMul (GMul (gz (-1)) (c 1%nat 0%nat)) (c 0%nat 1%nat))));
            (5%nat, cse "pseudoscalar" (GAdd (GMul (GMul (gz 1) (c 0%nat 0%nat)) (c 2%nat 1%nat)) (GMul (GMul (gz (-1)) (c 2%nat 0%nat)) (c 0%nat 1%nat))));
            (6%nat, cse "pseudoscalar" (GAdd (GMul (GMul (gz 1) (c 1%nat 0%nat)) (c 2%nat 1%nat)) (GMul (GMul (gz (-1)) (c 2%nat 0%nat)) (c 1%nat 1%nat))))].
Proof. reflexivity. Qed.

Lemma norm2_3 W d k : gev W (mv_norm2 (pse3 d)) k = gram_det W 3 2 d k.
Proof.
  rewrite pse3_val.
  cbv [mv_norm2 map gsum fold_left snd fst cse gz].
  cbn [gev]. rewrite !ev_pdc. unfold gram_det, gram, dot. cbn [sumR]. field.
Qed.

Lemma gram_det_nonneg adim dim W d k : hypersurface adim dim -> 0 <= gram_det W adim dim d k.
Proof.
  intros H. hs H; unfold gram_det, gram, dot; cbn [sumR].
  - nra.
  - generalize (tangent W d k 0 0) (tangent W d k 0 1) (tangent W d k 0 2)
      (tangent W d k 1 0) (tangent W d k 1 1) (tangent W d k 1 2). intros a b c x y z.
    match goal with |- 0 <= ?e => replace e with ((a*y-b*x)^2 + (a*z-c*x)^2 + (b*z-c*y)^2) by ring end.
    pose proof (pow2_ge_0 (a*y-b*x)). pose proof (pow2_ge_0 (a*z-c*x)). pose proof (pow2_ge_0 (b*z-c*y)). lra.
Qed.

Lemma area_ev adim dim o dd d W k : hypersurface adim dim -> dim_is adim o dim -> as_dofdesc dd = Ok d ->
  exists a, area_element adim o dd = Ok a /\ gn W a = Some (w_n W d) /\ gev W a k = sqrt (gram_det W adim dim d k).
Proof.
  intros H Ho Hd. hs H.
  - rewrite (area2_ok _ Ho Hd). eexists; split; [reflexivity|]. split; [reflexivity|].
    unfold cse. cbn [gev]. rewrite norm2_2. reflexivity.
  - rewrite (area3_ok _ Ho Hd). eexists; split; [reflexivity|]. split; [reflexivity|].
    unfold cse. cbn [gev]. rewrite norm2_3. reflexivity.
Qed.

(** The normal's components. *)
Definition ncomp (adim dim : nat) (W : world) (d : dofdesc) (k : nat) (a : nat) : R :=
  match adim, a with
  | 2%nat, 0%nat => tangent W d k 0 1 / sqrt (gram_det W 2 1 d k)
  | 2%nat, 1%nat => - tangent W d k 0 0 / sqrt (gram_det W 2 1 d k)
  | 3%nat, 0%nat => (tangent W d k 0 1 * tangent W d k 1 2 - tangent W d k 0 2 * tangent W d k 1 1) / sqrt (gram_det W 3 2 d k)
  | 3%nat, 1%nat => (tangent W d k 0 2 * tangent W d k 1 0 - tangent W d k 0 0 * tangent W d k 1 2) / sqrt (gram_det W 3 2 d k)
  | 3%nat, 2%nat => (tangent W d k 0 0 * tangent W d k 1 1 - tangent W d k 0 1 * tangent W d k 1 0) / sqrt (gram_det W 3 2 d k)
  | _, _ => 0
  end.

Lemma nvec2 p0 p1 A :
  mv_as_vector 2 (cse_mv "normal" (mv_lc 2 (mv_div [(1%nat, p0); (2%nat, p1)] A) (mv_Iinv 2)))
  = Ok [cse "normal" (GMul (GMul (gz (-1)) (GDiv p1 A)) (gz (-1)));
        cse "normal" (GMul (GMul (gz 1) (GDiv p0 A)) (gz (-1)))].
Proof. reflexivity. Qed.
Lemma nvec3 p01 p02 p12 A :
  mv_as_vector 3 (cse_mv "normal" (mv_lc 3 (mv_div [(3%nat, p01); (5%nat, p02); (6%nat, p12)] A) (mv_Iinv 3)))
  = Ok [cse "normal" (GMul (GMul (gz (-1)) (GDiv p12 A)) (gz (-1)));
        cse "normal" (GMul (GMul (gz 1) (GDiv p02 A)) (gz (-1)));
        cse "normal" (GMul (GMul (gz (-1)) (GDiv p01 A)) (gz (-1)))].
Proof. reflexivity. Qed.
Lemma pse2_val d : pse2 d = [(1%nat, cse "pseudoscalar" (pdc d 0 0)); (2%nat, cse "pseudoscalar" (pdc d 0 1))].
Proof. reflexivity. Qed.

Lemma normal_ev adim dim o dd d : hypersurface adim dim -> dim_is adim o dim -> as_dofdesc dd = Ok d ->
  exists n, normal adim o dd = Ok n /\ length n = adim
    /\ forall W k a, (a < adim)%nat -> vat W n k a = ncomp adim dim W d k a.
Proof.
  intros H Ho Hd. unfold normal. rewrite Hd. cbn [bind]. hs H.
  - rewrite (@pse2_ok o (LDesc d) d Ho eq_refl), (@area2_ok o (LDesc d) d Ho eq_refl). cbn [bind].
    set (A := cse "area_element" _).
    assert (EA : forall W k, gev W A k = sqrt (gram_det W 2 1 d k)) by (intros; unfold A, cse; cbn [gev]; rewrite norm2_2; reflexivity).
    clearbody A. rewrite pse2_val, nvec2. eexists; split; [reflexivity|]. split; [reflexivity|]. intros W k a Ha.
    destruct a as [|[|a]]; [| |lia]; unfold vat; cbn [nth]; unfold cse, gz; cbn [gev]; rewrite ?ev_pdc, ?EA; unfold ncomp;
      unfold Rdiv; rewrite ?Rinv_1; ring.
  - rewrite (@pse3_ok o (LDesc d) d Ho eq_refl), (@area3_ok o (LDesc d) d Ho eq_refl). cbn [bind].
    set (A := cse "area_element" _).
    assert (EA : forall W k, gev W A k = sqrt (gram_det W 3 2 d k)) by (intros; unfold A, cse; cbn [gev]; rewrite norm2_3; reflexivity).
    clearbody A. rewrite pse3_val. cbv zeta. rewrite nvec3. eexists; split; [reflexivity|]. split; [reflexivity|]. intros W k a Ha.
    destruct a as [|[|[|a]]]; [| | |lia]; unfold vat; cbn [nth]; unfold cse, gz; cbn [gev]; rewrite ?ev_pdc, ?EA; unfold ncomp;
      unfold Rdiv; rewrite ?Rinv_1; ring.
Qed.
