(** C85, C86: the symbolic Maxwell operators. *)
From Coq Require Import Ring.
From Verif Require Import Base MatModel PdeModel PdeSpec MaxModel MaxSpec MaxProofs MaxProofs2 MaxProofs3.
Set Implicit Arguments.
Open Scope string_scope.
Open Scope list_scope.
Open Scope nat_scope.

(** The six components: electric field, then magnetic field. *)
Definition el_of (W : mworld) (f : list mx) : vec W := mat_ W (firstn 3 f).
Definition mag_of (W : mworld) (f : list mx) : vec W := mat_ W (skipn 3 f).

Section P.
Variable W : mworld.
Hypothesis HW : mworld_ok W.
Add Ring WR : (mo_ring HW).
Local Notation "x + y" := (radd W x y). Local Notation "x * y" := (rmul W x y).
Local Notation "x - y" := (rsub W x y). Local Notation "- x" := (ropp W x).
Local Notation half := (m_num W (NRat 1 2)).

(** ** Incident fields. *)
Theorem point_source_is_maxwell_field D k j :
  volume W D -> helmholtz W D (mev W k) -> constant W D (mev W k) -> length j = 3 ->
  let A := curl3 W D (pot_S W LNone (mev W k) (mat_ W j)) in
  exists f, point_source k j = Ok f /\ length f = 6
  /\ veq W (el_of W f) (vmul W (im W * mev W k) A) /\ veq W (mag_of W f) (curl3 W D A)
  /\ maxwell W D (mev W k) (r1 W) (r1 W) (el_of W f) (mag_of W f).
Proof.
  intros HV Hk Ck L A.
  assert (LP : lpvals k (symSv LNone k j) (pot_S W LNone (mev W k) (mat_ W j))).
  { split; [apply vals_S; auto|]. unfold symSv. apply Forall_forall. intros x Hx.
    apply in_map_iff in Hx as (y & <- & _). constructor. }
  destruct (curl_D HW HV Hk LP) as (a & Ea & LPa).
  destruct (curl_D HW HV Hk LPa) as (h & Eh & [Vh _]). destruct LPa as [Va _]. fold A in Va, Vh.
  unfold point_source. rewrite Ea. cbn [bind]. rewrite Eh. cbn [bind].
  eexists. split; [reflexivity|].
  pose proof (vals_scale (MMul mi k) Va) as Ve. cbn [mev] in Ve.
  assert (QE : veq W (el_of W (vscale (MMul mi k) a ++ h)) (vmul W (im W * mev W k) A)).
  { unfold el_of. rewrite (firstn3 _ _ (proj1 Ve)). exact (proj2 Ve). }
  assert (QH : veq W (mag_of W (vscale (MMul mi k) a ++ h)) (curl3 W D A)).
  { unfold mag_of. rewrite (skipn3 _ _ (proj1 Ve)). exact (proj2 Vh). }
  split; [rewrite app_length, (proj1 Ve), (proj1 Vh); reflexivity|].
  split; [exact QE|]. split; [exact QH|].
  apply (maxwell_veq QE QH). apply (dipole_maxwell HW HV); auto.
Qed.

(** [c_inv] is the root of mu*eps that numpy returns, [s] the norm of [v]; [omega] is the wave
    number, so the angular frequency [w] of the field has w * c_inv = omega. The second triple is
    the flux density B = mu H. [X] is the exponential of the phase, and the last hypothesis what the
    chain rule gives for it. *)
Theorem plane_wave_is_maxwell_field D amp v omega eps mu w mu_inv :
  volume W D -> length amp = 3 -> length v = 3 ->
  let s := m_sqrt W (dot3 W (mat_ W v) (mat_ W v)) in
  let c_inv := m_sqrt W (mev W mu * mev W eps) in
  s * s = dot3 W (mat_ W v) (mat_ W v) -> s * rinv W s = r1 W ->
  c_inv * c_inv = mev W mu * mev W eps -> mev W mu * mu_inv = r1 W -> w * c_inv = mev W omega ->
  (forall a, constant W D (mat_ W v a)) -> (forall a, constant W D (mat_ W amp a)) -> constant W D (rinv W s) ->
  constant W D (mev W omega) -> constant W D c_inv -> constant W D mu_inv ->
  let X := m_exp W (im W * (mev W omega * rinv W s * dot3 W (mat_ W v) (m_node W))) in
  (forall m, m < 3 -> D m X = im W * (mev W omega * rinv W s * mat_ W v m) * X) ->
  exists f, plane_wave amp v omega eps mu = Ok f /\ length f = 6
  /\ dot3 W (el_of W f) (mat_ W v) = r0 W
  /\ (dot3 W (mat_ W amp) (mat_ W v) = r0 W -> veq W (el_of W f)
       (fun a => mat_ W amp a * X))
  /\ maxwell W D w (mev W eps) (mev W mu) (el_of W f) (vmul W mu_inv (mag_of W f)).
Proof.
  intros HV La Lv s c_inv Hs Hsi Hc Hmu Hw Cv Ca Csi Co Cc Cmi X HX.
  set (n := fun a => mat_ W v a * rinv W s).
  assert (Va : vals amp (mat_ W amp)) by (apply vals_self; auto).
  assert (Vv : vals v (mat_ W v)) by (apply vals_self; auto).
  unfold plane_wave.
  destruct (vals_dot HW Vv Vv) as (vv & Evv & Mvv). rewrite Evv. cbn [bind].
  set (nn := map (fun c => MDiv c (MSqrt (MCse vv))) v).
  assert (Vn : vals nn n).
  { destruct (len3 _ Lv) as (v0 & v1 & v2 & ->). apply vals_intro; cbn [mev]; rewrite Mvv; reflexivity. }
  destruct (vals_dot HW Va Vn) as (an & Ean & Man). rewrite Ean. cbn [bind].
  destruct (vals_sub Va (vals_scale an Vn)) as (amp' & Eamp & Vamp). rewrite Eamp. cbn [bind].
  assert (Vx : vals (map MNode (seq 0 3)) (m_node W)) by (apply vals_intro; reflexivity).
  assert (Vno : vals (map (fun c => MMul c omega) nn) (fun a => n a * mev W omega)).
  { pose proof Vn as V'. apply vals_inv in V' as (a & b & c & E & A & B & C). rewrite E.
    apply vals_intro; cbn [mev]; congruence. }
  destruct (vals_dot HW Vno Vx) as (ph & Eph & Mph). rewrite Eph. cbn [bind].
  set (e := map (fun c => MMul c (MExp (MMul mi ph))) amp').
  set (amp2 := fun a => mat_ W amp a - dot3 W (mat_ W amp) n * n a).
  assert (PH : mev W ph = mev W omega * rinv W s * dot3 W (mat_ W v) (m_node W)).
  { rewrite Mph. unfold dot3, n. ring. }
  assert (Ve : vals e (fun a => amp2 a * X)).
  { apply vals_inv in Vamp as (a & b & c & E & A & B & C). unfold e. rewrite E.
    apply vals_intro; cbn [mev]; rewrite ?A, ?B, ?C, Man, PH; reflexivity. }
  destruct (vals_cross HW Vn Ve) as (h & Eh & Vh). rewrite Eh. cbn [bind].
  pose proof (vals_scale (MSqrt (MMul mu eps)) Vh) as Vb. cbn [mev] in Vb. fold c_inv in Vb.
  eexists. split; [reflexivity|].
  split; [rewrite app_length, (proj1 Ve), (proj1 Vb); reflexivity|].
  set (f := e ++ vscale (MSqrt (MMul mu eps)) h).
  assert (QE : veq W (el_of W f) (fun a => amp2 a * X)).
  { unfold el_of, f. rewrite (firstn3 _ _ (proj1 Ve)). exact (proj2 Ve). }
  assert (QB : veq W (mag_of W f) (fun i => c_inv * cross3 W n (fun a => amp2 a * X) i)).
  { unfold mag_of, f. rewrite (skipn3 _ _ (proj1 Ve)). exact (proj2 Vb). }
  (* geometry *)
  assert (NN : dot3 W n n = r1 W).
  { transitivity ((rinv W s * rinv W s) * dot3 W (mat_ W v) (mat_ W v)); [unfold dot3, n; ring|].
    rewrite <- Hs. transitivity ((s * rinv W s) * (s * rinv W s)); [ring|]. rewrite Hsi. ring. }
  assert (N2 : dot3 W n amp2 = r0 W).
  { transitivity (dot3 W (mat_ W amp) n - dot3 W (mat_ W amp) n * dot3 W n n); [unfold amp2, dot3; ring|].
    rewrite NN. ring. }
  assert (NE : dot3 W n (fun a => amp2 a * X) = r0 W).
  { transitivity (dot3 W n amp2 * X); [unfold dot3; ring|]. rewrite N2. ring. }
  assert (VE : dot3 W (fun a => amp2 a * X) (mat_ W v) = r0 W).
  { transitivity ((s * rinv W s) * dot3 W (fun a => amp2 a * X) (mat_ W v)); [rewrite Hsi; ring|].
    transitivity (s * dot3 W n (fun a => amp2 a * X)); [unfold dot3, n; ring|]. rewrite NE. ring. }
  split.
  { transitivity (dot3 W (fun a => amp2 a * X) (mat_ W v)); [|exact VE].
    unfold dot3. rewrite !QE by lia. reflexivity. }
  split.
  { intros AV a Ha. rewrite (QE a Ha). f_equal. unfold amp2.
    assert (Z : dot3 W (mat_ W amp) n = r0 W).
    { transitivity (rinv W s * dot3 W (mat_ W amp) (mat_ W v)); [unfold dot3, n; ring|]. rewrite AV. ring. }
    rewrite Z. ring. }
  (* derivatives *)
  assert (Cn : forall a, constant W D (n a)) by (intros a; apply (const_mul HW); auto).
  assert (DX : forall m, m < 3 -> D m X = im W * (n m * mev W omega) * X).
  { intros m Hm. rewrite (HX m Hm). unfold n. ring. }
  assert (CA : forall a, constant W D (amp2 a)).
  { intros a m g.
    assert (CD : constant W D (dot3 W (mat_ W amp) n)).
    { unfold dot3. intros m' g'.
      assert (R : forall x y z, (x + y + z) * g' = x * g' + y * g' + z * g') by (intros; ring).
      rewrite R, !(vo_add HV), !(const_mul HW (Ca _) (Cn _)). ring. }
    unfold amp2. transitivity (D m (mat_ W amp a * g - dot3 W (mat_ W amp) n * n a * g)); [f_equal; ring|].
    rewrite (D_sub HW HV), Ca, (const_mul HW CD (Cn a)). ring. }
  set (E0 := fun a => amp2 a * X) in *.
  destruct (@wave_curl W HW D n amp2 (mev W omega) X (E0) DX CA (fun a _ => eq_refl)) as [CE DE].
  set (B0 := fun i => c_inv * cross3 W n E0 i) in *.
  set (amp3 := fun a => mu_inv * (c_inv * cross3 W n amp2 a)).
  assert (CA3 : forall a, constant W D (amp3 a)).
  { intros a m g. unfold amp3.
    assert (CC : forall a b, constant W D (n a * amp2 b)) by (intros; apply (const_mul HW); auto).
    assert (CX : constant W D (cross3 W n amp2 a)).
    { intros m' g'.
      assert (R : forall x y, (x - y) * g' = x * g' - y * g') by (intros; ring).
      destruct a as [|[|a]]; cbn [cross3]; rewrite R, (D_sub HW HV), !CC; ring. }
    rewrite (const_mul HW Cmi (const_mul HW Cc CX)). reflexivity. }
  assert (QH : veq W (vmul W mu_inv (mag_of W f)) (fun a => amp3 a * X)).
  { intros a Ha. unfold vmul. rewrite (QB a Ha). unfold amp3, B0, E0.
    destruct (lt3 Ha) as [->|[->| ->]]; cbn [cross3]; ring. }
  destruct (@wave_curl W HW D n amp3 (mev W omega) X (fun a => amp3 a * X) DX CA3 (fun a _ => eq_refl)) as [CH DH].
  apply (maxwell_veq QE QH).
  pose proof (double_cross_n HW n E0 NN NE) as DC.
  assert (XH : forall a, a < 3 -> amp3 a * X = mu_inv * c_inv * cross3 W n E0 a).
  { intros a Ha. unfold amp3, E0. destruct (lt3 Ha) as [->|[->| ->]]; cbn [cross3]; ring. }
  constructor.
  - intros a Ha. rewrite (CE a Ha). unfold vmul. rewrite (XH a Ha), <- Hw.
    transitivity (im W * (w * c_inv) * ((mev W mu * mu_inv) * cross3 W n E0 a)); [rewrite Hmu; ring | ring].
  - intros a Ha. rewrite (CH a Ha).
    assert (Q : cross3 W n (fun a => amp3 a * X) a = mu_inv * c_inv * (- E0 a)).
    { rewrite <- (DC a Ha). rewrite <- (cross_mul HW n (cross3 W n E0)). apply cross_veq.
      intros i Hi. apply XH; auto. }
    rewrite Q. unfold vmul. rewrite <- Hw.
    transitivity (- (im W * w * mu_inv * (c_inv * c_inv) * E0 a)); [ring|]. rewrite Hc.
    transitivity (- (im W * w * (mev W mu * mu_inv) * mev W eps * E0 a)); [ring|]. rewrite Hmu. ring.
  - rewrite DE, NE. ring.
  - rewrite DH.
    transitivity (im W * mev W omega * (mu_inv * c_inv * dot3 W n (cross3 W n E0))).
    + f_equal. unfold dot3. rewrite !XH by lia. ring.
    + unfold dot3, cross3. ring.
Qed.

(** ** Perfectly conducting surface: charge-current MFIE. *)
(** Fields: Faraday and div H hold for any density; the full system in the Lorenz gauge. *)
Theorem pec_scattered_field_is_maxwell_field D k jt rho :
  volume W D -> helmholtz W D (mev W k) -> constant W D (mev W k) -> length jt = 2 ->
  let J := tangential W (mat_ W jt) in
  exists f, pec_scattered_volume_field k jt rho LNone = Ok f /\ length f = 6
  /\ veq W (curl3 W D (el_of W f)) (vmul W (im W * mev W k) (mag_of W f))
  /\ div3 W D (mag_of W f) = r0 W
  /\ (pot_div W (mev W k) J = im W * mev W k * m_lp W [] LNone (mev W k) (mev W rho) ->
      maxwell W D (mev W k) (r1 W) (r1 W) (el_of W f) (mag_of W f)).
Proof.
  intros HV Hk Ck L J.
  assert (VJ : vals (vcse (tangential_to_xyz jt)) J) by (apply vals_cse, (vals_tan_to_xyz HW); auto).
  unfold pec_scattered_volume_field.
  destruct (grad_lp W LNone k rho) as (g & Eg & Vg). rewrite Eg. cbn [bind].
  destruct (vals_sub (vals_scale (MMul mi k) (vals_S' LNone k VJ)) Vg) as (e & Ee & Ve). rewrite Ee. cbn [bind].
  destruct (curl_lp' HW LNone k VJ) as (h & Eh & Vh). rewrite Eh. cbn [bind].
  eexists. split; [reflexivity|].
  split; [rewrite app_length, (proj1 Ve), (proj1 Vh); reflexivity|].
  destruct (pec_maxwell HW HV J (mev W rho) Hk Ck) as (F & N & Mx). cbv zeta in F, N, Mx.
  assert (QE : veq W (el_of W (e ++ h)) (fun a => (im W * mev W k) * pot_S W LNone (mev W k) J a - D a (m_lp W [] LNone (mev W k) (mev W rho)))).
  { unfold el_of. rewrite (firstn3 _ _ (proj1 Ve)). intros a Ha. rewrite (proj2 Ve a Ha). cbn [mev].
    rewrite (pot_grad_grad _ a Hk). reflexivity. }
  assert (QH : veq W (mag_of W (e ++ h)) (curl3 W D (pot_S W LNone (mev W k) J))).
  { unfold mag_of. rewrite (skipn3 _ _ (proj1 Ve)). intros a Ha. rewrite (proj2 Vh a Ha). apply pot_rot_curl; auto. }
  split.
  { intros a Ha. rewrite (curl_veq D QE). rewrite (F a Ha). unfold vmul. rewrite (QH a Ha). reflexivity. }
  split.
  { rewrite (div_veq D QH). exact N. }
  intros LG. apply (maxwell_veq QE QH). apply Mx. rewrite <- LG. symmetry. apply pot_div_div; auto.
Qed.

(** The equations: the total magnetic (electric) field just on the side [-loc] has no tangential
    (normal) component. *)
Theorem pec_equations_are_boundary_conditions k loc jt rho einc hinc :
  frame W -> jumps W (mev W k) -> (loc = 1 \/ loc = -1)%Z ->
  length jt = 2 -> length einc = 3 -> length hinc = 3 ->
  exists f aj bj ar br,
    pec_scattered_volume_field k jt rho (LSide (- loc)) = Ok f /\ length f = 6
  /\ pec_j_operator k loc jt = Ok aj /\ pec_j_rhs hinc = Ok bj
  /\ length aj = 2 /\ length bj = 2
  /\ pec_rho_operator k loc rho = Ok ar /\ pec_rho_rhs k jt einc = Ok br
  /\ ((forall i, i < 2 -> mat_ W aj i = mat_ W bj i)
      <-> veq W (cross3 W (nrm W) (vplus W (mat_ W hinc) (mag_of W f))) (vzero W))
  /\ (mev W ar = mev W br <-> dot3 W (nrm W) (vplus W (mat_ W einc) (el_of W f)) = r0 W).
Proof.
  intros HF Jk Hloc L Le Lh.
  assert (Hs : (- loc = 1 \/ - loc = -1)%Z) by lia.
  set (K := mev W k) in *. set (t := mat_ W jt). set (J := tangential W t).
  assert (VJ : vals (vcse (tangential_to_xyz jt)) J) by (apply vals_cse, (vals_tan_to_xyz HW); auto).
  assert (Vhi : vals hinc (mat_ W hinc)) by (apply vals_self; auto).
  assert (Vei : vals einc (mat_ W einc)) by (apply vals_self; auto).
  (* the field *)
  unfold pec_scattered_volume_field.
  destruct (grad_lp W (LSide (- loc)) k rho) as (g & Eg & Vg). rewrite Eg. cbn [bind].
  destruct (vals_sub (vals_scale (MMul mi k) (vals_S' (LSide (- loc)) k VJ)) Vg) as (e & Ee & Ve). rewrite Ee. cbn [bind].
  destruct (curl_lp' HW (LSide (- loc)) k VJ) as (h & Eh & Vh). rewrite Eh. cbn [bind].
  (* the operators *)
  unfold pec_j_operator, pec_j_rhs, pec_rho_operator, pec_rho_rhs.
  destruct (curl_lp' HW LAvg k VJ) as (c & Ec & Vc). rewrite Ec. cbn [bind].
  destruct (vals_ncross HW Vc) as (nc & Enc & Vnc). rewrite Enc. cbn [bind].
  destruct (vals_sub (vals_scale (loc_half loc) VJ) Vnc) as (r & Er & Vr). rewrite Er. cbn [bind].
  destruct (vals_xyz_to_tan HW Vr) as (p0 & p1 & Ep & P0 & P1). rewrite Ep.
  destruct (vals_ncross HW Vhi) as (nh & Enh & Vnh). rewrite Enh. cbn [bind].
  destruct (vals_xyz_to_tan HW Vnh) as (q0 & q1 & Eq & Q0 & Q1). rewrite Eq.
  unfold symSp. destruct (grad_lp W LAvg k rho) as (ga & Ega & Vga). rewrite Ega. cbn [bind].
  destruct (vals_dot HW (vals_normal W) Vga) as (sp & Esp & Msp). rewrite Esp. cbn [bind].
  destruct (vals_ndot HW Vei) as (ne & Ene & Mne). rewrite Ene. cbn [bind].
  destruct (vals_ndot HW (vals_S' LAvg k VJ)) as (na & Ena & Mna). rewrite Ena. cbn [bind].
  do 5 eexists. split; [reflexivity|].
  split; [rewrite app_length, (proj1 Ve), (proj1 Vh); reflexivity|].
  split; [reflexivity|]. split; [reflexivity|]. split; [reflexivity|]. split; [reflexivity|].
  split; [reflexivity|]. split; [reflexivity|].
  assert (Ho : of_Z W (- loc) = - of_Z W loc).
  { destruct Hloc as [-> | ->]; cbn [Z.opp of_Z of_pos]; ring. }
  assert (Hlh : mev W (loc_half loc) = of_Z W loc * half).
  { unfold loc_half, mint. cbn [mev]. rewrite (mo_int HW). reflexivity. }
  split.
  - assert (QH : veq W (mag_of W (e ++ h)) (pot_rot W (LSide (- loc)) K J)).
    { unfold mag_of. rewrite (skipn3 _ _ (proj1 Ve)). exact (proj2 Vh). }
    assert (TOT : veq W (cross3 W (nrm W) (vplus W (mat_ W hinc) (mag_of W (e ++ h))))
       (fun a => cross3 W (nrm W) (mat_ W hinc) a - (of_Z W loc * half * J a - cross3 W (nrm W) (pot_rot W LAvg K J) a))).
    { intros a Ha. unfold vplus. rewrite (cross_add HW).
      rewrite (cross_veq (nrm W) QH). unfold J at 1. rewrite (n_rot_side HW HF t Jk Hs Ha). fold J. rewrite Ho. ring. }
    assert (N1 : dot3 W (nrm W) (fun i => mev W (loc_half loc) * J i - cross3 W (nrm W) (pot_rot W LAvg (mev W k) J) i) = r0 W).
    { transitivity (mev W (loc_half loc) * dot3 W (nrm W) J - dot3 W (nrm W) (cross3 W (nrm W) (pot_rot W LAvg (mev W k) J))).
      - unfold dot3. ring.
      - unfold J at 1. rewrite (nrm_tangential HW HF), (nrm_cross_self HW). ring. }
    pose proof (tangential_eq HW _ _ HF N1 (nrm_cross_self HW (mat_ W hinc))) as TE.
    transitivity (dot3 W (m_basis W 0) (fun i => mev W (loc_half loc) * J i - cross3 W (nrm W) (pot_rot W LAvg (mev W k) J) i)
        = dot3 W (m_basis W 0) (cross3 W (nrm W) (mat_ W hinc))
      /\ dot3 W (m_basis W 1) (fun i => mev W (loc_half loc) * J i - cross3 W (nrm W) (pot_rot W LAvg (mev W k) J) i)
        = dot3 W (m_basis W 1) (cross3 W (nrm W) (mat_ W hinc))).
    { rewrite <- P0, <- P1, <- Q0, <- Q1. split.
      - intros H. split; [apply (H 0); lia | apply (H 1); lia].
      - intros [A B] i Hi. destruct i as [|[|i]]; [exact A | exact B | lia]. }
    rewrite TE. split.
    + intros H a Ha. rewrite (TOT a Ha). rewrite <- (H a Ha), Hlh. unfold vzero, K. ring.
    + intros H a Ha. specialize (H a Ha). rewrite (TOT a Ha) in H. unfold vzero in H. rewrite Hlh.
      transitivity (of_Z W loc * half * J a - cross3 W (nrm W) (pot_rot W LAvg K J) a + r0 W); [unfold K; ring|].
      rewrite <- H. ring.
  - assert (QE : veq W (el_of W (e ++ h)) (fun a => (im W * K) * pot_S W (LSide (- loc)) K J a - pot_grad W (LSide (- loc)) K (mev W rho) a)).
    { unfold el_of. rewrite (firstn3 _ _ (proj1 Ve)). exact (proj2 Ve). }
    assert (TOT : dot3 W (nrm W) (vplus W (mat_ W einc) (el_of W (e ++ h)))
       = (dot3 W (nrm W) (mat_ W einc) + im W * K * dot3 W (nrm W) (pot_S W LAvg K J))
         - (of_Z W loc * half * mev W rho + dot3 W (nrm W) (pot_grad W LAvg K (mev W rho)))).
    { transitivity (dot3 W (nrm W) (mat_ W einc) + (im W * K * dot3 W (nrm W) (pot_S W (LSide (- loc)) K J)
          - dot3 W (nrm W) (pot_grad W (LSide (- loc)) K (mev W rho)))).
      - unfold vplus, dot3. rewrite !QE by lia. ring.
      - rewrite (ndot_grad_side HW HF (mev W rho) Jk Hs), Ho.
        rewrite (dot_veq (nrm W) (u := pot_S W (LSide (- loc)) K J) (v := pot_S W LAvg K J)) by (intros i _; apply pot_S_side; auto).
        ring. }
    rewrite TOT. cbn [mev]. rewrite Hlh, Msp, Mne, Mna. fold K. change (mev W mi) with (im W). split.
    + intros H. rewrite <- H. ring.
    + intros H. match goal with |- ?a = ?b => transitivity (a + r0 W); [ring|] end. rewrite <- H. ring.
Qed.

(** ** Mueller: two dielectrics. *)
Theorem mueller_equations_are_transmission_conditions o dom0 dom1 unk einc hinc :
  mu_domains o = [dom0; dom1] -> frame W ->
  let k0 := mev W (mueller_k o dom0) in let k1 := mev W (mueller_k o dom1) in
  jumps W k0 -> jumps W k1 ->
  length unk = 6 -> length einc = 3 -> length hinc = 3 ->
  let omega := mev W (mu_omega o) in
  let eps0 := mev W (d_eps dom0) in let mu0 := mev W (d_mu dom0) in
  let eps1 := mev W (d_eps dom1) in let mu1 := mev W (d_mu dom1) in
  let J := tangential W (mat_ W unk) in let rho_e := mat_ W unk 2 in
  let M := tangential W (fun j => mat_ W unk (3 + j)%nat) in let rho_m := mat_ W unk 5 in
  (* the fields on the outer side in domain 1 and on the inner side in domain 0 *)
  let E1 := mueller_el W omega eps1 mu1 k1 (LSide 1) J M rho_e in
  let H1 := mueller_mag W omega eps1 mu1 k1 (LSide 1) J M rho_m in
  let E0 := mueller_el W omega eps0 mu0 k0 (LSide (-1)) J M rho_e in
  let H0 := mueller_mag W omega eps0 mu0 k0 (LSide (-1)) J M rho_m in
  exists f g, mueller_operator o unk = Ok f /\ mueller_rhs o einc hinc = Ok g
  /\ length f = 6 /\ length g = 6
  /\ ((forall i, i < 6 -> mat_ W f i = mat_ W g i) <->
      veq W (cross3 W (nrm W) (vminus W H1 H0)) (cross3 W (nrm W) (mat_ W hinc))
   /\ dot3 W (nrm W) (vminus W (vmul W eps1 E1) (vmul W eps0 E0)) = dot3 W (nrm W) (vmul W eps1 (mat_ W einc))
   /\ veq W (cross3 W (nrm W) (vminus W E1 E0)) (cross3 W (nrm W) (mat_ W einc))
   /\ dot3 W (nrm W) (vminus W (vmul W mu1 H1) (vmul W mu0 H0)) = dot3 W (nrm W) (vmul W mu1 (mat_ W hinc))).
Proof.
  intros HD HF k0 k1 J0 J1 Lu Le Lh omega eps0 mu0 eps1 mu1 J rho_e M rho_m E1 H1 E0 H0.
  destruct unk as [|u0 [|u1 [|u2 [|u3 [|u4 [|u5 [|]]]]]]]; try discriminate. clear Lu.
  unfold mueller_operator, mueller_rhs, split_unknown. cbn [mcomp nth_error bind firstn skipn]. rewrite HD.
  assert (VJ : vals (vcse (tangential_to_xyz [u0; u1])) J).
  { apply vals_cse. eapply vals_veq; [apply (vals_tan_to_xyz HW); reflexivity|]. intros a Ha. reflexivity. }
  assert (VM : vals (vcse (tangential_to_xyz [u3; u4])) M).
  { apply vals_cse. eapply vals_veq; [apply (vals_tan_to_xyz HW); reflexivity|]. intros a Ha. reflexivity. }
  assert (Vhi : vals hinc (mat_ W hinc)) by (apply vals_self; auto).
  assert (Vei : vals einc (mat_ W einc)) by (apply vals_self; auto).
  destruct (mueller_E_vals HW o dom0 LAvg u2 VJ VM) as (e0 & Ee0 & Ve0). rewrite Ee0. cbn [bind].
  destruct (mueller_H_vals HW o dom0 LAvg u5 VJ VM) as (h0 & Eh0 & Vh0). rewrite Eh0. cbn [bind].
  destruct (mueller_E_vals HW o dom1 LAvg u2 VJ VM) as (e1 & Ee1 & Ve1). rewrite Ee1. cbn [bind].
  destruct (mueller_H_vals HW o dom1 LAvg u5 VJ VM) as (h1 & Eh1 & Vh1). rewrite Eh1. cbn [bind].
  fold omega eps0 mu0 eps1 mu1 k0 k1 in Ve0, Vh0, Ve1, Vh1.
  change (mev W u2) with rho_e in Ve0, Ve1. change (mev W u5) with rho_m in Vh0, Vh1.
  set (E0a := mueller_el W omega eps0 mu0 k0 LAvg J M rho_e) in *.
  set (H0a := mueller_mag W omega eps0 mu0 k0 LAvg J M rho_m) in *.
  set (E1a := mueller_el W omega eps1 mu1 k1 LAvg J M rho_e) in *.
  set (H1a := mueller_mag W omega eps1 mu1 k1 LAvg J M rho_m) in *.
  destruct (vals_sub Vh1 Vh0) as (dh & Edh & Vdh). rewrite Edh. cbn [bind].
  destruct (vals_ncross HW Vdh) as (nh & Enh & Vnh). rewrite Enh. cbn [bind].
  destruct (vals_add Vnh (vals_scale (MMul mhalf (MAdd (d_eps dom0) (d_eps dom1))) VJ)) as (f1 & Ef1 & Vf1).
  rewrite Ef1. cbn [bind].
  destruct (vals_xyz_to_tan HW Vf1) as (p0 & p1 & Ep & P0 & P1). rewrite Ep. cbn [bind].
  destruct (vals_sub (vals_scale (d_eps dom1) Ve1) (vals_scale (d_eps dom0) Ve0)) as (de & Ede & Vde). rewrite Ede. cbn [bind].
  destruct (vals_ndot HW Vde) as (ne & Ene & Mne). rewrite Ene. cbn [bind].
  destruct (vals_sub Ve1 Ve0) as (de' & Ede' & Vde'). rewrite Ede'. cbn [bind].
  destruct (vals_ncross HW Vde') as (ne' & Ene' & Vne'). rewrite Ene'. cbn [bind].
  destruct (vals_add Vne' (vals_scale (MMul mhalf (MAdd (d_mu dom0) (d_mu dom1))) VM)) as (f3 & Ef3 & Vf3).
  rewrite Ef3. cbn [bind].
  destruct (vals_xyz_to_tan HW Vf3) as (r0' & r1' & Er & R0 & R1). rewrite Er. cbn [bind].
  destruct (vals_sub (vals_scale (d_mu dom1) Vh1) (vals_scale (d_mu dom0) Vh0)) as (dh' & Edh' & Vdh'). rewrite Edh'. cbn [bind].
  destruct (vals_ndot HW Vdh') as (nh' & Enh' & Mnh'). rewrite Enh'. cbn [bind].
  (* rhs *)
  destruct (vals_ncross HW Vhi) as (ih & Eih & Vih). rewrite Eih. cbn [bind].
  destruct (vals_xyz_to_tan HW Vih) as (s0 & s1 & Es & S0 & S1). rewrite Es. cbn [bind].
  destruct (vals_ndot HW (vals_scale (d_eps dom1) Vei)) as (ie & Eie & Mie). rewrite Eie. cbn [bind].
  destruct (vals_ncross HW Vei) as (je & Eje & Vje). rewrite Eje. cbn [bind].
  destruct (vals_xyz_to_tan HW Vje) as (t0 & t1 & Et & T0 & T1). rewrite Et. cbn [bind].
  destruct (vals_ndot HW (vals_scale (MMul (mint (-1)) (d_mu dom1)) Vhi)) as (jh & Ejh & Mjh). rewrite Ejh. cbn [bind].
  eexists. eexists. split; [reflexivity|]. split; [reflexivity|]. split; [reflexivity|]. split; [reflexivity|].
  cbn [app].
  assert (hh : half + half = r1 W) by apply (mo_half HW).
  assert (o1 : of_Z W 1 = r1 W) by reflexivity. assert (om : of_Z W (-1) = - r1 W) by reflexivity.
  (* jumps of the four conditions *)
  assert (A1 : veq W (cross3 W (nrm W) (vminus W H1 H0))
     (fun i => cross3 W (nrm W) (fun i => H1a i - H0a i) i + mev W (MMul mhalf (MAdd (d_eps dom0) (d_eps dom1))) * J i)).
  { intros a Ha. unfold vminus. rewrite !(cross_sub HW).
    unfold H1, H0, J, M. rewrite (mag_cross HW HF omega eps1 mu1 J1 _ _ rho_m (or_introl eq_refl) Ha).
    rewrite (mag_cross HW HF omega eps0 mu0 J0 _ _ rho_m (or_intror eq_refl) Ha).
    fold J M. fold H1a H0a. cbn [mev mhalf]. fold eps0 eps1. rewrite o1, om. unfold mhalf. cbn [mev]. ring. }
  assert (A3 : veq W (cross3 W (nrm W) (vminus W E1 E0))
     (fun i => cross3 W (nrm W) (fun i => E1a i - E0a i) i + mev W (MMul mhalf (MAdd (d_mu dom0) (d_mu dom1))) * M i)).
  { intros a Ha. unfold vminus. rewrite !(cross_sub HW).
    unfold E1, E0, J, M. rewrite (el_cross HW HF omega eps1 mu1 J1 _ _ rho_e (or_introl eq_refl) Ha).
    rewrite (el_cross HW HF omega eps0 mu0 J0 _ _ rho_e (or_intror eq_refl) Ha).
    fold J M. fold E1a E0a. cbn [mev mhalf]. fold mu0 mu1. rewrite o1, om. unfold mhalf. cbn [mev]. ring. }
  assert (DL : forall n c d (u v : vec W), dot3 W n (vminus W (vmul W c u) (vmul W d v)) = c * dot3 W n u - d * dot3 W n v).
  { intros. unfold dot3, vminus, vmul. ring. }
  assert (A2 : dot3 W (nrm W) (vminus W (vmul W eps1 E1) (vmul W eps0 E0))
     = dot3 W (nrm W) (fun i => eps1 * E1a i - eps0 * E0a i) + half * (eps1 + eps0) * rho_e).
  { rewrite DL. unfold E1, E0, J, M. rewrite (el_dot HW HF omega eps1 mu1 J1 _ _ rho_e (or_introl eq_refl)).
    rewrite (el_dot HW HF omega eps0 mu0 J0 _ _ rho_e (or_intror eq_refl)).
    fold J M. fold E1a E0a. rewrite o1, om. unfold dot3. ring. }
  assert (A4 : dot3 W (nrm W) (vminus W (vmul W mu1 H1) (vmul W mu0 H0))
     = dot3 W (nrm W) (fun i => mu1 * H1a i - mu0 * H0a i) - half * (mu1 + mu0) * rho_m).
  { rewrite DL. unfold H1, H0, J, M. rewrite (mag_dot HW HF omega eps1 mu1 J1 _ _ rho_m (or_introl eq_refl)).
    rewrite (mag_dot HW HF omega eps0 mu0 J0 _ _ rho_m (or_intror eq_refl)).
    fold J M. fold H1a H0a. rewrite o1, om. unfold dot3. ring. }
  (* tangential equations *)
  assert (N1 : dot3 W (nrm W) (fun i => cross3 W (nrm W) (fun i => H1a i - H0a i) i + mev W (MMul mhalf (MAdd (d_eps dom0) (d_eps dom1))) * J i) = r0 W).
  { transitivity (dot3 W (nrm W) (cross3 W (nrm W) (fun i => H1a i - H0a i)) + mev W (MMul mhalf (MAdd (d_eps dom0) (d_eps dom1))) * dot3 W (nrm W) J).
    - unfold dot3. ring.
    - unfold J. rewrite (nrm_tangential HW HF), (nrm_cross_self HW). ring. }
  assert (N3 : dot3 W (nrm W) (fun i => cross3 W (nrm W) (fun i => E1a i - E0a i) i + mev W (MMul mhalf (MAdd (d_mu dom0) (d_mu dom1))) * M i) = r0 W).
  { transitivity (dot3 W (nrm W) (cross3 W (nrm W) (fun i => E1a i - E0a i)) + mev W (MMul mhalf (MAdd (d_mu dom0) (d_mu dom1))) * dot3 W (nrm W) M).
    - unfold dot3. ring.
    - unfold M. rewrite (nrm_tangential HW HF), (nrm_cross_self HW). ring. }
  pose proof (tangential_eq HW _ _ HF N1 (nrm_cross_self HW (mat_ W hinc))) as TE1. rewrite <- P0, <- P1, <- S0, <- S1 in TE1.
  pose proof (tangential_eq HW _ _ HF N3 (nrm_cross_self HW (mat_ W einc))) as TE3. rewrite <- R0, <- R1, <- T0, <- T1 in TE3.
  assert (B1 : veq W (cross3 W (nrm W) (vminus W H1 H0)) (cross3 W (nrm W) (mat_ W hinc)) <-> mev W p0 = mev W s0 /\ mev W p1 = mev W s1).
  { rewrite TE1. split; intros H a Ha; [rewrite <- (H a Ha); symmetry; apply A1 | rewrite <- (H a Ha); apply A1]; auto. }
  assert (B3 : veq W (cross3 W (nrm W) (vminus W E1 E0)) (cross3 W (nrm W) (mat_ W einc)) <-> mev W r0' = mev W t0 /\ mev W r1' = mev W t1).
  { rewrite TE3. split; intros H a Ha; [rewrite <- (H a Ha); symmetry; apply A3 | rewrite <- (H a Ha); apply A3]; auto. }
  assert (V2 : mev W (MAdd ne (MMul (MMul mhalf (MAdd (d_eps dom1) (d_eps dom0))) u2))
     = dot3 W (nrm W) (vminus W (vmul W eps1 E1) (vmul W eps0 E0))).
  { rewrite A2. cbn [mev]. rewrite Mne. reflexivity. }
  assert (V2' : mev W ie = dot3 W (nrm W) (vmul W eps1 (mat_ W einc))) by (rewrite Mie; reflexivity).
  assert (V4 : mev W (MAdd (MMul (mint (-1)) nh') (MMul (MMul mhalf (MAdd (d_mu dom1) (d_mu dom0))) u5))
     = - dot3 W (nrm W) (vminus W (vmul W mu1 H1) (vmul W mu0 H0))).
  { rewrite A4. unfold mint, mhalf. cbn [mev]. rewrite Mnh', (mo_int HW), om. fold mu1 mu0. change (mev W u5) with rho_m. ring. }
  assert (V4' : mev W jh = - dot3 W (nrm W) (vmul W mu1 (mat_ W hinc))).
  { rewrite Mjh. unfold mint. cbn [mev]. rewrite (mo_int HW), om. fold mu1. unfold dot3, vmul. ring. }
  rewrite B1, B3. rewrite <- V2, <- V2'.
  assert (OPP : forall x y : W, - x = - y <-> x = y).
  { intros x y. split; [|intros ->; auto]. intros H. transitivity (- (- x)); [ring|]. rewrite H. ring. }
  rewrite <- (OPP (dot3 W (nrm W) (vminus W _ _))), <- V4, <- V4'.
  split.
  - intros H. split; [split; [exact (H 0 ltac:(lia)) | exact (H 1 ltac:(lia))]|].
    split; [exact (H 2 ltac:(lia))|].
    split; [split; [exact (H 3 ltac:(lia)) | exact (H 4 ltac:(lia))]|]. exact (H 5 ltac:(lia)).
  - intros ((C0 & C1) & C2 & (C3 & C4) & C5) i Hi.
    destruct i as [|[|[|[|[|[|i]]]]]]; [exact C0 | exact C1 | exact C2 | exact C3 | exact C4 | exact C5 | lia].
Qed.

(** The fields named in those conditions, off the surface, solve Maxwell's equations in their
    medium, given the two continuity equations. *)
Theorem mueller_fields_are_maxwell_fields D omega eps mu k J M rho_e rho_m :
  volume W D -> helmholtz W D k -> constant W D omega -> constant W D eps -> constant W D mu ->
  k * k = omega * omega * eps * mu ->
  pot_div W k J = im W * omega * m_lp W [] LNone k rho_e ->
  pot_div W k M = im W * omega * m_lp W [] LNone k rho_m ->
  maxwell W D omega eps mu (mueller_el W omega eps mu k LNone J M rho_e)
                           (mueller_mag W omega eps mu k LNone J M rho_m).
Proof. intros. apply mueller_maxwell; auto. Qed.

(** Wrong numbers of domains and too short unknowns are rejected. *)
Theorem mueller_needs_two_domains_and_six_unknowns o unk :
  (length unk < 6 -> mueller_operator o unk = Err IndexError)
  /\ (6 <= length unk -> length (mu_domains o) <> 2 -> mueller_operator o unk = Err ValueError)
  /\ (length (mu_domains o) <> 2 -> forall einc hinc, mueller_rhs o einc hinc = Err ValueError).
Proof.
  unfold mueller_operator, mueller_rhs, split_unknown.
  split; [|split].
  - intros L. destruct unk as [|u0 [|u1 [|u2 [|u3 [|u4 [|u5 u]]]]]]; cbn [length] in L; try lia; reflexivity.
  - intros L N. destruct unk as [|u0 [|u1 [|u2 [|u3 [|u4 [|u5 u]]]]]]; cbn [length] in L; try lia.
    destruct (mu_domains o) as [|d0 [|d1 [|d2 d]]]; try reflexivity. exfalso. apply N. reflexivity.
  - intros N einc hinc. destruct (mu_domains o) as [|d0 [|d1 [|d2 d]]]; try reflexivity. exfalso. apply N. reflexivity.
Qed.

(** ** C86: [representation]. *)
(** What it computes: the coefficients of the two vector potentials are [i k eps] and [-i k mu]. *)
Lemma mueller_representation_vals o i d sol :
  nth_error (mu_domains o) i = Some d -> length sol = 6 ->
  let eps := mev W (d_eps d) in let mu := mev W (d_mu d) in let k := mev W (mueller_k o d) in
  let J := tangential W (mat_ W sol) in let M := tangential W (fun j => mat_ W sol (3 + j)%nat) in
  exists f, mueller_representation o i sol = Ok f /\ length f = 6
  /\ veq W (el_of W f) (fun a => (im W * k * eps) * pot_S W LNone k J a + mu * pot_rot W LNone k M a - pot_grad W LNone k (mat_ W sol 2) a)
  /\ veq W (mag_of W f) (fun a => - (im W * k * mu) * pot_S W LNone k M a + eps * pot_rot W LNone k J a + pot_grad W LNone k (mat_ W sol 5) a).
Proof.
  intros Hd Lu eps mu k J M.
  destruct sol as [|u0 [|u1 [|u2 [|u3 [|u4 [|u5 [|]]]]]]]; try discriminate. clear Lu.
  unfold mueller_representation, split_unknown. cbn [mcomp nth_error bind firstn skipn]. rewrite Hd.
  assert (VJ : vals (vcse (tangential_to_xyz [u0; u1])) J).
  { apply vals_cse. eapply vals_veq; [apply (vals_tan_to_xyz HW); reflexivity|]. intros a Ha. reflexivity. }
  assert (VM : vals (vcse (tangential_to_xyz [u3; u4])) M).
  { apply vals_cse. eapply vals_veq; [apply (vals_tan_to_xyz HW); reflexivity|]. intros a Ha. reflexivity. }
  destruct (curl_lp' HW LNone (mueller_k o d) VM) as (cm & Ecm & Vcm). rewrite Ecm. cbn [bind].
  destruct (grad_lp W LNone (mueller_k o d) u2) as (ge & Ege & Vge). rewrite Ege. cbn [bind].
  destruct (vals_add (vals_scale (MMul (MMul mi (mueller_k o d)) (d_eps d)) (vals_S' LNone (mueller_k o d) VJ))
      (vals_scale (d_mu d) Vcm)) as (e' & Ee' & Ve'). rewrite Ee'. cbn [bind].
  destruct (vals_sub Ve' Vge) as (e & Ee & Ve). rewrite Ee. cbn [bind].
  destruct (curl_lp' HW LNone (mueller_k o d) VJ) as (cj & Ecj & Vcj). rewrite Ecj. cbn [bind].
  destruct (grad_lp W LNone (mueller_k o d) u5) as (gm & Egm & Vgm). rewrite Egm. cbn [bind].
  destruct (vals_add (vals_scale (MMul (MMul (MMul (mint (-1)) mi) (mueller_k o d)) (d_mu d)) (vals_S' LNone (mueller_k o d) VM))
      (vals_scale (d_eps d) Vcj)) as (h' & Eh' & Vh'). rewrite Eh'. cbn [bind].
  destruct (vals_add Vh' Vgm) as (h & Eh & Vh). rewrite Eh. cbn [bind].
  eexists. split; [reflexivity|].
  split; [rewrite app_length, (proj1 Ve), (proj1 Vh); reflexivity|].
  split.
  - unfold el_of. rewrite (firstn3 _ _ (proj1 Ve)). exact (proj2 Ve).
  - unfold mag_of. rewrite (skipn3 _ _ (proj1 Ve)). intros a Ha. rewrite (proj2 Vh a Ha).
    unfold mint. cbn [mev]. rewrite (mo_int HW). cbn [of_Z of_pos]. change (mev W mi) with (im W).
    change (mev W u5) with (mat_ W [u0; u1; u2; u3; u4; u5] 5). fold k mu eps. ring.
Qed.

(** In a medium with k = omega*mu and k = omega*eps the representation evaluates the fields whose
    jumps the operator prescribes, and hence a solution of Maxwell's equations. *)
Theorem mueller_representation_is_maxwell_field_partial D o i d sol :
  volume W D -> nth_error (mu_domains o) i = Some d -> length sol = 6 ->
  let omega := mev W (mu_omega o) in
  let eps := mev W (d_eps d) in let mu := mev W (d_mu d) in let k := mev W (mueller_k o d) in
  let J := tangential W (mat_ W sol) in let M := tangential W (fun j => mat_ W sol (3 + j)%nat) in
  k = omega * mu -> k = omega * eps ->
  helmholtz W D k -> constant W D omega -> constant W D eps -> constant W D mu ->
  pot_div W k J = im W * omega * m_lp W [] LNone k (mat_ W sol 2) ->
  pot_div W k M = im W * omega * m_lp W [] LNone k (mat_ W sol 5) ->
  exists f, mueller_representation o i sol = Ok f
  /\ veq W (el_of W f) (mueller_el W omega eps mu k LNone J M (mat_ W sol 2))
  /\ veq W (mag_of W f) (mueller_mag W omega eps mu k LNone J M (mat_ W sol 5))
  /\ maxwell W D omega eps mu (el_of W f) (mag_of W f).
Proof.
  intros HV Hd L omega eps mu k J M K1 K2 Hk Co Ce Cm LJ LM.
  destruct (mueller_representation_vals o i sol Hd L) as (f & Ef & _ & QE & QH).
  exists f. split; [exact Ef|]. fold eps mu k J M in QE, QH.
  assert (QE' : veq W (el_of W f) (mueller_el W omega eps mu k LNone J M (mat_ W sol 2))).
  { intros a Ha. rewrite (QE a Ha). unfold mueller_el. rewrite K1 at 1. f_equal. f_equal. f_equal. ring. }
  assert (QH' : veq W (mag_of W f) (mueller_mag W omega eps mu k LNone J M (mat_ W sol 5))).
  { intros a Ha. rewrite (QH a Ha). unfold mueller_mag. rewrite K2 at 1. f_equal. f_equal. f_equal. ring. }
  split; [exact QE'|]. split; [exact QH'|].
  apply (maxwell_veq QE' QH'). apply (mueller_maxwell HW HV); auto.
  rewrite K1 at 1. rewrite K2. ring.
Qed.
End P.
