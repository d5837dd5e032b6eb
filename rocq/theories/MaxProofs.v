(** Lemmas for C85, C86. *)
From Coq Require Import Ring.
From Verif Require Import Base MatModel PdeModel PdeSpec MaxModel MaxSpec.
From Verif Require GeoModel.
Set Implicit Arguments.
Open Scope string_scope.
Open Scope list_scope.
Open Scope nat_scope.

Section P.
Variable W : mworld.
Hypothesis HW : mworld_ok W.
Add Ring WR : (mo_ring HW).
Local Notation "x + y" := (radd W x y). Local Notation "x * y" := (rmul W x y).
Local Notation "x - y" := (rsub W x y). Local Notation "- x" := (ropp W x).

(** [l] has three components, with values [v]. *)
Definition vals (l : list mx) (v : vec W) : Prop := length l = 3 /\ veq W (mat_ W l) v.

Lemma len3 (l : list mx) : length l = 3 -> exists a b c, l = [a; b; c].
Proof. destruct l as [|a [|b [|c [|d l]]]]; try discriminate. eauto. Qed.
Lemma len2 (l : list mx) : length l = 2 -> exists a b, l = [a; b].
Proof. destruct l as [|a [|b [|d l]]]; try discriminate. eauto. Qed.

Lemma lt3 a : a < 3 -> a = 0 \/ a = 1 \/ a = 2.
Proof. lia. Qed.
Lemma veq3 (u v : vec W) : u 0 = v 0 -> u 1 = v 1 -> u 2 = v 2 -> veq W u v.
Proof. intros A B C a Ha. destruct (lt3 Ha) as [->|[->| ->]]; auto. Qed.
Lemma vals_intro a b c (v : vec W) : mev W a = v 0 -> mev W b = v 1 -> mev W c = v 2 -> vals [a; b; c] v.
Proof. intros. split; [reflexivity|]. apply veq3; auto. Qed.
Lemma vals_inv l v : vals l v -> exists a b c, l = [a; b; c] /\ mev W a = v 0 /\ mev W b = v 1 /\ mev W c = v 2.
Proof.
  intros [L E]. destruct (len3 _ L) as (a & b & c & ->). exists a, b, c. split; [reflexivity|].
  split; [apply (E 0); lia|]. split; [apply (E 1); lia | apply (E 2); lia].
Qed.
Lemma vals_self l : length l = 3 -> vals l (mat_ W l).
Proof. intros L. split; [exact L | intros a _; reflexivity]. Qed.
Lemma vals_veq l u v : vals l u -> veq W u v -> vals l v.
Proof. intros [L E] H. split; auto. intros a Ha. rewrite E by auto. apply H; auto. Qed.

Lemma vals_add a b u v : vals a u -> vals b v -> exists r, vzip MAdd a b = Ok r /\ vals r (fun i => u i + v i).
Proof.
  intros A B. apply vals_inv in A as (a0 & a1 & a2 & -> & A0 & A1 & A2).
  apply vals_inv in B as (b0 & b1 & b2 & -> & B0 & B1 & B2).
  eexists. split; [reflexivity|]. apply vals_intro; cbn [mev]; congruence.
Qed.
Lemma vals_sub a b u v : vals a u -> vals b v -> exists r, vzip MSub a b = Ok r /\ vals r (fun i => u i - v i).
Proof.
  intros A B. apply vals_inv in A as (a0 & a1 & a2 & -> & A0 & A1 & A2).
  apply vals_inv in B as (b0 & b1 & b2 & -> & B0 & B1 & B2).
  eexists. split; [reflexivity|]. apply vals_intro; cbn [mev]; congruence.
Qed.
Lemma vals_scale c a u : vals a u -> vals (vscale c a) (fun i => mev W c * u i).
Proof.
  intros A. apply vals_inv in A as (a0 & a1 & a2 & -> & A0 & A1 & A2).
  unfold vscale. cbn [map]. apply vals_intro; cbn [mev]; congruence.
Qed.
Lemma vals_cse a u : vals a u -> vals (vcse a) u.
Proof.
  intros A. apply vals_inv in A as (a0 & a1 & a2 & -> & A0 & A1 & A2).
  apply vals_intro; cbn [mev]; congruence.
Qed.
Lemma vals_dot a b u v : vals a u -> vals b v -> exists r, vdot a b = Ok r /\ mev W r = dot3 W u v.
Proof.
  intros A B. apply vals_inv in A as (a0 & a1 & a2 & -> & A0 & A1 & A2).
  apply vals_inv in B as (b0 & b1 & b2 & -> & B0 & B1 & B2).
  eexists. split; [reflexivity|]. unfold msum, dot3. cbn [fold_left mev mint].
  rewrite (mo_int HW), A0, A1, A2, B0, B1, B2. cbn [of_Z]. ring.
Qed.

Ltac num := repeat rewrite (mo_int HW); cbn [of_Z of_pos].

Lemma curl_lp l k v : length v = 3 ->
  exists r, curl (symSv l k v) = Ok r /\ vals r (pot_rot W l (mev W k) (mat_ W v)).
Proof.
  intros L. destruct (len3 _ L) as (a & b & c & ->).
  eexists. split; [reflexivity|]. apply vals_intro; unfold msum, mint, pot_rot, rot, mat_;
    cbn -[m_num of_Z mR radd rsub rmul ropp]; num; ring.
Qed.
Lemma grad_lp l k a : exists r, grad 3 (symS l k a) = Ok r /\ vals r (pot_grad W l (mev W k) (mev W a)).
Proof. eexists. split; [reflexivity|]. apply vals_intro; reflexivity. Qed.
Lemma vals_S l k v : length v = 3 -> vals (symSv l k v) (pot_S W l (mev W k) (mat_ W v)).
Proof. intros L. destruct (len3 _ L) as (a & b & c & ->). apply vals_intro; reflexivity. Qed.

Lemma vals_cross a b u v : vals a u -> vals b v -> exists r, cross a b = Ok r /\ vals r (cross3 W u v).
Proof.
  intros A B. apply vals_inv in A as (a0 & a1 & a2 & -> & A0 & A1 & A2).
  apply vals_inv in B as (b0 & b1 & b2 & -> & B0 & B1 & B2).
  eexists. split; [reflexivity|]. apply vals_intro; unfold msum, mint, cross3;
    cbn -[m_num of_Z mR radd rsub rmul ropp]; rewrite ?A0, ?A1, ?A2, ?B0, ?B1, ?B2; num; ring.
Qed.
Lemma vals_normal : vals (normal 3) (nrm W).
Proof. apply vals_intro; reflexivity. Qed.
Lemma vals_ncross b v : vals b v -> exists r, n_cross b = Ok r /\ vals r (cross3 W (nrm W) v).
Proof. intros B. apply vals_cross; auto using vals_normal. Qed.
Lemma vals_ndot b v : vals b v -> exists r, n_dot b = Ok r /\ mev W r = dot3 W (nrm W) v.
Proof. intros B. unfold n_dot. rewrite (proj1 B). apply vals_dot; auto using vals_normal. Qed.

Lemma vals_xyz_to_tan b v : vals b v -> exists r0 r1, xyz_to_tangential b = Ok [r0; r1]
  /\ mev W r0 = dot3 W (m_basis W 0) v /\ mev W r1 = dot3 W (m_basis W 1) v.
Proof.
  intros B. apply vals_inv in B as (b0 & b1 & b2 & -> & B0 & B1 & B2).
  eexists. eexists. split; [reflexivity|].
  split; unfold msum, mint, dot3; cbn -[m_num of_Z mR radd rsub rmul ropp]; rewrite ?B0, ?B1, ?B2; num; ring.
Qed.
Lemma vals_tan_to_xyz t : length t = 2 -> vals (tangential_to_xyz t) (tangential W (mat_ W t)).
Proof.
  intros L. destruct (len2 _ L) as (a & b & ->).
  apply vals_intro; unfold msum, mint, tangential, mat_; cbn -[m_num of_Z mR radd rsub rmul ropp]; num; ring.
Qed.

(** ** The frame. *)
Section Frame.
Hypothesis HF : frame W.

Lemma frame_expand (v : vec W) : veq W v (fun a => m_basis W 0 a * dot3 W (m_basis W 0) v
  + m_basis W 1 a * dot3 W (m_basis W 1) v + nrm W a * dot3 W (nrm W) v).
Proof.
  intros a Ha.
  pose proof (fr_complete HF a 0 Ha ltac:(lia)) as C0.
  pose proof (fr_complete HF a 1 Ha ltac:(lia)) as C1.
  pose proof (fr_complete HF a 2 Ha ltac:(lia)) as C2.
  unfold dot3.
  transitivity ((m_basis W 0 a * m_basis W 0 0 + m_basis W 1 a * m_basis W 1 0 + nrm W a * nrm W 0) * v 0
    + (m_basis W 0 a * m_basis W 0 1 + m_basis W 1 a * m_basis W 1 1 + nrm W a * nrm W 1) * v 1
    + (m_basis W 0 a * m_basis W 0 2 + m_basis W 1 a * m_basis W 1 2 + nrm W a * nrm W 2) * v 2); [|ring].
  rewrite C0, C1, C2. destruct (lt3 Ha) as [->|[->| ->]]; cbn [Nat.eqb]; ring.
Qed.

(** A vector without normal component vanishes iff its two tangential components do. *)
Lemma tangential_zero (v : vec W) : dot3 W (nrm W) v = r0 W ->
  (dot3 W (m_basis W 0) v = r0 W /\ dot3 W (m_basis W 1) v = r0 W) <-> veq W v (vzero W).
Proof.
  intros N. split.
  - intros [A B] a Ha. rewrite (frame_expand v Ha), A, B, N. unfold vzero. ring.
  - intros Z. unfold dot3. rewrite (Z 0), (Z 1), (Z 2) by lia. unfold vzero. split; ring.
Qed.

Lemma nrm_tangential t : dot3 W (nrm W) (tangential W t) = r0 W.
Proof.
  pose proof (fr_orth HF 0 ltac:(lia)) as A. pose proof (fr_orth HF 1 ltac:(lia)) as B.
  unfold dot3 in A, B. unfold dot3, tangential.
  transitivity ((m_basis W 0 0 * nrm W 0 + m_basis W 0 1 * nrm W 1 + m_basis W 0 2 * nrm W 2) * t 0
    + (m_basis W 1 0 * nrm W 0 + m_basis W 1 1 * nrm W 1 + m_basis W 1 2 * nrm W 2) * t 1); [ring|].
  rewrite A, B. ring.
Qed.

Lemma double_cross (v : vec W) : dot3 W (nrm W) v = r0 W ->
  veq W (cross3 W (nrm W) (cross3 W (nrm W) v)) (fun a => - v a).
Proof.
  intros N. pose proof (fr_unit HF) as U.
  assert (G : forall a, a < 3 -> cross3 W (nrm W) (cross3 W (nrm W) v) a
     = nrm W a * dot3 W (nrm W) v - dot3 W (nrm W) (nrm W) * v a).
  { intros a Ha. destruct (lt3 Ha) as [->|[->| ->]]; cbn [cross3]; unfold dot3; ring. }
  intros a Ha. rewrite G, N, U by auto. ring.
Qed.

Lemma nrm_cross_self (v : vec W) : dot3 W (nrm W) (cross3 W (nrm W) v) = r0 W.
Proof. unfold dot3, cross3. ring. Qed.

Lemma cross_add (n u v : vec W) a : cross3 W n (fun i => u i + v i) a = cross3 W n u a + cross3 W n v a.
Proof. destruct a as [|[|a]]; cbn [cross3]; ring. Qed.
Lemma cross_sub (n u v : vec W) a : cross3 W n (fun i => u i - v i) a = cross3 W n u a - cross3 W n v a.
Proof. destruct a as [|[|a]]; cbn [cross3]; ring. Qed.
Lemma cross_mul (n u : vec W) c a : cross3 W n (fun i => c * u i) a = c * cross3 W n u a.
Proof. destruct a as [|[|a]]; cbn [cross3]; ring. Qed.
Lemma cross_veq (n u v : vec W) : veq W u v -> forall a, cross3 W n u a = cross3 W n v a.
Proof. intros H a. destruct a as [|[|a]]; cbn [cross3]; rewrite ?(H 0), ?(H 1), ?(H 2) by lia; reflexivity. Qed.
Lemma dot_veq (n u v : vec W) : veq W u v -> dot3 W n u = dot3 W n v.
Proof. intros H. unfold dot3. rewrite ?(H 0), ?(H 1), ?(H 2) by lia. reflexivity. Qed.

(** Limits of the derivatives of the vector potential. *)
Lemma pot_rot_side k s J : jumps W k -> (s = 1 \/ s = -1)%Z -> forall a,
  pot_rot W (LSide s) k J a = pot_rot W LAvg k J a - of_Z W s * m_num W (NRat 1 2) * cross3 W (nrm W) J a.
Proof.
  intros Jk Hs a. unfold pot_rot, rot.
  destruct a as [|[|a]]; cbn [cross3];
    rewrite !(fun a f Ha => ju_grad Jk s a f Hs Ha) by lia; ring.
Qed.
Lemma pot_grad_side k s f : jumps W k -> (s = 1 \/ s = -1)%Z -> forall a, a < 3 ->
  pot_grad W (LSide s) k f a = pot_grad W LAvg k f a - of_Z W s * m_num W (NRat 1 2) * (nrm W a * f).
Proof. intros Jk Hs a Ha. unfold pot_grad. apply ju_grad; auto. Qed.
Lemma pot_S_side k s J : jumps W k -> (s = 1 \/ s = -1)%Z -> forall a,
  pot_S W (LSide s) k J a = pot_S W LAvg k J a.
Proof. intros Jk Hs a. unfold pot_S. apply ju_cont; auto. Qed.
End Frame.

(** ** The volume. *)
Section Vol.
Variable D : nat -> W -> W.
Hypothesis HV : volume W D.

Lemma D_zero m : D m (r0 W) = r0 W.
Proof.
  assert (H : D m (r0 W) = D m (r0 W) + D m (r0 W)).
  { rewrite <- (vo_add HV). f_equal. ring. }
  transitivity (D m (r0 W) + D m (r0 W) - D m (r0 W)); [ring|]. rewrite <- H. ring.
Qed.
Lemma D_opp m f : D m (- f) = - D m f.
Proof.
  assert (H : D m f + D m (- f) = r0 W).
  { rewrite <- (vo_add HV). rewrite <- (D_zero m). f_equal. ring. }
  transitivity (D m f + D m (- f) - D m f); [ring|]. rewrite H. ring.
Qed.
Lemma D_sub m f g : D m (f - g) = D m f - D m g.
Proof.
  transitivity (D m (f + - g)); [f_equal; ring|]. rewrite (vo_add HV), D_opp. ring.
Qed.
Lemma const_mul c d : constant W D c -> constant W D d -> constant W D (c * d).
Proof. intros C E m f. transitivity (D m (c * (d * f))); [f_equal; ring|]. rewrite C, E. ring. Qed.
Lemma const_opp c : constant W D c -> constant W D (- c).
Proof. intros C m f. transitivity (D m (- (c * f))); [f_equal; ring|]. rewrite D_opp, C. ring. Qed.
Lemma const_im : constant W D (im W).
Proof. apply (vo_num HV). Qed.

(** Expressions that consist of off-surface potentials with wave number [k]. *)
Inductive lpx (k : mx) : mx -> Prop :=
| lpx_lp tds a : lpx k (MLp tds LNone k a)
| lpx_add a b : lpx k a -> lpx k b -> lpx k (MAdd a b)
| lpx_sub a b : lpx k a -> lpx k b -> lpx k (MSub a b)
| lpx_mul c b : lpx k b -> lpx k (MMul (MNum c) b)
| lpx_0 : lpx k (MNum (NInt 0)).

Lemma dd_axis_D k e m : helmholtz W D (mev W k) -> lpx k e ->
  exists d, dd_axis m e = Ok d /\ lpx k d /\ mev W d = D m (mev W e).
Proof.
  intros Hk. induction 1.
  - eexists. split; [reflexivity|]. split; [constructor|]. cbn [mev]. apply (he_der Hk).
  - destruct IHlpx1 as (d1 & E1 & L1 & V1). destruct IHlpx2 as (d2 & E2 & L2 & V2).
    cbn [dd_axis]. rewrite E1, E2. eexists. split; [reflexivity|]. split; [constructor; auto|].
    cbn [mev]. rewrite (vo_add HV). congruence.
  - destruct IHlpx1 as (d1 & E1 & L1 & V1). destruct IHlpx2 as (d2 & E2 & L2 & V2).
    cbn [dd_axis]. rewrite E1, E2. eexists. split; [reflexivity|]. split; [constructor; auto|].
    cbn [mev]. rewrite D_sub. congruence.
  - destruct IHlpx as (d1 & E1 & L1 & V1).
    cbn [dd_axis]. rewrite E1. eexists. split; [reflexivity|]. split; [constructor; auto|].
    cbn [mev]. rewrite (vo_num HV c). congruence.
  - eexists. split; [reflexivity|]. split; [constructor|]. unfold mint. cbn [mev]. num. symmetry. apply D_zero.
Qed.

Definition lpvals (k : mx) (l : list mx) (v : vec W) : Prop := vals l v /\ Forall (lpx k) l.

Lemma curl_D k l v : helmholtz W D (mev W k) -> lpvals k l v ->
  exists r, curl l = Ok r /\ lpvals k r (curl3 W D v).
Proof.
  intros Hk [A F]. apply vals_inv in A as (a & b & c & -> & A0 & A1 & A2).
  inversion F as [|? ? La F']; subst. inversion F' as [|? ? Lb F'']; subst. inversion F'' as [|? ? Lc ?]; subst.
  pose proof (fun m => @dd_axis_D k a m Hk La) as DA. pose proof (fun m => @dd_axis_D k b m Hk Lb) as DB.
  pose proof (fun m => @dd_axis_D k c m Hk Lc) as DC.
  destruct (DA 0) as (a0 & EA0 & PA0 & VA0), (DA 1) as (a1 & EA1 & PA1 & VA1), (DA 2) as (a2 & EA2 & PA2 & VA2).
  destruct (DB 0) as (b0 & EB0 & PB0 & VB0), (DB 1) as (b1 & EB1 & PB1 & VB1), (DB 2) as (b2 & EB2 & PB2 & VB2).
  destruct (DC 0) as (c0 & EC0 & PC0 & VC0), (DC 1) as (c1 & EC1 & PC1 & VC1), (DC 2) as (c2 & EC2 & PC2 & VC2).
  clear DA DB DC.
  unfold curl. cbn -[dd_axis mint].
  rewrite EA0, EA1, EA2, EB0, EB1, EB2, EC0, EC1, EC2. cbn -[dd_axis mint].
  eexists. split; [reflexivity|]. split.
  - apply vals_intro; unfold msum, mint, curl3, rot;
      cbn -[m_num of_Z mR radd rsub rmul ropp]; rewrite ?VA0, ?VA1, ?VA2, ?VB0, ?VB1, ?VB2, ?VC0, ?VC1, ?VC2;
      rewrite ?A0, ?A1, ?A2; num; ring.
  - unfold msum, mint. cbn [fold_left].
    repeat first [apply Forall_cons | apply Forall_nil | apply lpx_add | apply lpx_mul | apply lpx_0 | assumption].
Qed.

(** Vector identities. *)
Lemma curl_veq u v : veq W u v -> forall a, curl3 W D u a = curl3 W D v a.
Proof. intros H a. unfold curl3, rot. destruct a as [|[|a]]; rewrite ?(H 0), ?(H 1), ?(H 2) by lia; reflexivity. Qed.
Lemma div_veq u v : veq W u v -> div3 W D u = div3 W D v.
Proof. intros H. unfold div3. rewrite ?(H 0), ?(H 1), ?(H 2) by lia; reflexivity. Qed.
Lemma curl_add u v a : curl3 W D (fun i => u i + v i) a = curl3 W D u a + curl3 W D v a.
Proof. unfold curl3, rot. destruct a as [|[|a]]; rewrite !(vo_add HV); ring. Qed.
Lemma curl_sub u v a : curl3 W D (fun i => u i - v i) a = curl3 W D u a - curl3 W D v a.
Proof. unfold curl3, rot. destruct a as [|[|a]]; rewrite !D_sub; ring. Qed.
Lemma curl_mul c u a : constant W D c -> curl3 W D (fun i => c * u i) a = c * curl3 W D u a.
Proof. intros C. unfold curl3, rot. destruct a as [|[|a]]; rewrite !C; ring. Qed.
Lemma div_add u v : div3 W D (fun i => u i + v i) = div3 W D u + div3 W D v.
Proof. unfold div3. rewrite !(vo_add HV); ring. Qed.
Lemma div_sub u v : div3 W D (fun i => u i - v i) = div3 W D u - div3 W D v.
Proof. unfold div3. rewrite !D_sub; ring. Qed.
Lemma div_mul c u : constant W D c -> div3 W D (fun i => c * u i) = c * div3 W D u.
Proof. intros C. unfold div3. rewrite !C; ring. Qed.
Lemma curl_grad f a : curl3 W D (grad3 W D f) a = r0 W.
Proof.
  unfold curl3, rot, grad3. destruct a as [|[|a]].
  - rewrite (vo_comm HV 1 2). ring.
  - rewrite (vo_comm HV 2 0). ring.
  - rewrite (vo_comm HV 0 1). ring.
Qed.
Lemma div_curl u : div3 W D (curl3 W D u) = r0 W.
Proof.
  unfold div3, curl3, rot. rewrite !D_sub.
  rewrite (vo_comm HV 1 0), (vo_comm HV 2 0), (vo_comm HV 2 1). ring.
Qed.
Definition lap (f : W) : W := D 0 (D 0 f) + D 1 (D 1 f) + D 2 (D 2 f).
Lemma curl_curl u a : a < 3 -> curl3 W D (curl3 W D u) a = D a (div3 W D u) - lap (u a).
Proof.
  intros Ha. unfold curl3, rot, div3, lap. rewrite !(vo_add HV). destruct (lt3 Ha) as [->|[->| ->]]; rewrite !D_sub.
  - rewrite (vo_comm HV 1 0), (vo_comm HV 2 0). ring.
  - rewrite (vo_comm HV 2 1), (vo_comm HV 0 1). ring.
  - rewrite (vo_comm HV 0 2), (vo_comm HV 1 2). ring.
Qed.

Lemma pot_rot_curl k J a : helmholtz W D k -> pot_rot W LNone k J a = curl3 W D (pot_S W LNone k J) a.
Proof. intros Hk. unfold pot_rot, curl3, rot, pot_S. rewrite !(he_der Hk). reflexivity. Qed.
Lemma pot_grad_grad k f a : helmholtz W D k -> pot_grad W LNone k f a = grad3 W D (m_lp W [] LNone k f) a.
Proof. intros Hk. unfold pot_grad, grad3. apply (he_der Hk). Qed.
Lemma pot_div_div k J : helmholtz W D k -> pot_div W k J = div3 W D (pot_S W LNone k J).
Proof. intros Hk. unfold pot_div, div3, pot_S. rewrite !(he_der Hk). reflexivity. Qed.
Lemma lap_S k f : helmholtz W D k -> lap (m_lp W [] LNone k f) = - (k * k * m_lp W [] LNone k f).
Proof. intros Hk. apply (he_pde Hk). Qed.

Lemma lap_rot k J a : helmholtz W D k -> constant W D k -> let A := pot_S W LNone k J in
  lap (curl3 W D A a) = - (k * k * curl3 W D A a).
Proof.
  intros Hk Ck A.
  assert (P : forall m n i, D m (D m (D n (A i))) = D n (D m (D m (A i)))).
  { intros. rewrite (vo_comm HV m n). rewrite (vo_comm HV m n). reflexivity. }
  assert (Q : forall n i, lap (D n (A i)) = - (k * k * D n (A i))).
  { intros. unfold lap. rewrite !P. rewrite <- !(vo_add HV).
    transitivity (D n (- (k * k * A i))); [f_equal; apply (he_pde Hk)|].
    rewrite D_opp, (const_mul Ck Ck). reflexivity. }
  assert (S : forall f g, lap (f - g) = lap f - lap g).
  { intros. unfold lap. rewrite !D_sub. ring. }
  unfold curl3, rot. destruct a as [|[|a]]; rewrite S, !Q; ring.
Qed.
End Vol.
End P.
