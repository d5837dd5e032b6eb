(** The spherical Bessel functions of TsSpec, the callers, and the expansions. *)
From Coq Require Import Reals List Lra Lia.
From Coquelicot Require Import Coquelicot.
From Verif Require Import Base TsModel TsSpec TsProofs5 TsProofs6 JfModel JfSpec JfProofs JfProofs2 JfProofs3 JfProofs4 JfProofs5.
Import ListNotations.
Set Implicit Arguments.
Open Scope R_scope.

(** ** The functions of sph_bessel obey the recurrence *)
Lemma EF_rec k sg n r : EF k sg (S (S n)) r = (RtoC (2 * INR n + 3) / (k * RtoC r) * EF k sg (S n) r - EF k sg n r)%C.
Proof. unfold EF. rewrite F_SS. unfold zi, Cdiv. reflexivity. Qed.
Lemma bessel_link k j r : k <> RtoC 0 -> sph_bessel k j -> 0 < r -> bessel_at (k * RtoC r)%C (fun n => j n r).
Proof.
  intros Hk Hj Hr. assert (E : forall n, j n r = the_bessel k n r).
  { intros n. apply (@family_unique k Hk j (the_bessel k)); [apply Hj|apply bessel_exists; exact Hk| |exact Hr].
    intros q Hq. destruct Hj as [_ Hj]. destruct (bessel_exists k Hk) as [_ Hb]. rewrite Hj, Hb by exact Hq. reflexivity. }
  pose proof (kr_ne k Hk r Hr) as Hz. split; [|split].
  - intros n. rewrite !E. unfold the_bessel. rewrite !EF_rec. ring.
  - destruct Hj as [_ Hj]. apply Hj, Hr.
  - rewrite E. unfold the_bessel, EF. rewrite !F_1. unfold e1, e0, zi, csin, ccos.
    replace (- Ci * (k * RtoC r))%C with (- (Ci * (k * RtoC r)))%C by ring.
    set (zz := (k * RtoC r)%C) in *. set (a := cexp (Ci * zz)%C). set (b := cexp (- (Ci * zz))%C). pose proof Ci_ne.
    assert (H2 : RtoC 2 <> RtoC 0) by (apply RtoC_ne; lra). field. repeat split; assumption.
Qed.
(** The derivative of the recurrence is the one of TsSpec. *)
Lemma derivative_link k j r n : k <> RtoC 0 -> sph_bessel k j -> 0 < r -> rec_derivative (fun m => j m r) n = sph_derivative k j n r.
Proof.
  intros Hk Hj Hr. destruct (bessel_link Hk Hj Hr) as (Rc & _). pose proof (kr_ne k Hk r Hr) as Hz. unfold sph_derivative.
  destruct n as [|n]; cbn [rec_derivative].
  - simpl INR. unfold Cdiv. ring.
  - rewrite (Rc n), S_INR. pose proof (pos_INR n). set (x := INR n) in *.
    replace (2 * (x + 1) + 1) with (2 * x + 3) by ring. replace (x + 1 + 1) with (x + 2) by ring.
    rewrite !RtoC_plus, RtoC_mult. assert (D : (RtoC 2 * RtoC x + RtoC 3)%C <> RtoC 0).
    { rewrite <- RtoC_mult, <- RtoC_plus. apply RtoC_ne. lra. }
    assert (E3 : RtoC 3 = (RtoC 2 + RtoC 1)%C) by (rewrite <- RtoC_plus; f_equal; ring).
    assert (E2 : RtoC 2 = (RtoC 1 + RtoC 1)%C) by (rewrite <- RtoC_plus; f_equal; ring).
    set (zz := (k * RtoC r)%C) in *. clearbody zz. 
    match goal with |- (?a / ?d)%C = ?b => cut (a = b * d)%C; [intros ->; field; split; assumption|] end.
    rewrite E3, E2. field. exact Hz.
Qed.

(** For a real argument up to 1 it is j_0 that is kept. *)
Lemma cexp_i (x : R) : cexp (Ci * RtoC x)%C = (cos x, sin x).
Proof.
  unfold cexp, Ci, RtoC, Cmult. cbn [fst snd]. replace (0 * x - 1 * 0) with 0 by ring. replace (0 * 0 + 1 * x) with x by ring. rewrite exp_0. f_equal; ring.
Qed.
Lemma cexp_mi (x : R) : cexp (- (Ci * RtoC x))%C = (cos x, - sin x).
Proof.
  unfold cexp, Ci, RtoC, Cmult, Copp. cbn [fst snd]. replace (- (0 * x - 1 * 0)) with 0 by ring. replace (- (0 * 0 + 1 * x)) with (- x) by ring. rewrite exp_0, cos_neg, sin_neg. f_equal; ring.
Qed.
Lemma csin_real x : csin (RtoC x) = RtoC (sin x).
Proof.
  unfold csin. rewrite cexp_i, cexp_mi.
  replace ((cos x, sin x) - (cos x, (- sin x)%R))%C with (RtoC 2 * Ci * RtoC (sin x))%C.
  - field. split; [apply Ci_ne|apply RtoC_ne; lra].
  - unfold RtoC, Ci, Cmult, Cminus, Cplus, Copp. cbn [fst snd]. f_equal; ring.
Qed.
Lemma ccos_real x : ccos (RtoC x) = RtoC (cos x).
Proof.
  unfold ccos. rewrite cexp_i, cexp_mi.
  replace ((cos x, sin x) + (cos x, (- sin x)%R))%C with (RtoC 2 * RtoC (cos x))%C.
  - field. apply RtoC_ne; lra.
  - unfold RtoC, Cmult, Cplus. cbn [fst snd]. f_equal; ring.
Qed.
Lemma real_j0 x j : 0 < x <= 1 -> bessel_at (RtoC x) j -> Cmod (j 1%nat) <= Cmod (j 0%nat).
Proof.
  intros Hx (_ & -> & ->). rewrite csin_real, ccos_real.
  assert (NE : RtoC x <> RtoC 0) by (apply RtoC_ne; lra).
  replace (RtoC (sin x) / (RtoC x * RtoC x) - RtoC (cos x) / RtoC x)%C with (RtoC ((sin x - x * cos x) / (x * x))).
  2:{ rewrite RtoC_div, RtoC_minus, !RtoC_mult by nra. field. exact NE. }
  rewrite <- RtoC_div by lra. rewrite !Cmod_RtoC.
  assert (S0 : 0 < sin x) by (apply sin_gt_0; [lra|pose proof PI2_1; lra]).
  assert (S1 : sin x < x) by (apply sin_lt_x; lra).
  pose proof (@cos_bound x 0 ltac:(pose proof PI2_1; lra) ltac:(pose proof PI2_1; lra)) as [CB _].
  cbv [cos_approx cos_term sum_f_R0] in CB. simpl in CB.
  assert (CB' : 1 - x * x / 2 <= cos x) by lra. clear CB.
  assert (CX : x * cos x <= sin x).
  { pose proof (@sin_bound x 0 ltac:(lra) ltac:(pose proof PI2_1; lra)) as [SB _]. pose proof (@cos_bound x 0 ltac:(pose proof PI2_1; lra) ltac:(pose proof PI2_1; lra)) as [_ CU].
    cbv [cos_approx cos_term sin_approx sin_term sum_f_R0] in SB, CU. simpl in SB, CU.
    assert (SB' : x - x * x * x / 6 <= sin x) by lra. assert (CU' : cos x <= 1 - x * x / 2 + x * x * x * x / 24) by lra. 
    apply Rle_trans with (x * (1 - x * x / 2 + x * x * x * x / 24)); [apply Rmult_le_compat_l; lra|].
    apply Rle_trans with (x - x * x * x / 6); [|exact SB'].
    assert (0 <= x * x * x) by (repeat apply Rmult_le_pos; lra). assert (x * x <= 1) by nra. nra. }
  rewrite !Rabs_pos_eq.
  - apply Rmult_le_reg_r with (x * x); [nra|]. replace ((sin x - x * cos x) / (x * x) * (x * x)) with (sin x - x * cos x) by (field; lra).
    replace (sin x / x * (x * x)) with (sin x * x) by (field; lra). nra.
  - apply Rmult_le_pos; [lra|]. left. apply Rinv_0_lt_compat. lra.
  - apply Rmult_le_pos; [lra|]. left. apply Rinv_0_lt_compat. nra.
Qed.

(** ** Callers *)
Lemma junk_length (A : Type) (f : nat -> A) n : length (map f (seq 0 n)) = n.
Proof. rewrite map_length, seq_length. reflexivity. Qed.

Lemma first_of z T b : exceeds z T b -> exists N, first_exceeds z T N /\ (N <= b)%nat.
Proof. intros H. destruct (search z T b) as [F|F]; [exact F|]. exfalso. apply (F b); [lia|exact H]. Qed.

Lemma nth_firstn (A : Type) (l : list A) : forall n k, (k < n)%nat -> nth_error (firstn n l) k = nth_error l k.
Proof. induction l as [|x l IH]; intros [|n] [|k] H; cbn; try lia; try reflexivity. apply IH. lia. Qed.
Lemma ceq_list (A : Type) (l : list A) (f : nat -> A) n : length l = n -> (forall k, (k < n)%nat -> nth_error l k = Some (f k)) -> l = map f (seq 0 n).
Proof.
  revert f n. induction l as [|x l IH]; intros f n HL H; cbn in HL; subst n; [reflexivity|]. cbn [seq map length].
  f_equal; [pose proof (H 0%nat ltac:(cbn; lia)) as E; cbn in E; congruence|]. rewrite (IH (fun k => f (S k)) (length l) eq_refl).
  - rewrite <- seq_shift, map_map, map_length, seq_length. reflexivity.
  - intros k Hk. apply (H (S k)). cbn. lia.
Qed.

Lemma wrapper_ok cjunk ijunk nterms z scale ifder j : (1 <= nterms <= 53)%Z -> scale <> 0 -> tiny <= Cmod z <= 1 -> bessel_at z j ->
  exists N, first_exceeds z (Z.to_nat nterms) N /\ (N <= 63)%nat /\
  jfuns3d_wrapper cjunk ijunk nterms z scale ifder =
    Fin (Ok (map (fun n => truncated z j N n / RtoC (scale ^ n))%C (seq 0 (1 + Z.to_nat nterms)),
             if ifder then Some (map (fun n => rec_derivative (truncated z j N) n / RtoC (scale ^ n))%C (seq 0 (1 + Z.to_nat nterms))) else None)).
Proof.
  intros HT Hs Hz Hj. assert (Hz' : ~ Cmod z < tiny) by lra. pose proof (z_ne Hz') as NE.
  destruct (@first_of z (Z.to_nat nterms) 63) as (N & F & HN); [apply search_63; try exact NE; try lra; lia|].
  exists N. split; [exact F|]. split; [exact HN|]. unfold jfuns3d_wrapper. destruct (Z.leb_spec nterms 0) as [|_]; [lia|].
  assert (HN2 : (2 <= N)%nat) by (destruct F as [[A _] _]; lia).
  destruct (@run_ok z (Z.to_nat nterms) scale ifder BUFSIZE (map cjunk (seq 0 BUFSIZE)) (map cjunk (seq 0 BUFSIZE)) (map ijunk (seq 0 BUFSIZE)) j ltac:(lia) Hz' Hj N F) as (f' & d' & E & L1 & L2 & G1 & G2).
  - unfold BUFSIZE. lia. - rewrite junk_length. unfold BUFSIZE. lia. - rewrite junk_length. unfold BUFSIZE. lia.
  - intros _. rewrite junk_length. unfold BUFSIZE. lia. - exact Hs. - apply (@companion_ne z NE ltac:(lra) 1%nat (le_n 1)); exact HN2.
  - rewrite E. cbn [fbind Nat.eqb]. f_equal. f_equal. rewrite junk_length in L1, L2. f_equal.
    + apply ceq_list; [rewrite firstn_length; unfold BUFSIZE in *; lia|]. intros n Hn. rewrite nth_firstn by exact Hn. apply G1. lia.
    + destruct ifder; [|reflexivity]. f_equal. apply ceq_list; [rewrite firstn_length; unfold BUFSIZE in *; lia|].
      intros n Hn. rewrite nth_firstn by exact Hn. apply G2. lia.
Qed.
Definition scale_for (z : C) : R := if Rlt_dec (Cmod z) 1 then Cmod z else 1.
Lemma precompute_fin ijunk c t p ifder k jvals jderivs j : k <> RtoC 0 -> (p <= 53)%nat -> (BUFSIZE <= length jvals)%nat -> (BUFSIZE <= length jderivs)%nat ->
  tiny <= Cmod (k * RtoC (dist t c))%C <= 1 -> bessel_at (k * RtoC (dist t c))%C j ->
  exists N js jd, first_exceeds (k * RtoC (dist t c))%C (Nat.max 1 p) N /\ (N <= 63)%nat
   /\ precompute ijunk c t p ifder k jvals jderivs = Fin (js, jd, scale_for (k * RtoC (dist t c))%C)
   /\ (forall n, (n <= Nat.max 1 p)%nat -> nth_error js n = Some (truncated (k * RtoC (dist t c))%C j N n / RtoC (scale_for (k * RtoC (dist t c))%C ^ n))%C)
   /\ (ifder = true -> forall n, (n <= Nat.max 1 p)%nat -> nth_error jd n = Some (rec_derivative (truncated (k * RtoC (dist t c))%C j N) n / RtoC (scale_for (k * RtoC (dist t c))%C ^ n))%C).
Proof.
  intros Hk Hp HJ HD Hz Hj. set (z := (k * RtoC (dist t c))%C) in *. assert (Hz' : ~ Cmod z < tiny) by lra. pose proof (z_ne Hz') as NE.
  destruct (@first_of z (Nat.max 1 p) 63) as (N & F & HN); [apply search_63; try exact NE; try lra; lia|].
  assert (HN2 : (2 <= N)%nat) by (destruct F as [[A _] _]; lia).
  assert (Hs : scale_for z <> 0) by (unfold scale_for; pose proof tiny_pos; destruct (Rlt_dec _ _); lra).
  destruct (@run_ok z (Nat.max 1 p) (scale_for z) ifder BUFSIZE jvals jderivs (map ijunk (seq 0 BUFSIZE)) j ltac:(lia) Hz' Hj N F) as (f' & d' & E & L1 & L2 & G1 & G2).
  - unfold BUFSIZE. lia. - unfold BUFSIZE in *. lia. - rewrite junk_length. unfold BUFSIZE. lia.
  - intros _. unfold BUFSIZE in *. lia. - exact Hs. - apply (@companion_ne z NE ltac:(lra) 1%nat (le_n 1)); exact HN2.
  - exists N, f', d'. split; [exact F|]. split; [exact HN|]. split; [|split; [exact G1|]].
    + unfold precompute. fold z. fold (scale_for z). rewrite E. reflexivity.
    + intros ->. exact G2.
Qed.

(** ** The expansion of the single layer *)
Lemma csum_O f : csum f 0 = f 0%nat.
Proof. unfold csum. rewrite !sum_O. destruct (f 0%nat); reflexivity. Qed.
Lemma csum_S f p : csum f (S p) = (csum f p + f (S p))%C.
Proof. unfold csum. rewrite !sum_Sn. reflexivity. Qed.
Lemma csum_norm f p : Cmod (csum f p) <= sum_n (fun n => Cmod (f n)) p.
Proof.
  induction p as [|p IH].
  - rewrite csum_O, sum_O. apply Rle_refl.
  - rewrite csum_S, sum_Sn. eapply Rle_trans; [apply Cmod_triangle|]. apply Rplus_le_compat_r, IH.
Qed.
Lemma csum_minus f g p : csum (fun n => f n - g n)%C p = (csum f p - csum g p)%C.
Proof.
  induction p as [|p IH]; [rewrite !csum_O; reflexivity|]. rewrite !csum_S, IH. ring.
Qed.
Lemma csum_ext_le f g p : (forall n, (n <= p)%nat -> f n = g n) -> csum f p = csum g p.
Proof. intros H. unfold csum. f_equal; apply sum_n_ext_loc; intros n Hn; rewrite H by exact Hn; reflexivity. Qed.

Lemma ts_helmholtz_s_values junk cjunk k h s c t charge p jt js (jd : list C) jscale : k <> RtoC 0 -> sph_hankel k h -> s <> c -> t <> c -> above k (dist s c) ->
  (p < BUFSIZE)%nat -> jscale = scale_for (k * RtoC (dist t c))%C ->
  (forall n, (n <= Nat.max 1 p)%nat -> nth_error js n = Some (jt n / RtoC (jscale ^ n))%C) ->
  ts_helmholtz_s junk cjunk s c t charge p k js jscale = Fin (charge * helmholtz_qbx k (fun n _ => jt n) h p c s t)%C.
Proof.
  intros Hk Hh Hs Ht Hab Hp Ejs V.
  set (jf := fun (nt : nat) (z : C) (sc : R) (b : bool) => if Nat.eq_dec nt (Nat.max 1 p) then if Req_EM_T sc jscale then if b then None else Some (js, jd) else None else None : option (list C * list C)).
  apply (@ts_helmholtz_s_ok junk cjunk jf k (fun n _ => jt n) h Hk Hh) with (ifder := false) (jd := jd); try assumption.
  - intros nt r sc b fj fd Hr Hsc E. unfold jf in E. destruct (Nat.eq_dec nt (Nat.max 1 p)) as [->|]; [|discriminate].
    destruct (Req_EM_T sc jscale) as [->|]; [|discriminate]. destruct b; [discriminate|]. injection E as <- <-. split; [exact V|discriminate].
  - unfold ts_helmholtz_precompute, jf. destruct (Nat.eq_dec _ _) as [_|X]; [|contradiction].
    fold (scale_for (k * RtoC (dist t c))%C). rewrite <- Ejs. destruct (Req_EM_T _ _) as [_|X]; [reflexivity|contradiction].
Qed.
Lemma sum_n_le_to (f g : nat -> R) p : (forall n, (n <= p)%nat -> f n <= g n) -> sum_n f p <= sum_n g p.
Proof.
  induction p as [|p IH]; intros H; [rewrite !sum_O; apply H; lia|]. rewrite !sum_Sn. apply Rplus_le_compat; [apply IH; intros n Hn; apply H; lia|apply H; lia].
Qed.
