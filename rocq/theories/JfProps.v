(** C115, C116: the spherical Bessel functions of the target-specific Helmholtz expansions. *)
From Coq Require Import Reals List Lra Lia.
From Coquelicot Require Import Coquelicot.
From Verif Require Import Base TsModel TsSpec TsProofs TsProofs2 TsProofs3 TsProofs4 TsProofs5 TsProofs6 JfModel JfSpec JfProofs JfProofs2 JfProofs3 JfProofs4 JfProofs5 JfProofs6 JfProofs7.
Import ListNotations.
Set Implicit Arguments.
Open Scope R_scope.

(** ** C115 *)

(** The values j_n(k r) of the functions that TsSpec defines by their derivatives are the
    ones of the recurrence, and so are their derivatives. *)
Theorem spherical_recurrence : forall k j r, k <> RtoC 0 -> sph_bessel k j -> 0 < r ->
  bessel_at (k * RtoC r)%C (fun n => j n r)
  /\ forall n, cderiv (j n) r (k * rec_derivative (fun m => j m r) n)%C.
Proof.
  intros k j r Hk Hj Hr. split; [apply bessel_link; assumption|]. intros n. rewrite (derivative_link n Hk Hj Hr). apply Hj, Hr.
Qed.
Print Assumptions spherical_recurrence.

(** When jfuns3d_ reports success, fjs_n = (j_n - j_N S_n / S_N) / scale^n, where N > nterms is
    the first order at which the upward recurrence exceeds 10^20 and S is the companion
    solution; fjder holds the derivatives of the same functions.  Whatever the arrays. *)
Theorem jfuns3d_values : forall nterms z scale fjs ifder fjder lwfjs iscale fjs' fjder' j,
  (1 <= nterms)%nat -> tiny <= Cmod z -> bessel_at z j ->
  jfuns3d nterms z scale fjs ifder fjder lwfjs iscale = Fin (0%nat, fjs', fjder') ->
  exists N, first_exceeds z nterms N /\ (N <= lwfjs + 1)%nat /\ companion z j N <> RtoC 0 /\
    (forall n, (n <= nterms)%nat -> nth_error fjs' n = Some (truncated z j N n / RtoC (scale ^ n))%C) /\
    (ifder = true -> forall n, (n <= nterms)%nat -> nth_error fjder' n = Some (rec_derivative (truncated z j N) n / RtoC (scale ^ n))%C) /\
    (ifder = false -> fjder' = fjder).
Proof.
  intros nterms z scale fjs ifder fjder lwfjs iscale fjs' fjder' j HT Hz Hj E.
  destruct (@run_inv z nterms scale ifder lwfjs fjs fjder iscale j HT ltac:(lra) Hj fjs' fjder' E) as (N & F & L & _ & _ & _ & C0 & G1 & G2).
  exists N. split; [exact F|]. split; [exact L|]. split; [exact C0|]. split; [exact G1|].
  destruct ifder; split; intros I; try discriminate; exact G2.
Qed.
Print Assumptions jfuns3d_values.

(** With arrays of lwfjs + 2 entries (nterms + 1 for the derivatives) there is no access out of
    bounds; error 8 is reported exactly if the upward recurrence stays below 10^20, and the only
    divisions by zero are by the scale and by the companion solution. *)
Theorem jfuns3d_outcomes : forall nterms z scale fjs ifder fjder lwfjs iscale j,
  (1 <= nterms <= lwfjs + 1)%nat -> tiny <= Cmod z -> bessel_at z j ->
  (lwfjs + 2 <= length fjs)%nat -> (lwfjs + 2 <= length iscale)%nat -> (nterms + 1 <= length fjder)%nat ->
  ((forall N, (N <= lwfjs + 1)%nat -> ~ exceeds z nterms N) /\
     exists fjs', jfuns3d nterms z scale fjs ifder fjder lwfjs iscale = Fin (8%nat, fjs', fjder)) \/
  (exists N, first_exceeds z nterms N /\ (N <= lwfjs + 1)%nat /\
     ((scale = 0 \/ companion z j N = RtoC 0) /\ jfuns3d nterms z scale fjs ifder fjder lwfjs iscale = NotFinite \/
      scale <> 0 /\ companion z j N <> RtoC 0 /\ exists fjs' fjder', jfuns3d nterms z scale fjs ifder fjder lwfjs iscale = Fin (0%nat, fjs', fjder'))).
Proof.
  intros nterms z scale fjs ifder fjder lwfjs iscale j HT Hz Hj H1 H2 H3. assert (Hz' : ~ Cmod z < tiny) by lra.
  destruct (search z nterms (lwfjs + 1)) as [(N & F & L)|NX].
  - right. exists N. split; [exact F|]. split; [exact L|].
    destruct (Req_EM_T scale 0) as [S0|S0].
    + left. split; [left; exact S0|]. apply (@run_notfinite z nterms scale ifder lwfjs fjs fjder iscale j ltac:(lia) Hz' Hj N F); try lia. left; exact S0.
    + destruct (Ceq_dec (companion z j N) (RtoC 0)) as [C0|C0].
      * left. split; [right; exact C0|]. apply (@run_notfinite z nterms scale ifder lwfjs fjs fjder iscale j ltac:(lia) Hz' Hj N F); try lia. right; exact C0.
      * right. split; [exact S0|]. split; [exact C0|].
        destruct (@run_ok z nterms scale ifder lwfjs fjs fjder iscale j ltac:(lia) Hz' Hj N F) as (f' & d' & E & _); try lia; try assumption.
        exists f', d'. exact E.
  - left. split; [exact NX|]. destruct (@run_none z nterms scale ifder lwfjs fjs fjder iscale ltac:(lia) Hz' NX) as (f1 & _ & E); try lia.
    exists f1. exact E.
Qed.
Print Assumptions jfuns3d_outcomes.

(** Below 10^-200 the values at 0 are returned: j_n(0) / scale^n and j_n'(0) / scale^n. *)
Theorem jfuns3d_small_argument : forall nterms z scale fjs ifder fjder lwfjs iscale,
  Cmod z < tiny -> (nterms < length fjs)%nat ->
  (ifder = true -> (Nat.max 1 nterms < length fjder)%nat /\ scale <> 0) ->
  exists fjs' fjder', jfuns3d nterms z scale fjs ifder fjder lwfjs iscale = Fin (0%nat, fjs', fjder') /\
    (forall n, (n <= nterms)%nat -> nth_error fjs' n = Some (RtoC (if Nat.eqb n 0 then 1 else 0))) /\
    (ifder = true -> forall n, (n <= nterms)%nat -> nth_error fjder' n = Some (RtoC (if Nat.eqb n 1 then 1 / (3 * scale) else 0))) /\
    (ifder = false -> fjder' = fjder).
Proof.
  intros nterms z scale fjs ifder fjder lwfjs iscale Hz Hf Hd.
  destruct (@run_small nterms z scale fjs ifder fjder lwfjs iscale Hz Hf Hd) as (f' & d' & E & A & B).
  exists f', d'. split; [exact E|]. split; [exact A|]. destruct ifder; split; intros I; try discriminate; exact B.
Qed.
Print Assumptions jfuns3d_small_argument.

(** For |z| <= 1 the values are accurate to a relative 1.5 10^-20 (even to 1.5 10^-20 |j_N|), and the
    derivatives to a relative 2 10^-20. *)
Theorem jfuns3d_accuracy : forall nterms z j N,
  (1 <= nterms)%nat -> z <> RtoC 0 -> Cmod z <= 1 -> bessel_at z j -> first_exceeds z nterms N ->
  companion z j N <> RtoC 0 /\
  (forall n, (n <= nterms)%nat -> Cmod (truncated z j N n - j n)%C <= 15 / 10 ^ 21 * Cmod (j N)) /\
  (forall n, (n <= nterms)%nat -> Cmod (truncated z j N n - j n)%C <= 15 / 10 ^ 21 * Cmod (j n)) /\
  (forall n, (n <= nterms)%nat -> Cmod (rec_derivative (truncated z j N) n - rec_derivative j n)%C <= 2 / 10 ^ 20 * Cmod (rec_derivative j n)).
Proof.
  intros nterms z j N HT NE H1 Hj F. assert (HN : (nterms < N)%nat) by apply F.
  split; [apply (@companion_ne z NE H1 nterms HT); lia|]. split; [|split].
  - intros n Hn. apply (@truncated_close z NE H1 nterms HT j N (or_intror (j1_j0 NE H1 Hj)) (proj1 F) n Hn).
  - intros n Hn. apply (@value_error z nterms N j HT NE H1 Hj (proj1 F) n Hn).
  - intros n Hn. apply (@derivative_error z nterms N j HT NE H1 Hj (proj1 F) n Hn).
Qed.
Print Assumptions jfuns3d_accuracy.
(** The spherical Bessel functions of such an argument decrease with the order, by 2n + 2 at
    least, so j_N is below all the values returned. *)
Theorem bessel_decay : forall z j n, z <> RtoC 0 -> Cmod z <= 1 -> bessel_at z j ->
  Cmod (j (S n)) <= Cmod (j n) /\ (2 * INR n + 2) * Cmod (j (S n)) <= Cmod z * Cmod (j n).
Proof. intros z j n NE H1 Hj. split; [apply (j_decreases H1 NE Hj)|apply (j_ratio H1 NE Hj)]. Qed.
Print Assumptions bessel_decay.

(** For |z| <= 1 and orders up to 53 the buffers of the callers suffice. *)
Theorem jfuns3d_wrapper_values : forall cjunk ijunk nterms z scale ifder j,
  (1 <= nterms <= 53)%Z -> scale <> 0 -> tiny <= Cmod z <= 1 -> bessel_at z j ->
  exists N, first_exceeds z (Z.to_nat nterms) N /\ (N <= 63)%nat /\
  jfuns3d_wrapper cjunk ijunk nterms z scale ifder =
    Fin (Ok (map (fun n => truncated z j N n / RtoC (scale ^ n))%C (seq 0 (1 + Z.to_nat nterms)),
             if ifder then Some (map (fun n => rec_derivative (truncated z j N) n / RtoC (scale ^ n))%C (seq 0 (1 + Z.to_nat nterms))) else None)).
Proof. exact wrapper_ok. Qed.
Theorem jfuns3d_wrapper_rejects : forall cjunk ijunk nterms z scale ifder, (nterms <= 0)%Z ->
  jfuns3d_wrapper cjunk ijunk nterms z scale ifder = Fin (Err ValueError).
Proof. intros cjunk ijunk nterms z scale ifder H. unfold jfuns3d_wrapper. destruct (Z.leb_spec nterms 0); [reflexivity|lia]. Qed.
Print Assumptions jfuns3d_wrapper_values.

(** The single-layer expansion with the computed values: finite, and within
    |charge| |k| sum (2n+1) 1.5 10^-20 |j_n| |h_n P_n| of the expansion with the true ones. *)
Theorem ts_helmholtz_s_computed : forall junk cjunk ijunk k j h s c t charge p ifder jvals jderivs,
  k <> RtoC 0 -> sph_bessel k j -> sph_hankel k h -> s <> c -> t <> c ->
  1 / 1000000000000000 <= Cmod (k * RtoC (eucl s c))%C -> (p <= 53)%nat ->
  tiny <= Cmod (k * RtoC (eucl t c))%C <= 1 ->
  length jvals = (BUFSIZE + PADDING)%nat -> length jderivs = (BUFSIZE + PADDING)%nat ->
  exists N js jd jscale v, (p < N <= 63)%nat /\
    precompute ijunk c t p ifder k jvals jderivs = Fin (js, jd, jscale) /\
    ts_helmholtz_s junk cjunk s c t charge p k js jscale = Fin (charge * v)%C /\
    Cmod (v - helmholtz_qbx k j h p c s t)%C <=
      Cmod k * sum_n (fun n => (2 * INR n + 1) * (15 / 10 ^ 21 * Cmod (j n (eucl t c))) * Cmod (h n (eucl s c)) * Rabs (legendre n (cos_between s c t))) p.
Proof.
  intros junk cjunk ijunk k j h s c t charge p ifder jvals jderivs Hk Hj Hh Hs Ht Hab Hp Hz LJ LD.
  assert (Hr : 0 < dist t c) by (apply dist_pos, Ht). rewrite <- !dist_eucl in *.
  pose proof (bessel_link Hk Hj Hr) as BA.
  destruct (@precompute_fin ijunk c t p ifder k jvals jderivs (fun n => j n (dist t c)) Hk Hp) as (N & js & jd & F & HN & E & V & _); try assumption.
  { rewrite LJ. unfold BUFSIZE, PADDING. lia. } { rewrite LD. unfold BUFSIZE, PADDING. lia. }
  exists N, js, jd, (scale_for (k * RtoC (dist t c))%C), (helmholtz_qbx k (fun n _ => truncated (k * RtoC (dist t c))%C (fun n => j n (dist t c)) N n) h p c s t).
  split; [destruct F as [[A _] _]; lia|]. split; [exact E|]. split.
  { apply ts_helmholtz_s_values; try assumption; [unfold BUFSIZE; lia|reflexivity]. }
  pose proof (@jfuns3d_accuracy (Nat.max 1 p) (k * RtoC (dist t c))%C (fun n => j n (dist t c)) N ltac:(lia) (kr_ne k Hk (dist t c) Hr) ltac:(lra) BA F) as (_ & _ & A & _).
  unfold helmholtz_qbx. rewrite <- !dist_eucl.
  match goal with |- Cmod (Ci * k * csum ?f p - Ci * k * csum ?g p)%C <= _ => replace (Ci * k * csum f p - Ci * k * csum g p)%C with (Ci * k * csum (fun n => f n - g n)%C p)%C by (rewrite csum_minus; ring) end.
  rewrite !Cmod_mult. replace (Cmod Ci) with 1.
  2:{ unfold Cmod, Ci. cbn [fst snd]. replace (0 ^ 2 + 1 ^ 2) with 1 by ring. symmetry. apply sqrt_1. }
  rewrite Rmult_1_l. apply Rmult_le_compat_l; [apply Cmod_ge_0|]. eapply Rle_trans; [apply csum_norm|].
  apply sum_n_le_to. intros n Hn.
  match goal with |- Cmod (?a * ?b * ?d * ?e - ?a * ?b' * ?d * ?e)%C <= _ => replace (a * b * d * e - a * b' * d * e)%C with (a * (b - b') * d * e)%C by ring end.
  rewrite !Cmod_mult, !Cmod_RtoC, Rabs_pos_eq by (pose proof (pos_INR n); lra).
  apply Rmult_le_compat_r; [apply Rabs_pos|]. apply Rmult_le_compat_r; [apply Cmod_ge_0|]. apply Rmult_le_compat_l; [pose proof (pos_INR n); lra|].
  apply A. lia.
Qed.
Print Assumptions ts_helmholtz_s_computed.

(** Hypotheses met: j_0 ... at z = 1/2, order 3, and the zero argument. *)
Example jfuns3d_example : forall cjunk ijunk, exists j N js jd,
  bessel_at (RtoC (1 / 2)) j /\ first_exceeds (RtoC (1 / 2)) 3 N /\
  jfuns3d_wrapper cjunk ijunk 3 (RtoC (1 / 2)) (1 / 2) true = Fin (Ok (js, Some jd)) /\
  length js = 4%nat /\
  (forall n, (n <= 3)%nat -> Cmod (truncated (RtoC (1 / 2)) j N n - j n)%C <= 15 / 10 ^ 21 * Cmod (j n)).
Proof.
  intros cjunk ijunk. assert (Hk : RtoC 1 <> RtoC 0) by (apply RtoC_ne; lra).
  pose proof (@bessel_link (RtoC 1) (the_bessel (RtoC 1)) (1 / 2) Hk (bessel_exists _ Hk) ltac:(lra)) as BA.
  replace (RtoC 1 * RtoC (1 / 2))%C with (RtoC (1 / 2)) in BA by ring.
  assert (M : Cmod (RtoC (1 / 2)) = 1 / 2) by (rewrite Cmod_RtoC, Rabs_pos_eq; lra).
  assert (Tn : tiny <= 1 / 2).
  { unfold tiny. replace (1 / 2) with (/ 2) by field. apply Rinv_le_contravar; [lra|]. apply Rle_trans with (10 ^ 1); [lra|]. apply Rle_pow; [lra|lia]. }
  destruct (@jfuns3d_wrapper_values cjunk ijunk 3 (RtoC (1 / 2)) (1 / 2) true _ ltac:(lia) ltac:(lra) ltac:(rewrite M; lra) BA) as (N & F & HN & E).
  eexists _, N, _, _. split; [exact BA|]. split; [exact F|]. split; [exact E|]. split; [reflexivity|].
  apply (@jfuns3d_accuracy 3 (RtoC (1 / 2)) _ N ltac:(lia) ltac:(apply RtoC_ne; lra) ltac:(rewrite M; lra) BA F).
Qed.

(** ** C116: the buffers of the callers *)
Lemma wrapper_start cjunk ijunk nterms z scale ifder : (1 <= nterms)%Z ->
  jfuns3d_wrapper cjunk ijunk nterms z scale ifder =
  fbind (jfuns3d (Z.to_nat nterms) z scale (map cjunk (seq 0 BUFSIZE)) ifder (map cjunk (seq 0 BUFSIZE)) BUFSIZE (map ijunk (seq 0 BUFSIZE)))
    (fun '(ier, fjs, fjder) => if Nat.eqb ier 0 then Fin (Ok (firstn (1 + Z.to_nat nterms) fjs, if ifder then Some (firstn (1 + Z.to_nat nterms) fjder) else None)) else Fin (Err ValueError)).
Proof. intros H. unfold jfuns3d_wrapper. destruct (Z.leb_spec nterms 0); [lia|reflexivity]. Qed.
(** The wrapper writes outside of its buffers exactly if the upward recurrence has not exceeded
    10^20 at order 63. *)
Theorem jfuns3d_wrapper_overflow_partial : forall cjunk ijunk nterms z scale ifder j,
  (1 <= nterms)%Z -> tiny <= Cmod z -> bessel_at z j ->
  (jfuns3d_wrapper cjunk ijunk nterms z scale ifder = Fault
   <-> forall N, (N <= 63)%nat -> ~ exceeds z (Z.to_nat nterms) N).
Proof.
  intros cjunk ijunk nterms z scale ifder j HT Hz Hj. rewrite (wrapper_start cjunk ijunk z scale ifder HT). set (T := Z.to_nat nterms).
  assert (HT' : (1 <= T)%nat) by (unfold T; lia). assert (Hz' : ~ Cmod z < tiny) by lra.
  assert (LC : length (map cjunk (seq 0 BUFSIZE)) = BUFSIZE) by apply junk_length. assert (LI : length (map ijunk (seq 0 BUFSIZE)) = BUFSIZE) by apply junk_length.
  split.
  - intros E. destruct (search z T 63) as [(N & F & L)|NX]; [|exact NX]. exfalso. assert (HN : (T < N)%nat) by apply F.
    destruct (Req_EM_T scale 0) as [S0|S0].
    + rewrite (@run_notfinite z T scale ifder BUFSIZE _ _ _ j HT' Hz' Hj N F) in E; [discriminate| | | | |left; exact S0];
        rewrite ?LC, ?LI; unfold BUFSIZE; lia.
    + destruct (Ceq_dec (companion z j N) (RtoC 0)) as [C0|C0].
      * rewrite (@run_notfinite z T scale ifder BUFSIZE _ _ _ j HT' Hz' Hj N F) in E; [discriminate| | | | |right; exact C0];
          rewrite ?LC, ?LI; unfold BUFSIZE; lia.
      * destruct (@run_ok z T scale ifder BUFSIZE (map cjunk (seq 0 BUFSIZE)) (map cjunk (seq 0 BUFSIZE)) (map ijunk (seq 0 BUFSIZE)) j HT' Hz' Hj N F) as (f' & d' & E' & _);
          [..|rewrite E' in E; discriminate]; try assumption; rewrite ?LC, ?LI; unfold BUFSIZE; lia.
  - intros NX. destruct (Nat.le_gt_cases BUFSIZE T) as [G|G].
    + rewrite (@run_start z T scale ifder BUFSIZE) ; [reflexivity|exact Hz'|rewrite LC; exact G].
    + rewrite (@run_fault z T scale ifder BUFSIZE); [reflexivity|exact HT'|exact Hz'| |rewrite LC; unfold BUFSIZE in *; lia].
      intros N HN. apply NX. rewrite LC in HN. unfold BUFSIZE in HN. lia.
Qed.
Print Assumptions jfuns3d_wrapper_overflow_partial.
(** For every order from 63 on, whatever the argument ... *)
Theorem jfuns3d_wrapper_order_refuted : forall cjunk ijunk nterms z scale ifder,
  (63 <= nterms)%Z -> tiny <= Cmod z -> jfuns3d_wrapper cjunk ijunk nterms z scale ifder = Fault.
Proof.
  intros cjunk ijunk nterms z scale ifder HT Hz. rewrite (@wrapper_start cjunk ijunk nterms z scale ifder ltac:(lia)). set (T := Z.to_nat nterms).
  assert (HT' : (63 <= T)%nat) by (unfold T; lia). assert (Hz' : ~ Cmod z < tiny) by lra.
  assert (LC : length (map cjunk (seq 0 BUFSIZE)) = BUFSIZE) by apply junk_length.
  destruct (Nat.le_gt_cases BUFSIZE T) as [G|G].
  - rewrite (@run_start z T scale ifder BUFSIZE) ; [reflexivity|exact Hz'|rewrite LC; exact G].
  - rewrite (@run_fault z T scale ifder BUFSIZE); [reflexivity|lia|exact Hz'| |rewrite LC; unfold BUFSIZE in *; lia].
    intros N HN [A _]. rewrite LC in HN. unfold BUFSIZE in HN. lia.
Qed.
Print Assumptions jfuns3d_wrapper_order_refuted.
(** ... and for every order, if |z| >= 127. *)
Theorem jfuns3d_wrapper_large_refuted : forall cjunk ijunk nterms z scale ifder,
  (1 <= nterms)%Z -> 127 <= Cmod z -> jfuns3d_wrapper cjunk ijunk nterms z scale ifder = Fault.
Proof.
  intros cjunk ijunk nterms z scale ifder HT Hz. rewrite (wrapper_start cjunk ijunk z scale ifder HT). set (T := Z.to_nat nterms).
  assert (HT' : (1 <= T)%nat) by (unfold T; lia).
  assert (Tn : tiny <= 1).
  { unfold tiny. rewrite <- Rinv_1. apply Rinv_le_contravar; [lra|]. apply pow_R1_Rle. lra. }
  assert (Hz' : ~ Cmod z < tiny) by lra. assert (LC : length (map cjunk (seq 0 BUFSIZE)) = BUFSIZE) by apply junk_length.
  destruct (Nat.le_gt_cases BUFSIZE T) as [G|G].
  - rewrite (@run_start z T scale ifder BUFSIZE) ; [reflexivity|exact Hz'|rewrite LC; exact G].
  - rewrite (@run_fault z T scale ifder BUFSIZE); [reflexivity|lia|exact Hz'| |rewrite LC; unfold BUFSIZE in *; lia].
    intros N HN. apply large_not; [exact Hz|]. rewrite LC in HN. unfold BUFSIZE in HN. lia.
Qed.
Print Assumptions jfuns3d_wrapper_large_refuted.
(** The error that it is there to report (too small a buffer) is never reported. *)
Theorem jfuns3d_wrapper_unreported_refuted : forall cjunk ijunk nterms z scale ifder,
  (1 <= nterms)%Z -> forall e, jfuns3d_wrapper cjunk ijunk nterms z scale ifder <> Fin (Err e).
Proof.
  intros cjunk ijunk nterms z scale ifder HT e. rewrite (wrapper_start cjunk ijunk z scale ifder HT). set (T := Z.to_nat nterms).
  assert (HT' : (1 <= T)%nat) by (unfold T; lia).
  assert (LC : length (map cjunk (seq 0 BUFSIZE)) = BUFSIZE) by apply junk_length.
  destruct (jfuns3d _ _ _ _ _ _ _ _) as [[[ier f] d]| | |] eqn:E; try discriminate. cbn [fbind].
  destruct (Nat.eqb_spec ier 0) as [->|NE]; [discriminate|]. exfalso.
  destruct (Rlt_dec (Cmod z) tiny) as [Hz|Hz].
  - unfold jfuns3d in E. destruct (Rlt_dec (Cmod z) tiny) as [_|]; [|contradiction]. 
    repeat match type of E with
      | fbind ?x _ = _ => destruct x; cbn [fbind] in E; try discriminate
      | (if ?b then _ else _) = _ => destruct b; try discriminate
      end; injection E as <- _ _; apply NE; reflexivity.
  - destruct (Nat.le_gt_cases BUFSIZE T) as [G|G]; [rewrite (@run_start z T scale ifder BUFSIZE) in E; [discriminate|exact Hz|rewrite LC; exact G]|].
    destruct (search z T 63) as [(N & F & L)|NX].
    + destruct (@run_found z T scale ifder BUFSIZE (map cjunk (seq 0 BUFSIZE)) (map cjunk (seq 0 BUFSIZE)) (map ijunk (seq 0 BUFSIZE)) HT' Hz N F) as (f1 & _ & E1); [unfold BUFSIZE; lia|rewrite LC; unfold BUFSIZE; lia|].
      rewrite E1 in E. unfold after in E.
      repeat match type of E with
      | fbind ?x _ = _ => destruct x; cbn [fbind] in E; try discriminate
      | (let '(_, _) := ?p in _) = _ => destruct p
      | (let _ := _ in _) = _ => cbv zeta in E
      | (if ?b then _ else _) = _ => destruct b; try discriminate
      end; injection E as <- _ _; apply NE; reflexivity.
    + rewrite (@run_fault z T scale ifder BUFSIZE) in E; [discriminate|exact HT'|exact Hz| |rewrite LC; unfold BUFSIZE in *; lia].
      intros N HN. apply NX. rewrite LC in HN. unfold BUFSIZE in HN. lia.
Qed.
Print Assumptions jfuns3d_wrapper_unreported_refuted.
(** ts_helmholtz_precompute at order 63, the highest one that the other buffers of the
    expansions allow: a write out of bounds or an abort, for every argument. *)
Theorem precompute_order_63_refuted : forall ijunk c t ifder k jvals jderivs,
  tiny <= Cmod (k * RtoC (eucl t c))%C ->
  length jvals = (BUFSIZE + PADDING)%nat -> length jderivs = (BUFSIZE + PADDING)%nat ->
  precompute ijunk c t 63 ifder k jvals jderivs = Fault \/ precompute ijunk c t 63 ifder k jvals jderivs = Abort.
Proof.
  intros ijunk c t ifder k jvals jderivs Hz LJ LD. rewrite <- dist_eucl in Hz. unfold precompute. set (z := (k * RtoC (dist t c))%C) in *.
  set (sc := if Rlt_dec (Cmod z) 1 then Cmod z else 1). change (Nat.max 1 63) with 63%nat. assert (Hz' : ~ Cmod z < tiny) by lra.
  destruct (search z 63 65) as [(N & F & L)|NX].
  - left. assert (HN : (63 < N)%nat) by apply F.
    destruct (@run_found z 63 sc ifder BUFSIZE jvals jderivs (map ijunk (seq 0 BUFSIZE)) ltac:(lia) Hz' N F) as (f1 & _ & E1); [unfold BUFSIZE; lia|rewrite LJ; unfold BUFSIZE, PADDING; lia|].
    rewrite E1. rewrite after_iscale_short; [reflexivity|..]; rewrite ?junk_length; unfold BUFSIZE; lia.
  - right. destruct (@run_none z 63 sc ifder BUFSIZE jvals jderivs (map ijunk (seq 0 BUFSIZE)) ltac:(lia) Hz' NX) as (f1 & _ & E1); [rewrite LJ; unfold BUFSIZE, PADDING; lia|rewrite LJ; unfold BUFSIZE, PADDING; lia|].
    rewrite E1. reflexivity.
Qed.
Print Assumptions precompute_order_63_refuted.
