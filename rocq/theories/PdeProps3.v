(** C77: the clamped plate and the Cahn-Hilliard operators. *)
From Coq Require Import Ring QArith Qcanon.
From Verif Require Import Base MatModel MatProofs PdeModel PdeSpec PdeProofs PdeProps PdeProps2 SymProofs2.
Set Implicit Arguments.
Open Scope string_scope. Open Scope list_scope. Open Scope nat_scope.

(** *** The clamped plate *)

(** The third- and second-order potentials of the plate: normal-normal-normal,
    normal-tangent-tangent, normal-normal, tangent-tangent source derivatives. *)
Section Plate.
Variable W : world.
Variables (k : kernel) (g : nat).
Definition kn : list (string * rkval) := [("normal_dir", RNormal g)].
Definition kt : list (string * rkval) := [("tangent_dir", RTangent g)].
Definition dirk (ds : list string) : kernel := mk_kernel (kbase k) (ds ++ kdirs k).
Definition plate_pot (tds : list nat) (l : lim) (f0 f1 : W) : W :=
  radd W (rsub W (radd W
     (pot W (dirk ["normal_dir"; "normal_dir"; "normal_dir"]) tds l g g kn f0)
     (rmul W (of_Z W 3) (pot W (dirk ["normal_dir"; "tangent_dir"; "tangent_dir"]) tds l g g (kn ++ kt) f0)))
     (pot W (dirk ["normal_dir"; "normal_dir"]) tds l g g kn f1))
     (pot W (dirk ["tangent_dir"; "tangent_dir"]) tds l g g kt f1).
Definition plate_potN (l : lim) (f0 f1 : W) : W :=
  rsum W (kdim k) (fun i => rmul W (w_normal W (kdim k) i g) (plate_pot [i] l f0 f1)).

(** Farkas' jump relations for the interior limit. *)
Definition plate_jumps : Prop := forall f0 f1,
  plate_pot [] (LSide (-1)) f0 f1 = radd W (plate_pot [] LAvg f0 f1) (half W f0) /\
  plate_potN (LSide (-1)) f0 f1
    = radd W (plate_potN LAvg f0 f1) (rsub W (half W f1) (rmul W (w_curv W (kdim k) (kdim k - 1) g) f0)).
End Plate.

Theorem plate_constructor k s :
  (make_plate k s = Ok k <-> s = (-1)%Z /\ kdim k = 2) /\
  (make_plate k s <> Ok k -> make_plate k s = Err ValueError).
Proof.
  unfold make_plate. destruct (Z.eqb_spec s (-1)); simpl; [|split; [split; [discriminate|tauto]|auto]].
  destruct (Nat.eqb_spec (kdim k) 2); simpl; split; try tauto; split; try tauto; try discriminate.
Qed.

Section C77.
Variable W : world.
Hypothesis OK : world_ok W.
Add Ring Wr3 : (wo_ring OK).

Lemma plate_rep_Ok k sg mp l src tgt r : plate_representation k sg mp l src tgt [] = Ok r ->
  exists a b c d,
    mp (PLp (dirk k ["normal_dir"; "normal_dir"; "normal_dir"]) [] l src tgt [("normal_dir", KVNormal DNone)] (fst sg)) = Ok a /\
    mp (PLp (dirk k ["normal_dir"; "tangent_dir"; "tangent_dir"]) [] l src tgt [("normal_dir", KVNormal DNone); ("tangent_dir", KVTangent DNone)] (fst sg)) = Ok b /\
    mp (PLp (dirk k ["normal_dir"; "normal_dir"]) [] l src tgt [("normal_dir", KVNormal DNone)] (snd sg)) = Ok c /\
    mp (PLp (dirk k ["tangent_dir"; "tangent_dir"]) [] l src tgt [("tangent_dir", KVTangent DNone)] (snd sg)) = Ok d /\
    r = PAdd (PSub (PAdd a (PMul (pint 3) b)) c) d.
Proof.
  intros H. unfold plate_representation in H. cbv zeta in H.
  apply bind_Ok in H. destruct H as (x1 & H1 & H). apply bind_Ok in H. destruct H as (x2 & H2 & H).
  apply bind_Ok in H. destruct H as (x3 & H3 & H). apply bind_Ok in H. destruct H as (x4 & H4 & H).
  apply bind_Ok in H. destruct H as (a & Ha & H). apply bind_Ok in H. destruct H as (b & Hb & H).
  apply bind_Ok in H. destruct H as (c & Hc & H). apply bind_Ok in H. destruct H as (d & Hd & H).
  injection H as <-.
  apply int_g_vec_Ok in H1, H2, H3, H4. subst.
  exists a, b, c, d. split; [exact Ha|]. split; [exact Hb|]. split; [exact Hc|]. split; [exact Hd|]. reflexivity.
Qed.

Lemma ev_plate_rep k sg l dd L r : here L dd = L -> plate_representation k sg (fun x => Ok x) l dd dd [] = Ok r ->
  ev W L L r = plate_pot W k L [] l (ev W L L (fst sg)) (ev W L L (snd sg)).
Proof.
  intros Hd H. apply plate_rep_Ok in H. destruct H as (a & b & c & d & [= <-] & [= <-] & [= <-] & [= <-] & ->).
  cbn [ev pint]. rewrite (wo_int OK). hereify L dd. rewrite Hd. reflexivity.
Qed.

Lemma ev_nderiv k tds l s t ka a n dd ds dt x : normal_derivative n (PLp k tds l s t ka a) dd = Ok x ->
  ev W ds dt x = rsum W n (fun i => rmul W (w_normal W n i (res_dd ds dt dd)) (pot W k (i :: tds) l (res_src ds s) (res_tgt dt t) (res_kargs ds ka) (ev W ds ds a))).
Proof.
  intros H. unfold normal_derivative in H. apply (@ev_psumM W OK ds dt _ _ _ _ H).
  intros i y _ E. simpl in E. injection E as <-. reflexivity.
Qed.

Lemma plate_comb n (w A B C D : nat -> W) t :
  radd W (rsub W (radd W (rsum W n (fun i => rmul W (w i) (A i))) (rmul W t (rsum W n (fun i => rmul W (w i) (B i)))))
     (rsum W n (fun i => rmul W (w i) (C i)))) (rsum W n (fun i => rmul W (w i) (D i)))
  = rsum W n (fun i => rmul W (w i) (radd W (rsub W (radd W (A i) (rmul W t (B i))) (C i)) (D i))).
Proof. induction n; simpl; [ring|]. rewrite <- IHn. ring. Qed.

Lemma ev_plate_repN k sg l dd L r : here L dd = L ->
  plate_representation k sg (fun p => normal_derivative (kdim k) p dd) l dd dd [] = Ok r ->
  ev W L L r = plate_potN W k L l (ev W L L (fst sg)) (ev W L L (snd sg)).
Proof.
  intros Hd H. apply plate_rep_Ok in H. destruct H as (a & b & c & d & Ha & Hb & Hc & Hdd & ->).
  cbn [ev pint]. rewrite (wo_int OK).
  rewrite (ev_nderiv _ _ _ _ _ _ _ _ _ L L Ha), (ev_nderiv _ _ _ _ _ _ _ _ _ L L Hb), (ev_nderiv _ _ _ _ _ _ _ _ _ L L Hc), (ev_nderiv _ _ _ _ _ _ _ _ _ L L Hdd).
  hereify L dd. rewrite Hd. unfold plate_potN, plate_pot. apply plate_comb.
Qed.

(** The operator evaluates to the interior limits of the representation and of its normal
    derivative (taken potential by potential). *)
Theorem plate_operator_is_limit k sg dd L e r rn :
  here L dd = L -> plate_jumps W k L ->
  plate_operator k sg dd [] = Ok e ->
  plate_representation k sg (fun x => Ok x) (LSide (-1)) dd dd [] = Ok r ->
  plate_representation k sg (fun p => normal_derivative (kdim k) p dd) (LSide (-1)) dd dd [] = Ok rn ->
  ev W L L (fst e) = ev W L L r /\ ev W L L (snd e) = ev W L L rn.
Proof.
  intros Hd HJ He Hr Hrn. rewrite (ev_plate_rep _ _ _ _ Hd Hr), (ev_plate_repN _ _ _ _ Hd Hrn).
  destruct (HJ (ev W L L (fst sg)) (ev W L L (snd sg))) as (J1 & J2). rewrite J1, J2.
  unfold plate_operator in He. apply bind_Ok in He. destruct He as (ra & Hra & He).
  apply bind_Ok in He. destruct He as (dr & Hdr & He). injection He as <-. cbn [fst snd].
  split.
  - change (radd W (ev W L L (PDiv (fst sg) (pint 2))) (ev W L L ra) =
      radd W (plate_pot W k L [] LAvg (ev W L L (fst sg)) (ev W L L (snd sg))) (half W (ev W L L (fst sg)))).
    rewrite (ev_plate_rep _ _ _ _ Hd Hra). rewrite (ev_div_pos OK). unfold half. ring.
  - change (radd W (rsub W (ev W L L (PDiv (snd sg) (pint 2))) (rmul W (w_curv W (kdim k) (kdim k - 1) (res_dd L L dd)) (ev W L L (fst sg)))) (ev W L L dr) =
      radd W (plate_potN W k L LAvg (ev W L L (fst sg)) (ev W L L (snd sg)))
       (rsub W (half W (ev W L L (snd sg))) (rmul W (w_curv W (kdim k) (kdim k - 1) L) (ev W L L (fst sg))))).
    hereify L dd. rewrite Hd.
    assert (Edr : ev W L L dr = plate_potN W k L LAvg (ev W L L (fst sg)) (ev W L L (snd sg))).
    { apply plate_rep_Ok in Hra. destruct Hra as (a & b & c & d & [= <-] & [= <-] & [= <-] & [= <-] & ->).
      unfold normal_derivative in Hdr. apply (@ev_psumM W OK L L _ _ _ _ Hdr).
      intros i y _ E. simpl in E. injection E as <-. cbn [ev]. rewrite (wo_int OK). hereify L dd. rewrite Hd. reflexivity. }
    rewrite Edr. rewrite (ev_div_pos OK). unfold half. ring.
Qed.

(** The operator exists for every planar kernel without arguments. *)
Theorem plate_total k sg dd l src tgt : kernel_args k = [] ->
  (exists e, plate_operator k sg dd [] = Ok e) /\
  (exists r, plate_representation k sg (fun x => Ok x) l src tgt [] = Ok r) /\
  (exists r, plate_representation k sg (fun p => normal_derivative (kdim k) p dd) l src tgt [] = Ok r).
Proof.
  intros Hk.
  assert (Hb : bkernel_args (kbase k) = [] /\ kdirs k = []).
  { unfold kernel_args in Hk. apply app_eq_nil in Hk. tauto. }
  destruct Hb as [Hb Hds]. destruct k as [b ds]; simpl in *. subst ds.
  assert (R : forall mp l src tgt, (forall k' l' s t ka a, exists r, mp (PLp k' [] l' s t ka a) = Ok r) ->
     exists r, plate_representation (mk_kernel b []) sg mp l src tgt [] = Ok r).
  { intros mp l' s t Hm. unfold plate_representation. cbv zeta. unfold symS.
    rewrite !int_g_vec_total; cbn [bind];
    try (intros x; unfold kernel_args; simpl; rewrite Hb; simpl; tauto).
    edestruct Hm as (r1 & ->). edestruct Hm as (r2 & ->). edestruct Hm as (r3 & ->). edestruct Hm as (r4 & ->).
    simpl. eauto. }
  split; [|split].
  - unfold plate_operator. edestruct (R (fun x => Ok x) LAvg dd dd) as (r & Er); [eauto|].
    rewrite Er. cbn [bind].
    assert (Hn : exists x, normal_derivative (kdim (mk_kernel b [])) r dd = Ok x).
    { apply plate_rep_Ok in Er. destruct Er as (a & b' & c & d & [= <-] & [= <-] & [= <-] & [= <-] & ->).
      apply psumM_total. intros i _. simpl. eauto. }
    destruct Hn as (x & ->). simpl. eauto.
  - apply R. eauto.
  - apply R. intros. apply nderiv_total.
Qed.

(** *** Cahn-Hilliard *)
Section CH.
Variables lam1 lam2 c : string.
Definition sc (x : string) : W := w_num W (NUser x).
(** The factor in front of the potentials. *)
Definition ch_factor : W :=
  rmul W (rmul W (of_Z W (-1)) (rinv W (rmul W (of_Z W 2) (w_num W NPi)))) (rinv W (rmul W (w_num W NI) (rinv W (of_Z W 4)))).

(** Components of the operator with limit [l] in place of the average, and without the identity
    terms. *)
Definition ch_limit (l : lim) (sg : pe * pe) : result (pe * pe) :=
  let S_G := fun i d => ch_S_G lam1 lam2 i d (LSide 1) (fun x => Ok x) in
  let Sn_G := fun i d => ch_S_G lam1 lam2 i d l (fun x => normal_derivative 2 x DNone) in
  let sq x := PMul (PNum (NUser x)) (PNum (NUser x)) in
  do n11 <- Sn_G 1 (fst sg); do s11 <- S_G 1 (fst sg);
  do n02 <- Sn_G 0 (snd sg); do s02 <- S_G 0 (snd sg);
  do n12 <- Sn_G 1 (snd sg);
  Ok (PAdd (PAdd (PAdd n11 (PMul (PNum (NUser c)) s11)) n02) (PMul (PNum (NUser c)) s02),
      PAdd (PSub (PMul (sq lam2) n11) n12) (PMul (sq lam1) n02)).

Definition hhk : kernel := plain (KHelmholtz 2 "k").
Lemma ev_Sn1 l d x L : ch_S_G lam1 lam2 1 d l (fun x => normal_derivative 2 x DNone) = Ok x ->
  ev W L L x = rmul W ch_factor (SingleN W [("k", RUser ("1j*" ++ lam1)%string)] hhk l L L (ev W L L d)).
Proof.
  intros H. unfold ch_S_G in H. apply bind_Ok in H. destruct H as (a0 & Ha0 & H). apply int_g_vec_Ok in Ha0. subst a0.
  apply bind_Ok in H. destruct H as (a & Ha & H). injection H as <-.
  cbn [ev pint]. rewrite !(wo_int OK). unfold ch_factor. f_equal.
  rewrite (ev_nderiv _ _ _ _ _ _ _ _ _ L L Ha). reflexivity.
Qed.
Lemma ev_Sn0 l d x L : ch_S_G lam1 lam2 0 d l (fun x => normal_derivative 2 x DNone) = Ok x ->
  ev W L L x = rmul W (ev W L L (PDiv (PDiv (pint (-1)) (PMul (PMul (pint 2) (PNum NPi)) (PSub (PMul (PNum (NUser lam1)) (PNum (NUser lam1))) (PMul (PNum (NUser lam2)) (PNum (NUser lam2)))))) (PDiv (PNum NI) (pint 4))))
     (rsub W (SingleN W [("k", RUser ("1j*" ++ lam1)%string)] hhk l L L (ev W L L d)) (SingleN W [("k", RUser ("1j*" ++ lam2)%string)] hhk l L L (ev W L L d))).
Proof.
  intros H. unfold ch_S_G in H. apply bind_Ok in H. destruct H as (a0 & Ha0 & H). apply int_g_vec_Ok in Ha0. subst a0.
  apply bind_Ok in H. destruct H as (a & Ha & H). apply bind_Ok in H. destruct H as (b0 & Hb0 & H). apply int_g_vec_Ok in Hb0. subst b0.
  apply bind_Ok in H. destruct H as (b & Hb & H).
  injection H as <-. cbn [ev]. f_equal.
  rewrite (ev_nderiv _ _ _ _ _ _ _ _ _ L L Ha), (ev_nderiv _ _ _ _ _ _ _ _ _ L L Hb). reflexivity.
Qed.

(** The operator differs from the interior limit by the identity terms times (1 - factor)/2. *)
Theorem ch_operator_defect sg L e r :
  singleN_jump W [("k", RUser ("1j*" ++ lam1)%string)] hhk L -> singleN_jump W [("k", RUser ("1j*" ++ lam2)%string)] hhk L ->
  ch_operator lam1 lam2 c sg = Ok e -> ch_limit (LSide (-1)) sg = Ok r ->
  let s1 := ev W L L (fst sg) in let s2 := ev W L L (snd sg) in
  let defect f := rmul W (rsub W (r1 W) ch_factor) (half W f) in
  ev W L L (fst e) = radd W (ev W L L (fst r)) (defect s1) /\
  ev W L L (snd e) = radd W (ev W L L (snd r)) (defect (rsub W (rmul W (rmul W (sc lam2) (sc lam2)) s1) s2)).
Proof.
  intros HJ1 HJ2 He Hr. cbv zeta.
  unfold ch_operator in He. cbv zeta in He. unfold ch_limit in Hr. cbv zeta in Hr.
  apply bind_Ok in He. destruct He as (n11 & Hn11 & He). apply bind_Ok in He. destruct He as (s11 & Hs11 & He).
  apply bind_Ok in He. destruct He as (n02 & Hn02 & He). apply bind_Ok in He. destruct He as (s02 & Hs02 & He).
  apply bind_Ok in He. destruct He as (n12 & Hn12 & He). injection He as <-.
  apply bind_Ok in Hr. destruct Hr as (m11 & Hm11 & Hr). apply bind_Ok in Hr. destruct Hr as (t11 & Ht11 & Hr).
  apply bind_Ok in Hr. destruct Hr as (m02 & Hm02 & Hr). apply bind_Ok in Hr. destruct Hr as (t02 & Ht02 & Hr).
  apply bind_Ok in Hr. destruct Hr as (m12 & Hm12 & Hr). injection Hr as <-.
  rewrite Ht11 in Hs11. injection Hs11 as <-. rewrite Ht02 in Hs02. injection Hs02 as <-.
  cbn [fst snd ev prat]. rewrite (ev_Sn1 L Hn11), (ev_Sn1 L Hn12), (ev_Sn1 L Hm11), (ev_Sn1 L Hm12), (ev_Sn0 L Hn02), (ev_Sn0 L Hm02).
  rewrite !(HJ1 (-1)%Z), !(HJ2 (-1)%Z) by auto. unfold signed, half, sc. simpl of_Z.
  split; ring.
Qed.

(** So the operator is the interior limit when the factor is one; but with i*i = -1 the factor is
    one only if pi*pi = -4. *)
Theorem ch_factor_not_one :
  rmul W (w_num W NI) (w_num W NI) = ropp W (r1 W) ->
  (forall a, a = rmul W (of_Z W 2) (w_num W NPi) \/ a = rmul W (w_num W NI) (rinv W (of_Z W 4)) ->
     rmul W a (rinv W a) = r1 W) ->
  ch_factor = r1 W -> rmul W (w_num W NPi) (w_num W NPi) = of_Z W (-4).
Proof.
  intros Hi Hinv H. unfold ch_factor in H.
  set (p := w_num W NPi) in *. set (i := w_num W NI) in *.
  set (a := rmul W (of_Z W 2) p) in *. set (b := rmul W i (rinv W (of_Z W 4))) in *.
  pose proof (Hinv a (or_introl eq_refl)) as Ia. pose proof (Hinv b (or_intror eq_refl)) as Ib.
  pose proof (wo_inv OK 4) as I4. simpl in I4.
  assert (E : ropp W (r1 W) = rmul W a b).
  { transitivity (rmul W (rmul W (rmul W a b) (rmul W (rmul W (of_Z W (-1)) (rinv W a)) (rinv W b))) (r1 W)).
    - transitivity (rmul W (rmul W (of_Z W (-1)) (rmul W a (rinv W a))) (rmul W b (rinv W b))); [rewrite Ia, Ib; simpl; ring|ring].
    - rewrite H. ring. }
  (* -1 = 2 p i / 4 *)
  set (q := rinv W (of_Z W 4)) in *.
  assert (E4 : rmul W (of_Z W 4) q = r1 W) by exact I4.
  assert (E2 : ropp W (of_Z W 2) = rmul W p i).
  { transitivity (rmul W (of_Z W 2) (rmul W a b)); [rewrite <- E; simpl; ring|].
    unfold a, b. transitivity (rmul W (rmul W p i) (rmul W (of_Z W 4) q)); [simpl; ring|rewrite E4; ring]. }
  transitivity (ropp W (rmul W (rmul W p i) (rmul W p i))).
  - transitivity (rmul W (ropp W (rmul W p p)) (rmul W i i)); [rewrite Hi; ring|ring].
  - rewrite <- E2. simpl. ring.
Qed.

(** The field the representation stands for - two modified Helmholtz potentials and their
    difference quotient -, with target derivatives [tds]. *)
Definition ch_factor0 : W :=
  rmul W (rmul W (of_Z W (-1)) (rinv W (rmul W (rmul W (of_Z W 2) (w_num W NPi)) (rsub W (rmul W (sc lam1) (sc lam1)) (rmul W (sc lam2) (sc lam2))))))
         (rinv W (rmul W (w_num W NI) (rinv W (of_Z W 4)))).
Definition ch_pot (lam : string) (tds : list nat) (l : lim) (s t : nat) : W -> W :=
  pot W hhk tds l s t [("k", RUser ("1j*" ++ lam)%string)].
Definition ch_field (tds : list nat) (l : lim) (s t : nat) (f1 f2 : W) : W :=
  radd W (rmul W ch_factor (ch_pot lam1 tds l s t f1))
         (rmul W ch_factor0 (rsub W (ch_pot lam1 tds l s t f2) (ch_pot lam2 tds l s t f2))).
Theorem ch_representation_formula sg ds dt e : ch_representation lam1 lam2 sg = Ok e ->
  ev W ds dt e = ch_field [] LNone ds dt (ev W ds ds (fst sg)) (ev W ds ds (snd sg)).
Proof.
  intros H. unfold ch_representation, ch_S_G in H. cbn [Nat.eqb] in H.
  apply bind_Ok in H. destruct H as (a & Ha & H). apply bind_Ok in Ha. destruct Ha as (a0 & Ha0 & Ha). apply int_g_vec_Ok in Ha0. subst a0. cbn [bind] in Ha. injection Ha as <-.
  apply bind_Ok in H. destruct H as (b & Hb & H). apply bind_Ok in Hb. destruct Hb as (b0 & Hb0 & Hb). apply int_g_vec_Ok in Hb0. subst b0. cbn [bind] in Hb.
  apply bind_Ok in Hb. destruct Hb as (b1 & Hb1 & Hb). apply int_g_vec_Ok in Hb1. subst b1. cbn [bind] in Hb. injection Hb as <-. injection H as <-.
  cbn [ev pint]. rewrite !(wo_int OK). unfold ch_field, ch_factor, ch_factor0, ch_pot, pot, sc. reflexivity.
Qed.

(** The modified Helmholtz equation for the potentials with parameter [lam]. *)
Definition ch_pde (lam : string) (l : lim) (L : nat) : Prop := forall i f,
  rsum W 2 (fun j => ch_pot lam [i; j; j] l L L f) = rmul W (rmul W (sc lam) (sc lam)) (ch_pot lam [i] l L L f).
(** The normal derivative, and that of the Laplacian. *)
Definition ch_dn (l : lim) (L : nat) (f1 f2 : W) : W :=
  rsum W 2 (fun i => rmul W (w_normal W 2 i L) (ch_field [i] l L L f1 f2)).
Definition ch_dn_lap (l : lim) (L : nat) (f1 f2 : W) : W :=
  rsum W 2 (fun i => rmul W (w_normal W 2 i L) (rsum W 2 (fun j => ch_field [i; j; j] l L L f1 f2))).

(** The limits are the boundary data of the field u: normal derivative of u plus c u, and normal
    derivative of b u - Laplace u with b = lambda1^2 + lambda2^2. *)
Theorem ch_boundary_data l sg L r :
  ch_pde lam1 l L -> ch_pde lam2 l L ->
  rmul W ch_factor0 (rsub W (rmul W (sc lam1) (sc lam1)) (rmul W (sc lam2) (sc lam2))) = ch_factor ->
  ch_limit l sg = Ok r ->
  let s1 := ev W L L (fst sg) in let s2 := ev W L L (snd sg) in
  let b := radd W (rmul W (sc lam1) (sc lam1)) (rmul W (sc lam2) (sc lam2)) in
  ev W L L (fst r) = radd W (ch_dn l L s1 s2) (rmul W (sc c) (ch_field [] (LSide 1) L L s1 s2)) /\
  ev W L L (snd r) = rsub W (rmul W b (ch_dn l L s1 s2)) (ch_dn_lap l L s1 s2).
Proof.
  intros P1 P2 HF Hr. cbv zeta. unfold ch_limit in Hr. cbv zeta in Hr.
  apply bind_Ok in Hr. destruct Hr as (m11 & Hm11 & Hr). apply bind_Ok in Hr. destruct Hr as (t11 & Ht11 & Hr).
  apply bind_Ok in Hr. destruct Hr as (m02 & Hm02 & Hr). apply bind_Ok in Hr. destruct Hr as (t02 & Ht02 & Hr).
  apply bind_Ok in Hr. destruct Hr as (m12 & Hm12 & Hr). injection Hr as <-.
  unfold ch_S_G in Ht11, Ht02. cbn [Nat.eqb] in Ht11.
  apply bind_Ok in Ht11. destruct Ht11 as (a0 & Ha0 & Ht11). apply int_g_vec_Ok in Ha0. subst a0. cbn [bind] in Ht11. injection Ht11 as <-.
  apply bind_Ok in Ht02. destruct Ht02 as (b0 & Hb0 & Ht02). apply int_g_vec_Ok in Hb0. subst b0. cbn [bind] in Ht02.
  apply bind_Ok in Ht02. destruct Ht02 as (b1 & Hb1 & Ht02). apply int_g_vec_Ok in Hb1. subst b1. cbn [bind] in Ht02. injection Ht02 as <-.
  cbn [fst snd ev prat pint]. rewrite (ev_Sn1 L Hm11), (ev_Sn1 L Hm12), (ev_Sn0 L Hm02). cbn [ev pint]. rewrite !(wo_int OK).
  change (rmul W (rmul W (of_Z W (-1)) (rinv W (rmul W (of_Z W 2) (w_num W NPi)))) (rinv W (rmul W (w_num W NI) (rinv W (of_Z W 4))))) with ch_factor.
  change (rmul W (rmul W (of_Z W (-1)) (rinv W (rmul W (rmul W (of_Z W 2) (w_num W NPi)) (rsub W (rmul W (w_num W (NUser lam1)) (w_num W (NUser lam1))) (rmul W (w_num W (NUser lam2)) (w_num W (NUser lam2)))))))
    (rinv W (rmul W (w_num W NI) (rinv W (of_Z W 4))))) with ch_factor0.
  split.
  - unfold ch_dn, ch_field, SingleN. change (kdim hhk) with 2; cbn [rsum seq map fold_left fold_right]. unfold ch_pot, pot, sc, hhk. cbn [res_src res_tgt res_kargs map res_kval fst snd String.append]. ring.
  - unfold ch_dn, ch_dn_lap, ch_field. unfold SingleN. 
    assert (Q : forall i, rsum W 2 (fun j => radd W (rmul W ch_factor (ch_pot lam1 [i; j; j] l L L (ev W L L (fst sg))))
         (rmul W ch_factor0 (rsub W (ch_pot lam1 [i; j; j] l L L (ev W L L (snd sg))) (ch_pot lam2 [i; j; j] l L L (ev W L L (snd sg))))))
      = radd W (rmul W ch_factor (rmul W (rmul W (sc lam1) (sc lam1)) (ch_pot lam1 [i] l L L (ev W L L (fst sg)))))
         (rmul W ch_factor0 (rsub W (rmul W (rmul W (sc lam1) (sc lam1)) (ch_pot lam1 [i] l L L (ev W L L (snd sg))))
            (rmul W (rmul W (sc lam2) (sc lam2)) (ch_pot lam2 [i] l L L (ev W L L (snd sg))))))).
    { intros i. rewrite <- !P1, <- P2. cbn [rsum]. ring. }
    change (kdim hhk) with 2. cbn [rsum] in *. rewrite !Q. rewrite <- HF. unfold ch_pot, sc. ring.
Qed.
End CH.
End C77.

(** *** The hypotheses are met *)
(** Like [pw], but potentials with a normal or tangent of another surface are zero. *)
Definition badn (p : rlp) : bool :=
  existsb (fun q => match snd q with RNormal g | RTangent g => negb (g =? rl_src p) | _ => false end) (rl_kargs p).
Definition pwn (vars : string -> F2) : world :=
  mk_world PairR vars (w_num (pw vars)) (w_jacw (pw vars)) (w_sqrtw (pw vars)) (w_ones (pw vars)) (w_int (pw vars))
    (w_curv (pw vars)) (w_normal (pw vars)) (fun p f => if badn p then r0 PairR else w_lp (pw vars) p f).
Lemma pwn_ok vars : world_ok (pwn vars).
Proof.
  destruct (pw_ok vars). constructor; auto.
  intros p a b. cbn [pwn w_lp wR]. destruct (badn p); [|apply wo_lp_add]. vm_compute. reflexivity.
Qed.
Definition bih : kernel := plain (KOther 2 "biharmonic" []).

Lemma pwn_pot vars ds tds l g ka f : (forall x, In x ka -> x = ("normal_dir", RNormal g) \/ x = ("tangent_dir", RTangent g)) ->
  pot (pwn vars) (dirk bih ds) tds l g g ka f = circ (table (dirk bih ds) tds l true) f.
Proof.
  intros H. unfold pot. cbn [pwn w_lp]. replace (badn _) with false.
  - cbn [pw w_lp rl_kernel rl_tds rl_lim rl_src rl_tgt]. rewrite Nat.eqb_refl. reflexivity.
  - symmetry. unfold badn. apply not_true_iff_false. intros E. apply existsb_exists in E. destruct E as (x & Hx & E). simpl in Hx.
    destruct (H x Hx) as [-> | ->]; simpl in E; rewrite Nat.eqb_refl in E; discriminate.
Qed.

Definition comb4 (a b c d : Q * Q) (f0 f1 : F2) : F2 :=
  radd PairR (rsub PairR (radd PairR (circ a f0) (rmul PairR (cst 3) (circ b f0))) (circ c f1)) (circ d f1).
Lemma pwn_plate vars g tds l f0 f1 : plate_pot (pwn vars) bih g tds l f0 f1 =
  comb4 (table (dirk bih ["normal_dir"; "normal_dir"; "normal_dir"]) tds l true)
        (table (dirk bih ["normal_dir"; "tangent_dir"; "tangent_dir"]) tds l true)
        (table (dirk bih ["normal_dir"; "normal_dir"]) tds l true)
        (table (dirk bih ["tangent_dir"; "tangent_dir"]) tds l true) f0 f1.
Proof.
  unfold plate_pot. rewrite !pwn_pot; [reflexivity| | | |]; simpl; tauto || intros x [<-|[<-|[]]] || intros x [<-|[]]; auto.
Qed.
Lemma pwn_plate0 vars g l f0 f1 : plate_pot (pwn vars) bih g [] l f0 f1 =
  comb4 (1 - side_of l / 2, 0)%Q (0, 0)%Q (1, 0)%Q (1, 1)%Q f0 f1.
Proof. rewrite pwn_plate. reflexivity. Qed.
Lemma pwn_plate1 vars g l f0 f1 : plate_pot (pwn vars) bih g [0] l f0 f1 =
  comb4 (2 + side_of l, 1)%Q (0, 0)%Q (3 + side_of l / 2, 0)%Q (1, 1)%Q f0 f1.
Proof. rewrite pwn_plate. reflexivity. Qed.
Lemma comb4_split a b c d a' b' c' d' f0 f1 :
  comb4 (a, a') (b, b') (c, c') (d, d') f0 f1 =
  radd PairR (circ (a + 3 * b, a' + 3 * b')%Q f0) (circ (d - c, d' - c')%Q f1).
Proof.
  unfold comb4. rewrite circ_scale, circ_add.
  rewrite <- (circ_sub d d' c c' f1). set (x := circ (a + 3 * b, a' + 3 * b')%Q f0). set (y := circ (c, c') f1). set (z := circ (d, d') f1).
  clearbody x y z. simpl. destruct x, y, z. unfold lift2; simpl. f_equal; ring.
Qed.
Lemma lin2 a b a' b' f0 f1 c0 c1 : 
  radd PairR (radd PairR (circ (a, b) f0) (circ (a', b') f1)) (radd PairR (circ (c0, 0) f0) (circ (c1, 0) f1))%Q
  = radd PairR (circ (a + c0, b)%Q f0) (circ (a' + c1, b')%Q f1).
Proof.
  rewrite (@circ_ext (a + c0)%Q b (a + c0)%Q (b + 0)%Q f0) by (ring || reflexivity).
  rewrite (@circ_ext (a' + c1)%Q b' (a' + c1)%Q (b' + 0)%Q f1) by (ring || reflexivity).
  rewrite <- !circ_add. set (p := circ (a, b) f0). set (q := circ (c0, 0%Q) f0). set (r := circ (a', b') f1). set (s := circ (c1, 0%Q) f1).
  clearbody p q r s. destruct p, q, r, s. simpl. unfold lift2; simpl. f_equal; ring.
Qed.
Lemma add_ext a b a' b' c d c' d' f0 f1 : (a == a')%Q -> (b == b')%Q -> (c == c')%Q -> (d == d')%Q ->
  radd PairR (circ (a, b) f0) (circ (c, d) f1) = radd PairR (circ (a', b') f0) (circ (c', d') f1).
Proof. intros. rewrite (@circ_ext a b a' b'), (@circ_ext c d c' d') by auto. reflexivity. Qed.

Lemma pwn_jumps vars g : plate_jumps (pwn vars) bih g.
Proof.
  intros f0 f1. split.
  - rewrite !pwn_plate0, !comb4_split. cbn [side_of].
    transitivity (radd PairR (radd PairR (circ (1 - 0 / 2 + 3 * 0, 0 + 3 * 0)%Q f0) (circ (1 - 1, 1 - 0)%Q f1)) (radd PairR (circ (1 # 2, 0)%Q f0) (circ (0, 0)%Q f1))).
    + rewrite lin2. apply add_ext; reflexivity.
    + unfold half. change (wR (pwn vars)) with PairR. f_equal. rewrite <- (circ_zero f1).
      change (w_num (pwn vars) (NRat 1 2)) with (cst (1 # 2)). rewrite (circ_id f0) at 2. rewrite circ_scale.
      rewrite (circ_zero f0), circ_add. apply circ_ext; reflexivity.
  - unfold plate_potN. change (kdim bih) with 2. cbn [rsum]. rewrite !pwn_plate1, !comb4_split. cbn [side_of].
    change (w_normal (pwn vars) 2 0 g) with (cst 1). change (w_normal (pwn vars) 2 1 g) with (cst 0).
    change (w_curv (pwn vars) 2 (2 - 1) g) with (cst 1). unfold half. change (w_num (pwn vars) (NRat 1 2)) with (cst (1 # 2)).
    change (wR (pwn vars)) with PairR.
    assert (S1 : forall x y, rmul PairR (cst 1) (radd PairR x y) = radd PairR x y).
    { intros [x1 x2] [y1 y2]. simpl. unfold lift2, cst; simpl. change (Q2Qc 1) with 1%Qc. f_equal; ring. }
    assert (S0 : forall x, rmul PairR (cst 0) x = r0 PairR).
    { intros [x1 x2]. simpl. unfold lift2, cst; simpl. change (Q2Qc 0) with 0%Qc. f_equal; ring. }
    assert (Z0 : forall x, radd PairR (radd PairR (r0 PairR) x) (r0 PairR) = x).
    { intros [x1 x2]. simpl. unfold lift2, cst; simpl. change (Q2Qc 0) with 0%Qc. f_equal; ring. }
    rewrite !S1, !S0, !Z0.
    transitivity (radd PairR (radd PairR (circ (2 + 0 + 3 * 0, 1 + 3 * 0)%Q f0) (circ (1 - (3 + 0 / 2), 1 - 0)%Q f1)) (radd PairR (circ (-1, 0)%Q f0) (circ (1 # 2, 0)%Q f1))).
    + rewrite lin2. apply add_ext; reflexivity.
    + f_equal. rewrite (circ_id f1) at 2. rewrite (circ_id f0) at 2. rewrite !circ_scale.
      rewrite (@circ_ext (-1) 0 (- (1 * 1)) (- (1 * 0)) f0)%Q by reflexivity. rewrite <- circ_opp.
      rewrite (@circ_ext (1#2) 0 ((1#2) * 1) ((1#2) * 0) f1)%Q by reflexivity.
      generalize (circ (1 * 1, 1 * 0)%Q f0). generalize (circ ((1 # 2) * 1, (1 # 2) * 0)%Q f1). intros [x1 x2] [y1 y2].
      simpl. unfold lift2; simpl. f_equal; ring.
Qed.

Definition sg0 : pe * pe := (PVar "u", PVar "v").
Example ex_plate : kernel_args bih = [] /\ make_plate bih (-1) = Ok bih /\ plate_jumps (pwn vs) bih 0 /\
  match plate_operator bih sg0 DNone [] with
  | Ok e => q2 (ev (pwn vs) 0 0 (fst e)) = (10, -2)%Q /\ q2 (ev (pwn vs) 0 0 (snd e)) = (7 # 2, 7 # 2)%Q
  | Err _ => False end.
Proof. split; [reflexivity|]. split; [reflexivity|]. split; [apply pwn_jumps|]. vm_compute. split; reflexivity. Qed.

(** C76.  On another surface than the default one, the plate's potentials get the normals of the
    default surface: the operator is not the interior limit of the plate potentials there. *)
Theorem plate_normals_of_source_refuted :
  exists W k sg e, world_ok W /\ make_plate k (-1) = Ok k /\ plate_jumps W k 1 /\
    plate_operator k sg (DGeo 1) [] = Ok e /\
    ev W 0 0 (fst e) <> plate_pot W k 1 [] (LSide (-1)) (ev W 1 1 (fst sg)) (ev W 1 1 (snd sg)).
Proof.
  exists (pwn vs), bih, sg0. eexists. split; [apply pwn_ok|]. split; [reflexivity|]. split; [apply pwn_jumps|].
  split; [vm_compute; reflexivity|]. intros E. apply (f_equal q2) in E. vm_compute in E. discriminate E.
Qed.

(** The Cahn-Hilliard operator inherits methods that cannot be called. *)
Theorem ch_inherited_methods_refuted : (forall b, ch_prepare_rhs b = Err AttributeError) /\ ch_dim = Err AttributeError.
Proof. split; reflexivity. Qed.
Example ex_ch : exists e r, ch_operator "l1" "l2" "c" sg0 = Ok e /\ ch_limit "l1" "l2" "c" (LSide (-1)) sg0 = Ok r /\
  singleN_jump (pw vs) [("k", RUser "1j*l1")] hhk 0.
Proof. eexists _, _. split; [vm_compute; reflexivity|]. split; [vm_compute; reflexivity|]. apply pw_singleN. reflexivity. Qed.

(** A world in which the potentials of hhk satisfy their equation and the jump relation: like
    exponentials along the first axis. *)
Definition lam_of (ka : list (string * rkval)) : Q := match ka with [(_, RUser "1j*l1")] => 2%Q | _ => 1%Q end%string.
Definition expo (lam : Q) (tds : list nat) (l : lim) : Q :=
  if existsb (fun i => negb (i =? 0)) tds then 0%Q
  else (Qpower lam (Z.of_nat (2 * (length tds / 2))) * (if Nat.odd (length tds) then 1 - side_of l / 2 else 1))%Q.
Definition chw : world :=
  mk_world PairR vs (fun c => match c with NUser "l1" => cst 2 | _ => cst (pnum c) end)
    (w_jacw (pw vs)) (w_sqrtw (pw vs)) (w_ones (pw vs)) (w_int (pw vs)) (w_curv (pw vs)) (w_normal (pw vs))
    (fun p f => circ (expo (lam_of (rl_kargs p)) (rl_tds p) (rl_lim p), 0%Q) f).
Lemma chw_ok : world_ok chw.
Proof. destruct (pw_ok vs). constructor; auto. intros p a b. simpl. unfold circ, lift2. simpl. f_equal; ring. Qed.
Lemma circ_eq a b f : (a == b)%Q -> circ (a, 0%Q) f = circ (b, 0%Q) f.
Proof. intros E. apply circ_ext; [exact E|reflexivity]. Qed.
Lemma chw_pde x l : x = "l1" \/ x = "l2" -> ch_pde chw x l 0.
Proof.
  intros X i f.
  assert (L : forall (a b : Q) (f : F2), (a == b)%Q -> radd PairR (radd PairR (r0 PairR) (circ (a, 0%Q) f)) (circ (0%Q, 0%Q) f) = circ (b, 0%Q) f).
  { intros a b g E. rewrite (circ_eq g E). simpl. unfold circ, lift2, cst. simpl. destruct g; cbn [fst snd]. f_equal; ring. }
  assert (N : forall a q : Q, rmul PairR (rmul PairR (cst q) (cst q)) (circ (a, 0%Q) f) = circ (q * q * a, 0)%Q f).
  { intros a q. simpl. unfold circ, lift2, cst. destruct f as [f0 f1]. cbn [fst snd]. rewrite !Q2Qc_mult. f_equal; ring. }
  assert (Z : forall lam, expo lam [i; 1; 1] l = 0%Q) by (intros lam; unfold expo; cbn; destruct (i =? 0); reflexivity).
  assert (G : forall q : Q, (q == 1 \/ q == 2)%Q -> radd PairR (radd PairR (r0 PairR) (circ (expo q [i; 0; 0] l, 0%Q) f)) (circ (expo q [i; 1; 1] l, 0%Q) f)
      = rmul PairR (rmul PairR (cst q) (cst q)) (circ (expo q [i] l, 0%Q) f)).
  { intros q _. rewrite Z, N. apply L. unfold expo; cbn. destruct (i =? 0); cbn; unfold Qpower; simpl; ring. }
  destruct X as [-> | ->]; [apply (G 2%Q)|apply (G 1%Q)]; [right|left]; reflexivity.
Qed.
Example ex_ch_data : exists e r, ch_operator "l1" "l2" "c" sg0 = Ok e /\ ch_limit "l1" "l2" "c" (LSide (-1)) sg0 = Ok r /\
  (exists u, ch_representation "l1" "l2" sg0 = Ok u) /\
  (forall l, ch_pde chw "l1" l 0 /\ ch_pde chw "l2" l 0) /\
  singleN_jump chw [("k", RUser "1j*l1")] hhk 0 /\ singleN_jump chw [("k", RUser "1j*l2")] hhk 0 /\
  rmul chw (ch_factor0 chw "l1" "l2") (rsub chw (rmul chw (sc chw "l1") (sc chw "l1")) (rmul chw (sc chw "l2") (sc chw "l2"))) = ch_factor chw.
Proof.
  eexists _, _. split; [vm_compute; reflexivity|]. split; [vm_compute; reflexivity|]. split; [eexists; vm_compute; reflexivity|].
  split; [intros l; split; apply chw_pde; auto|].
  assert (J : forall ka, singleN_jump chw ka hhk 0).
  { intros ka s f H. unfold SingleN, pot. change (kdim hhk) with 2. cbn [rsum chw w_lp w_normal pw rl_kargs rl_tds rl_lim wR Nat.eqb]. unfold signed, half. cbn [chw w_num wR pnum].
    destruct f as [f0 f1]. destruct H as [-> | ->]; simpl; unfold circ, lift2, cst, expo; cbn -[Q2Qc Qcplus Qcmult Qcminus Qcopp];
    assert (E : forall q q' : Q, (q == q')%Q -> Q2Qc q = Q2Qc q') by (intros q q' E; apply Qc_is_canon; cbn [this Q2Qc]; rewrite !Qred_correct; exact E).
    - rewrite (E (1 * (1 - 1 / 2))%Q (1 # 2)%Q) by reflexivity. rewrite (E (1 * (1 - 0 / 2))%Q 1%Q) by reflexivity. f_equal.
      + assert (X : Q2Qc 1 = Qcplus (Q2Qc (1 # 2)) (Q2Qc (1 # 2))) by (apply Qc_is_canon; reflexivity). change 1%Qc with (Q2Qc 1). rewrite X. ring.
      + assert (X : Q2Qc 1 = Qcplus (Q2Qc (1 # 2)) (Q2Qc (1 # 2))) by (apply Qc_is_canon; reflexivity). change 1%Qc with (Q2Qc 1). rewrite X. ring.
    - rewrite (E (1 * (1 - -1 / 2))%Q (1 + (1 # 2))%Q) by reflexivity. rewrite (E (1 * (1 - 0 / 2))%Q 1%Q) by reflexivity. rewrite Q2Qc_plus. f_equal; ring. }
  split; [apply J|]. split; [apply J|].
  apply injective_projections; apply Qc_is_canon; vm_compute; reflexivity.
Qed.

Print Assumptions plate_constructor.
Print Assumptions plate_operator_is_limit.
Print Assumptions plate_total.
Print Assumptions ch_operator_defect.
Print Assumptions ch_representation_formula.
Print Assumptions ch_boundary_data.
Print Assumptions ch_factor_not_one.
Print Assumptions plate_normals_of_source_refuted.
Print Assumptions ch_inherited_methods_refuted.
