(** A complete run of jfuns3d_. *)
From Coq Require Import Reals List Lra Lia.
From Coquelicot Require Import Coquelicot.
From Verif Require Import Base TsModel TsSpec TsProofs5 JfModel JfSpec JfProofs JfProofs2.
Import ListNotations.
Set Implicit Arguments.
Open Scope R_scope.

Lemma tiny_pos : 0 < tiny. Proof. apply Rinv_0_lt_compat, pow_lt. lra. Qed.
Lemma z_ne (z : C) : ~ Cmod z < tiny -> z <> RtoC 0.
Proof. intros H E. apply H. rewrite E, Cmod_0. apply tiny_pos. Qed.
Lemma RtoC_ne (x : R) : x <> 0 -> RtoC x <> RtoC 0.
Proof. intros H E. apply H. injection E. auto. Qed.
Lemma rd_none (A : Type) (a : list A) i : (length a <= i)%nat -> rd a i = Fault.
Proof. intros H. unfold rd. apply nth_error_None in H. rewrite H. reflexivity. Qed.
Lemma nth_of (A : Type) (l : list A) i (x d : A) : nth_error l i = Some x -> nth i l d = x.
Proof. intros H. rewrite <- nth_default_eq. unfold nth_default. rewrite H. reflexivity. Qed.

Section Run.
Variables (z : C) (T : nat) (scale : R) (ifder : bool) (lw : nat).
Hypothesis (HT : (1 <= T)%nat) (Hz : ~ Cmod z < tiny).
Variable j : nat -> C.
Hypothesis Hj : bessel_at z j.

(** *** Up to the search *)
Lemma start_ok fjs : (T < length fjs)%nat ->
  exists f0, (dof f <- wr fjs T (RtoC 1); match T with O => Fault | S t => wr f t (RtoC 0) end) = Fin f0
    /\ length f0 = length fjs /\ nth_error f0 T = Some (RtoC 1) /\ nth_error f0 (T - 1) = Some (RtoC 0).
Proof.
  intros H. rewrite wr_in by exact H. cbn [fbind]. destruct T as [|t]; [lia|]. rewrite wr_in by (rewrite upd_length; lia).
  eexists. split; [reflexivity|]. rewrite !upd_length. split; [reflexivity|]. split.
  - rewrite upd_other by lia. apply upd_same. lia.
  - replace (S t - 1)%nat with t by lia. apply upd_same. rewrite upd_length. lia.
Qed.
(** What follows the search. *)
Definition after (fjder : list C) (iscale : list Z) (fjs : list C) (ntop : nat) : fr (nat * list C * list C) :=
  dof iscale <- fill 0%Z (ntop + 1) 0 iscale;
  dof fjs <- wr fjs ntop (RtoC 0);
  dof fjs <- wr fjs (ntop - 1) (RtoC 1);
  dof (fjs, iscale) <- down (1 / z)%C (ntop - 1) fjs iscale;
  dof scalinv <- fdiv 1 scale;
  dof fjs <- back_up scalinv ntop 1 1 fjs iscale;
  let fj0 := (csin z * (1 / z))%C in
  let fj1 := (fj0 * (1 / z) - ccos z * (1 / z))%C in
  dof zscale <- (if Rlt_dec (Cmod fj0) (Cmod fj1)
                 then dof x <- rd fjs 1; cdiv fj1 (x * RtoC scale)%C
                 else dof x <- rd fjs 0; cdiv fj0 x);
  dof fjs <- scale_by zscale (T + 1) 0 fjs;
  if ifder then
    dof x <- rd fjs (T + 1);
    dof fjs <- wr fjs (T + 1) (x * zscale)%C;
    dof y <- rd fjs 1;
    dof fjder <- wr fjder 0 (- y * RtoC scale)%C;
    dof fjder <- ders scale scalinv T 1 fjs fjder;
    Fin (0%nat, fjs, fjder)
  else Fin (0%nat, fjs, fjder).
Lemma jfuns_eq fjs fjder iscale f0 :
  (dof f <- wr fjs T (RtoC 1); match T with O => Fault | S t => wr f t (RtoC 0) end) = Fin f0 ->
  jfuns3d T z scale fjs ifder fjder lw iscale =
    fbind (find_top (1 / z)%C (lw + 1 - T) T f0) (fun p => match snd p with
      | None => Fin (8%nat, fst p, fjder) | Some ntop => after fjder iscale (fst p) ntop end).
Proof.
  intros E. unfold jfuns3d. destruct (Rlt_dec (Cmod z) tiny) as [B|_]; [contradiction|].
  destruct (wr fjs T (RtoC 1)) as [f| | |]; cbn [fbind] in *; try discriminate. rewrite E. cbn [fbind].
  destruct (find_top _ _ _ f0) as [[f1 [ntop|]]| | |]; reflexivity.
Qed.

Section Found.
Variables (N : nat) (fjder : list C) (iscale : list Z).
Hypothesis HN : (T < N)%nat.

Lemma after_iscale_short f : (length iscale <= N)%nat -> after fjder iscale f N = Fault.
Proof. intros H. unfold after. rewrite fill_out by lia. reflexivity. Qed.

Lemma start_down f1 s : (N < length f1)%nat -> (N < length s)%nat -> (forall l, (l <= N)%nat -> nth_error s l = Some 0%Z) ->
  down_inv z N (N - 1) (upd (upd f1 N (RtoC 0)) (N - 1) (RtoC 1)) s.
Proof.
  intros HL HS H0. assert (Hn : forall l, (l <= N)%nat -> nth l s 0%Z = 0%Z) by (intros l Hl; apply nth_of, H0, Hl).
  assert (W : forall l, (l <= N)%nat -> w s l = 1) by (intros l Hl; unfold w; rewrite Hn by exact Hl; reflexivity).
  split; [|intros l Hl; apply Hn; lia].
  intros m Hm. destruct (Nat.eq_dec m N) as [->|NE].
  - rewrite upd_other by lia. rewrite upd_same by lia. f_equal. rewrite top_N. ring.
  - assert (m = (N - 1)%nat) by lia. subst m. rewrite upd_same by (rewrite upd_length; lia). f_equal.
    replace (N + 1 - (N - 1))%nat with 2%nat by lia. cbn [cprod]. rewrite !W by lia.
    replace (top_sol z N (N - 1)) with (top_sol z (S (N - 1)) (N - 1)) by (f_equal; lia). rewrite top_pred, !Rmult_1_l. ring.
Qed.

Definition sv := 1 / scale.
(** The normalisation and the derivatives, from the scaled array on. *)
Lemma after_scaled f1 : (N < length f1)%nat -> (N < length iscale)%nat -> scale <> 0 ->
  exists f2 (c : R), 0 < c /\ length f2 = length f1
    /\ (forall m, (m <= N)%nat -> nth_error f2 m = Some (top_sol z N m * RtoC (sv ^ m) * RtoC c)%C)
    /\ after fjder iscale f1 N =
      (let fj0 := (csin z * (1 / z))%C in
       let fj1 := (fj0 * (1 / z) - ccos z * (1 / z))%C in
       dof zscale <- (if Rlt_dec (Cmod fj0) (Cmod fj1)
                     then dof x <- rd f2 1; cdiv fj1 (x * RtoC scale)%C
                     else dof x <- rd f2 0; cdiv fj0 x);
      dof fjs <- scale_by zscale (T + 1) 0 f2;
      if ifder then
        dof x <- rd fjs (T + 1);
        dof fjs <- wr fjs (T + 1) (x * zscale)%C;
        dof y <- rd fjs 1;
        dof fjder <- wr fjder 0 (- y * RtoC scale)%C;
        dof fjder <- ders scale sv T 1 fjs fjder;
        Fin (0%nat, fjs, fjder)
      else Fin (0%nat, fjs, fjder)).
Proof.
  intros HL HS Hs. unfold after.
  destruct (@fill_in _ 0%Z (N + 1) 0 iscale) as (s0 & E & L0 & V0); [lia|]. rewrite E. cbn [fbind].
  rewrite wr_in by exact HL. cbn [fbind]. rewrite wr_in by (rewrite upd_length; lia). cbn [fbind].
  destruct (@down_ok z N (N - 1) (upd (upd f1 N (RtoC 0)) (N - 1) (RtoC 1)) s0) as (fd & sd & Ed & Lf & Ls & [DV _]).
  - lia. - rewrite !upd_length; lia. - lia.
  - apply start_down; [exact HL|lia|]. intros l Hl. rewrite V0. destruct (Nat.leb_spec 0 l), (Nat.ltb_spec l (0 + (N + 1))); cbn; try lia; reflexivity.
  - rewrite !upd_length in Lf. rewrite Ed. cbn [fbind]. unfold fdiv. destruct (Req_EM_T scale 0) as [B|_]; [contradiction|]. cbn [fbind].
    fold sv. destruct (@back_up_ok sv sd N 1 fd) as (f2 & E2 & L2 & V2); [lia|lia|lia|].
    replace (sv ^ (1 - 1) * cprod sd 0 (1 - 1)) with 1 in E2 by (cbn; ring). rewrite E2. cbn [fbind].
    exists f2, (cprod sd 0 (N + 1)). split; [apply cprod_pos|]. split; [lia|]. split; [|reflexivity].
    intros m Hm. rewrite V2, (DV m) by lia.
    replace (cprod sd 0 (N + 1)) with (cprod sd 0 m * cprod sd m (N + 1 - m)) by (symmetry; replace (N + 1)%nat with (m + (N + 1 - m))%nat at 1 by lia; apply (cprod_app sd m 0 (N + 1 - m))).
    destruct (Nat.leb_spec 1 m), (Nat.ltb_spec m (1 + N)); cbn [andb option_map]; try lia; f_equal; rewrite ?RtoC_mult.
    + ring. + assert (m = 0%nat) by lia. subst m. cbn [pow cprod]. ring.
Qed.

Lemma j0_code : (csin z * (1 / z))%C = j 0%nat.
Proof. destruct Hj as (_ & -> & _). field. apply z_ne, Hz. Qed.
Lemma j1_code : (j 0%nat * (1 / z) - ccos z * (1 / z))%C = j 1%nat.
Proof. destruct Hj as (_ & -> & ->). field. apply z_ne, Hz. Qed.

Definition tpivot : C := if Rlt_dec (Cmod (j 0%nat)) (Cmod (j 1%nat)) then (j 1%nat / top_sol z N 1)%C else (j 0%nat / top_sol z N 0)%C.
Lemma companion_top : companion z j N = RtoC 0 <-> (if Rlt_dec (Cmod (j 0%nat)) (Cmod (j 1%nat)) then top_sol z N 1 else top_sol z N 0) = RtoC 0.
Proof.
  unfold companion. destruct (Rlt_dec _ _).
  - rewrite top_1. split; intros H; [rewrite H; ring|]. transitivity (- - lommel' z N)%C; [ring|]. rewrite H. ring.
  - rewrite top_0. tauto.
Qed.
Lemma tpivot_ok n : companion z j N <> RtoC 0 -> (top_sol z N n * tpivot)%C = truncated z j N n.
Proof.
  unfold tpivot, truncated, companion. destruct (Rlt_dec _ _); intros H; [apply miss_1|apply miss_0]; auto; apply Hj.
Qed.

(** The quotient by which the entries are multiplied. *)
Lemma zscale_ok f2 (c : R) : 0 < c -> scale <> 0 -> (N < length f2)%nat ->
  (forall m, (m <= N)%nat -> nth_error f2 m = Some (top_sol z N m * RtoC (sv ^ m) * RtoC c)%C) ->
  (if Rlt_dec (Cmod (j 0%nat)) (Cmod (j 1%nat)) then dof x <- rd f2 1; cdiv (j 1%nat) (x * RtoC scale)%C else dof x <- rd f2 0; cdiv (j 0%nat) x)
  = if Ceq_dec (companion z j N) (RtoC 0) then NotFinite else Fin (tpivot / RtoC c)%C.
Proof.
  intros Hc Hs HL V. assert (Hc' : RtoC c <> RtoC 0) by (apply RtoC_ne; lra). assert (Hs' : RtoC scale <> RtoC 0) by (apply RtoC_ne; lra).
  pose proof companion_top as CT. unfold tpivot. destruct (Rlt_dec _ _) as [B|B].
  - rewrite (rd_in _ _ (V 1%nat ltac:(lia))). cbn [fbind].
    assert (E : (top_sol z N 1 * RtoC (sv ^ 1) * RtoC c * RtoC scale)%C = (top_sol z N 1 * RtoC c)%C).
    { rewrite pow_1. unfold sv. rewrite RtoC_div by lra. field. exact Hs'. }
    rewrite E. unfold cdiv. destruct (Ceq_dec (top_sol z N 1 * RtoC c)%C (RtoC 0)) as [Z0|NZ], (Ceq_dec (companion z j N) (RtoC 0)) as [Z1|NZ1]; try reflexivity.
    + exfalso. apply NZ1, CT. destruct (Ceq_dec (top_sol z N 1) (RtoC 0)) as [|NE]; [assumption|]. exfalso. apply (Cmult_neq_0 _ _ NE Hc' Z0).
    + exfalso. apply NZ. rewrite (proj1 CT Z1). ring.
    + f_equal. field. repeat split; try exact Hc'; intros Z2; apply NZ1, CT, Z2.
  - rewrite (rd_in _ _ (V 0%nat ltac:(lia))). cbn [fbind].
    assert (E : (top_sol z N 0 * RtoC (sv ^ 0) * RtoC c)%C = (top_sol z N 0 * RtoC c)%C) by (cbn [pow]; ring).
    rewrite E. unfold cdiv. destruct (Ceq_dec (top_sol z N 0 * RtoC c)%C (RtoC 0)) as [Z0|NZ], (Ceq_dec (companion z j N) (RtoC 0)) as [Z1|NZ1]; try reflexivity.
    + exfalso. apply NZ1, CT. destruct (Ceq_dec (top_sol z N 0) (RtoC 0)) as [|NE]; [assumption|]. exfalso. apply (Cmult_neq_0 _ _ NE Hc' Z0).
    + exfalso. apply NZ. rewrite (proj1 CT Z1). ring.
    + f_equal. field. repeat split; try exact Hc'; intros Z2; apply NZ1, CT, Z2.
Qed.

Lemma after_ok f1 : (N < length f1)%nat -> (N < length iscale)%nat -> scale <> 0 -> (ifder = true -> (T < length fjder)%nat) ->
  if Ceq_dec (companion z j N) (RtoC 0) then after fjder iscale f1 N = NotFinite
  else exists f' d', after fjder iscale f1 N = Fin (0%nat, f', d') /\ length f' = length f1 /\ length d' = length fjder
    /\ (forall n, (n <= T)%nat -> nth_error f' n = Some (truncated z j N n / RtoC (scale ^ n))%C)
    /\ (if ifder then forall n, (n <= T)%nat -> nth_error d' n = Some (rec_derivative (truncated z j N) n / RtoC (scale ^ n))%C else d' = fjder).
Proof.
  intros HL HS Hs HD. destruct (@after_scaled f1 HL HS Hs) as (f2 & c & Hc & L2 & V2 & ->). cbv zeta.
  rewrite j0_code, j1_code. rewrite (@zscale_ok f2 c Hc Hs ltac:(lia) V2).
  assert (Hc' : RtoC c <> RtoC 0) by (apply RtoC_ne; lra). assert (Hs' : RtoC scale <> RtoC 0) by (apply RtoC_ne; lra).
  destruct (Ceq_dec (companion z j N) (RtoC 0)) as [_|NZ]; [reflexivity|]. cbn [fbind].
  assert (VV : forall m, (m <= N)%nat -> (top_sol z N m * RtoC (sv ^ m) * RtoC c * (tpivot / RtoC c))%C = (truncated z j N m / RtoC (scale ^ m))%C).
  { intros m Hm. rewrite <- (tpivot_ok m NZ). unfold sv. replace ((1 / scale) ^ m) with (/ scale ^ m) by (unfold Rdiv; rewrite Rmult_1_l, pow_inv; reflexivity).
    rewrite RtoC_inv by (apply pow_nonzero, Hs). assert (RtoC (scale ^ m) <> RtoC 0) by (apply RtoC_ne, pow_nonzero, Hs). field. split; assumption. }
  destruct (@scale_by_in (tpivot / RtoC c)%C (T + 1) 0 f2) as (f3 & E3 & L3 & V3); [lia|]. rewrite E3. cbn [fbind].
  assert (W3 : forall n, (n <= T)%nat -> nth_error f3 n = Some (truncated z j N n / RtoC (scale ^ n))%C).
  { intros n Hn. rewrite V3, V2 by lia. destruct (Nat.leb_spec 0 n), (Nat.ltb_spec n (0 + (T + 1))); cbn [andb option_map]; try lia. f_equal. apply VV. lia. }
  destruct ifder.
  2:{ exists f3, fjder. split; [reflexivity|]. split; [lia|]. split; [reflexivity|]. split; [exact W3|reflexivity]. }
  assert (R1 : nth_error f3 (T + 1) = Some (top_sol z N (T + 1) * RtoC (sv ^ (T + 1)) * RtoC c)%C).
  { rewrite V3, V2 by lia. destruct (Nat.leb_spec 0 (T + 1)), (Nat.ltb_spec (T + 1) (0 + (T + 1))); cbn [andb]; try lia; reflexivity. }
  rewrite (rd_in _ _ R1). cbn [fbind]. rewrite wr_in by lia. cbn [fbind]. rewrite VV by lia.
  set (f4 := upd f3 (T + 1) _).
  assert (W4 : forall n, (n <= T + 1)%nat -> nth_error f4 n = Some (truncated z j N n / RtoC (scale ^ n))%C).
  { intros n Hn. unfold f4. destruct (Nat.eq_dec n (T + 1)) as [->|]; [apply upd_same; lia|]. rewrite upd_other by lia. apply W3. lia. }
  assert (L4 : length f4 = length f1) by (unfold f4; rewrite upd_length; lia).
  rewrite (rd_in _ _ (W4 1%nat ltac:(lia))). cbn [fbind]. specialize (HD eq_refl). rewrite wr_in by lia. cbn [fbind].
  set (d0 := upd fjder 0 _).
  destruct (@ders_ok scale sv f4 T 1 d0) as (d' & Ed & Ld & Vd); [lia|lia|unfold d0; rewrite upd_length; lia|]. rewrite Ed. cbn [fbind].
  exists f4, d'. split; [reflexivity|]. split; [exact L4|]. split; [rewrite Ld; apply upd_length|]. split; [intros n Hn; apply W4; lia|].
  intros n Hn. rewrite Vd. destruct n as [|n].
  - cbn [Nat.leb andb]. unfold d0. rewrite upd_same by lia. f_equal. cbn [rec_derivative]. rewrite pow_1. cbn [pow].
    field. split; [|exact Hs']. apply RtoC_ne. lra.
  - destruct (Nat.leb_spec 1 (S n)), (Nat.ltb_spec (S n) (1 + T)); cbn [andb]; try lia. f_equal.
    rewrite (nth_of _ _ (RtoC 0) (W4 (S n - 1)%nat ltac:(lia))), (nth_of _ _ (RtoC 0) (W4 (S n + 1)%nat ltac:(lia))).
    replace (S n - 1)%nat with n by lia. replace (S n + 1)%nat with (S (S n)) by lia. unfold rec_derivative.
    set (x := INR (S n)). assert (Hx : 0 <= x) by apply pos_INR.
    replace (1 - x / (2 * x + 1)) with ((x + 1) / (2 * x + 1)) by (field; lra).
    unfold sv. cbn [pow]. rewrite !RtoC_mult, !RtoC_div by lra.
    assert (RtoC (scale ^ n) <> RtoC 0) by (apply RtoC_ne, pow_nonzero, Hs). assert (RtoC (2 * x + 1) <> RtoC 0) by (apply RtoC_ne; lra).
    field. repeat split; assumption.
Qed.
(** Derivative array too short *)
Lemma after_der_short f1 : (N < length f1)%nat -> (N < length iscale)%nat -> scale <> 0 -> ifder = true -> (length fjder <= T)%nat ->
  after fjder iscale f1 N = NotFinite \/ after fjder iscale f1 N = Fault.
Proof.
  intros HL HS Hs HI HD. destruct (@after_scaled f1 HL HS Hs) as (f2 & c & Hc & L2 & V2 & ->). cbv zeta.
  rewrite j0_code, j1_code. rewrite (@zscale_ok f2 c Hc Hs ltac:(lia) V2).
  destruct (Ceq_dec (companion z j N) (RtoC 0)) as [_|NZ]; [left; reflexivity|]. cbn [fbind]. right.
  destruct (@scale_by_in (tpivot / RtoC c)%C (T + 1) 0 f2) as (f3 & E3 & L3 & V3); [lia|]. rewrite E3. cbn [fbind].
  rewrite HI. destruct (@nth_some _ f3 (T + 1)) as [x Hx]; [lia|]. rewrite (rd_in _ _ Hx). cbn [fbind]. rewrite wr_in by lia. cbn [fbind].
  destruct (@nth_some _ (upd f3 (T + 1) (x * (tpivot / RtoC c))%C) 1) as [y Hy]; [rewrite upd_length; lia|]. rewrite (rd_in _ _ Hy). cbn [fbind].
  destruct (Nat.eq_dec (length fjder) 0) as [Z0|NZ0]; [rewrite wr_out by lia; reflexivity|]. rewrite wr_in by lia. cbn [fbind].
  rewrite ders_short; [reflexivity| | | |]; rewrite ?upd_length; lia.
Qed.
Lemma after_scale0 f1 : (N < length f1)%nat -> (N < length iscale)%nat -> scale = 0 -> after fjder iscale f1 N = NotFinite.
Proof.
  intros HL HS Hs. unfold after.
  destruct (@fill_in _ 0%Z (N + 1) 0 iscale) as (s0 & E & L0 & V0); [lia|]. rewrite E. cbn [fbind].
  rewrite wr_in by exact HL. cbn [fbind]. rewrite wr_in by (rewrite upd_length; lia). cbn [fbind].
  destruct (@down_ok z N (N - 1) (upd (upd f1 N (RtoC 0)) (N - 1) (RtoC 1)) s0) as (fd & sd & Ed & Lf & Ls & [DV _]).
  - lia. - rewrite !upd_length; lia. - lia.
  - apply start_down; [exact HL|lia|]. intros l Hl. rewrite V0. destruct (Nat.leb_spec 0 l), (Nat.ltb_spec l (0 + (N + 1))); cbn; try lia; reflexivity.
  - rewrite Ed. cbn [fbind]. unfold fdiv. destruct (Req_EM_T scale 0); [reflexivity|contradiction].
Qed.
End Found.
End Run.
