(** The loops of jfuns3d_. *)
From Coq Require Import Reals List Lra Lia.
From Coquelicot Require Import Coquelicot.
From Verif Require Import Base TsModel TsSpec TsProofs5 JfModel JfSpec JfProofs.
Import ListNotations.
Set Implicit Arguments.
Open Scope R_scope.

Lemma nrm2_Cmod (x : C) : nrm2 x = (Cmod x)².
Proof. unfold nrm2, Cmod, Rsqr. rewrite sqrt_sqrt; [ring|]. nra. Qed.
Lemma big_iff (x : C) : upbound2 < nrm2 x <-> 10 ^ 20 < Cmod x.
Proof.
  rewrite nrm2_Cmod. unfold upbound2. replace (10 ^ 40) with ((10 ^ 20)²) by (unfold Rsqr; ring).
  assert (0 < 10 ^ 20) by (apply pow_lt; lra).
  split; intros H0; [apply Rsqr_incrst_0|apply Rsqr_incrst_1]; auto using Cmod_ge_0; lra.
Qed.

Section Loops.
Variable z : C.
Lemma upward_S T m : upward z T (S m) = (snd (upward z T m), (RtoC (2 * INR (T + m) + 1) / z * snd (upward z T m) - fst (upward z T m))%C).
Proof. cbn [upward]. destruct (upward z T m); reflexivity. Qed.

Lemma find_top_step T m fuel fjs : (1 <= T + m)%nat -> (T + m + 1 < length fjs)%nat ->
  nth_error fjs (T + m) = Some (snd (upward z T m)) -> nth_error fjs (T + m - 1) = Some (fst (upward z T m)) ->
  exists fjs', length fjs' = length fjs
    /\ nth_error fjs' (T + S m) = Some (snd (upward z T (S m))) /\ nth_error fjs' (T + S m - 1) = Some (fst (upward z T (S m)))
    /\ find_top (1 / z)%C (S fuel) (T + m) fjs = if Rlt_dec upbound2 (nrm2 (snd (upward z T (S m)))) then Fin (fjs', Some (T + S m)%nat) else find_top (1 / z)%C fuel (T + S m) fjs'.
Proof.
  intros HT HL E1 E0. cbn [find_top]. rewrite (rd_in _ _ E1), (rd_in _ _ E0). cbn [fbind].
  assert (EQ : (RtoC (2 * INR (T + m) + 1) * (1 / z) * snd (upward z T m) - fst (upward z T m))%C = snd (upward z T (S m))).
  { rewrite upward_S. cbn [snd]. unfold Cdiv. ring. }
  rewrite EQ. rewrite wr_in by lia. cbn [fbind].
  exists (upd fjs (T + m + 1) (snd (upward z T (S m)))).
  replace (T + S m)%nat with (T + m + 1)%nat by lia. replace (S (T + m)) with (T + m + 1)%nat by lia.
  split; [apply upd_length|]. split; [apply upd_same; lia|]. split.
  - rewrite upd_other by lia. replace (T + m + 1 - 1)%nat with (T + m)%nat by lia. rewrite E1, upward_S. reflexivity.
  - reflexivity.
Qed.
Lemma find_top_found T : forall fuel m fjs d, (1 <= T + m)%nat -> (1 <= d <= fuel)%nat -> (T + m + d < length fjs)%nat ->
  nth_error fjs (T + m) = Some (snd (upward z T m)) -> nth_error fjs (T + m - 1) = Some (fst (upward z T m)) ->
  exceeds z T (T + m + d) -> (forall e, (m < e < m + d)%nat -> ~ exceeds z T (T + e)) ->
  exists fjs', length fjs' = length fjs /\ find_top (1 / z)%C fuel (T + m) fjs = Fin (fjs', Some (T + m + d)%nat).
Proof.
  induction fuel as [|fuel IH]; intros m fjs d HT Hd HL E1 E0 X NX; [lia|].
  destruct (@find_top_step T m fuel fjs HT ltac:(lia) E1 E0) as (fjs' & L' & E1' & E0' & ->).
  destruct (Rlt_dec _ _) as [B|B].
  - assert (d = 1%nat).
    { destruct (Nat.eq_dec d 1) as [|N]; [assumption|]. exfalso. apply (NX (S m)); [lia|]. split; [lia|].
      replace (T + S m - T)%nat with (S m) by lia. apply big_iff, B. }
    subst d. exists fjs'. split; [exact L'|]. replace (T + S m)%nat with (T + m + 1)%nat by lia. reflexivity.
  - destruct (Nat.eq_dec d 1) as [->|N].
    { exfalso. apply B, big_iff. destruct X as [_ X]. replace (T + m + 1 - T)%nat with (S m) in X by lia. exact X. }
    destruct (IH (S m) fjs' (d - 1)%nat) as (g & Lg & Eg); try lia; try assumption.
    + replace (T + S m + (d - 1))%nat with (T + m + d)%nat by lia. exact X.
    + intros e He. apply NX. lia.
    + exists g. split; [lia|]. rewrite Eg. replace (T + S m + (d - 1))%nat with (T + m + d)%nat by lia. reflexivity.
Qed.
Lemma find_top_none T : forall fuel m fjs, (1 <= T + m)%nat -> (T + m + fuel < length fjs)%nat ->
  nth_error fjs (T + m) = Some (snd (upward z T m)) -> nth_error fjs (T + m - 1) = Some (fst (upward z T m)) ->
  (forall e, (m < e <= m + fuel)%nat -> ~ exceeds z T (T + e)) ->
  exists fjs', length fjs' = length fjs /\ find_top (1 / z)%C fuel (T + m) fjs = Fin (fjs', None).
Proof.
  induction fuel as [|fuel IH]; intros m fjs HT HL E1 E0 NX; [exists fjs; split; reflexivity|].
  destruct (@find_top_step T m fuel fjs HT ltac:(lia) E1 E0) as (fjs' & L' & E1' & E0' & ->).
  destruct (Rlt_dec _ _) as [B|B].
  - exfalso. apply (NX (S m)); [lia|]. split; [lia|]. replace (T + S m - T)%nat with (S m) by lia. apply big_iff, B.
  - destruct (IH (S m) fjs') as (g & Lg & Eg); try lia; try assumption.
    + intros e He. apply NX. lia.
    + exists g. split; [lia|exact Eg].
Qed.
Lemma find_top_fault T : forall fuel m fjs k, (1 <= T + m)%nat -> (k < fuel)%nat -> length fjs = (T + m + k + 1)%nat ->
  nth_error fjs (T + m) = Some (snd (upward z T m)) -> nth_error fjs (T + m - 1) = Some (fst (upward z T m)) ->
  (forall e, (m < e <= m + k)%nat -> ~ exceeds z T (T + e)) ->
  find_top (1 / z)%C fuel (T + m) fjs = Fault.
Proof.
  induction fuel as [|fuel IH]; intros m fjs k HT Hk HL E1 E0 NX; [lia|]. destruct k as [|k].
  - cbn [find_top]. rewrite (rd_in _ _ E1), (rd_in _ _ E0). cbn [fbind]. rewrite wr_out by lia. reflexivity.
  - destruct (@find_top_step T m fuel fjs HT ltac:(lia) E1 E0) as (fjs' & L' & E1' & E0' & ->).
    destruct (Rlt_dec _ _) as [B|B].
    + exfalso. apply (NX (S m)); [lia|]. split; [lia|]. replace (T + S m - T)%nat with (S m) by lia. apply big_iff, B.
    + apply (IH (S m) fjs' k); try lia; try assumption. intros e He. apply NX. lia.
Qed.

(** ** Down and up again *)
Definition w (s : list Z) (l : nat) : R := if Z.eqb (nth l s 0%Z) 1 then upbound2inv else 1.
Fixpoint cprod (s : list Z) (m fuel : nat) : R := match fuel with O => 1 | S f => w s m * cprod s (S m) f end.
Lemma cprod_app s f1 : forall m f2, cprod s m (f1 + f2) = cprod s m f1 * cprod s (m + f1) f2.
Proof.
  induction f1 as [|f1 IH]; intros m f2; cbn [cprod Nat.add]; [rewrite Nat.add_0_r; ring|].
  rewrite IH. replace (S m + f1)%nat with (m + S f1)%nat by lia. ring.
Qed.
Lemma K_pos : 0 < upbound2inv. Proof. apply Rinv_0_lt_compat, pow_lt. lra. Qed.
Lemma cprod_pos s f : forall m, 0 < cprod s m f.
Proof. induction f as [|f IH]; intros m; cbn [cprod]; [lra|]. apply Rmult_lt_0_compat; [|apply IH]. unfold w. destruct (Z.eqb _ _); [apply K_pos|lra]. Qed.
Lemma nth_upd_other (s : list Z) i l v : i <> l -> nth l (upd s i v) 0%Z = nth l s 0%Z.
Proof.
  intros H. rewrite <- !nth_default_eq. unfold nth_default. rewrite upd_other by exact H. reflexivity.
Qed.
Lemma nth_upd_same (s : list Z) i v : (i < length s)%nat -> nth i (upd s i v) 0%Z = v.
Proof. intros H. rewrite <- !nth_default_eq. unfold nth_default. rewrite upd_same by exact H. reflexivity. Qed.
Lemma cprod_upd s i v f : forall m, (i < m)%nat -> cprod (upd s i v) m f = cprod s m f.
Proof.
  induction f as [|f IH]; intros m H; cbn [cprod]; [reflexivity|]. rewrite IH by lia. unfold w. rewrite nth_upd_other by lia. reflexivity.
Qed.

Definition down_inv N i (fjs : list C) (s : list Z) : Prop :=
  (forall m, (i <= m <= N)%nat -> nth_error fjs m = Some (top_sol z N m * RtoC (cprod s m (N + 1 - m)))%C)
  /\ (forall l, (l <= i)%nat -> nth l s 0%Z = 0%Z).
Lemma down_ok N : forall i fjs s, (i < N)%nat -> (N < length fjs)%nat -> (N < length s)%nat -> down_inv N i fjs s ->
  exists fjs' s', down (1 / z)%C i fjs s = Fin (fjs', s') /\ length fjs' = length fjs /\ length s' = length s /\ down_inv N 0 fjs' s'.
Proof.
  induction i as [|i IH]; intros fjs s Hi HL HS [HV HZ]; [exists fjs, s; repeat split; auto|].
  cbn [down]. rewrite (rd_in _ _ (HV (S i) ltac:(lia))), (rd_in _ _ (HV (S i + 1)%nat ltac:(lia))). cbn [fbind].
  assert (C1 : cprod s (S i + 1) (N + 1 - (S i + 1)) = cprod s (S i) (N + 1 - S i)).
  { replace (N + 1 - S i)%nat with (S (N + 1 - (S i + 1))) by lia. cbn [cprod]. unfold w. rewrite HZ by lia. cbn.
    replace (S (S i)) with (S (i + 1)) by lia. rewrite Rmult_1_l. reflexivity. }
  rewrite C1. set (c := cprod s (S i) (N + 1 - S i)).
  assert (EQ : (RtoC (2 * INR (S i) + 1) * (1 / z) * (top_sol z N (S i) * RtoC c) - top_sol z N (S i + 1) * RtoC c)%C = (top_sol z N i * RtoC c)%C).
  { replace (top_sol z N i) with (top_sol z N (S i - 1)) by (f_equal; lia). rewrite (top_down z N (m := S i)) by lia. ring. }
  rewrite EQ. replace (S i - 1)%nat with i by lia. rewrite wr_in by lia. cbn [fbind].
  destruct (Rlt_dec _ _) as [B|B].
  - assert (R1 : nth_error (upd fjs i (top_sol z N i * RtoC c)%C) (S i) = Some (top_sol z N (S i) * RtoC c)%C)
      by (rewrite upd_other by lia; apply HV; lia).
    rewrite (rd_in _ _ R1). cbn [fbind]. rewrite wr_in by (rewrite upd_length; lia). cbn [fbind].
    assert (R2 : nth_error (upd (upd fjs i (top_sol z N i * RtoC c)%C) (S i) (top_sol z N (S i) * RtoC c * RtoC upbound2inv)%C) i = Some (top_sol z N i * RtoC c)%C)
      by (rewrite upd_other by lia; apply upd_same; lia).
    rewrite (rd_in _ _ R2). cbn [fbind]. rewrite wr_in by (rewrite !upd_length; lia). cbn [fbind].
    rewrite wr_in by lia. cbn [fbind].
    destruct (IH (upd (upd (upd fjs i (top_sol z N i * RtoC c)%C) (S i) (top_sol z N (S i) * RtoC c * RtoC upbound2inv)%C) i (top_sol z N i * RtoC c * RtoC upbound2inv)%C) (upd s (S i) 1%Z)) as (f' & s' & E & L1 & L2 & D).
    + lia. + rewrite !upd_length; lia. + rewrite upd_length; lia.
    + assert (CS : cprod (upd s (S i) 1%Z) (S i) (N + 1 - S i) = upbound2inv * c).
      { unfold c. replace (N + 1 - S i)%nat with (S (N - S i)) by lia. cbn [cprod]. rewrite cprod_upd by lia.
        unfold w. rewrite nth_upd_same by lia. rewrite HZ by lia. cbn. ring. }
      split.
      * intros m Hm. destruct (Nat.eq_dec m i) as [->|N1].
        -- rewrite upd_same by (rewrite !upd_length; lia). f_equal. replace (N + 1 - i)%nat with (S (N + 1 - S i)) by lia.
           cbn [cprod]. rewrite CS. unfold w. rewrite nth_upd_other by lia. rewrite HZ by lia. cbn [Z.eqb]. rewrite !RtoC_mult. ring.
        -- rewrite upd_other by lia. destruct (Nat.eq_dec m (S i)) as [->|N2].
           ++ rewrite upd_same by (rewrite !upd_length; lia). f_equal. rewrite CS, !RtoC_mult. ring.
           ++ rewrite !upd_other by lia. rewrite cprod_upd by lia. apply HV. lia.
      * intros l Hl. rewrite nth_upd_other by lia. apply HZ. lia.
    + exists f', s'. rewrite E, L1, L2, !upd_length. repeat split; try reflexivity; apply D.
  - destruct (IH (upd fjs i (top_sol z N i * RtoC c)%C) s) as (f' & s' & E & L1 & L2 & D).
    + lia. + rewrite !upd_length; lia. + lia.
    + split.
      * intros m Hm. destruct (Nat.eq_dec m i) as [->|N1].
        -- rewrite upd_same by lia. f_equal. replace (N + 1 - i)%nat with (S (N + 1 - S i)) by lia.
           cbn [cprod]. unfold w. rewrite HZ by lia. cbn [Z.eqb]. unfold c. rewrite Rmult_1_l. reflexivity.
        -- rewrite upd_other by lia. apply HV. lia.
      * intros l Hl. apply HZ. lia.
    + exists f', s'. rewrite E, L1, L2, !upd_length. repeat split; try reflexivity; apply D.
Qed.
End Loops.

Lemma nth_error_nth' (A : Type) (l : list A) d i : (i < length l)%nat -> nth_error l i = Some (nth i l d).
Proof. revert i. induction l as [|x l IH]; intros [|i] H; cbn in *; try lia; [reflexivity|]. apply IH. lia. Qed.

Lemma back_up_ok sv s : forall fuel i fjs, (1 <= i)%nat -> (i + fuel <= length fjs)%nat -> (i + fuel <= S (length s))%nat ->
  exists fjs', back_up sv fuel i (sv ^ (i - 1) * cprod s 0 (i - 1)) fjs s = Fin fjs' /\ length fjs' = length fjs
    /\ forall k, nth_error fjs' k = if (i <=? k)%nat && (k <? i + fuel)%nat then option_map (fun x => (x * RtoC (sv ^ k * cprod s 0 k))%C) (nth_error fjs k) else nth_error fjs k.
Proof.
  induction fuel as [|fuel IH]; intros i fjs Hi HL HS; cbn [back_up].
  - exists fjs. split; [reflexivity|]. split; [reflexivity|]. intros k. destruct (Nat.leb_spec i k), (Nat.ltb_spec k (i + 0)); cbn; try reflexivity; lia.
  - rewrite (rd_in _ _ (@nth_error_nth' _ s 0%Z (i - 1) ltac:(lia))). cbn [fbind].
    destruct (@nth_some _ fjs i) as [x Hx]; [lia|]. rewrite (rd_in _ _ Hx). cbn [fbind]. rewrite wr_in by lia. cbn [fbind].
    set (sc := if (nth (i - 1) s 0 =? 1)%Z then _ else _).
    assert (Esc : sc = sv ^ (S i - 1) * cprod s 0 (S i - 1)).
    { unfold sc. replace (S i - 1)%nat with (i - 1 + 1)%nat by lia. rewrite cprod_app, pow_add. cbn [cprod]. unfold w. cbn [Nat.add].
      destruct (nth (i - 1) s 0 =? 1)%Z; ring. }
    rewrite Esc. destruct (IH (S i) (upd fjs i (x * RtoC (sv ^ (S i - 1) * cprod s 0 (S i - 1)))%C)) as (a' & E & L & NN); [lia|rewrite upd_length; lia|lia|].
    exists a'. split; [exact E|]. split; [rewrite L; apply upd_length|]. intros k. rewrite NN.
    destruct (Nat.eq_dec k i) as [->|Hk].
    + rewrite upd_same by lia. rewrite Hx. replace (S i - 1)%nat with i by lia. destruct (Nat.leb_spec (S i) i), (Nat.leb_spec i i), (Nat.ltb_spec i (i + S fuel)); cbn; try lia; reflexivity.
    + rewrite upd_other by lia. destruct (Nat.leb_spec (S i) k), (Nat.leb_spec i k), (Nat.ltb_spec k (S i + fuel)), (Nat.ltb_spec k (i + S fuel)); cbn; try lia; reflexivity.
Qed.

Lemma ders_ok scale sv fjs : forall fuel i fjder, (1 <= i)%nat -> (i + fuel < length fjs)%nat -> (i + fuel <= length fjder)%nat ->
  exists fjder', ders scale sv fuel i fjs fjder = Fin fjder' /\ length fjder' = length fjder
    /\ forall k, nth_error fjder' k = if (i <=? k)%nat && (k <? i + fuel)%nat then
        Some (RtoC (INR k / (2 * INR k + 1) * sv) * nth (k - 1) fjs (RtoC 0) - RtoC ((1 - INR k / (2 * INR k + 1)) * scale) * nth (k + 1) fjs (RtoC 0))%C else nth_error fjder k.
Proof.
  induction fuel as [|fuel IH]; intros i fjder Hi HL HS; cbn [ders].
  - exists fjder. split; [reflexivity|]. split; [reflexivity|]. intros k. destruct (Nat.leb_spec i k), (Nat.ltb_spec k (i + 0)); cbn; try reflexivity; lia.
  - rewrite (rd_in _ _ (@nth_error_nth' _ fjs (RtoC 0) (i - 1) ltac:(lia))), (rd_in _ _ (@nth_error_nth' _ fjs (RtoC 0) (i + 1) ltac:(lia))). cbn [fbind].
    rewrite wr_in by lia. cbn [fbind].
    match goal with |- context [ders _ _ _ _ _ (upd fjder i ?v)] => set (vv := v) end.
    destruct (IH (S i) (upd fjder i vv)) as (a' & E & L & NN); [lia|lia|rewrite upd_length; lia|].
    exists a'. split; [exact E|]. split; [rewrite L; apply upd_length|]. intros k. rewrite NN.
    destruct (Nat.eq_dec k i) as [->|Hk].
    + rewrite upd_same by lia. destruct (Nat.leb_spec (S i) i), (Nat.leb_spec i i), (Nat.ltb_spec i (i + S fuel)); cbn [andb]; try lia; reflexivity.
    + rewrite upd_other by lia. destruct (Nat.leb_spec (S i) k), (Nat.leb_spec i k), (Nat.ltb_spec k (S i + fuel)), (Nat.ltb_spec k (i + S fuel)); cbn [andb]; try lia; reflexivity.
Qed.
Lemma ders_short scale sv fjs : forall fuel i fjder, (1 <= i)%nat -> (i + fuel < length fjs)%nat -> (i <= length fjder)%nat -> (length fjder < i + fuel)%nat ->
  ders scale sv fuel i fjs fjder = Fault.
Proof.
  induction fuel as [|fuel IH]; intros i fjder Hi HL H1 H2; [lia|]. cbn [ders].
  rewrite (rd_in _ _ (@nth_error_nth' _ fjs (RtoC 0) (i - 1) ltac:(lia))), (rd_in _ _ (@nth_error_nth' _ fjs (RtoC 0) (i + 1) ltac:(lia))). cbn [fbind].
  destruct (Nat.lt_ge_cases i (length fjder)) as [G|G].
  - rewrite wr_in by exact G. cbn [fbind]. apply IH; rewrite ?upd_length; lia.
  - rewrite wr_out by exact G. reflexivity.
Qed.
