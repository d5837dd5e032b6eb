From Verif Require Import Base GmresModel GmresSpec.
Set Implicit Arguments.

Section P.
Variables V K N : Type.
Variable vo : vops V K.
Variable no : nops N.
Variable A : V -> V.
Variable dot : V -> V -> K.
Variable norm : V -> N.
Variable inv : N -> K.

Notation loop := (loop vo no A dot norm inv).
Notation update := (update vo A dot norm inv).
Notation check := (check vo A norm).
Notation orth := (orth vo dot).
Notation trip := (trip vo dot norm inv).
Notation "a +v b" := (vadd vo a b) (at level 50, left associativity).
Notation "a -v b" := (vsub vo a b) (at level 50, left associativity).
Notation "c *v b" := (vscale vo c b) (at level 40).

(** ** Slots *)
Lemma wr_ok l j v : j < length l -> exists l', @wr V l j v = Ok l' /\ length l' = length l
  /\ nth_error l' j = Some (Some v) /\ forall i, i <> j -> nth_error l' i = nth_error l i.
Proof.
  revert j. induction l as [|o l IH]; intros j Hj; simpl in Hj; [lia|].
  destruct j as [|j]; simpl.
  - eexists; repeat split; auto. intros [|i] Hi; [contradiction|reflexivity].
  - destruct (IH j) as (l' & -> & H1 & H2 & H3); [lia|]. simpl.
    eexists; repeat split; simpl; auto. intros [|i] Hi; [reflexivity|]. simpl. apply H3. lia.
Qed.
Lemma wr_err l j v : length l <= j -> @wr V l j v = Err IndexError.
Proof.
  revert j. induction l as [|o l IH]; intros [|j] Hj; simpl in *; try reflexivity; try lia.
  rewrite IH by lia. reflexivity.
Qed.

(** The first [m] slots hold vectors; [P] of corresponding entries. *)
Definition filled (Ae e : list (option V)) (m : nat) (P : V -> V -> Prop) : Prop :=
  forall j, j < m -> exists a x, nth_error Ae j = Some (Some a) /\ nth_error e j = Some (Some x) /\ P a x.

(** ** Linear algebra *)
Section Lin.
Variable vs : vspace vo.
Hypothesis HA : linear vo A.

Lemma opp_unique u v : u +v v = vzero vs -> v = vopp vs u.
Proof.
  intros H. rewrite <- (add_zero vs v), <- (add_opp vs u), (add_assoc vs), (add_comm vs v u), H.
  rewrite (add_comm vs). apply (add_zero vs).
Qed.
Lemma opp_add u v : vopp vs (u +v v) = vopp vs u +v vopp vs v.
Proof.
  symmetry. apply opp_unique.
  rewrite (add_comm vs (vopp vs u)), (add_assoc vs), <- (add_assoc vs u v), (add_opp vs), (add_zero vs).
  apply (add_opp vs).
Qed.
Lemma opp_zero : vopp vs (vzero vs) = vzero vs.
Proof. symmetry. apply opp_unique. apply (add_zero vs). Qed.
Lemma add_cancel u v : u +v v = u -> v = vzero vs.
Proof.
  intros H. rewrite <- (add_zero vs v), <- (add_opp vs u), (add_assoc vs), (add_comm vs v u), H.
  reflexivity.
Qed.
Lemma A_zero : A (vzero vs) = vzero vs.
Proof.
  apply (@add_cancel (A (vzero vs))). rewrite <- (proj1 HA). rewrite (add_zero vs). reflexivity.
Qed.
Lemma scale_vzero c : c *v (vzero vs) = vzero vs.
Proof. apply (@add_cancel (c *v (vzero vs))). rewrite <- (scale_add vs), (add_zero vs). reflexivity. Qed.
Lemma A_opp u : A (vopp vs u) = vopp vs (A u).
Proof. apply opp_unique. rewrite <- (proj1 HA), (add_opp vs). apply A_zero. Qed.
Lemma A_sub u v : A (u -v v) = A u -v A v.
Proof. rewrite !(sub_def vs), (proj1 HA), A_opp. reflexivity. Qed.
Lemma A_init b : b = b -v A (kzero vo *v b).
Proof. rewrite (scale_zero vs), A_zero, (sub_def vs), opp_zero, (add_zero vs). reflexivity. Qed.
Lemma sub_update b x d e : (b -v A x) -v d *v A e = b -v A (x +v d *v e).
Proof.
  rewrite !(sub_def vs), (proj1 HA), (proj2 HA), opp_add, (add_assoc vs). reflexivity.
Qed.

Definition img (a x : V) : Prop := a = A x.

Lemma orth_img Ae e m : filled Ae e m img -> forall js, (forall j, In j js -> j < m) ->
  forall w rp, img w rp -> exists w' rp', orth Ae e js w rp = Ok (w', rp') /\ img w' rp'.
Proof.
  intros HF. induction js as [|j js IH]; intros Hj w rp Hw; simpl.
  - exists w, rp. auto.
  - destruct (HF j) as (a & x & Ha & He & Him); [apply Hj; left; reflexivity|].
    unfold rd. rewrite Ha, He. simpl. apply IH; [intros i Hi; apply Hj; right; exact Hi|].
    unfold img in *. rewrite A_sub, (proj2 HA), Hw, Him. reflexivity.
Qed.
Lemma trip_img Ae e oc : filled Ae e oc img -> forall w rp, img w rp ->
  exists w' rp', trip Ae e oc w rp = Ok (w', rp') /\ img w' rp'.
Proof.
  intros HF w rp Hw. unfold GmresModel.trip.
  destruct (orth_img HF (seq 0 oc)) with (w := w) (rp := rp) as (w' & rp' & -> & Hi); auto.
  { intros j Hj. apply in_seq in Hj. lia. }
  simpl. do 2 eexists. split; [reflexivity|]. unfold img in *. rewrite (proj2 HA), Hi. reflexivity.
Qed.
End Lin.

(** Without linearity: slots below [oc] readable implies no TypeError. *)
Definition anyp (a x : V) : Prop := True.
Lemma orth_any Ae e m : filled Ae e m anyp -> forall js, (forall j, In j js -> j < m) ->
  forall w rp, exists w' rp', orth Ae e js w rp = Ok (w', rp').
Proof.
  intros HF. induction js as [|j js IH]; intros Hj w rp; simpl; [eauto|].
  destruct (HF j) as (a & x & Ha & He & _); [apply Hj; left; reflexivity|].
  unfold rd. rewrite Ha, He. simpl. apply IH; intros i Hi; apply Hj; right; exact Hi.
Qed.
Lemma trip_any Ae e oc : filled Ae e oc anyp -> forall w rp,
  exists w' rp', trip Ae e oc w rp = Ok (w', rp').
Proof.
  intros HF w rp. unfold GmresModel.trip.
  destruct (orth_any HF (seq 0 oc)) with (w := w) (rp := rp) as (w' & rp' & ->); auto.
  { intros j Hj. apply in_seq in Hj. lia. }
  simpl. eauto.
Qed.

(** ** Loop invariants *)
Variable a : gargs N.
Variable b : V.

(** Number of initialised slots. *)
Record inv0 (P : V -> V -> Prop) (st : gst V N) : Prop := {
  i_len : length (g_Ae st) = a_restart a /\ length (g_e st) = a_restart a;
  i_k : g_k st <= a_restart a;
  i_fill : filled (g_Ae st) (g_e st) (g_k st) P }.

Lemma check_inv0 P st oc st1 : inv0 P st -> check a b st = (oc, st1) ->
  length (g_Ae st1) = a_restart a /\ length (g_e st1) = a_restart a /\
  filled (g_Ae st1) (g_e st1) oc P /\ g_k st1 <= oc /\
  (0 < a_restart a -> g_k st1 < a_restart a) /\ (a_restart a = 0 -> g_k st1 = 0).
Proof.
  intros [[L1 L2] Hk HF]. unfold GmresModel.check.
  destruct (Nat.eqb_spec (g_k st) (a_restart a)) as [E|E]; destruct (g_recalc st);
    intros H; injection H; intros; subst st1 oc; simpl; repeat split; auto; try lia;
    rewrite <- E; exact HF.
Qed.

(** A fact [P] about every new direction, for the given last check. *)
Lemma update_shape (P : V -> V -> Prop) st oc nr rc :
  length (g_Ae st) = a_restart a -> length (g_e st) = a_restart a ->
  filled (g_Ae st) (g_e st) oc P ->
  (exists w1 rp1 w2 rp2, trip (g_Ae st) (g_e st) oc (A (g_r st)) (g_r st) = Ok (w1, rp1) /\
     trip (g_Ae st) (g_e st) oc w1 rp1 = Ok (w2, rp2) /\ P w2 rp2) ->
  g_k st <= oc ->
  (g_k st < a_restart a ->
   exists w2 rp2 st', update st oc nr rc = Ok st' /\ P w2 rp2 /\ inv0 P st' /\
     (exists w1 rp1, trip (g_Ae st) (g_e st) oc (A (g_r st)) (g_r st) = Ok (w1, rp1) /\
      trip (g_Ae st) (g_e st) oc w1 rp1 = Ok (w2, rp2)) /\
     g_x st' = g_x st +v dot w2 (g_r st) *v rp2 /\
     g_r st' = (if rc then g_r st else g_r st -v dot w2 (g_r st) *v w2) /\
     g_recalc st' = rc /\ g_last st' = Some nr /\ g_norms st' = g_norms st /\
     g_seen st' = g_seen st /\ g_calls st' = S (g_calls st) /\ g_warn st' = g_warn st) /\
  (a_restart a <= g_k st -> update st oc nr rc = Err IndexError).
Proof.
  intros L1 L2 HF (w1 & rp1 & w2 & rp2 & T1 & T2 & HP) Hoc. unfold GmresModel.update.
  rewrite T1. simpl. rewrite T2. simpl. split; intros Hk.
  - destruct (@wr_ok (g_Ae st) (g_k st) w2) as (Ae' & -> & La & Na & Oa); [lia|].
    destruct (@wr_ok (g_e st) (g_k st) rp2) as (e' & -> & Le & Ne & Oe); [lia|].
    simpl. exists w2, rp2. eexists. split; [reflexivity|]. split; [exact HP|]. simpl.
    split; [|split; [exists w1, rp1; auto|repeat split; auto]].
    split; simpl; [split; lia|lia|]. intros j Hj.
    destruct (Nat.eq_dec j (g_k st)) as [->|Hne].
    + exists w2, rp2. auto.
    + rewrite Oa, Oe by exact Hne. apply HF. lia.
  - rewrite wr_err by lia. reflexivity.
Qed.

End P.
