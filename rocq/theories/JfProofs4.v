(** Outcomes of jfuns3d_. *)
From Coq Require Import Reals List Lra Lia.
From Coquelicot Require Import Coquelicot.
From Verif Require Import Base TsModel TsSpec TsProofs5 JfModel JfSpec JfProofs JfProofs2 JfProofs3.
Import ListNotations.
Set Implicit Arguments.
Open Scope R_scope.

Lemma exceeds_dec z T N : {exceeds z T N} + {~ exceeds z T N}.
Proof.
  unfold exceeds. destruct (lt_dec T N) as [H|H]; [|right; intros [A _]; lia].
  destruct (Rlt_dec (10 ^ 20) (Cmod (snd (upward z T (N - T))))) as [B|B]; [left; split; assumption|right; intros [_ A]; contradiction].
Qed.
Lemma search z T b : (exists N, first_exceeds z T N /\ (N <= b)%nat) \/ (forall N, (N <= b)%nat -> ~ exceeds z T N).
Proof.
  induction b as [|b IH].
  - right. intros N HN [A _]. lia.
  - destruct IH as [(N & F & L)|IH]; [left; exists N; split; [exact F|lia]|].
    destruct (exceeds_dec z T (S b)) as [X|X].
    + left. exists (S b). split; [|lia]. split; [exact X|]. intros N' HN'. apply IH. lia.
    + right. intros N HN. destruct (Nat.eq_dec N (S b)) as [->|]; [exact X|]. apply IH. lia.
Qed.

Section Out.
Variables (z : C) (T : nat) (scale : R) (ifder : bool) (lw : nat) (fjs fjder : list C) (iscale : list Z) (j : nat -> C).
Hypothesis (HT : (1 <= T)%nat) (Hz : ~ Cmod z < tiny) (Hj : bessel_at z j).

Lemma run_start : (length fjs <= T)%nat -> jfuns3d T z scale fjs ifder fjder lw iscale = Fault.
Proof.
  intros H. unfold jfuns3d. destruct (Rlt_dec (Cmod z) tiny) as [B|_]; [contradiction|]. rewrite wr_out by exact H. reflexivity.
Qed.
Lemma run_found N : first_exceeds z T N -> (N <= lw + 1)%nat -> (N < length fjs)%nat ->
  exists f1, length f1 = length fjs /\ jfuns3d T z scale fjs ifder fjder lw iscale = after z T scale ifder fjder iscale f1 N.
Proof.
  intros [[HN X] NX] HL Hf. destruct (@start_ok T HT fjs) as (f0 & E0 & L0 & V1 & V0); [lia|].
  rewrite (@jfuns_eq z T scale ifder lw Hz fjs fjder iscale f0 E0).
  destruct (@find_top_found z T (lw + 1 - T) 0 f0 (N - T)) as (f1 & L1 & E1); try lia; rewrite ?Nat.add_0_r; try assumption.
  - replace (T + (N - T))%nat with N by lia. split; assumption.
  - intros e He. apply NX. lia.
  - rewrite Nat.add_0_r in E1. rewrite E1. cbn [fbind fst snd]. replace (T + (N - T))%nat with N by lia. exists f1. split; [lia|reflexivity].
Qed.
Lemma run_none : (forall N, (N <= lw + 1)%nat -> ~ exceeds z T N) -> (lw + 1 < length fjs)%nat -> (T < length fjs)%nat ->
  exists f1, length f1 = length fjs /\ jfuns3d T z scale fjs ifder fjder lw iscale = Fin (8%nat, f1, fjder).
Proof.
  intros NX Hf Hf'. destruct (@start_ok T HT fjs) as (f0 & E0 & L0 & V1 & V0); [exact Hf'|].
  rewrite (@jfuns_eq z T scale ifder lw Hz fjs fjder iscale f0 E0).
  destruct (Nat.le_gt_cases T (lw + 1)) as [HTl|HTl].
  - destruct (@find_top_none z T (lw + 1 - T) 0 f0) as (f1 & L1 & E1); try lia; rewrite ?Nat.add_0_r; try assumption.
    + intros e He. apply NX. lia.
    + rewrite Nat.add_0_r in E1. rewrite E1. cbn [fbind fst snd]. exists f1. split; [lia|reflexivity].
  - replace (lw + 1 - T)%nat with 0%nat by lia. cbn [find_top fbind fst snd]. exists f0. split; [lia|reflexivity].
Qed.
Lemma run_fault : (forall N, (N < length fjs)%nat -> ~ exceeds z T N) -> (T < length fjs <= lw + 1)%nat ->
  jfuns3d T z scale fjs ifder fjder lw iscale = Fault.
Proof.
  intros NX Hf. destruct (@start_ok T HT fjs) as (f0 & E0 & L0 & V1 & V0); [lia|].
  rewrite (@jfuns_eq z T scale ifder lw Hz fjs fjder iscale f0 E0).
  replace (find_top (1 / z)%C (lw + 1 - T) T f0) with (find_top (1 / z)%C (lw + 1 - T) (T + 0) f0) by (rewrite Nat.add_0_r; reflexivity).
  rewrite (@find_top_fault z T (lw + 1 - T) 0 f0 (length fjs - 1 - T)); try lia; rewrite ?Nat.add_0_r; try assumption; [reflexivity|].
  intros e He. apply NX. lia.
Qed.

Definition good_result (N : nat) (f' d' : list C) : Prop :=
  (forall n, (n <= T)%nat -> nth_error f' n = Some (truncated z j N n / RtoC (scale ^ n))%C)
  /\ (if ifder then forall n, (n <= T)%nat -> nth_error d' n = Some (rec_derivative (truncated z j N) n / RtoC (scale ^ n))%C else d' = fjder).
Lemma run_ok N : first_exceeds z T N -> (N <= lw + 1)%nat -> (N < length fjs)%nat -> (N < length iscale)%nat ->
  (ifder = true -> (T < length fjder)%nat) -> scale <> 0 -> companion z j N <> RtoC 0 ->
  exists f' d', jfuns3d T z scale fjs ifder fjder lw iscale = Fin (0%nat, f', d') /\ length f' = length fjs /\ length d' = length fjder /\ good_result N f' d'.
Proof.
  intros F HL Hf Hi Hd Hs Hc. destruct (run_found F HL Hf) as (f1 & L1 & ->).
  pose proof (@after_ok z T scale ifder HT Hz j Hj N fjder iscale (proj1 (proj1 F)) f1 ltac:(lia) Hi Hs Hd) as A.
  destruct (Ceq_dec (companion z j N) (RtoC 0)) as [|_]; [contradiction|]. destruct A as (f' & d' & E & A1 & A2 & A3 & A4).
  exists f', d'. split; [exact E|]. split; [lia|]. split; [exact A2|]. split; assumption.
Qed.
Lemma run_notfinite N : first_exceeds z T N -> (N <= lw + 1)%nat -> (N < length fjs)%nat -> (N < length iscale)%nat ->
  (ifder = true -> (T < length fjder)%nat) -> scale = 0 \/ companion z j N = RtoC 0 ->
  jfuns3d T z scale fjs ifder fjder lw iscale = NotFinite.
Proof.
  intros F HL Hf Hi Hd Hs. destruct (run_found F HL Hf) as (f1 & L1 & ->).
  destruct (Req_EM_T scale 0) as [S0|S0].
  - apply (@after_scale0 z T scale ifder HT N fjder iscale (proj1 (proj1 F))); [lia|exact Hi|exact S0].
  - destruct Hs as [|Hc]; [contradiction|].
    pose proof (@after_ok z T scale ifder HT Hz j Hj N fjder iscale (proj1 (proj1 F)) f1 ltac:(lia) Hi S0 Hd) as A.
    destruct (Ceq_dec (companion z j N) (RtoC 0)) as [_|]; [exact A|contradiction].
Qed.
(** The values, whatever the arrays. *)
Lemma run_inv f' d' : jfuns3d T z scale fjs ifder fjder lw iscale = Fin (0%nat, f', d') ->
  exists N, first_exceeds z T N /\ (N <= lw + 1)%nat /\ (N < length fjs)%nat /\ (N < length iscale)%nat
    /\ scale <> 0 /\ companion z j N <> RtoC 0 /\ good_result N f' d'.
Proof.
  intros E. destruct (Nat.le_gt_cases (length fjs) T) as [LT|LT]; [rewrite run_start in E by exact LT; discriminate|].
  destruct (search z T (Nat.min (lw + 1) (length fjs - 1))) as [(N & F & HN)|NX].
  2:{ exfalso. destruct (Nat.le_gt_cases (length fjs) (lw + 1)) as [G|G].
      - rewrite run_fault in E; [discriminate| |lia]. intros N HN. apply NX. lia.
      - destruct run_none as (f1 & _ & E1); [intros N HN; apply NX; lia|exact G|exact LT|]. rewrite E1 in E. discriminate. }
  exists N. split; [exact F|]. split; [lia|]. split; [lia|].
  destruct (Nat.le_gt_cases (length iscale) N) as [GI|GI].
  { exfalso. destruct (@run_found N F ltac:(lia) ltac:(lia)) as (f1 & L1 & E1). rewrite E1 in E.
    rewrite after_iscale_short in E by first [assumption | exact (proj1 (proj1 F)) | lia]. discriminate. }
  split; [exact GI|].
  destruct (Req_EM_T scale 0) as [S0|S0].
  { exfalso. destruct (@run_found N F ltac:(lia) ltac:(lia)) as (f1 & L1 & E1). rewrite E1 in E.
    rewrite (@after_scale0 z T scale ifder HT N fjder iscale (proj1 (proj1 F))) in E; [discriminate|lia|exact GI|exact S0]. }
  split; [exact S0|].
  assert (D : ifder = true -> (T < length fjder)%nat).
  { intros I. destruct (Nat.lt_ge_cases T (length fjder)) as [|G]; [assumption|]. exfalso.
    destruct (@run_found N F ltac:(lia) ltac:(lia)) as (f1 & L1 & E1). rewrite E1 in E.
    destruct (@after_der_short z T scale ifder HT Hz j Hj N fjder iscale (proj1 (proj1 F)) f1) as [X|X]; try lia; try assumption;
      rewrite X in E; discriminate. }
  destruct (Ceq_dec (companion z j N) (RtoC 0)) as [C0|C0].
  { exfalso. rewrite (@run_notfinite N F) in E; [discriminate|lia|lia|exact GI|exact D|right; exact C0]. }
  split; [exact C0|]. destruct (@run_ok N F ltac:(lia) ltac:(lia) GI D S0 C0) as (f2 & d2 & E2 & _ & _ & G).
  rewrite E2 in E. injection E as <- <-. exact G.
Qed.
End Out.

(** ** Small arguments *)
Lemma run_small T z scale fjs ifder fjder lw iscale : Cmod z < tiny -> (T < length fjs)%nat ->
  (ifder = true -> (Nat.max 1 T < length fjder)%nat /\ scale <> 0) ->
  exists f' d', jfuns3d T z scale fjs ifder fjder lw iscale = Fin (0%nat, f', d')
    /\ (forall n, (n <= T)%nat -> nth_error f' n = Some (RtoC (if Nat.eqb n 0 then 1 else 0)))
    /\ (if ifder then forall n, (n <= T)%nat -> nth_error d' n = Some (RtoC (if Nat.eqb n 1 then 1 / (3 * scale) else 0)) else d' = fjder).
Proof.
  intros Hz Hf Hd. unfold jfuns3d. destruct (Rlt_dec (Cmod z) tiny) as [_|B]; [|contradiction].
  rewrite wr_in by lia. cbn [fbind]. destruct (@fill_in _ (RtoC 0) T 1 (upd fjs 0 (RtoC 1))) as (f' & E & L & V); [rewrite upd_length; lia|].
  rewrite E. cbn [fbind].
  assert (W : forall n, (n <= T)%nat -> nth_error f' n = Some (RtoC (if Nat.eqb n 0 then 1 else 0))).
  { intros n Hn. rewrite V. destruct n as [|n].
    - cbn [Nat.leb andb Nat.eqb]. apply upd_same. lia.
    - destruct (Nat.leb_spec 1 (S n)), (Nat.ltb_spec (S n) (1 + T)); cbn [andb Nat.eqb]; try lia. reflexivity. }
  destruct ifder; [|exists f', fjder; repeat split; exact W].
  destruct (Hd eq_refl) as [Hl Hs]. destruct (@fill_in _ (RtoC 0) (T + 1) 0 fjder) as (d0 & E0 & L0 & V0); [lia|]. rewrite E0. cbn [fbind].
  unfold fdiv. destruct (Req_EM_T (scale * 3) 0) as [Z0|_]; [exfalso; apply Hs; lra|]. cbn [fbind].
  rewrite wr_in by lia. cbn [fbind]. eexists f', _. split; [reflexivity|]. split; [exact W|].
  intros n Hn. destruct (Nat.eqb_spec n 1) as [->|NE].
  - rewrite upd_same by lia. replace (3 * scale) with (scale * 3) by ring. reflexivity.
  - rewrite upd_other by lia. rewrite V0. destruct (Nat.leb_spec 0 n), (Nat.ltb_spec n (0 + (T + 1))); cbn [andb]; try lia. reflexivity.
Qed.
