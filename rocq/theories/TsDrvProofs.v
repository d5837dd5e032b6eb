From Coq Require Import Reals List Lia Lra.
From Coquelicot Require Import Coquelicot.
From Verif Require Import Base TsModel TsLeg TsSpec TsProofs TsDrvModel TsDrvSpec.
Import ListNotations.
Set Implicit Arguments.
Open Scope R_scope.

Lemma nth_upd A (l : list A) i v d n : (i < length l)%nat -> nth n (upd l i v) d = if Nat.eq_dec n i then v else nth n l d.
Proof.
  revert i n. induction l as [|x l IH]; intros [|i] [|n] H; simpl in *; try lia; try reflexivity.
  rewrite IH by lia. destruct (Nat.eq_dec n i), (Nat.eq_dec (S n) (S i)); try lia; reflexivity.
Qed.
Lemma upd_out A (l : list A) i v : (length l <= i)%nat -> upd l i v = l.
Proof. revert i. induction l as [|x l IH]; intros [|i] H; simpl in *; try lia; auto. rewrite IH by lia. reflexivity. Qed.

Lemma csr_is starts lists i : (nth (S i) starts 0 <= length lists)%nat -> csr starts lists i = csr_row starts lists i.
Proof.
  unfold csr, csr_row. replace (i + 1)%nat with (S i) by lia.
  set (b := nth i starts 0%nat). set (e := nth (S i) starts 0%nat). intros H.
  remember (e - b)%nat as n eqn:En.
  assert (Hn : (n = 0 \/ b + n <= length lists)%nat) by lia. clearbody b. clear e H En. clear i starts.
  revert b Hn. induction n as [|n IH]; intros b Hn; [reflexivity|].
  destruct Hn as [|Hn]; [lia|]. cbn [seq map].
  assert (L : (b < length lists)%nat) by lia.
  destruct (skipn b lists) as [|x r] eqn:E.
  { apply (f_equal (@length nat)) in E. rewrite skipn_length in E. cbn in E. lia. }
  cbn [firstn].
  assert (X : nth b lists 0%nat = x).
  { rewrite <- (firstn_skipn b lists) at 1. rewrite E, app_nth2; rewrite firstn_length; [|lia].
    now replace (b - Nat.min b (length lists))%nat with 0%nat by lia. }
  rewrite X. f_equal. rewrite IH by lia.
  assert (R : skipn (S b) lists = r).
  { clear - E. revert b E. induction lists as [|y l IH]; intros [|b] E; simpl in *; try discriminate; [now injection E|]. now apply (IH b). }
  now rewrite R.
Qed.

Section Sched.
Variable junk : nat -> R.
Variable cjunk : nat -> C.
Variable jfuns : nat -> C -> R -> bool -> option (list C * list C).
Variable a : args.
Local Notation local := (local junk cjunk jfuns a).
Local Notation step := (step junk cjunk jfuns a).
Local Notation run := (run junk cjunk jfuns a).
Local Notation center_ops := (center_ops a).
Local Notation target_ops := (target_ops a).
Local Notation thread_program := (thread_program a).

(** What a thread will still write. *)
Definition wval : Type := (option (fr C) * option (fr (tri C)))%type.
Definition wof (r : row) : wval :=
  (if ifpot a then Some (r_result r) else None, if ifgrad a then Some (r_grad r) else None).
Definition apply (w : wval) (c : cell) : cell :=
  (match fst w with Some x => x | None => fst c end, match snd w with Some x => x | None => snd c end).
Fixpoint pending (r : row) (os : list op) : list (nat * wval) :=
  match os with
  | [] => []
  | o :: os => (match o with Store t => [(t, wof r)] | _ => [] end) ++ pending (local r o) os
  end.
Definition zc : cell := (Fin (RtoC 0), Fin (T3 (RtoC 0) (RtoC 0) (RtoC 0))).
Lemma store_is r o out : store a r o out =
  match o with Store t => upd out t (apply (wof r) (nth t out zc)) | _ => out end.
Proof.
  destruct o; try reflexivity. unfold store. fold zc.
  destruct (nth tgt out zc) as [x y]. unfold apply, wof. simpl. destruct (ifpot a), (ifgrad a); reflexivity.
Qed.
Lemma apply_twice w c : apply w (apply w c) = apply w c.
Proof. destruct w as [[x|] [y|]]; reflexivity. Qed.

Definition runlocal (r : row) (os : list op) : row := fold_left local os r.
Lemma pending_app r os os' : pending r (os ++ os') = pending r os ++ pending (runlocal r os) os'.
Proof.
  revert r. induction os as [|o os IH]; intros r; simpl; [reflexivity|].
  rewrite IH, app_assoc. reflexivity.
Qed.

(** The row with which a target's evaluation starts, as far as it matters. *)
Definition fresh (ctr tgt : nat) : row :=
  Row origin (pt_at (targets a) tgt) (pt_at (centers a) ctr) origin (Fin (T3 (RtoC 0) (RtoC 0) (RtoC 0)))
      (ts_helmholtz_precompute jfuns (pt_at (centers a) ctr) (pt_at (targets a) tgt) (order a) (ifgrad a) (helmholtz_k a))
      (Fin (RtoC 0)).
(** Rows that behave alike: the dipole matters only with dipoles, etc. *)
Definition alike (r r' : row) : Prop :=
  r_target r = r_target r' /\ r_center r = r_center r' /\
  (ifgrad a = true -> r_grad r = r_grad r') /\ (helm_flag (make_flags a) = true -> r_j r = r_j r') /\
  r_result r = r_result r'.
Lemma alike_wof r r' : alike r r' -> wof r = wof r'.
Proof.
  intros (A & B & D & E & F). unfold wof. rewrite F.
  destruct (ifgrad a); [rewrite D by reflexivity|]; reflexivity.
Qed.

Lemma flag_sp : laplace_sp (make_flags a) = true -> ifgrad a = true.
Proof. unfold make_flags. destruct (Ceq_dec _ _); simpl; [|discriminate]. now destruct (ifgrad a). Qed.
Lemma flag_hsp : helmholtz_sp (make_flags a) = true -> ifgrad a = true.
Proof. unfold make_flags. destruct (Ceq_dec _ _); simpl; [discriminate|]. now destruct (ifgrad a). Qed.
Lemma flag_d : laplace_d (make_flags a) = true -> ifdipole a = true.
Proof. unfold make_flags. destruct (Ceq_dec _ _); simpl; [|discriminate]. destruct (ifpot a); auto; discriminate. Qed.
Lemma flag_hd : helmholtz_d (make_flags a) = true -> ifdipole a = true.
Proof. unfold make_flags. destruct (Ceq_dec _ _); simpl; [discriminate|]. destruct (ifpot a); auto; discriminate. Qed.

Lemma alike_source r r' src : alike r r' ->
  alike (local (local r (SetSource src)) (Accumulate src)) (local (local r' (SetSource src)) (Accumulate src)).
Proof.
  intros (A & B & D & E & F). unfold alike. cbn [TsDrvModel.local accumulate r_source r_target r_center r_dipole r_grad r_j r_result].
  unfold accumulate. cbn [r_source r_target r_center r_dipole r_grad r_j r_result].
  pose proof flag_sp as Fsp. pose proof flag_hsp as Fhsp. pose proof flag_d as Fd. pose proof flag_hd as Fhd.
  unfold helm_flag in E. rewrite A, B, F.
  destruct (make_flags a) as [ls lsp ld hs hsp hd].
  cbn [laplace_s laplace_sp laplace_d helmholtz_s helmholtz_sp helmholtz_d] in *.
  split; [reflexivity|]. split; [reflexivity|].
  assert (G : ifgrad a = true -> forall z,
     (if hsp then dof g <- (if lsp then dof g <- r_grad r; z g else r_grad r); dof jj <- r_j r;
                  let '(js, jd, jscale) := jj in
                  ts_helmholtz_sp junk cjunk g (pt_at (sources a) src) (r_center r') (r_target r') (num_at (charge a) src) (order a) (helmholtz_k a) js jd jscale
      else if lsp then dof g <- r_grad r; z g else r_grad r) =
     (if hsp then dof g <- (if lsp then dof g <- r_grad r'; z g else r_grad r'); dof jj <- r_j r';
                  let '(js, jd, jscale) := jj in
                  ts_helmholtz_sp junk cjunk g (pt_at (sources a) src) (r_center r') (r_target r') (num_at (charge a) src) (order a) (helmholtz_k a) js jd jscale
      else if lsp then dof g <- r_grad r'; z g else r_grad r')).
  { intros Hg z. rewrite (D Hg). destruct hsp; [|reflexivity].
    rewrite E by (destruct hs; reflexivity). reflexivity. }
  split; [intros Hg; apply (G Hg)|]. split; [exact E|].
  destruct ld; [specialize (Fd eq_refl); rewrite Fd|];
  destruct hd; try (specialize (Fhd eq_refl); rewrite Fhd); destruct hs;
  try (rewrite E by (destruct hsp; reflexivity)); reflexivity.
Qed.

(** The writes of one target's program. *)
Lemma sources_pending r srcs : pending r (flat_map source_ops srcs) = [].
Proof. revert r. induction srcs as [|s srcs IH]; intros r; simpl; [reflexivity|apply IH]. Qed.
Lemma sources_alike srcs : forall r r', alike r r' ->
  alike (runlocal r (flat_map source_ops srcs)) (runlocal r' (flat_map source_ops srcs)).
Proof.
  induction srcs as [|s srcs IH]; intros r r' H; [exact H|].
  apply (IH (local (local r (SetSource s)) (Accumulate s)) (local (local r' (SetSource s)) (Accumulate s))). apply alike_source, H.
Qed.
Lemma sources_center srcs : forall r, r_center (runlocal r (flat_map source_ops srcs)) = r_center r.
Proof. induction srcs as [|s srcs IH]; intros r; [reflexivity|]. exact (IH (local (local r (SetSource s)) (Accumulate s))). Qed.

Definition value (ctr tgt : nat) : wval :=
  wof (runlocal (fresh ctr tgt) (flat_map source_ops (near_sources a ctr))).

Lemma target_pending r ctr tgt : r_center r = pt_at (centers a) ctr ->
  pending r (target_ops ctr tgt) = [(tgt, value ctr tgt)] /\
  r_center (runlocal r (target_ops ctr tgt)) = r_center r.
Proof.
  intros Hc. unfold TsDrvModel.target_ops.
  set (r1 := if helm_flag (make_flags a) then local (local r (SetTarget tgt)) Precompute else local r (SetTarget tgt)).
  assert (E1 : runlocal r (SetTarget tgt :: (if helm_flag (make_flags a) then [Precompute] else [])) = r1).
  { unfold r1. destruct (helm_flag _); reflexivity. }
  assert (Al : alike r1 (fresh ctr tgt)).
  { unfold r1, alike, fresh. destruct (helm_flag (make_flags a)) eqn:Hh; cbn [TsDrvModel.local r_target r_center r_grad r_j r_result]; rewrite ?Hc.
    - split; [reflexivity|]. split; [reflexivity|]. split; [now intros ->|]. split; reflexivity.
    - split; [reflexivity|]. split; [reflexivity|]. split; [now intros ->|]. split; [discriminate|reflexivity]. }
  assert (Cc : r_center r1 = r_center r) by (unfold r1; destruct (helm_flag _); reflexivity).
  change (SetTarget tgt :: ?x ++ ?y) with ((SetTarget tgt :: x) ++ y). rewrite !pending_app. unfold runlocal.
  rewrite !fold_left_app. fold (runlocal r (SetTarget tgt :: (if helm_flag (make_flags a) then [Precompute] else []))).
  rewrite E1. fold (runlocal r1 (flat_map source_ops (near_sources a ctr))).
  rewrite sources_pending. split.
  - assert (P0 : pending r (SetTarget tgt :: (if helm_flag (make_flags a) then [Precompute] else [])) = []).
    { destruct (helm_flag _); reflexivity. }
    rewrite P0. simpl. do 2 f_equal. apply alike_wof, sources_alike, Al.
  - cbn [fold_left TsDrvModel.local]. rewrite sources_center. exact Cc.
Qed.

Lemma center_pending r ctr :
  pending r (center_ops ctr) = map (fun t => (t, value ctr t)) (csr (ctt_starts a) (ctt_lists a) ctr).
Proof.
  unfold TsDrvModel.center_ops. cbn [pending]. cbn [app].
  set (r1 := local r (SetCenter ctr)). assert (Hc : r_center r1 = pt_at (centers a) ctr) by reflexivity.
  clearbody r1. revert r1 Hc. induction (csr (ctt_starts a) (ctt_lists a) ctr) as [|t ts IH]; intros r1 Hc; [reflexivity|].
  cbn [flat_map map]. rewrite pending_app. destruct (target_pending r1 ctr t Hc) as [-> Hc'].
  cbn [app]. f_equal. apply IH. congruence.
Qed.
Lemma program_pending owner r tid t w : In (t, w) (pending r (thread_program owner tid)) ->
  exists ctr, In ctr (qbx_centers a) /\ In t (csr (ctt_starts a) (ctt_lists a) ctr) /\ w = value ctr t.
Proof.
  unfold TsDrvModel.thread_program.
  assert (H : forall is r, (forall i, In i is -> (i < length (qbx_centers a))%nat) ->
     In (t, w) (pending r (flat_map (fun ictr => if (owner ictr =? tid)%nat then center_ops (nth ictr (qbx_centers a) 0%nat) else []) is)) ->
     exists ctr, In ctr (qbx_centers a) /\ In t (csr (ctt_starts a) (ctt_lists a) ctr) /\ w = value ctr t).
  { induction is as [|i is IH]; intros r0 Hi Hin; [destruct Hin|].
    cbn [flat_map] in Hin. rewrite pending_app in Hin. apply in_app_or in Hin. destruct Hin as [Hin|Hin].
    - destruct (owner i =? tid)%nat; [|destruct Hin]. rewrite center_pending in Hin.
      apply in_map_iff in Hin. destruct Hin as (t' & [= -> <-] & Ht).
      exists (nth i (qbx_centers a) 0%nat). split; [|split; [exact Ht|reflexivity]].
      apply nth_In, Hi. now left.
    - eapply IH; [|exact Hin]. intros j Hj. apply Hi. now right. }
  apply H. intros i Hi. apply in_seq in Hi. lia.
Qed.
Lemma program_covers owner r ctr t i : (i < length (qbx_centers a))%nat -> nth i (qbx_centers a) 0%nat = ctr ->
  In t (csr (ctt_starts a) (ctt_lists a) ctr) ->
  exists w, In (t, w) (pending r (thread_program owner (owner i))).
Proof.
  intros Hi Hn Ht. unfold TsDrvModel.thread_program.
  assert (Hin : In i (seq 0 (length (qbx_centers a)))) by (apply in_seq; lia).
  destruct (in_split _ _ Hin) as (l1 & l2 & E). rewrite E, flat_map_app. cbn [flat_map].
  rewrite Nat.eqb_refl, Hn. rewrite !pending_app. exists (value ctr t).
  apply in_or_app. right. apply in_or_app. left. rewrite center_pending. apply in_map_iff. now exists t.
Qed.

(** The invariant of the parallel loop. *)
Section Inv.
Variable expected : nat -> wval -> Prop.   (* a target's value *)
Hypothesis expected_fun : forall t w w', expected t w -> expected t w' -> w = w'.
Variable out0 : list cell.
Definition inv (st : state) : Prop :=
  length (todo st) = length (rows st) /\ length (out st) = length out0 /\
  (forall tid os r t w, nth_error (todo st) tid = Some os -> nth_error (rows st) tid = Some r ->
     In (t, w) (pending r os) -> expected t w) /\
  (forall t, (t < length out0)%nat ->
     (nth t (out st) zc = nth t out0 zc /\
       ((exists w, expected t w) -> exists tid os r w, nth_error (todo st) tid = Some os /\ nth_error (rows st) tid = Some r /\ In (t, w) (pending r os)))
     \/ (exists w, expected t w /\ nth t (out st) zc = apply w (nth t out0 zc))).
Lemma inv_step st tid : inv st -> inv (step st tid).
Proof.
  intros (L & Lo & Hp & Ho). unfold TsDrvModel.step.
  destruct (nth_error (todo st) tid) as [[|o os]|] eqn:Et; try (repeat split; assumption).
  destruct (nth_error (rows st) tid) as [r|] eqn:Er; [|repeat split; assumption].
  assert (Lt : (tid < length (todo st))%nat) by (apply nth_error_Some; congruence).
  assert (Lr : (tid < length (rows st))%nat) by lia.
  unfold inv. cbn [todo rows out]. rewrite !upd_length.
  split; [exact L|]. split; [rewrite store_is; destruct o; rewrite ?upd_length; exact Lo|]. split.
  - intros tid' os' r' t w H1 H2 H3. destruct (Nat.eq_dec tid' tid) as [->|N].
    + rewrite upd_same in H1, H2 by assumption. injection H1 as <-. injection H2 as <-.
      apply (Hp tid (o :: os) r); auto. cbn [pending]. apply in_or_app. now right.
    + rewrite upd_other in H1, H2 by assumption. eapply Hp; eassumption.
  - intros t Ht. rewrite store_is.
    assert (Keep : forall x, (exists tid' os' r' w, nth_error (todo st) tid' = Some os' /\ nth_error (rows st) tid' = Some r' /\ In (x, w) (pending r' os')) ->
       (match o with Store t => t <> x | _ => True end) ->
       exists tid' os' r' w, nth_error (upd (todo st) tid os) tid' = Some os' /\ nth_error (upd (rows st) tid (local r o)) tid' = Some r' /\ In (x, w) (pending r' os')).
    { intros x (tid' & os' & r' & w & H1 & H2 & H3) Hne. destruct (Nat.eq_dec tid' tid) as [->|N].
      - rewrite Et in H1. rewrite Er in H2. injection H1 as <-. injection H2 as <-.
        exists tid, os, (local r o), w. rewrite !upd_same by assumption. repeat split; auto.
        cbn [pending] in H3. apply in_app_or in H3. destruct H3 as [H3|H3]; [|exact H3].
        destruct o; try (destruct H3; fail). destruct H3 as [H3|[]]. injection H3 as H3 _. contradiction.
      - exists tid', os', r', w. rewrite !upd_other by assumption. auto. }
    destruct o;
      try (destruct (Ho t Ht) as [[H1 H2]|H]; [left; split; [exact H1 | intros Hw; apply Keep; auto] | right; exact H]).
    destruct (Nat.eq_dec t tgt) as [->|N].
    + assert (X : expected tgt (wof r)).
      { apply (Hp tid (Store tgt :: os) r); auto. cbn [pending]. now left. }
      right. exists (wof r). split; [exact X|].
      rewrite nth_upd by lia. destruct (Nat.eq_dec tgt tgt) as [_|]; [|contradiction].
      destruct (Ho tgt Ht) as [[-> _]|(w & Hw & ->)]; [reflexivity|].
      rewrite (expected_fun Hw X). apply apply_twice.
    + assert (Z : nth t (upd (out st) tgt (apply (wof r) (nth tgt (out st) zc))) zc = nth t (out st) zc).
      { destruct (Nat.lt_ge_cases tgt (length (out st))) as [Hl|Hl].
        - rewrite nth_upd by exact Hl. destruct (Nat.eq_dec t tgt); [contradiction|reflexivity].
        - now rewrite upd_out by exact Hl. }
      rewrite Z. destruct (Ho t Ht) as [[H1 H2]|H]; [left; split; [exact H1 | intros Hw; apply Keep; auto] | right; exact H].
Qed.
Lemma inv_run sched : forall st, inv st -> inv (run st sched).
Proof. induction sched as [|tid sched IH]; intros st H; [exact H|]. cbn [TsDrvModel.run fold_left]. apply IH, inv_step, H. Qed.
Lemma inv_finished st : inv st -> finished st -> forall t, (t < length out0)%nat ->
  (exists w, expected t w /\ nth t (out st) zc = apply w (nth t out0 zc)) \/
  ((~ exists w, expected t w) /\ nth t (out st) zc = nth t out0 zc).
Proof.
  intros (L & Lo & Hp & Ho) Hf t Ht. destruct (Ho t Ht) as [[H1 H2]|H]; [right|left; exact H].
  split; [|exact H1]. intros Hw. destruct (H2 Hw) as (tid & os & r & w & E1 & E2 & E3).
  unfold finished in Hf. rewrite Forall_forall in Hf. apply nth_error_In in E1. apply Hf in E1. subst os. destruct E3.
Qed.
End Inv.

Lemma driver_sched owner rs out0 sched : one_center a -> indices_ok a ->
  (forall ictr, (ictr < length (qbx_centers a))%nat -> (owner ictr < length rs)%nat) ->
  finished (run (initial a owner rs out0) sched) ->
  let o := out (run (initial a owner rs out0) sched) in
  length o = length out0 /\
  forall t, (t < length out0)%nat ->
    (forall ctr, serves a ctr t -> nth t o zc = apply (value ctr t) (nth t out0 zc)) /\
    ((forall ctr, ~ serves a ctr t) -> nth t o zc = nth t out0 zc).
Proof.
  intros Ho Hi Hown Hf o.
  set (expected := fun t w => exists ctr, serves a ctr t /\ w = value ctr t).
  assert (Row : forall ctr, In ctr (qbx_centers a) -> csr (ctt_starts a) (ctt_lists a) ctr = targets_of a ctr).
  { intros ctr Hc. apply csr_is. apply (Hi ctr Hc). }
  assert (I0 : inv expected out0 (initial a owner rs out0)).
  { unfold inv, initial. cbn [todo rows out]. rewrite map_length, seq_length.
    split; [reflexivity|]. split; [reflexivity|]. split.
    - intros tid os r t w H1 H2 H3. rewrite nth_error_map in H1.
      destruct (nth_error (seq 0 (length rs)) tid) as [x|] eqn:E; [|discriminate]. injection H1 as <-.
      destruct (program_pending _ _ _ _ _ H3) as (ctr & A & B & D).
      exists ctr. split; [|exact D]. split; [exact A|]. rewrite <- Row by exact A. exact B.
    - intros t Ht. left. split; [reflexivity|]. intros (w & ctr & [Hc Hs] & ->).
      destruct (In_nth _ _ 0%nat Hc) as (i & Hi1 & Hi2).
      pose proof (Hown i Hi1) as Hw.
      destruct (nth_error rs (owner i)) as [r|] eqn:Er; [|apply nth_error_None in Er; lia].
      destruct (program_covers owner r t Hi1 Hi2) as (w & Hw2).
      { rewrite Row by exact Hc. exact Hs. }
      exists (owner i), (thread_program owner (owner i)), r, w. split; [|split; [exact Er | exact Hw2]].
      rewrite nth_error_map. rewrite (nth_error_nth' _ 0%nat) by (rewrite seq_length; exact Hw).
      rewrite seq_nth by exact Hw. reflexivity. }
  assert (Ef : forall t w w', expected t w -> expected t w' -> w = w').
  { intros t w w' (c & S1 & ->) (c' & S2 & ->). now rewrite (Ho _ _ _ S1 S2). }
  pose proof (inv_run Ef sched I0) as I1.
  split; [apply I1|]. intros t Ht.
  destruct (inv_finished I1 Hf Ht) as [(w & (c & S1 & ->) & E)|[N E]]; split.
  - intros ctr S2. rewrite (Ho _ _ _ S2 S1). exact E.
  - intros N. destruct (N _ S1).
  - intros ctr S2. destruct N. exists (value ctr t), ctr. auto.
  - intros _. exact E.
Qed.
End Sched.
