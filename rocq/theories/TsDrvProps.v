(** C91, C92: the parallel driver of target-specific QBX, and the inputs it mishandles. *)
From Coq Require Import Reals List Lia Lra.
From Coquelicot Require Import Coquelicot.
From Verif Require Import Base TsModel TsLeg TsSpec TsProofs TsProofs2 TsProofs3 TsProofs5 TsProofs6 TsDrvModel TsDrvSpec TsDrvProofs TsDrvProofs2 TsProps.
Import ListNotations.
Open Scope R_scope.

(** ** C91 *)

(** Which calls are rejected, and which do nothing. *)
Theorem driver_rejects : forall a e,
  start_call a = Raise e <->
  e = ValueError /\ ((ifcharge a = true /\ charge a = None) \/ (ifdipole a = true /\ dipstr a = None)
                     \/ (ifdipole a = true /\ dipvec a = None) \/ (ifdipole a = true /\ ifgrad a = true)).
Proof.
  intros a e. unfold start_call.
  destruct (ifcharge a), (charge a), (ifdipole a), (dipstr a), (dipvec a), (ifgrad a); cbn [andb];
    try (split; [intros [= <-]; split; [reflexivity|tauto] | intros [-> _]; reflexivity]);
    (split; [destruct (negb (any_flag (make_flags a))); [discriminate|]; destruct (length (qbx_centers a) =? 0)%nat; discriminate
            | intros [_ [[H1 H2]|[[H1 H2]|[[H1 H2]|[H1 H2]]]]]; discriminate]).
Qed.
Print Assumptions driver_rejects.
Theorem driver_idle : forall a,
  start_call a = Return <->
  (forall e, start_call a <> Raise e) /\
  (qbx_centers a = [] \/ ((ifpot a = true -> ifcharge a = false /\ ifdipole a = false) /\ (ifgrad a = true -> ifcharge a = false))).
Proof.
  intros a. split.
  - intros H. split; [intros e; rewrite H; discriminate|]. revert H. unfold start_call.
    destruct (ifcharge a && _); [discriminate|]. destruct (ifdipole a && match dipstr a with None => true | _ => false end); [discriminate|].
    destruct (ifdipole a && match dipvec a with None => true | _ => false end); [discriminate|].
    destruct (ifdipole a && ifgrad a); [discriminate|].
    destruct (any_flag (make_flags a)) eqn:F; cbn [negb].
    + destruct (length (qbx_centers a) =? 0)%nat eqn:L; [|discriminate]. intros _. left.
      apply Nat.eqb_eq in L. now destruct (qbx_centers a).
    + intros _. right. revert F. unfold any_flag, make_flags.
      destruct (Ceq_dec _ _); cbn; destruct (ifpot a), (ifcharge a), (ifdipole a), (ifgrad a); cbn; intros; try discriminate; split; intros; auto; discriminate.
  - intros [N H]. destruct (start_call a) as [e| |] eqn:E; [destruct (N e eq_refl) | reflexivity|]. exfalso.
    revert E. unfold start_call.
    destruct (ifcharge a && _); [discriminate|]. destruct (ifdipole a && match dipstr a with None => true | _ => false end); [discriminate|].
    destruct (ifdipole a && match dipvec a with None => true | _ => false end); [discriminate|].
    destruct (ifdipole a && ifgrad a) eqn:G; [discriminate|].
    destruct H as [->|[H1 H2]].
    + destruct (negb _); discriminate.
    + assert (F : any_flag (make_flags a) = false).
      { unfold any_flag, make_flags. destruct (Ceq_dec _ _); cbn; destruct (ifpot a);
          try (destruct (H1 eq_refl) as [-> ->]); destruct (ifgrad a); try (rewrite (H2 eq_refl)); cbn; reflexivity. }
      rewrite F. discriminate.
Qed.
Print Assumptions driver_idle.

(** Every distribution of the iterations over threads has schedules that finish. *)
Theorem driver_terminates : forall junk cjunk jfuns a st, length (todo st) = length (rows st) ->
  exists schedule, finished (run junk cjunk jfuns a st schedule).
Proof.
  intros junk cjunk jfuns a.
  assert (Go : forall n st, length (todo st) = length (rows st) -> (length (concat (todo st)) <= n)%nat ->
     exists schedule, finished (run junk cjunk jfuns a st schedule)).
  { induction n as [|n IH]; intros st L Hn.
    - exists []. unfold finished, run. cbn [fold_left]. apply Forall_forall. intros os Hos.
      destruct os as [|o os]; [reflexivity|]. exfalso.
      assert (In o (concat (todo st))) by (apply in_concat; exists (o :: os); split; [exact Hos | now left]).
      destruct (concat (todo st)); [destruct H | simpl in Hn; lia].
    - assert (Dec : forall os : list op, {os = []} + {os <> []}) by (intros [|? ?]; [left; reflexivity | right; discriminate]).
      destruct (Forall_Exists_dec (fun os : list op => os = []) Dec (todo st)) as [F|E].
      + exists []. exact F.
      + apply Exists_exists in E. destruct E as (os & Hin & Hne). destruct os as [|o os]; [contradiction|].
        destruct (In_nth_error _ _ Hin) as (tid & Ht).
        assert (Lt : (tid < length (todo st))%nat) by (apply nth_error_Some; congruence).
        destruct (nth_error (rows st) tid) as [r|] eqn:Er; [|apply nth_error_None in Er; lia].
        destruct (IH (step junk cjunk jfuns a st tid)) as (sch & Hs).
        * unfold step. rewrite Ht, Er. cbn [todo rows]. now rewrite !upd_length.
        * unfold step. rewrite Ht, Er. cbn [todo].
          assert (G : forall l i, nth_error l i = Some (o :: os) -> S (length (concat (upd l i os))) = length (concat l)).
          { induction l as [|x l IHl]; intros [|i] Hi; cbn in Hi; try discriminate.
            - injection Hi as ->. cbn. reflexivity.
            - cbn. rewrite !app_length. rewrite <- (IHl i Hi). lia. }
          specialize (G _ _ Ht). lia.
        * exists (tid :: sch). exact Hs. }
  intros st L. now apply (Go (length (concat (todo st)))).
Qed.
Print Assumptions driver_terminates.

Lemma serves_dec a t : (exists ctr, serves a ctr t) \/ (forall ctr, ~ serves a ctr t).
Proof.
  destruct (Exists_dec (fun ctr => In t (targets_of a ctr)) (qbx_centers a)) as [E|N].
  - intros ctr. apply (in_dec Nat.eq_dec).
  - left. apply Exists_exists in E. destruct E as (c & A & B). exists c. now split.
  - right. intros c [A B]. apply N. apply Exists_exists. now exists c.
Qed.
(** The outputs do not depend on the number of threads, on the distribution of the iterations,
    on the schedule, or on what the thread-local buffers contained. *)
Theorem driver_deterministic : forall junk cjunk jfuns a out0 out1 out2, one_center a -> indices_ok a ->
  outcome junk cjunk jfuns a out0 out1 -> outcome junk cjunk jfuns a out0 out2 -> out1 = out2.
Proof.
  intros junk cjunk jfuns a out0 out1 out2 H1 H2 [R|ow rs sch L O F] [R'|ow' rs' sch' L' O' F']; try congruence.
  destruct (driver_sched _ _ _ _ _ out0 sch H1 H2 O F) as [La A]. destruct (driver_sched _ _ _ _ _ out0 sch' H1 H2 O' F') as [Lb B].
  apply nth_ext with (d := zc) (d' := zc); [congruence|].
  intros t Ht. rewrite La in Ht. destruct (A t Ht) as [A1 A2]. destruct (B t Ht) as [B1 B2].
  destruct (serves_dec a t) as [[c S]|N]; [rewrite (A1 _ S), (B1 _ S) | rewrite (A2 N), (B2 N)]; reflexivity.
Qed.
Print Assumptions driver_deterministic.

(** What the outputs must be, for the expanded kernel [K center source target]. *)
Definition correct_output (a : args) (K : tri R -> tri R -> tri R -> C) (out0 out : list cell) : Prop :=
  length out = length out0 /\
  forall t d, (t < length out0)%nat ->
    (forall ctr, serves a ctr t ->
       fst (nth t out d) = (if ifpot a then Fin (potential a (K (pt_at (centers a) ctr)) ctr t) else fst (nth t out0 d)) /\
       snd (nth t out d) = (if ifgrad a then Fin (gradient a (K (pt_at (centers a) ctr)) ctr t) else snd (nth t out0 d))) /\
    ((forall ctr, ~ serves a ctr t) -> nth t out d = nth t out0 d).
(** Targets and nearby sources are off the centers. *)
Definition off_center (a : args) : Prop :=
  forall ctr, In ctr (qbx_centers a) ->
    (forall t, In t (targets_of a ctr) -> pt_at (targets a) t <> pt_at (centers a) ctr) /\
    (forall s, In s (sources_near a ctr) -> pt_at (sources a) s <> pt_at (centers a) ctr).

Lemma near_is a ctr : indices_ok a -> In ctr (qbx_centers a) -> near_sources a ctr = sources_near a ctr.
Proof.
  intros Hi Hc. unfold near_sources, sources_near. rewrite csr_is by apply (Hi ctr Hc). apply flat_map_concat_map.
Qed.
Lemma correct_from junk cjunk jfuns a K out0 out : one_center a -> indices_ok a -> start_call a = Loop ->
  (forall ctr t, serves a ctr t ->
     exists j, ts_helmholtz_precompute jfuns (pt_at (centers a) ctr) (pt_at (targets a) t) (order a) (ifgrad a) (helmholtz_k a) = j /\
       forall src, In src (near_sources a ctr) -> adds junk cjunk jfuns a K (pt_at (centers a) ctr) (pt_at (targets a) t) src j) ->
  outcome junk cjunk jfuns a out0 out -> correct_output a K out0 out.
Proof.
  intros H1 H2 HL Hadd [R|ow rs sch L O F]; [congruence|].
  destruct (driver_sched _ _ _ _ _ out0 sch H1 H2 O F) as [La A]. split; [exact La|].
  intros t d Ht. destruct (A t Ht) as [A1 A2].
  rewrite !(nth_indep out0 d zc) by exact Ht. rewrite !(nth_indep _ d zc) by (rewrite La; exact Ht). split; [|exact A2].
  intros ctr S. rewrite (A1 _ S). destruct (Hadd ctr t S) as (j & Hj & Ha).
  pose proof (value_ok ctr t Hj Ha) as V. rewrite V. rewrite (near_is a ctr H2 (proj1 S)).
  unfold apply. cbn [fst snd]. split; [destruct (ifpot a) | destruct (ifgrad a)]; reflexivity.
Qed.
Lemma loop_dg a : start_call a = Loop -> ifdipole a && ifgrad a = false.
Proof.
  unfold start_call. destruct (ifcharge a && _); [discriminate|]. destruct (ifdipole a && match dipstr a with None => true | _ => false end); [discriminate|].
  destruct (ifdipole a && match dipvec a with None => true | _ => false end); [discriminate|].
  destruct (ifdipole a && ifgrad a); [discriminate|reflexivity].
Qed.

(** Laplace: every finished run leaves, at every target served by a center, the sum over the
    nearby sources of the expanded potentials (and its gradient), and nothing else changes. *)
Theorem driver_laplace : forall junk cjunk jfuns a out0 out,
  start_call a = Loop -> helmholtz_k a = RtoC 0 -> (order a < BUFSIZE)%nat ->
  one_center a -> indices_ok a -> off_center a ->
  outcome junk cjunk jfuns a out0 out ->
  correct_output a (fun c s t => RtoC (laplace_qbx (order a) c s t)) out0 out.
Proof.
  intros junk cjunk jfuns a out0 out HL Hk Hp H1 H2 Hoff. apply correct_from; auto.
  intros ctr t S. eexists. split; [reflexivity|]. intros src Hs.
  rewrite (near_is a ctr H2 (proj1 S)) in Hs. destruct (Hoff ctr (proj1 S)) as [O1 O2].
  apply laplace_adds; auto using loop_dg. apply O1, S.
Qed.
Print Assumptions driver_laplace.
(** Helmholtz, with a correct [jfuns3d_] that reports no error. *)
Theorem driver_helmholtz : forall junk cjunk jfuns a out0 out j h,
  start_call a = Loop -> helmholtz_k a <> RtoC 0 -> (order a < BUFSIZE)%nat ->
  sph_bessel (helmholtz_k a) j -> sph_hankel (helmholtz_k a) h ->
  jfuns_contract (helmholtz_k a) j jfuns -> (forall n z sc d, jfuns n z sc d <> None) ->
  one_center a -> indices_ok a -> off_center a ->
  (forall ctr s, In ctr (qbx_centers a) -> In s (sources_near a ctr) ->
     1 / 1000000000000000 <= Cmod (helmholtz_k a * RtoC (eucl (pt_at (sources a) s) (pt_at (centers a) ctr)))%C) ->
  outcome junk cjunk jfuns a out0 out ->
  correct_output a (fun c s t => helmholtz_qbx (helmholtz_k a) j h (order a) c s t) out0 out.
Proof.
  intros junk cjunk jfuns a out0 out j h HL Hk Hp Hj Hh Hc Hn H1 H2 Hoff Hab. apply correct_from; auto.
  intros ctr t S.
  assert (E : exists jv, ts_helmholtz_precompute jfuns (pt_at (centers a) ctr) (pt_at (targets a) t) (order a) (ifgrad a) (helmholtz_k a) = Fin jv).
  { unfold ts_helmholtz_precompute. destruct (jfuns _ _ _ _) as [[u v]|] eqn:E; [eexists; reflexivity | destruct (Hn _ _ _ _ E)]. }
  destruct E as [jv E]. exists (Fin jv). split; [exact E|]. intros src Hs.
  rewrite (near_is a ctr H2 (proj1 S)) in Hs. destruct (Hoff ctr (proj1 S)) as [O1 O2].
  apply helmholtz_adds; auto using loop_dg; [apply O1, S|]. apply Hab; [apply S | exact Hs].
Qed.
Print Assumptions driver_helmholtz.

(** A call that satisfies the hypotheses: two centers, three targets, two sources. *)
Definition example_args (k : C) : args :=
  Args true true true false 5
    [T3 3 0 0; T3 0 4 0] [T3 (1/2) 0 0; T3 0 0 (1/2); T3 0 2 0] [T3 0 0 0; T3 0 0 1]
    [0; 1]%nat [1; 1]%nat [0; 2; 3]%nat [0; 1; 2]%nat [0; 0; 1]%nat [0]%nat [0]%nat [2]%nat
    k (Some [RtoC 2; RtoC 5]) None None.
Example driver_hypotheses : forall k,
  start_call (example_args k) = Loop /\ one_center (example_args k) /\ indices_ok (example_args k) /\
  off_center (example_args k) /\ serves (example_args k) 0 1 /\ serves (example_args k) 1 2 /\
  sources_near (example_args k) 1 = [0; 1]%nat.
Proof.
  intros k. assert (T : targets_of (example_args k) 0 = [0; 1]%nat /\ targets_of (example_args k) 1 = [2]%nat) by (split; reflexivity).
  destruct T as [T0 T1].
  assert (N : sources_near (example_args k) 0 = [0; 1]%nat /\ sources_near (example_args k) 1 = [0; 1]%nat) by (split; reflexivity).
  destruct N as [N0 N1]. split.
  { unfold start_call. cbn [ifcharge ifdipole ifgrad charge example_args andb]. unfold make_flags.
    cbn [helmholtz_k example_args ifpot ifgrad ifcharge ifdipole andb]. destruct (Ceq_dec k (RtoC 0)); reflexivity. }
  split.
  { intros c c' t [[<-|[<-|[]]] A] [[<-|[<-|[]]] B]; try reflexivity; rewrite ?T0, ?T1 in A, B;
      cbn in A, B; intuition congruence. }
  split.
  { intros ctr [<-|[<-|[]]]; (split; [cbn; lia|]; split; [cbn; lia|]; split; [cbn; lia|]; split; [cbn; lia|];
      split; [cbn; lia|]; rewrite ?T0, ?T1, ?N0, ?N1; split; intros x Hx; cbn in Hx |- *; intuition lia). }
  split.
  { intros ctr [<-|[<-|[]]]; rewrite ?T0, ?T1, ?N0, ?N1; split; intros x Hx; cbn in Hx;
      repeat (destruct Hx as [<-|Hx]; [intros E; injection E; intros; lra|]); destruct Hx. }
  split; [split; [now left | rewrite T0; right; now left]|].
  split; [split; [right; now left | rewrite T1; now left]|]. exact N1.
Qed.

(** ** C92: inputs that the module does not reject and does not handle *)

(** Orders beyond the size of the stack buffers (the code has a TODO for it): out-of-bounds
    writes. *)
Theorem tsqbx_any_order_refuted : forall junk s c t p, s <> c -> t <> c -> (BUFSIZE <= p)%nat ->
  (forall grad charge, ts_laplace_sp junk grad s c t charge p = Fault) /\
  (forall dipole dipstr, ts_laplace_d junk s c t dipole dipstr p = Fault) /\
  (forall cjunk charge k js jscale, ts_helmholtz_s junk cjunk s c t charge p k js jscale = Fault).
Proof.
  intros junk s c t p Hs Ht Hp.
  pose proof (dist_pos s c Hs) as Ps. pose proof (dist_pos t c Ht) as Pt.
  assert (D : forall u, fdiv u (dist t c * dist s c) = Fin (u / (dist t c * dist s c))).
  { intros u. unfold fdiv. destruct (Req_EM_T _ 0) as [E|_]; [nra | reflexivity]. }
  assert (LB : forall x, legendre_buffers junk x p = Fault).
  { intros x. unfold legendre_buffers. rewrite legvals_fault; [reflexivity| | |].
    - rewrite rbuf_length. exact Hp.
    - rewrite rbuf_length. unfold BUFSIZE. lia.
    - right. exists (rbuf junk). split; reflexivity. }
  split; [|split].
  - intros grad charge. unfold ts_laplace_sp. rewrite D. cbn [fbind]. rewrite LB. reflexivity.
  - intros dipole dipstr. unfold ts_laplace_d. rewrite D. cbn [fbind]. rewrite LB. reflexivity.
  - intros cjunk charge k js jscale. unfold ts_helmholtz_s. rewrite D. cbn [fbind].
    rewrite legvals_fault; [reflexivity| | |now left]; rewrite rbuf_length; [exact Hp | unfold BUFSIZE; lia].
Qed.
Print Assumptions tsqbx_any_order_refuted.

(** A target at the expansion center: the expansion is the kernel's value at the center, but
    the code divides by the distance. *)
Theorem tsqbx_target_at_center_refuted : forall s c, s <> c ->
  (forall p, laplace_qbx p c s c = laplace_kernel s c) /\
  (forall charge p, (1 <= p)%nat -> ts_laplace_s s c c charge p = NotFinite) /\
  (forall charge, ts_laplace_s s c c charge 0 = Fin (charge * RtoC (laplace_kernel s c))%C) /\
  (forall junk grad charge p, ts_laplace_sp junk grad s c c charge p = NotFinite) /\
  (forall junk dipole dipstr p, ts_laplace_d junk s c c dipole dipstr p = NotFinite).
Proof.
  intros s c Hs. pose proof (dist_pos s c Hs) as Ps.
  assert (D : forall u, fdiv u (dist c c * dist s c) = NotFinite).
  { intros u. unfold fdiv. rewrite dist_refl. destruct (Req_EM_T _ 0) as [_|N]; [reflexivity|]. destruct N. ring. }
  split; [|split; [|split; [|split]]].
  - intros p. unfold laplace_qbx, qbx_expansion.
    assert (E : forall tau, on_segment c c tau = c).
    { intros tau. apply tri_ext; unfold on_segment; rewrite co_tab by lia; ring. }
    rewrite (sum_n_ext _ (fun n => match n with O => laplace_kernel s c | S _ => 0 end)).
    + induction p as [|p IH]; [now rewrite sum_O|]. rewrite sum_Sn, IH. apply Rplus_0_r.
    + intros n. rewrite (Derive_n_ext _ (fun _ => laplace_kernel s c)) by (intros; now rewrite E).
      destruct n as [|n]; [cbn; field | rewrite Derive_n_const; apply Rmult_0_l].
  - intros charge p Hp. unfold ts_laplace_s. destruct (Nat.eqb_spec p 0); [lia|]. rewrite D. reflexivity.
  - intros charge. unfold ts_laplace_s. cbn [Nat.eqb]. unfold fdiv. destruct (Req_EM_T (dist s c) 0) as [E|_]; [lra|].
    cbn [fbind]. unfold laplace_kernel. rewrite <- dist_eucl. do 3 f_equal. field. lra.
  - intros junk grad charge p. unfold ts_laplace_sp. rewrite D. reflexivity.
  - intros junk dipole dipstr p. unfold ts_laplace_d. rewrite D. reflexivity.
Qed.
Print Assumptions tsqbx_target_at_center_refuted.

(** |k| |s - c| below the threshold of [h3dall_]: it zeroes the derivatives too, through the NULL
    pointer that [ts_helmholtz_s] passes. *)
Theorem tsqbx_tiny_wavenumber_refuted : forall junk cjunk s c t k charge p js jscale, s <> c -> t <> c ->
  Cmod (k * RtoC (eucl s c))%C < 1 / 1000000000000000 ->
  ts_helmholtz_s junk cjunk s c t charge p k js jscale = Fault /\
  forall grad jd, ts_helmholtz_sp junk cjunk grad s c t charge p k js jd jscale = Fault.
Proof.
  intros junk cjunk s c t k charge p js jscale Hs Ht Hk.
  destruct (Nat.lt_ge_cases p BUFSIZE) as [Hp|Hp].
  - pose proof (dist_pos s c Hs) as Ps. pose proof (dist_pos t c Ht) as Pt.
    assert (D : forall u, fdiv u (dist t c * dist s c) = Fin (u / (dist t c * dist s c))).
    { intros u. unfold fdiv. destruct (Req_EM_T _ 0) as [E|_]; [nra | reflexivity]. }
    assert (Z : forall sc, h3dall p (k * RtoC (dist s c))%C sc (cbuf cjunk) false None = Fault).
    { intros sc. unfold h3dall. rewrite dist_eucl. destruct (Rlt_dec _ _) as [_|N]; [|contradiction].
      rewrite Nat.add_1_r. cbn [h_zero]. rewrite wr_ok by (rewrite cbuf_length; unfold BUFSIZE; lia). reflexivity. }
    split.
    + unfold ts_helmholtz_s. rewrite D. cbn [fbind].
      destruct (legvals_ok ((((co0 t - co0 c) * (co0 s - co0 c) + (co1 t - co1 c) * (co1 s - co1 c) + (co2 t - co2 c) * (co2 s - co2 c)) / (dist t c * dist s c))) p (rbuf junk) None)
        as (v & d & E & _); [rewrite rbuf_length; exact Hp | exact I|].
      rewrite E. cbn [fbind]. rewrite Z. reflexivity.
    + intros grad jd. unfold ts_helmholtz_sp. rewrite D. cbn [fbind].
      edestruct legendre_buffers_ok as (lv & ld & E & _); [exact Hp|]. rewrite E. cbn [fbind]. rewrite Z. reflexivity.
  - split; [now apply tsqbx_any_order_refuted|]. intros grad jd.
    pose proof (dist_pos s c Hs) as Ps. pose proof (dist_pos t c Ht) as Pt.
    unfold ts_helmholtz_sp, fdiv at 1. destruct (Req_EM_T _ 0) as [E|_]; [nra|]. cbn [fbind].
    unfold legendre_buffers. rewrite legvals_fault; [reflexivity| | |].
    + rewrite rbuf_length. exact Hp.
    + rewrite rbuf_length. unfold BUFSIZE. lia.
    + right. exists (rbuf junk). split; reflexivity.
Qed.
Print Assumptions tsqbx_tiny_wavenumber_refuted.

(** Exactly which inputs are handled: where the Laplace values are finite numbers ... *)
Theorem tsqbx_laplace_handled_iff_partial : forall junk s c t p,
  (forall charge, (exists v, ts_laplace_s s c t charge p = Fin v) <-> s <> c /\ (t <> c \/ p = 0%nat)) /\
  (forall grad charge, (exists v, ts_laplace_sp junk grad s c t charge p = Fin v) <-> s <> c /\ t <> c /\ (p < BUFSIZE)%nat) /\
  (forall dipole dipstr, (exists v, ts_laplace_d junk s c t dipole dipstr p = Fin v) <-> s <> c /\ t <> c /\ (p < BUFSIZE)%nat).
Proof.
  intros junk s c t p.
  assert (Dec : forall a b : tri R, a = b \/ a <> b).
  { intros [a0 a1 a2] [b0 b1 b2]. destruct (Req_dec a0 b0), (Req_dec a1 b1), (Req_dec a2 b2); subst; try (left; reflexivity); right; congruence. }
  assert (NF : s = c \/ t = c -> forall u, fdiv u (dist t c * dist s c) = NotFinite).
  { intros H u. unfold fdiv. assert (E : dist t c * dist s c = 0) by (destruct H as [-> | ->]; rewrite dist_refl; ring).
    rewrite E. destruct (Req_EM_T 0 0) as [_|N]; [reflexivity|]. now destruct N. }
  assert (SEP : s <> c /\ t <> c \/ (s = c \/ t = c)) by (destruct (Dec s c), (Dec t c); auto).
  split; [|split].
  - intros charge. destruct (Dec s c) as [->|Hs].
    + split; [|tauto]. intros [v H]. exfalso. revert H. unfold ts_laplace_s. destruct (p =? 0)%nat.
      * unfold fdiv. rewrite dist_refl. destruct (Req_EM_T 0 0) as [_|N]; [discriminate|now destruct N].
      * rewrite NF by auto. discriminate.
    + destruct (Dec t c) as [->|Ht].
      * destruct (tsqbx_target_at_center_refuted s c Hs) as (_ & A & B & _). destruct p as [|p].
        { split; [auto|]. intros _. eexists. apply B. }
        { split; [|intros [_ [X|X]]; [now destruct X|discriminate]]. intros [v H]. rewrite A in H by lia. discriminate. }
      * split; [auto|]. intros _. eexists. now apply ts_laplace_s_expansion.
  - intros grad charge. destruct SEP as [[Hs Ht]|H].
    + destruct (Nat.lt_ge_cases p BUFSIZE) as [Hp|Hp].
      * split; [auto|]. intros _. destruct (ts_laplace_sp_gradient s c t Hs Ht) as (d & _ & A & _). destruct (A junk grad charge p Hp) as (g & E & _). eauto.
      * split; [|lia]. intros [v H]. destruct (tsqbx_any_order_refuted junk s c t p Hs Ht Hp) as (A & _). rewrite A in H. discriminate.
    + split; [|intuition]. intros [v E]. exfalso. revert E. unfold ts_laplace_sp. rewrite NF by exact H. discriminate.
  - intros dipole dipstr. destruct SEP as [[Hs Ht]|H].
    + destruct (Nat.lt_ge_cases p BUFSIZE) as [Hp|Hp].
      * split; [auto|]. intros _. destruct (ts_laplace_d_gradient s c t Hs Ht) as (d & _ & A & _). eexists. now apply A.
      * split; [|lia]. intros [v H]. destruct (tsqbx_any_order_refuted junk s c t p Hs Ht Hp) as (_ & A & _). rewrite A in H. discriminate.
    + split; [|intuition]. intros [v E]. exfalso. revert E. unfold ts_laplace_d. rewrite NF by exact H. discriminate.
Qed.
Print Assumptions tsqbx_laplace_handled_iff_partial.

(** ... and where the Helmholtz values are, given at least [p + 1] values of the Bessel
    functions. *)
Theorem tsqbx_helmholtz_handled_iff_partial : forall junk cjunk s c t k charge p js jscale,
  k <> RtoC 0 -> (p < length js)%nat ->
  (exists v, ts_helmholtz_s junk cjunk s c t charge p k js jscale = Fin v)
  <-> s <> c /\ t <> c /\ (p < BUFSIZE)%nat /\ 1 / 1000000000000000 <= Cmod (k * RtoC (eucl s c))%C.
Proof.
  intros junk cjunk s c t k charge p js jscale Hk Hj.
  assert (Dec : forall a b : tri R, a = b \/ a <> b).
  { intros [a0 a1 a2] [b0 b1 b2]. destruct (Req_dec a0 b0), (Req_dec a1 b1), (Req_dec a2 b2); subst; try (left; reflexivity); right; congruence. }
  assert (NF : s = c \/ t = c -> forall u, fdiv u (dist t c * dist s c) = NotFinite).
  { intros H u. unfold fdiv. assert (E : dist t c * dist s c = 0) by (destruct H as [-> | ->]; rewrite dist_refl; ring).
    rewrite E. destruct (Req_EM_T 0 0) as [_|N]; [reflexivity|]. now destruct N. }
  assert (SEP : s <> c /\ t <> c \/ (s = c \/ t = c)) by (destruct (Dec s c), (Dec t c); auto).
  destruct SEP as [[Hs Ht]|H].
  2:{ split; [|intuition]. intros [v E]. exfalso. revert E. unfold ts_helmholtz_s. rewrite NF by exact H. discriminate. }
  destruct (Nat.lt_ge_cases p BUFSIZE) as [Hp|Hp].
  2:{ split; [|lia]. intros [v H]. destruct (tsqbx_any_order_refuted junk s c t p Hs Ht Hp) as (_ & _ & A). rewrite A in H. discriminate. }
  destruct (Rlt_le_dec (Cmod (k * RtoC (eucl s c))%C) (1 / 1000000000000000)) as [Hab|Hab].
  { split; [|intros (_ & _ & _ & X); lra]. intros [v H].
    destruct (tsqbx_tiny_wavenumber_refuted junk cjunk s c t k charge p js jscale Hs Ht Hab) as [A _]. rewrite A in H. discriminate. }
  split; [auto|]. intros _.
  pose proof (dist_pos s c Hs) as Ps. pose proof (dist_pos t c Ht) as Pt.
  assert (D : forall u, fdiv u (dist t c * dist s c) = Fin (u / (dist t c * dist s c))).
  { intros u. unfold fdiv. destruct (Req_EM_T _ 0) as [E|_]; [nra | reflexivity]. }
  unfold ts_helmholtz_s. rewrite D. cbn [fbind].
  set (x := _ / (dist t c * dist s c)).
  destruct (legvals_ok x p (rbuf junk) None) as (v & d & E & A & _); [rewrite rbuf_length; exact Hp | exact I|].
  rewrite E. cbn [fbind fst].
  set (hs := if Rlt_dec _ 1 then _ else 1).
  assert (Hhs : 0 < hs).
  { unfold hs. destruct (Rlt_dec _ 1) as [L|L]; [|lra]. rewrite dist_eucl. lra. }
  destruct (h3dall_ok k (the_hankel k) Hk (hankel_exists k Hk) p (dist s c) hs (cbuf cjunk) false None) as (h & d' & Eh & Ah & _).
  { exact Ps. } { rewrite dist_eucl. exact Hab. } { exact Hhs. } { rewrite cbuf_length. exact Hp. } { rewrite cbuf_length. unfold BUFSIZE. lia. } { discriminate. }
  rewrite Eh. cbn [fbind fst]. unfold fdiv at 1. destruct (Req_EM_T hs 0) as [Z|_]; [lra|]. cbn [fbind].
  assert (LOOP : forall fuel n u r, (n + fuel <= S p)%nat -> exists w, hs_loop (jscale / hs) js h v fuel n u r = Fin w).
  { induction fuel as [|fuel IH]; intros n u r Hn; cbn [hs_loop]; [eauto|].
    assert (exists y, nth_error js n = Some y) as [y Ey] by (destruct (nth_error js n) eqn:Q; [eauto|apply nth_error_None in Q; lia]).
    rewrite (rd_ok _ _ _ _ Ey). cbn [fbind].
    rewrite (rd_ok _ h n _ (Ah n ltac:(lia))). cbn [fbind]. rewrite (rd_ok _ v n _ (A n ltac:(lia))). cbn [fbind]. apply IH. lia. }
  destruct (LOOP (p + 1)%nat 0%nat 1 (RtoC 0)) as [w Ew]; [lia|]. rewrite Ew. cbn [fbind]. eauto.
Qed.
Print Assumptions tsqbx_helmholtz_handled_iff_partial.
Example tsqbx_handled_example : forall junk, exists v, ts_laplace_sp junk (T3 (RtoC 0) (RtoC 0) (RtoC 0)) (T3 2 0 0) (T3 0 0 0) (T3 0 1 0) (RtoC 1) 63 = Fin v.
Proof.
  intros junk. apply tsqbx_laplace_handled_iff_partial. split; [|split]; [intros E; injection E; lra | intros E; injection E; lra | unfold BUFSIZE; lia].
Qed.
