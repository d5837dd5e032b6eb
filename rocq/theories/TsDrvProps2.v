(** C92: which inputs the Helmholtz routines with derivatives handle. *)
From Coq Require Import Reals List Lia Lra.
From Coquelicot Require Import Coquelicot.
From Verif Require Import Base TsModel TsLeg TsSpec TsProofs TsProofs2 TsProofs3 TsProofs5 TsProofs6 TsDrvModel TsDrvSpec TsDrvProofs TsDrvProofs2 TsProps TsDrvProps.
Import ListNotations.
Open Scope R_scope.

Lemma tri_dec (a b : tri R) : a = b \/ a <> b.
Proof.
  destruct a as [a0 a1 a2], b as [b0 b1 b2]. destruct (Req_dec a0 b0), (Req_dec a1 b1), (Req_dec a2 b2); subst; try (left; reflexivity); right; congruence.
Qed.
Lemma cos_not_finite s c t : s = c \/ t = c -> forall u, fdiv u (dist t c * dist s c) = NotFinite.
Proof.
  intros H u. unfold fdiv. assert (E : dist t c * dist s c = 0) by (destruct H as [-> | ->]; rewrite dist_refl; ring).
  rewrite E. destruct (Req_EM_T 0 0) as [_|N]; [reflexivity|]. now destruct N.
Qed.
Lemma cos_finite s c t : s <> c -> t <> c -> forall u, fdiv u (dist t c * dist s c) = Fin (u / (dist t c * dist s c)).
Proof.
  intros Hs Ht u. pose proof (dist_pos s c Hs) as Ps. pose proof (dist_pos t c Ht) as Pt.
  unfold fdiv. destruct (Req_EM_T _ 0) as [E|_]; [nra | reflexivity].
Qed.
Lemma entry (A : Type) (l : list A) n : (n < length l)%nat -> exists v, nth_error l n = Some v.
Proof. intros H. destruct (nth_error l n) eqn:E; [eauto|]. apply nth_error_None in E. lia. Qed.

Lemma hsp_loop_total q ca sc tc k smc tmc js jd hs lv ld p : (p < length js)%nat -> (p < length jd)%nat ->
  (forall n, (n <= p)%nat -> exists v, nth_error hs n = Some v) ->
  (forall n, (n <= p)%nat -> exists v, nth_error lv n = Some v) ->
  (forall n, (n <= p)%nat -> exists v, nth_error ld n = Some v) ->
  forall fuel n u g, (n + fuel <= S p)%nat -> exists w, hsp_loop q ca sc tc k smc tmc js jd hs lv ld fuel n u g = Fin w.
Proof.
  intros H1 H2 H3 H4 H5. induction fuel as [|fuel IH]; intros n u g Hn; cbn [hsp_loop]; [eauto|].
  destruct (entry _ js n ltac:(lia)) as [y1 E1]. destruct (entry _ jd n ltac:(lia)) as [y2 E2].
  destruct (H3 n ltac:(lia)) as [y3 E3]. destruct (H4 n ltac:(lia)) as [y4 E4]. destruct (H5 n ltac:(lia)) as [y5 E5].
  rewrite (rd_ok _ _ _ _ E1). cbn [fbind]. rewrite (rd_ok _ _ _ _ E2). cbn [fbind]. rewrite (rd_ok _ _ _ _ E3). cbn [fbind].
  rewrite (rd_ok _ _ _ _ E4). cbn [fbind]. rewrite (rd_ok _ _ _ _ E5). cbn [fbind]. apply IH. lia.
Qed.
Lemma hd_loop_total q ca sc tc k smc tmc js hs hd lv ld p : (p < length js)%nat ->
  (forall n, (n <= p)%nat -> exists v, nth_error hs n = Some v) ->
  (forall n, (n <= p)%nat -> exists v, nth_error hd n = Some v) ->
  (forall n, (n <= p)%nat -> exists v, nth_error lv n = Some v) ->
  (forall n, (n <= p)%nat -> exists v, nth_error ld n = Some v) ->
  forall fuel n u g, (n + fuel <= S p)%nat -> exists w, hd_loop q ca sc tc k smc tmc js hs hd lv ld fuel n u g = Fin w.
Proof.
  intros H1 H2 H3 H4 H5. induction fuel as [|fuel IH]; intros n u g Hn; cbn [hd_loop]; [eauto|].
  destruct (entry _ js n ltac:(lia)) as [y1 E1]. destruct (H2 n ltac:(lia)) as [y2 E2].
  destruct (H3 n ltac:(lia)) as [y3 E3]. destruct (H4 n ltac:(lia)) as [y4 E4]. destruct (H5 n ltac:(lia)) as [y5 E5].
  rewrite (rd_ok _ _ _ _ E1). cbn [fbind]. rewrite (rd_ok _ _ _ _ E2). cbn [fbind]. rewrite (rd_ok _ _ _ _ E3). cbn [fbind].
  rewrite (rd_ok _ _ _ _ E4). cbn [fbind]. rewrite (rd_ok _ _ _ _ E5). cbn [fbind]. apply IH. lia.
Qed.
(** With zero Hankel functions the sum stays zero. *)
Lemma hd_loop_zero q ca sc tc k smc tmc js hs hd lv ld p : (p < length js)%nat ->
  (forall n, (n <= p)%nat -> nth_error hs n = Some (RtoC 0)) ->
  (forall n, (n <= p)%nat -> nth_error hd n = Some (RtoC 0)) ->
  (forall n, (n <= p)%nat -> exists v, nth_error lv n = Some v) ->
  (forall n, (n <= p)%nat -> exists v, nth_error ld n = Some v) ->
  forall fuel n u, (n + fuel <= S p)%nat ->
  hd_loop q ca sc tc k smc tmc js hs hd lv ld fuel n u (tab (fun _ => RtoC 0)) = Fin (tab (fun _ => RtoC 0)).
Proof.
  intros H1 H2 H3 H4 H5. induction fuel as [|fuel IH]; intros n u Hn; cbn [hd_loop]; [reflexivity|].
  destruct (entry _ js n ltac:(lia)) as [y1 E1].
  destruct (H4 n ltac:(lia)) as [y4 E4]. destruct (H5 n ltac:(lia)) as [y5 E5].
  rewrite (rd_ok _ _ _ _ E1). cbn [fbind]. rewrite (rd_ok _ _ _ _ (H2 n ltac:(lia))). cbn [fbind]. rewrite (rd_ok _ _ _ _ (H3 n ltac:(lia))). cbn [fbind].
  rewrite (rd_ok _ _ _ _ E4). cbn [fbind]. rewrite (rd_ok _ _ _ _ E5). cbn [fbind].
  match goal with |- hd_loop _ _ _ _ _ _ _ _ _ _ _ _ _ _ _ ?g = _ => replace g with (tab (fun _ : nat => RtoC 0)) end.
  - apply IH. lia.
  - apply tri_ext; rewrite !co_tab by lia; ring.
Qed.
Lemma h_zero_ok : forall fuel i a b, (i + fuel <= length a)%nat -> (i + fuel <= length b)%nat ->
  (forall n, (n < i)%nat -> nth_error a n = Some (RtoC 0) /\ nth_error b n = Some (RtoC 0)) ->
  exists a' b', h_zero fuel i a (Some b) = Fin (a', Some b') /\
    forall n, (n < i + fuel)%nat -> nth_error a' n = Some (RtoC 0) /\ nth_error b' n = Some (RtoC 0).
Proof.
  induction fuel as [|fuel IH]; intros i a b Ha Hb Hz.
  - exists a, b. split; [reflexivity|]. intros n Hn. apply Hz. lia.
  - cbn [h_zero]. rewrite wr_ok by lia. cbn [fbind wr_ptr]. rewrite wr_ok by lia. cbn [fbind].
    destruct (IH (S i) (upd a i (RtoC 0)) (upd b i (RtoC 0))) as (a' & b' & E & Z).
    + rewrite upd_length. lia.
    + rewrite upd_length. lia.
    + intros n Hn. destruct (Nat.eq_dec n i) as [->|N].
      * rewrite !upd_same by lia. auto.
      * rewrite !upd_other by lia. apply Hz. lia.
    + exists a', b'. split; [exact E|]. intros n Hn. apply Z. lia.
Qed.

(** The potential, for every wave number. *)
Theorem tsqbx_helmholtz_potential_handled_iff : forall junk cjunk s c t k charge p js jscale, (p < length js)%nat ->
  (exists v, ts_helmholtz_s junk cjunk s c t charge p k js jscale = Fin v)
  <-> s <> c /\ t <> c /\ (p < BUFSIZE)%nat /\ 1 / 1000000000000000 <= Cmod (k * RtoC (eucl s c))%C.
Proof.
  intros junk cjunk s c t k charge p js jscale Hj.
  destruct (Ceq_dec k (RtoC 0)) as [->|Hk]; [|apply tsqbx_helmholtz_handled_iff_partial; assumption].
  assert (Z : Cmod (RtoC 0 * RtoC (eucl s c))%C = 0) by (replace (RtoC 0 * RtoC (eucl s c))%C with (RtoC 0) by ring; apply Cmod_0).
  split; [|intros (_ & _ & _ & X); lra]. intros [v E]. exfalso.
  destruct (tri_dec s c) as [Hs|Hs].
  { revert E. unfold ts_helmholtz_s. rewrite cos_not_finite by auto. discriminate. }
  destruct (tri_dec t c) as [Ht|Ht].
  { revert E. unfold ts_helmholtz_s. rewrite cos_not_finite by auto. discriminate. }
  destruct (tsqbx_tiny_wavenumber_refuted junk cjunk s c t (RtoC 0) charge p js jscale Hs Ht) as [A _]; [lra|]. congruence.
Qed.
Print Assumptions tsqbx_helmholtz_potential_handled_iff.

(** The gradient: exactly like the potential. *)
Theorem tsqbx_helmholtz_gradient_handled_iff : forall junk cjunk s c t k charge p js jd jscale grad,
  (p < length js)%nat -> (p < length jd)%nat ->
  (exists v, ts_helmholtz_sp junk cjunk grad s c t charge p k js jd jscale = Fin v)
  <-> s <> c /\ t <> c /\ (p < BUFSIZE)%nat /\ 1 / 1000000000000000 <= Cmod (k * RtoC (eucl s c))%C.
Proof.
  intros junk cjunk s c t k charge p js jd jscale grad Hj Hjd.
  assert (SEP : s <> c /\ t <> c \/ (s = c \/ t = c)) by (destruct (tri_dec s c), (tri_dec t c); auto).
  destruct SEP as [[Hs Ht]|H].
  2:{ split; [|intuition]. intros [v E]. exfalso. revert E. unfold ts_helmholtz_sp. rewrite cos_not_finite by exact H. discriminate. }
  destruct (Nat.lt_ge_cases p BUFSIZE) as [Hp|Hp].
  2:{ split; [|lia]. intros [v E]. exfalso. revert E. unfold ts_helmholtz_sp. rewrite cos_finite by assumption. cbn [fbind].
      unfold legendre_buffers. rewrite legvals_fault; [discriminate| | |].
      - rewrite rbuf_length. exact Hp.
      - rewrite rbuf_length. unfold BUFSIZE. lia.
      - right. exists (rbuf junk). split; reflexivity. }
  destruct (Rlt_le_dec (Cmod (k * RtoC (eucl s c))%C) (1 / 1000000000000000)) as [Hab|Hab].
  { split; [|intros (_ & _ & _ & X); lra]. intros [v E].
    destruct (tsqbx_tiny_wavenumber_refuted junk cjunk s c t k charge p js jscale Hs Ht Hab) as [_ A]. rewrite A in E. discriminate. }
  split; [auto|]. intros _.
  assert (Hk : k <> RtoC 0).
  { intros ->. replace (RtoC 0 * RtoC (eucl s c))%C with (RtoC 0) in Hab by ring. rewrite Cmod_0 in Hab. lra. }
  pose proof (dist_pos s c Hs) as Ps.
  unfold ts_helmholtz_sp. rewrite cos_finite by assumption. cbn [fbind].
  destruct (legendre_buffers_ok junk ((co0 (tab (fun m : nat => co m t - co m c)) * co0 (tab (fun m : nat => co m s - co m c)) +
     co1 (tab (fun m : nat => co m t - co m c)) * co1 (tab (fun m : nat => co m s - co m c)) +
     co2 (tab (fun m : nat => co m t - co m c)) * co2 (tab (fun m : nat => co m s - co m c))) / (dist t c * dist s c)) p Hp) as (lv & ld & E & Vl & Vd).
  rewrite E. cbn [fbind].
  set (hs := if Rlt_dec _ 1 then _ else 1).
  assert (Hhs : 0 < hs) by (unfold hs; destruct (Rlt_dec _ 1) as [L|L]; [rewrite dist_eucl|]; lra).
  destruct (h3dall_ok k (the_hankel k) Hk (hankel_exists k Hk) p (dist s c) hs (cbuf cjunk) false None) as (h & d' & Eh & Ah & _).
  { exact Ps. } { unfold above. rewrite dist_eucl. exact Hab. } { exact Hhs. } { rewrite cbuf_length. exact Hp. } { rewrite cbuf_length. unfold BUFSIZE. lia. } { discriminate. }
  rewrite Eh. cbn [fbind fst]. unfold fdiv at 1. destruct (Req_EM_T hs 0) as [Z|_]; [lra|]. cbn [fbind].
  match goal with |- context [hsp_loop ?q ?ca ?sc ?tc ?k ?smc ?tmc _ _ _ _ _ _ _ ?u ?g] =>
    edestruct (fun A B D => hsp_loop_total q ca sc tc k smc tmc js jd h lv ld p Hj Hjd A B D (p + 1)%nat 0%nat u g) as [w Ew] end.
  - intros n Hn. eexists. apply Ah. exact Hn.
  - intros n Hn. eexists. apply Vl. exact Hn.
  - intros n Hn. eexists. apply Vd. exact Hn.
  - lia.
  - rewrite Ew. cbn [fbind]. eauto.
Qed.
Print Assumptions tsqbx_helmholtz_gradient_handled_iff.

(** The double layer: below the threshold the value is finite, ... *)
Theorem tsqbx_helmholtz_double_layer_handled_iff : forall junk cjunk s c t k dipole dipstr p js jscale,
  (p < length js)%nat ->
  (exists v, ts_helmholtz_d junk cjunk s c t dipole dipstr p k js jscale = Fin v)
  <-> s <> c /\ t <> c /\ (p < BUFSIZE)%nat /\ k <> RtoC 0.
Proof.
  intros junk cjunk s c t k dipole dipstr p js jscale Hj.
  assert (SEP : s <> c /\ t <> c \/ (s = c \/ t = c)) by (destruct (tri_dec s c), (tri_dec t c); auto).
  destruct SEP as [[Hs Ht]|H].
  2:{ split; [|intuition]. intros [v E]. exfalso. revert E. unfold ts_helmholtz_d. rewrite cos_not_finite by exact H. discriminate. }
  destruct (Nat.lt_ge_cases p BUFSIZE) as [Hp|Hp].
  2:{ split; [|lia]. intros [v E]. exfalso. revert E. unfold ts_helmholtz_d. rewrite cos_finite by assumption. cbn [fbind].
      unfold legendre_buffers. rewrite legvals_fault; [discriminate| | |].
      - rewrite rbuf_length. exact Hp.
      - rewrite rbuf_length. unfold BUFSIZE. lia.
      - right. exists (rbuf junk). split; reflexivity. }
  pose proof (dist_pos s c Hs) as Ps.
  unfold ts_helmholtz_d. rewrite cos_finite by assumption. cbn [fbind].
  destruct (legendre_buffers_ok junk ((co0 (tab (fun m : nat => co m t - co m c)) * co0 (tab (fun m : nat => co m s - co m c)) +
     co1 (tab (fun m : nat => co m t - co m c)) * co1 (tab (fun m : nat => co m s - co m c)) +
     co2 (tab (fun m : nat => co m t - co m c)) * co2 (tab (fun m : nat => co m s - co m c))) / (dist t c * dist s c)) p Hp) as (lv & ld & E & Vl & Vd).
  rewrite E. cbn [fbind].
  set (hs := if Rlt_dec _ 1 then _ else 1).
  assert (HH : (exists h hd, h3dall p (k * RtoC (dist s c))%C hs (cbuf cjunk) true (Some (cbuf cjunk)) = Fin (h, Some hd) /\
      (forall n, (n <= p)%nat -> exists v, nth_error h n = Some v) /\ (forall n, (n <= p)%nat -> exists v, nth_error hd n = Some v))).
  { destruct (Rlt_le_dec (Cmod (k * RtoC (dist s c))%C) (1 / 1000000000000000)) as [Hab|Hab].
    - unfold h3dall. destruct (Rlt_dec (Cmod (k * RtoC (dist s c))%C) (1 / 1000000000000000)) as [_|N]; [|contradiction].
      destruct (h_zero_ok (p + 1) 0 (cbuf cjunk) (cbuf cjunk)) as (a' & b' & Ez & Z); [rewrite cbuf_length; lia|rewrite cbuf_length; lia|lia|].
      rewrite Ez. exists a', b'. split; [reflexivity|]. split; intros n Hn; destruct (Z n ltac:(lia)); eauto.
    - assert (Hk : k <> RtoC 0).
      { intros ->. replace (RtoC 0 * RtoC (dist s c))%C with (RtoC 0) in Hab by ring. rewrite Cmod_0 in Hab. lra. }
      assert (Hhs : 0 < hs) by (unfold hs; destruct (Rlt_dec _ 1) as [L|L]; lra).
      destruct (h3dall_ok k (the_hankel k) Hk (hankel_exists k Hk) p (dist s c) hs (cbuf cjunk) true (Some (cbuf cjunk))) as (h & d' & Eh & Ah & Ad).
      { exact Ps. } { exact Hab. } { exact Hhs. } { rewrite cbuf_length. exact Hp. } { rewrite cbuf_length. unfold BUFSIZE. lia. }
      { intros _. eexists. split; [reflexivity|]. rewrite cbuf_length. exact Hp. }
      destruct (Ad eq_refl) as (e & -> & Ae). exists h, e. split; [exact Eh|]. split; intros n Hn; eexists; [apply Ah|apply Ae]; exact Hn. }
  destruct HH as (h & hd & -> & Vh & Vhd). cbn [fbind].
  destruct (Req_EM_T hs 0) as [Z|Z].
  - unfold fdiv. destruct (Req_EM_T hs 0) as [_|N]; [|contradiction]. cbn [fbind]. split; [intros [v X]; discriminate|].
    intros (_ & _ & _ & Hk). exfalso. unfold hs in Z. destruct (Rlt_dec _ 1) as [L|L]; [|lra].
    apply Cmod_eq_0 in Z. revert Z. apply Cmult_neq_0; [exact Hk|]. intros X. injection X as X. lra.
  - assert (Hk : k <> RtoC 0).
    { intros ->. apply Z. unfold hs. replace (RtoC 0 * RtoC (dist s c))%C with (RtoC 0) by ring. rewrite Cmod_0.
      destruct (Rlt_dec 0 1); [reflexivity|lra]. }
    split; [auto|]. intros _. unfold fdiv at 1. destruct (Req_EM_T hs 0) as [X|_]; [contradiction|]. cbn [fbind].
    match goal with |- context [hd_loop ?q ?ca ?sc ?tc ?k ?smc ?tmc _ _ _ _ _ _ _ ?u ?g] =>
      edestruct (fun A B D F => hd_loop_total q ca sc tc k smc tmc js h hd lv ld p Hj A B D F (p + 1)%nat 0%nat u g) as [w Ew] end.
    + exact Vh.
    + exact Vhd.
    + intros n Hn. eexists. apply Vl. exact Hn.
    + intros n Hn. eexists. apply Vd. exact Hn.
    + lia.
    + rewrite Ew. cbn [fbind]. eauto.
Qed.
Print Assumptions tsqbx_helmholtz_double_layer_handled_iff.

(** ... but it is zero, whatever the dipole. *)
Theorem tsqbx_tiny_wavenumber_double_layer_refuted : forall junk cjunk s c t k dipole dipstr p js jscale,
  (p < length js)%nat -> s <> c -> t <> c -> (p < BUFSIZE)%nat -> k <> RtoC 0 ->
  Cmod (k * RtoC (eucl s c))%C < 1 / 1000000000000000 ->
  ts_helmholtz_d junk cjunk s c t dipole dipstr p k js jscale = Fin (RtoC 0).
Proof.
  intros junk cjunk s c t k dipole dipstr p js jscale Hj Hs Ht Hp Hk Hab.
  pose proof (dist_pos s c Hs) as Ps.
  unfold ts_helmholtz_d. rewrite cos_finite by assumption. cbn [fbind].
  destruct (legendre_buffers_ok junk ((co0 (tab (fun m : nat => co m t - co m c)) * co0 (tab (fun m : nat => co m s - co m c)) +
     co1 (tab (fun m : nat => co m t - co m c)) * co1 (tab (fun m : nat => co m s - co m c)) +
     co2 (tab (fun m : nat => co m t - co m c)) * co2 (tab (fun m : nat => co m s - co m c))) / (dist t c * dist s c)) p Hp) as (lv & ld & E & Vl & Vd).
  rewrite E. cbn [fbind].
  set (hs := if Rlt_dec _ 1 then _ else 1).
  assert (Z : hs <> 0).
  { intros Z. unfold hs in Z. destruct (Rlt_dec _ 1) as [L|L]; [|lra].
    apply Cmod_eq_0 in Z. revert Z. apply Cmult_neq_0; [exact Hk|]. intros X. injection X as X. lra. }
  unfold h3dall. rewrite <- dist_eucl in Hab. destruct (Rlt_dec (Cmod (k * RtoC (dist s c))%C) (1 / 1000000000000000)) as [_|N]; [|contradiction].
  destruct (h_zero_ok (p + 1) 0 (cbuf cjunk) (cbuf cjunk)) as (a' & b' & Ez & Vz); [rewrite cbuf_length; lia|rewrite cbuf_length; lia|lia|].
  rewrite Ez. cbn [fbind]. unfold fdiv at 1. destruct (Req_EM_T hs 0) as [X|_]; [contradiction|]. cbn [fbind].
  rewrite (hd_loop_zero _ _ _ _ _ _ _ js a' b' lv ld p Hj).
  - cbn [fbind]. f_equal. cbn [tab co0 co1 co2]. ring.
  - intros n Hn. apply Vz. lia.
  - intros n Hn. apply Vz. lia.
  - intros n Hn. eexists. apply Vl. exact Hn.
  - intros n Hn. eexists. apply Vd. exact Hn.
  - lia.
Qed.
Print Assumptions tsqbx_tiny_wavenumber_double_layer_refuted.

Example tsqbx_handled_here : forall junk cjunk,
  (exists v, ts_helmholtz_sp junk cjunk (T3 (RtoC 0) (RtoC 0) (RtoC 0)) (T3 2 0 0) (T3 0 0 0) (T3 0 1 0) (RtoC 1) 1 (RtoC 1)
     [RtoC 1; RtoC 1] [RtoC 1; RtoC 1] 1 = Fin v)
  /\ exists v, ts_helmholtz_d junk cjunk (T3 2 0 0) (T3 0 0 0) (T3 0 1 0) (T3 1 0 0) (RtoC 1) 1 (RtoC 1) [RtoC 1; RtoC 1] 1 = Fin v.
Proof.
  assert (A : T3 2 0 0 <> T3 0 0 0) by (intros E; injection E; lra).
  assert (B : T3 0 1 0 <> T3 0 0 0) by (intros E; injection E; lra).
  intros junk cjunk. split.
  - apply tsqbx_helmholtz_gradient_handled_iff; [cbn; lia|cbn; lia|]. split; [exact A|]. split; [exact B|]. split; [unfold BUFSIZE; lia|].
    rewrite Cmult_1_l, Cmod_R. unfold eucl. cbn [co co0 co1 co2].
    replace ((2 - 0) ^ 2 + (0 - 0) ^ 2 + (0 - 0) ^ 2) with (2 * 2) by ring. rewrite sqrt_square by lra.
    rewrite Rabs_right; lra.
  - apply tsqbx_helmholtz_double_layer_handled_iff; [cbn; lia|]. split; [exact A|]. split; [exact B|]. split; [unfold BUFSIZE; lia|].
    intros E. injection E. lra.
Qed.
