(** C87-C90: target-specific QBX.  Legendre polynomials, the Laplace expansions and their
    gradients, spherical Hankel functions, the Helmholtz expansions and their gradients. *)
From Coq Require Import Reals List Lia Lra.
From Coquelicot Require Import Coquelicot.
From Verif Require Import Base TsModel TsLeg TsSpec TsProofs TsProofs2 TsProofs3 TsProofs4 TsProofs5 TsProofs6.
Import ListNotations.
Open Scope R_scope.

(** ** C87: legvals *)

(** For every argument in [-1, 1] and every degree that fits the buffers, [legvals] stores the
    Legendre polynomials of degree 0..n and (if asked to) their derivatives, and touches nothing
    beyond. *)
Theorem legvals_legendre : forall x n vals derivs, -1 <= x <= 1 ->
  (n < length vals)%nat -> (forall d, derivs = Some d -> (n < length d)%nat) ->
  exists vals' derivs', legvals x n vals derivs = Fin (vals', derivs') /\
    (forall i, (i <= n)%nat -> nth_error vals' i = Some (legendre i x)) /\
    length vals' = length vals /\ (forall i, (n < i)%nat -> nth_error vals' i = nth_error vals i) /\
    (derivs = None -> derivs' = None) /\
    (forall d, derivs = Some d -> exists d', derivs' = Some d' /\
       (forall i, (i <= n)%nat -> exists v q, nth_error d' i = Some v /\
          (forall y, -1 <= y <= 1 -> q y = legendre i y) /\ is_derive q x v) /\
       length d' = length d /\ (forall i, (n < i)%nat -> nth_error d' i = nth_error d i)).
Proof.
  intros x n vals derivs Hx Hv Hd.
  assert (B : forall y, -1 <= y <= 1 -> y * y <= 1) by (intros y Hy; nra).
  destruct (legvals_ok x n vals derivs Hv) as (v & d' & E & A1 & A2 & A3 & A4).
  { destruct derivs as [d|]; [apply (Hd d eq_refl)|exact I]. }
  exists v, d'. split; [exact E|]. split.
  { intros i Hi. rewrite (A1 i Hi), legendre_P by (apply B, Hx). reflexivity. }
  split; [apply A3|]. split; [intros i Hi; now apply A3|].
  destruct derivs as [d|]; destruct d' as [e|]; simpl in A4; try contradiction.
  - split; [discriminate|]. intros d0 [= <-]. exists e. split; [reflexivity|]. split; [|split; [apply A4|intros i Hi; now apply A4]].
    intros i Hi. exists (DP x i), (fun y => P y i). split; [apply (A2 i Hi)|]. split.
    + intros y Hy. now rewrite legendre_P by (apply B, Hy).
    + apply P_derive.
  - split; [reflexivity|discriminate].
Qed.
Print Assumptions legvals_legendre.
(** |P_n| <= 1 on [-1,1]: the recurrence does not blow up. *)
Theorem legendre_bounded : forall n x, -1 <= x <= 1 -> Rabs (legendre n x) <= 1.
Proof.
  intros n x Hx. assert (B : x * x <= 1) by nra. rewrite legendre_P by exact B. now apply P_bound.
Qed.
Print Assumptions legendre_bounded.
Example legvals_example : exists d,
  legvals (1 / 2) 3 [7; 7; 7; 7; 7] (Some [9; 9; 9; 9]) = Fin ([1; 1 / 2; -1 / 8; -7 / 16; 7], Some d).
Proof.
  unfold legvals. cbn [wr length Nat.ltb Nat.leb upd fbind wr_opt Nat.eqb Nat.sub leg_loop].
  eexists. refine (f_equal Fin (f_equal2 pair _ eq_refl)).
  repeat (apply f_equal2; [simpl; lra|]). reflexivity.
Qed.

(** ** C88: ts_laplace_s *)

(** For every source and target off the center and every order, the value is the charge times
    the Taylor polynomial, of that order, of the kernel about the center. *)
Theorem ts_laplace_s_expansion : forall s c t charge p, s <> c -> t <> c ->
  ts_laplace_s s c t charge p = Fin (charge * RtoC (laplace_qbx p c s t))%C.
Proof. intros. now apply ts_laplace_s_ok. Qed.
Print Assumptions ts_laplace_s_expansion.

(** When the target is closer to the center than the source, the values converge to the
    potential as the order grows, and the error is at most geometric. *)
Theorem ts_laplace_s_converges : forall s c t, s <> c -> t <> c -> eucl t c < eucl s c ->
  is_lim_seq (fun p => laplace_qbx p c s t) (/ eucl s t) /\
  forall p, Rabs (laplace_qbx p c s t - / eucl s t) <= (eucl t c / eucl s c) ^ S p / (eucl s c - eucl t c).
Proof.
  intros s c t Hs Ht H. rewrite <- !dist_eucl in H. split.
  - now apply laplace_qbx_limit.
  - intros p. rewrite <- (dist_eucl t c), <- (dist_eucl s c). now apply (laplace_qbx_error p c s t).
Qed.
Print Assumptions ts_laplace_s_converges.

Example ts_laplace_s_example :
  T3 2 0 0 <> T3 0 0 0 /\ T3 0 1 0 <> T3 0 0 0 /\ eucl (T3 0 1 0) (T3 0 0 0) < eucl (T3 2 0 0) (T3 0 0 0).
Proof.
  split; [intros [= E]; lra|]. split; [intros [= E]; lra|].
  unfold eucl. simpl. apply sqrt_lt_1_alt. lra.
Qed.

(** ** C89: gradients of the Laplace expansion *)

(** [ts_laplace_sp] adds the charge times the target gradient of the expansion; as the order
    grows it converges to the gradient of the kernel. *)
Theorem ts_laplace_sp_gradient : forall s c t, s <> c -> t <> c ->
  exists d : nat -> nat -> R,
    (forall p m, (m < 3)%nat -> partial_at (fun t => laplace_qbx p c s t) m t (d p m)) /\
    (forall junk grad charge p, (p < BUFSIZE)%nat -> exists g,
       ts_laplace_sp junk grad s c t charge p = Fin g /\
       forall m, (m < 3)%nat -> co m g = (co m grad + charge * RtoC (d p m))%C) /\
    (eucl t c < eucl s c -> forall m, (m < 3)%nat -> exists l,
       partial_at (fun t => / eucl s t) m t l /\ is_lim_seq (fun p => d p m) l).
Proof.
  intros s c t Hs Ht. exists (fun p m => sum_n (tder s c t m) p). split; [|split].
  - intros p m Hm. now apply laplace_qbx_tder.
  - intros junk grad charge p Hp. eexists. split; [now apply ts_laplace_sp_ok|].
    intros m Hm. rewrite co_tab by exact Hm. reflexivity.
  - intros H m Hm. rewrite <- !dist_eucl in H. exists ((co m s - co m t) / eucl s t ^ 3). split.
    + now apply kernel_tder with (c := c).
    + apply series_lim. now apply tder_series.
Qed.
Print Assumptions ts_laplace_sp_gradient.

(** [ts_laplace_d] is the dipole strength times the derivative of the expansion in the direction
    of the dipole, with respect to the source. *)
Theorem ts_laplace_d_gradient : forall s c t, s <> c -> t <> c ->
  exists d : nat -> nat -> R,
    (forall p m, (m < 3)%nat -> partial_at (fun s => laplace_qbx p c s t) m s (d p m)) /\
    (forall junk dipole dipstr p, (p < BUFSIZE)%nat ->
       ts_laplace_d junk s c t dipole dipstr p
       = Fin (dipstr * RtoC (co 0 dipole * d p 0%nat + co 1 dipole * d p 1%nat + co 2 dipole * d p 2%nat))%C) /\
    (eucl t c < eucl s c -> forall m, (m < 3)%nat -> exists l,
       partial_at (fun s => / eucl s t) m s l /\ is_lim_seq (fun p => d p m) l).
Proof.
  intros s c t Hs Ht. exists (fun p m => sum_n (sder s c t m) p). split; [|split].
  - intros p m Hm. now apply laplace_qbx_sder.
  - intros junk dipole dipstr p Hp. now apply ts_laplace_d_ok.
  - intros H m Hm. rewrite <- !dist_eucl in H. exists ((co m t - co m s) / eucl s t ^ 3). split.
    + now apply kernel_sder with (c := c).
    + apply series_lim. now apply sder_series.
Qed.
Print Assumptions ts_laplace_d_gradient.

(** ** C90: Helmholtz *)

(** Spherical Hankel and Bessel functions exist, and are determined by their definitions. *)
Theorem spherical_functions : forall k, k <> RtoC 0 ->
  (exists h, sph_hankel k h) /\ (exists j, sph_bessel k j) /\
  (forall h h', sph_hankel k h -> sph_hankel k h' -> forall n r, 0 < r -> h n r = h' n r) /\
  (forall j j', sph_bessel k j -> sph_bessel k j' -> forall n r, 0 < r -> j n r = j' n r).
Proof.
  intros k Hk. split; [exists (the_hankel k); now apply hankel_exists|].
  split; [exists (the_bessel k); now apply bessel_exists|]. split.
  - intros h h' [A B] [A' B']. apply (family_unique k Hk h h' A A'). intros r Hr. rewrite B, B' by exact Hr. reflexivity.
  - intros h h' [A B] [A' B']. apply (family_unique k Hk h h' A A'). intros r Hr. rewrite B, B' by exact Hr. reflexivity.
Qed.
Print Assumptions spherical_functions.

(** [h3dall_] stores scale^n h_n(k r) and (if asked to) scale^n h_n'(k r), n = 0..nterms. *)
Theorem h3dall_hankel : forall k h, k <> RtoC 0 -> sph_hankel k h ->
  forall nterms r scale hvec ifder hder, 0 < r -> 1 / 1000000000000000 <= Cmod (k * RtoC r)%C -> 0 < scale ->
  (nterms < length hvec)%nat -> (2 <= length hvec)%nat ->
  (ifder = true -> exists d, hder = Some d /\ (nterms < length d)%nat) ->
  exists hvec' hder', h3dall nterms (k * RtoC r)%C scale hvec ifder hder = Fin (hvec', hder') /\
    (forall n, (n <= nterms)%nat -> nth_error hvec' n = Some (RtoC (scale ^ n) * h n r)%C) /\
    (ifder = true -> exists d, hder' = Some d /\
       forall n, (n <= nterms)%nat -> exists v, nth_error d n = Some (RtoC (scale ^ n) * v)%C /\
         cderiv (h n) r (k * v)%C).
Proof.
  intros k h Hk Hh nterms r scale hvec ifder hder Hr Hab Hsc Hl H2 Hd.
  destruct (h3dall_ok k h Hk Hh nterms r scale hvec ifder hder Hr Hab Hsc Hl H2 Hd) as (a & d & E & A & B).
  exists a, d. split; [exact E|]. split; [exact A|]. intros Hi. destruct (B Hi) as (e & -> & Ve).
  exists e. split; [reflexivity|]. intros n Hn. exists (sph_derivative k h n r). split; [apply (Ve n Hn)|].
  now apply Hh.
Qed.
Print Assumptions h3dall_hankel.

Section HelmholtzClaims.
(** Everything that the three evaluations need: a nonzero wavenumber, spherical functions, a
    correct [jfuns3d_], points off the center, |k| |s - c| not tiny, precomputed Bessel values. *)
Definition helmholtz_setting (k : C) (j h : nat -> R -> C) (jfuns : nat -> C -> R -> bool -> option (list C * list C))
    (s c t : tri R) (p : nat) (ifder : bool) (js jd : list C) (jscale : R) : Prop :=
  k <> RtoC 0 /\ sph_bessel k j /\ sph_hankel k h /\ jfuns_contract k j jfuns /\ s <> c /\ t <> c /\
  1 / 1000000000000000 <= Cmod (k * RtoC (eucl s c))%C /\ (p < BUFSIZE)%nat /\
  ts_helmholtz_precompute jfuns c t p ifder k = Fin (js, jd, jscale).
Theorem ts_helmholtz_s_expansion : forall junk cjunk jfuns k j h s c t p ifder js jd jscale charge,
  helmholtz_setting k j h jfuns s c t p ifder js jd jscale ->
  ts_helmholtz_s junk cjunk s c t charge p k js jscale = Fin (charge * helmholtz_qbx k j h p c s t)%C.
Proof.
  intros junk cjunk jfuns k j h s c t p ifder js jd jscale charge (Hk & Hj & Hh & Hc & Hs & Ht & Hab & Hp & Hpre).
  rewrite <- dist_eucl in Hab. eapply ts_helmholtz_s_ok; eauto.
Qed.
Theorem ts_helmholtz_sp_gradient : forall junk cjunk jfuns k j h s c t p js jd jscale charge grad,
  helmholtz_setting k j h jfuns s c t p true js jd jscale ->
  exists g, ts_helmholtz_sp junk cjunk grad s c t charge p k js jd jscale = Fin g /\
    forall m, (m < 3)%nat -> exists d, cpartial_at (fun t => helmholtz_qbx k j h p c s t) m t d /\
      co m g = (co m grad + charge * d)%C.
Proof.
  intros junk cjunk jfuns k j h s c t p js jd jscale charge grad (Hk & Hj & Hh & Hc & Hs & Ht & Hab & Hp & Hpre).
  rewrite <- dist_eucl in Hab. eexists. split; [eapply ts_helmholtz_sp_ok; eauto|].
  intros m Hm. eexists. split; [apply helmholtz_qbx_tder; auto; apply Hj|]. rewrite co_tab by exact Hm. reflexivity.
Qed.
Theorem ts_helmholtz_d_gradient : forall junk cjunk jfuns k j h s c t p ifder js jd jscale dipole dipstr,
  helmholtz_setting k j h jfuns s c t p ifder js jd jscale ->
  exists d : nat -> C, (forall m, (m < 3)%nat -> cpartial_at (fun s => helmholtz_qbx k j h p c s t) m s (d m)) /\
    ts_helmholtz_d junk cjunk s c t dipole dipstr p k js jscale
    = Fin (dipstr * (RtoC (co 0 dipole) * d 0%nat + RtoC (co 1 dipole) * d 1%nat + RtoC (co 2 dipole) * d 2%nat))%C.
Proof.
  intros junk cjunk jfuns k j h s c t p ifder js jd jscale dipole dipstr (Hk & Hj & Hh & Hc & Hs & Ht & Hab & Hp & Hpre).
  rewrite <- dist_eucl in Hab. exists (fun m => (Ci * k * csum (hsder k j h s c t m) p)%C). split.
  - intros m Hm. apply helmholtz_qbx_sder; auto. apply Hh.
  - eapply ts_helmholtz_d_ok; eauto.
Qed.
End HelmholtzClaims.
Print Assumptions ts_helmholtz_s_expansion.
Print Assumptions ts_helmholtz_sp_gradient.
Print Assumptions ts_helmholtz_d_gradient.

(** A correct [jfuns3d_] for wavenumber [k]. *)
Definition ideal_jfuns (k : C) (nterms : nat) (z : C) (scale : R) (ifder : bool) : option (list C * list C) :=
  let r := Cmod z / Cmod k in
  Some (map (fun n => the_bessel k n r / RtoC (scale ^ n))%C (seq 0 (S nterms)),
        map (fun n => sph_derivative k (the_bessel k) n r / RtoC (scale ^ n))%C (seq 0 (S nterms))).
Lemma ideal_jfuns_ok k : k <> RtoC 0 -> jfuns_contract k (the_bessel k) (ideal_jfuns k).
Proof.
  intros Hk nterms r scale ifder fjs fjder Hr Hs [= <- <-].
  assert (E : Cmod (k * RtoC r)%C / Cmod k = r).
  { rewrite Cmod_mult, Cmod_R, Rabs_pos_eq by lra. field. apply Rgt_not_eq, Cmod_gt_0, Hk. }
  rewrite E.
  assert (G : forall (f : nat -> C) n, (n <= nterms)%nat -> nth_error (map f (seq 0 (S nterms))) n = Some (f n)).
  { intros f n Hn. rewrite nth_error_map, (nth_error_nth' _ 0%nat) by (rewrite seq_length; lia).
    rewrite seq_nth by lia. reflexivity. }
  split; [intros n Hn; exact (G _ n Hn) | intros _ n Hn; exact (G _ n Hn)].
Qed.
Example helmholtz_setting_example : exists js jd jscale,
  helmholtz_setting (RtoC 1) (the_bessel (RtoC 1)) (the_hankel (RtoC 1)) (ideal_jfuns (RtoC 1))
    (T3 2 0 0) (T3 0 0 0) (T3 0 1 0) 5 true js jd jscale.
Proof.
  assert (H1 : RtoC 1 <> RtoC 0) by (intros [= E]; lra).
  destruct (ts_helmholtz_precompute (ideal_jfuns (RtoC 1)) (T3 0 0 0) (T3 0 1 0) 5 true (RtoC 1)) as [[[js jd] sc]| | |] eqn:E; try discriminate.
  exists js, jd, sc. split; [exact H1|]. split; [now apply bessel_exists|]. split; [now apply hankel_exists|].
  split; [now apply ideal_jfuns_ok|]. split; [intros [= X]; lra|]. split; [intros [= X]; lra|]. split.
  - rewrite Cmod_mult, !Cmod_R. unfold eucl. simpl.
    replace ((2 - 0) * ((2 - 0) * 1) + (0 - 0) * ((0 - 0) * 1) + (0 - 0) * ((0 - 0) * 1)) with (2 * 2) by ring.
    rewrite sqrt_square by lra. rewrite !Rabs_pos_eq by lra. lra.
  - split; [unfold BUFSIZE; lia | exact E].
Qed.
