(** Properties C10, C11, C43 (GMRES).  Vocabulary: GmresSpec.v.  All statements are in
    exact arithmetic, for arbitrary vectors, operators, inner products and sizes. *)
From Verif Require Import Base GmresModel GmresSpec GmresProofs GmresProofs2 GmresProofs3.
Set Implicit Arguments.

(** C10, first half.  For a linear operator, at every residual check the tracked residual
    (which is also what the callback receives) is b - A x for the iterate x of that moment,
    the residual history holds its norms, and the first iterate is the initial guess. *)
Theorem gmres_tracks_true_residual : forall V K N (vo : vops V K) (no : nops N) A dot norm inv
  (vs : vspace vo), linear vo A ->
  forall a b x0 out st, gmres_run vo no A dot norm inv a b x0 = (out, st) ->
  (forall x r, In (x, r) (g_seen st) -> r = vsub vo b (A x)) /\
  g_norms st = map (fun p => norm (vsub vo b (A (fst p)))) (g_seen st) /\
  (0 < a_maxiter a -> exists r l, g_seen st = (initial_guess vs x0, r) :: l).
Proof.
  intros V K N vo no A dot norm inv vs HA a b x0 out st H.
  pose proof (@run_lin V K N vo no A dot norm inv a b vs HA (fun _ _ => True) x0 out st
    (fun _ _ _ => I) H) as O.
  pose proof (o_seen O) as S. rewrite Forall_forall in S. unfold resid in S. split; [|split].
  - intros x r Hi. exact (S _ Hi).
  - rewrite (o_norms O), map_map. apply map_ext_in. intros p Hp. rewrite (S _ Hp). reflexivity.
  - intros Hm. unfold gmres_run in H.
    destruct (loop_seen_grows vo no A dot norm inv a b (norm b) (a_maxiter a) 0 (ginit vo a b x0))
      as (l & Hl & Hf). rewrite H in Hl. cbn [snd] in Hl. destruct (Hf Hm) as (r & l' & ->).
    exists r, l'. rewrite Hl. destruct x0; simpl; [|rewrite (scale_zero vs)]; reflexivity.
Qed.
Print Assumptions gmres_tracks_true_residual.

(** C10, second half. *)
Theorem gmres_success_means_small_residual : forall V K N (vo : vops V K) (no : nops N) A dot norm inv
  (vs : vspace vo), linear vo A ->
  forall a b x0 res st, gmres_run vo no A dot norm inv a b x0 = (GReturn res, st) ->
  success res = true ->
  let rn := norm (vsub vo b (A (solution res))) in
  nltb no rn (nmul no (a_tol a) (norm b)) = true \/ niszero no rn = true.
Proof.
  intros V K N vo no A dot norm inv vs HA a b x0 res st H Hs rn.
  pose proof (@run_lin V K N vo no A dot norm inv a b vs HA (fun _ _ => True) x0 _ st
    (fun _ _ _ => I) H) as O.
  pose proof (o_final O) as (E1 & E2 & E3 & E4 & E5).
  apply E3 in Hs. destruct (classify no a (norm b) (g_norms st)) as [s|] eqn:Ec.
  - destruct E5 as (Es & _ & r & L1 & L2 & L3). rewrite Hs in Es. subst s.
    assert (Hin : In (solution res, r) (g_seen st)).
    { rewrite <- L1. destruct (@exists_last _ _ L2) as (l & p & Ep). rewrite Ep, last_app_.
      apply in_or_app. right. left. reflexivity. }
    pose proof (o_seen O) as S. rewrite Forall_forall in S. apply S in Hin. unfold resid in Hin.
    cbn [fst snd] in Hin. unfold rn. rewrite <- Hin.
    unfold classify in Ec. destruct (rev (g_norms st)) as [|nr rest] eqn:Er; [discriminate|].
    assert (En : nr = norm r).
    { rewrite <- L3. replace (g_norms st) with (rev (nr :: rest)) by (rewrite <- Er; apply rev_involutive).
      simpl. rewrite last_app_. reflexivity. }
    rewrite <- En. unfold converged in Ec. apply orb_true_iff.
    destruct (nltb no nr _ || niszero no nr); [reflexivity|].
    destruct rest; [discriminate|]. destruct (_ && _); [discriminate|].
    destruct (no_progress _ _ _ _); discriminate.
  - destruct E5 as (Es & _). rewrite Hs in Es. discriminate.
Qed.
Print Assumptions gmres_success_means_small_residual.

(** C11.  For an arbitrary (also non-linear) operator the outcome is read off the residual
    history: every check but the last one let the iteration go on; the last one decides.
    "max iterations" is reported exactly when no check decided.  GMRESError is raised exactly
    when hard_failure is set, for the same states.  Nothing else can be raised, except
    IndexError for restart = 0. *)
Theorem gmres_outcome_determined_by_history : forall V K N (vo : vops V K) (no : nops N) A dot norm inv
  a b x0 out st, gmres_run vo no A dot norm inv a b x0 = (out, st) ->
  went_on no a (norm b) (g_norms st) /\
  match out with
  | GReturn res =>
      residual_norms res = g_norms st /\
      (success res = true <-> state res = GSuccess) /\
      (success res = false -> a_hard a = false) /\
      match classify no a (norm b) (g_norms st) with
      | Some s => state res = s /\ length (residual_norms res) = iteration_count res + 1
      | None => state res = GMaxIter /\ length (residual_norms res) = a_maxiter a /\
                iteration_count res = a_maxiter a - 1
      end
  | GMRESError s =>
      a_hard a = true /\ s <> GSuccess /\
      match classify no a (norm b) (g_norms st) with
      | Some s' => s = s'
      | None => s = GMaxIter /\ length (g_norms st) = a_maxiter a
      end
  | GCrash e => e = IndexError /\ a_restart a = 0
  end.
Proof.
  intros V K N vo no A dot norm inv a b x0 out st H. apply run_any in H.
  destruct H as [H1 H2 H3 H4 H5 H6 H7]. split; [exact H4|].
  destruct out as [res|s|e]; [|exact H7|tauto].
  destruct H7 as (E1 & E2 & E3 & E4 & E5). repeat (split; [assumption|]).
  rewrite E1. destruct (classify no a (norm b) (g_norms st)); [|exact E5].
  split; [tauto|lia].
Qed.
Print Assumptions gmres_outcome_determined_by_history.

(** C11: at most maxiter residual checks; the operator is applied once per iteration,
    once more every tenth iteration, and once for a given initial guess. *)
Theorem gmres_work_bounded : forall V K N (vo : vops V K) (no : nops N) A dot norm inv
  a b x0 out st, gmres_run vo no A dot norm inv a b x0 = (out, st) ->
  length (g_norms st) <= a_maxiter a /\ length (g_seen st) = length (g_norms st) /\
  g_calls st <= a_maxiter a + a_maxiter a / 10 + 1.
Proof.
  intros V K N vo no A dot norm inv a b x0 out st H. apply run_any in H.
  destruct H as [H1 H2 H3 H4 H5 H6 H7]. split; [exact H5|]. split.
  - rewrite H1, !map_length. reflexivity.
  - destruct x0; cbn [gcalls0] in H6; lia.
Qed.
Print Assumptions gmres_work_bounded.

(** In a real inner product space residuals never grow, so a "non-monotonic residuals"
    failure is a symptom of rounding only.  (Real scalars; uses Coq's real numbers.) *)
From Coq Require Import Reals Lra.
Definition rnops (ltb : R -> R -> bool) (isz : R -> bool) : nops R :=
  NOps ltb isz Rmult Rdiv (5 / 4)%R.
Definition real_inner_product (V : Type) (vo : vops V R) (dot : V -> V -> R) : Prop :=
  (forall u v w, dot (vadd vo u v) w = (dot u w + dot v w)%R) /\
  (forall c u w, dot (vscale vo c u) w = (c * dot u w)%R) /\
  (forall u w, dot u w = dot w u) /\ (forall u, (0 <= dot u u)%R).

Theorem gmres_residuals_never_grow : forall V (vo : vops V R) (vs : vspace vo) dot A ltb isz,
  GmresSpec.linear vo A -> real_inner_product vo dot ->
  forall a b x0 out st,
  gmres_run vo (rnops ltb isz) A dot (rnorm dot) Rinv a b x0 = (out, st) ->
  forall pre r1 r2 post, g_norms st = pre ++ r1 :: r2 :: post -> (0 <= r2 <= r1)%R.
Proof.
  intros V vo vs dot A ltb isz HA (D1 & D2 & D3 & D4) a b x0 out st H pre r1 r2 post E.
  pose proof (@run_lin V R R vo (rnops ltb isz) A dot (rnorm dot) Rinv a b vs HA
    (fun r r' => (rnorm dot r' <= rnorm dot r)%R) x0 out st) as O.
  specialize (O ltac:(intros r w [w' ->]; apply (@step_shrinks V vo vs dot D1 D2 D3 D4 r w')) H).
  rewrite (o_norms O), map_map in E.
  assert (X : exists pre' p q post', g_seen st = pre' ++ p :: q :: post' /\
     rnorm dot (snd p) = r1 /\ rnorm dot (snd q) = r2).
  { clear - E. revert pre E. generalize (g_seen st). intros l. induction l as [|z l IH]; intros pre E.
    - destruct pre; discriminate.
    - destruct pre as [|y pre].
      + simpl in E. injection E; intros E2 E1. destruct l as [|q l]; [discriminate|].
        simpl in E2. injection E2; intros E3 E4. exists [], z, q, l. auto.
      + simpl in E. injection E; intros E2 E1. destruct (IH pre E2) as (p1 & p & q & q1 & -> & X).
        exists (z :: p1), p, q, q1. auto. }
  destruct X as (p1 & p & q & q1 & Es & <- & <-). split; [apply sqrt_pos|].
  apply (o_chain O _ _ _ _ Es).
Qed.
Print Assumptions gmres_residuals_never_grow.

(** ... hence the state "non-monotonic residuals" is unreachable when [<] is the order of
    the reals. *)
Theorem gmres_never_nonmonotonic_exact : forall V (vo : vops V R) (vs : vspace vo) dot A ltb isz,
  GmresSpec.linear vo A -> real_inner_product vo dot ->
  (forall x y, ltb x y = true <-> (x < y)%R) ->
  forall a b x0 out st,
  gmres_run vo (rnops ltb isz) A dot (rnorm dot) Rinv a b x0 = (out, st) ->
  match out with
  | GReturn res => state res <> GNonMonotonic
  | GMRESError s => s <> GNonMonotonic
  | GCrash _ => True
  end.
Proof.
  intros V vo vs dot A ltb isz HA HD Hl a b x0 out st H.
  pose proof (@gmres_residuals_never_grow V vo vs dot A ltb isz HA HD a b x0 out st H) as G.
  assert (C : classify (rnops ltb isz) a (rnorm dot b) (g_norms st) <> Some GNonMonotonic).
  { unfold classify. destruct (rev (g_norms st)) as [|nr rest] eqn:Er; [discriminate|].
    destruct (converged _ _ _ nr); [discriminate|]. destruct rest as [|prev rest]; [discriminate|].
    destruct (a_mono a && grew (rnops ltb isz) prev nr) eqn:Eg; [|destruct (no_progress _ _ _ _); discriminate].
    apply andb_true_iff in Eg. destruct Eg as [_ Eg]. unfold grew in Eg. simpl in Eg.
    apply Hl in Eg.
    assert (B : (0 <= nr <= prev)%R).
    { apply (G (rev rest) prev nr []). rewrite <- (rev_involutive (g_norms st)), Er. simpl.
      rewrite <- app_assoc. reflexivity. }
    exfalso. lra. }
  apply gmres_outcome_determined_by_history in H. destruct H as [_ H].
  destruct out as [res|s|e]; [| |exact I].
  - destruct H as (_ & _ & _ & H). destruct (classify _ _ _ _) as [s|].
    + destruct H as [-> _]. intros ->. apply C. reflexivity.
    + destruct H as [-> _]. discriminate.
  - destruct H as (_ & _ & H). destruct (classify _ _ _ _) as [s'|].
    + subst s'. intros ->. apply C. reflexivity.
    + destruct H as [-> _]. discriminate.
Qed.
Print Assumptions gmres_never_nonmonotonic_exact.

(** stall_iterations = 1 compares the current residual with itself: every run that has not
    converged at its second check is then declared stalled (the window is one iteration
    shorter than stall_iterations). *)
Theorem gmres_stall_window_one : forall V K N (vo : vops V K) (no : nops N) A dot norm inv
  a b x0 out st, gmres_run vo no A dot norm inv a b x0 = (out, st) ->
  a_stall a = 1 -> (forall n, niszero no n = false -> nltb no (ndiv no n (a_npf a)) n = true) ->
  length (g_norms st) <= 2.
Proof.
  intros V K N vo no A dot norm inv a b x0 out st H Hs Hn.
  apply gmres_outcome_determined_by_history in H. destruct H as [H _].
  destruct (le_lt_dec (length (g_norms st)) 2) as [L|L]; [exact L|exfalso].
  specialize (H 2 L). destruct (g_norms st) as [|n1 [|n2 l]]; simpl in L; try lia.
  change (firstn 2 (n1 :: n2 :: l)) with [n1; n2] in H. unfold classify in H.
  change (rev [n1; n2]) with [n2; n1] in H. cbv iota in H.
  destruct (converged no a (norm b) n2) eqn:Ec; [discriminate|].
  destruct (a_mono a && _); [discriminate|].
  unfold no_progress in H. rewrite Hs in H. simpl in H.
  unfold converged in Ec. apply orb_false_iff in Ec. destruct Ec as [_ Ec].
  rewrite (Hn _ Ec) in H. discriminate.
Qed.
Print Assumptions gmres_stall_window_one.

(** ** Concrete spaces: Z and Z^2. *)
Definition zvo : vops Z Z := VOps Z.add Z.sub Z.mul 0%Z.
Definition zno : nops Z := NOps Z.ltb (Z.eqb 0) Z.mul Z.div 1%Z.
Definition zspace : vspace zvo.
Proof. refine (@VSpace Z Z zvo 0%Z Z.opp _ _ _ _ _ _ _); simpl; intros; lia. Defined.

(** C10/C11 counterpart that fails: running out of iterations does not mean that the returned
    solution is bad, because it is never checked.  One iteration solves "x = 1" exactly, yet
    maxiter = 1 raises (or reports) "max iterations". *)
Theorem gmres_failure_means_large_residual_refuted : exists res st,
  gmres_run zvo zno (fun x => x) (fun x y => (x * y)%Z) Z.abs (fun _ => 1%Z)
    (GArgs 1 0%Z 1 false true 2%Z 10) 1%Z None = (GReturn res, st) /\
  state res = GMaxIter /\ success res = false /\ solution res = 1%Z /\
  (1 - solution res = 0)%Z /\ residual_norms res = [1%Z].
Proof. do 2 eexists. vm_compute. repeat split. Qed.
Print Assumptions gmres_failure_means_large_residual_refuted.

(** C43 refuted: in exact arithmetic, with restart = n = 2 and an invertible (orthogonal)
    operator, the solver does not find the solution: for the rotation by 90 degrees the second
    direction vanishes, its normalisation divides by zero, and -- whatever value [c] that
    division is given -- the default call ends in GMRESError("max iterations").  (With floating
    point numbers [c] is inf and the iterate becomes NaN.) *)
Definition z2vo : vops (Z * Z) Z :=
  VOps (fun u v => (fst u + fst v, snd u + snd v)%Z) (fun u v => (fst u - fst v, snd u - snd v)%Z)
       (fun c u => (c * fst u, c * snd u)%Z) 0%Z.
Definition z2dot (u v : Z * Z) : Z := (fst u * fst v + snd u * snd v)%Z.
Definition z2norm (u : Z * Z) : Z := Z.sqrt (Z.abs (z2dot u u)).
Definition rot (u : Z * Z) : Z * Z := (snd u, - fst u)%Z.
Theorem gmres_solves_nonsingular_refuted :
  (forall u, rot (rot (rot (rot u))) = u) /\
  forall c, exists st,
  gmres_run z2vo zno rot z2dot z2norm (fun n => if Z.eqb n 0 then c else 1%Z)
    (process 0%Z 1%Z 2 None None None None true None None) (1, 0)%Z None
  = (GMRESError GMaxIter, st) /\ g_norms st = [1; 1; 1; 1]%Z /\ map fst (g_seen st) = repeat (0, 0)%Z 4.
Proof.
  split.
  - intros [x y]. unfold rot. simpl. f_equal; lia.
  - intros c. destruct c as [|p|p]; (eexists; split; [vm_compute; reflexivity|split; reflexivity]).
Qed.
Print Assumptions gmres_solves_nonsingular_refuted.

(** Non-vacuity: the space Z is a vector space in the sense above, multiplication by 1 is linear,
    and runs that succeed, with and without initial guess. *)
Example id_linear : GmresSpec.linear zvo (fun x => x).
Proof. split; intros; reflexivity. Qed.
Example run_success : exists res st,
  gmres_run zvo zno (fun x => x) (fun x y => (x * y)%Z) Z.abs (fun _ => 1%Z)
    (GArgs 1 0%Z 5 true true 2%Z 10) 1%Z None = (GReturn res, st) /\
  success res = true /\ solution res = 1%Z /\ residual_norms res = [1; 0]%Z /\ iteration_count res = 1.
Proof. do 2 eexists. vm_compute. repeat split. Qed.
Example run_success_x0 : exists res st,
  gmres_run zvo zno (fun x => x) (fun x y => (x * y)%Z) Z.abs (fun _ => 1%Z)
    (GArgs 1 0%Z 5 true true 2%Z 10) 1%Z (Some 2%Z) = (GReturn res, st) /\
  success res = true /\ solution res = 1%Z /\ residual_norms res = [1; 0]%Z.
Proof. do 2 eexists. vm_compute. repeat split. Qed.
Example run_stalled : exists st,
  gmres_run zvo zno (fun x => (2 * x)%Z) (fun x y => 0%Z) Z.abs (fun _ => 1%Z)
    (GArgs 1 0%Z 50 true true 2%Z 3) 8%Z None = (GMRESError GStalled, st) /\ g_norms st = [8; 8; 8; 8]%Z.
Proof. eexists. vm_compute. repeat split. Qed.
Example run_restart0 : exists st,
  gmres_run zvo zno (fun x => x) (fun x y => (x * y)%Z) Z.abs (fun _ => 1%Z)
    (GArgs 0 0%Z 5 true true 2%Z 3) 8%Z None = (GCrash IndexError, st).
Proof. eexists. vm_compute. reflexivity. Qed.
Example real_line : real_inner_product (VOps Rplus Rminus Rmult 0%R) Rmult /\
  exists vs : vspace (VOps Rplus Rminus Rmult 0%R), vzero vs = 0%R.
Proof.
  split; [repeat split; intros; simpl; try ring; apply Rle_0_sqr|].
  unshelve eexists; [refine (@VSpace R R _ 0%R Ropp _ _ _ _ _ _ _); simpl; intros; ring|reflexivity].
Qed.
