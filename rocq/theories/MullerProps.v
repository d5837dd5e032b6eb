(** Property C12 (Muller's method).  Vocabulary: MullerSpec.v. *)
From Verif Require Import Base MullerModel MullerSpec MullerProofs.
From Coq Require Import QArith Qcanon.
Set Implicit Arguments.
Open Scope nat_scope.

(** Whatever the function and starting points: at most maxiter + 3 evaluations; a returned
    root is the last evaluation point and satisfies the stopping criterion against the
    evaluation point before it; otherwise RuntimeError is raised. *)
Theorem muller_bounded_and_validated : forall C M (o : cops C M) f maxiter tol zs r evs,
  muller o f maxiter tol zs = (r, evs) ->
  length evs <= maxiter + 3 /\
  match r with
  | Ok (z, n) => n < maxiter /\ length evs = n + 3 /\
      exists evs' old, evs = evs' ++ [z] /\ last evs' old = old /\ evs' <> [] /\ close_enough o tol old z
  | Err e => e = RuntimeError
  end.
Proof. exact muller_spec. Qed.
Print Assumptions muller_bounded_and_validated.

(** muller_deflate returns exactly n roots, none of them NaN; root i is what muller finds for
    the function deflated by the roots 0..i-1; one call of muller per root (the retry loop
    for NaN is never entered, as NaN iterates never pass the stopping test). *)
Theorem muller_deflate_roots : forall C M (o : cops C M) f n maxiter eps zs rs ks calls,
  nan_poisons o -> muller_deflate o f n maxiter eps zs = Ok (rs, ks, calls) ->
  length rs = n /\ length ks = n /\ calls = n /\
  forall i r k, nth_error rs i = Some r -> nth_error ks i = Some k ->
    cnan o r = false /\
    fst (muller o (f_deflated o f (firstn i rs)) maxiter eps (zs i)) = Ok (r, k).
Proof.
  intros C M o f n maxiter eps zs rs ks calls HN H. unfold muller_deflate in H.
  apply deflate_spec in H; [|exact HN]. destruct H as (Hu & new & nk & -> & -> & L1 & L2 & HH).
  simpl. repeat split; auto; destruct (HH i r k H H0); auto.
Qed.
Print Assumptions muller_deflate_roots.

(** If some root is not found, the call raises RuntimeError: there is no partial answer. *)
Theorem muller_deflate_raises : forall C M (o : cops C M) f n maxiter eps zs e,
  nan_poisons o -> muller_deflate o f n maxiter eps zs = Err e -> e = RuntimeError.
Proof. intros C M o f n maxiter eps zs e HN H. eapply deflate_raises; eauto. Qed.
Print Assumptions muller_deflate_raises.

(** The deflated function is f divided by the product of the distances to the roots. *)
Theorem deflation_divides_by_product : forall C M (o : cops C M) f roots z,
  is_field o -> (forall r, In r roots -> csub o z r <> c0 o) ->
  cmul o (f_deflated o f roots z) (root_product o roots z) = f z.
Proof. intros C M o f roots z F. apply deflated_product. exact F. Qed.
Print Assumptions deflation_divides_by_product.

(** In a field, one step of the method applied to any quadratic polynomial lands on a root
    (the step is the one of parabolic interpolation). *)
Theorem muller_step_exact_on_quadratics : forall C M (o : cops C M) a b c z1 z2 z3,
  is_field o ->
  let q := quadratic o a b c in
  let lam := cdiv o (csub o z3 z2) (csub o z2 z1) in
  let d := cadd o (c1 o) lam in
  let g := cadd o (csub o (cmul o (cmul o (q z1) lam) lam) (cmul o (cmul o (q z2) d) d))
                  (cmul o (q z3) (cadd o (c1 o) (cmul o (c2 o) lam))) in
  let det := csub o (cmul o g g) (cmul o (cmul o (cmul o (cmul o (c4 o) (q z3)) d) lam)
               (cadd o (csub o (cmul o (q z1) lam) (cmul o (q z2) d)) (q z3))) in
  cmul o (csqrt o det) (csqrt o det) = det ->
  csub o z2 z1 <> c0 o -> csub o z3 z1 <> c0 o ->
  (if mlt o (cabs o (csub o g (csqrt o det))) (cabs o (cadd o g (csqrt o det)))
   then cadd o g (csqrt o det) else csub o g (csqrt o det)) <> c0 o ->
  q (muller_next o z1 z2 z3 (q z1) (q z2) (q z3)) = c0 o.
Proof. intros C M o a b c z1 z2 z3 F. apply muller_exact. exact F. Qed.
Print Assumptions muller_step_exact_on_quadratics.

(** Non-vacuity: the rationals, z^2 - 1 and the starting points 0, 2, 3. *)
Definition qc (z : Z) : Qc := Q2Qc (inject_Z z).
Definition qsqrt (x : Qc) : Qc := Q2Qc (Qmake (Z.sqrt (Qnum (this x))) (Pos.sqrt (Qden (this x)))).
Definition qltb (x y : Qc) : bool := match Qccompare x y with Lt => true | _ => false end.
Definition qabs (x : Qc) : Qc := if qltb x (qc 0) then Qcopp x else x.
Definition qops : cops Qc Qc := COps (qc 0) (qc 1) Qcplus Qcminus Qcmult Qcdiv Qcopp qsqrt qabs qltb
  (Q2Qc (1 # 100000)) (fun _ => false).
Definition qf (z : Qc) : Qc := Qcminus (Qcmult z z) (qc 1).
Example qops_field : is_field qops.
Proof.
  unfold is_field. simpl. constructor.
  - exact Qcrt.
  - discriminate.
  - intros x y. change (qc 1) with 1%Qc. unfold Qcdiv. rewrite Qcmult_1_l. reflexivity.
  - intros x H. change (qc 1) with 1%Qc. unfold Qcdiv. rewrite Qcmult_1_l. apply Qcmult_inv_l. exact H.
Qed.
Example qops_nan : nan_poisons qops.
Proof. intros z H. discriminate. Qed.
Example muller_run : fst (muller qops qf 100 (qc 1) (qc 0, qc 2, qc 3)) = Ok (qc 1, 2).
Proof. vm_compute. reflexivity. Qed.
Example muller_run_fails : fst (muller qops (fun z => Qcplus z z) 1 (qc 1) (qc 1, qc 2, qc 3)) = Err RuntimeError.
Proof. vm_compute. reflexivity. Qed.
Example deflate_run : match muller_deflate qops qf 2 100 (Q2Qc (1 # 10)) (fun _ => (qc 0, qc 2, qc 3)) with
  | Ok (rs, _, _) => rs | Err _ => [] end = [qc 1; qc (-1)].
Proof. vm_compute. reflexivity. Qed.
