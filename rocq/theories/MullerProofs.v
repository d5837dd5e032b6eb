From Verif Require Import Base MullerModel MullerSpec.
From Coq Require Import Field.
Set Implicit Arguments.

Section P.
Variables C M : Type.
Variable o : cops C M.

Lemma stop_test_iff tol z2 z3 : stop_test o tol z2 z3 = true <-> close_enough o tol z2 z3.
Proof.
  unfold stop_test, close_enough. destruct (mlt o (cabs o z3) (m14 o)); intuition congruence.
Qed.

Lemma muller_loop_spec f maxiter tol : forall fuel niter z1 z2 z3 ev r evs,
  muller_loop o f maxiter tol fuel niter z1 z2 z3 (f z1) (f z2) (f z3) ev = (r, evs) ->
  maxiter <= niter + fuel ->
  length ev = niter + 3 -> last ev z3 = z3 -> niter < maxiter \/ niter = 0 ->
  (length evs <= Nat.max (maxiter + 2) 3) /\ incl ev evs /\
  match r with
  | Ok (z, n) => n < maxiter /\ length evs = n + 3 /\
      (exists old, close_enough o tol old z /\
         exists evs', evs = evs' ++ [z] /\ last evs' old = old /\ (length evs' >= 3))
  | Err e => e = RuntimeError \/ fuel = 0
  end.
Proof.
  induction fuel as [|fuel IH]; intros niter z1 z2 z3 ev r evs H Hf Hl Hla Hn.
  - simpl in H. injection H; intros <- <-. repeat split; auto; try lia. apply incl_refl.
  - cbn [muller_loop] in H. destruct (Nat.leb_spec maxiter (S niter)) as [L|L].
    { injection H; intros <- <-. repeat split; auto; try lia. apply incl_refl. }
    set (z := muller_next o z1 z2 z3 (f z1) (f z2) (f z3)) in *.
    destruct (stop_test o tol z3 z) eqn:Es.
    + injection H; intros <- <-. rewrite app_length. simpl. repeat split; auto; try lia.
      * apply incl_appl, incl_refl.
      * exists z3. split; [apply stop_test_iff; exact Es|].
        exists ev. repeat split; auto. lia.
    + destruct (IH (S niter) z2 z3 z (ev ++ [z]) r evs H) as (B1 & B2 & B3); auto; try lia.
      * rewrite app_length. simpl. lia.
      * clear. induction ev as [|x ev IH]; [reflexivity|]. simpl. rewrite IH. destruct ev; reflexivity.
      * repeat split; auto.
        -- intros x Hx. apply B2. apply in_or_app. left. exact Hx.
        -- destruct r as [[zz n]|e].
           ++ destruct B3 as (B3 & B4 & old & B5). repeat split; auto.
              exists old. auto.
           ++ destruct B3 as [B3|B3]; [left; exact B3|].
              subst fuel. simpl in H. exfalso. lia.
Qed.

Lemma muller_spec f maxiter tol zs r evs : muller o f maxiter tol zs = (r, evs) ->
  length evs <= maxiter + 3 /\
  match r with
  | Ok (z, n) => n < maxiter /\ length evs = n + 3 /\
      exists evs' old, evs = evs' ++ [z] /\ last evs' old = old /\ evs' <> [] /\ close_enough o tol old z
  | Err e => e = RuntimeError
  end.
Proof.
  destruct zs as [[z1 z2] z3]. intros H. unfold muller in H.
  pose proof H as H'.
  apply muller_loop_spec in H; auto; try lia.
  destruct H as (B1 & B2 & B3). split; [lia|]. destruct r as [[z n]|e].
  - destruct B3 as (B3 & B4 & old & B5 & evs' & B6 & B7 & B8).
    repeat split; auto. exists evs', old. repeat split; auto.
    intros ->. simpl in B8. lia.
  - destruct B3 as [B3|B3]; [exact B3|discriminate].
Qed.

Lemma muller_not_nan f maxiter tol zs z n : nan_poisons o ->
  fst (muller o f maxiter tol zs) = Ok (z, n) -> cnan o z = false.
Proof.
  intros HN H. destruct (muller o f maxiter tol zs) as [r evs] eqn:E. simpl in H. subst r.
  apply muller_spec in E. destruct E as (_ & _ & _ & evs' & old & _ & _ & _ & Hc).
  destruct (cnan o z) eqn:En; [|reflexivity]. destruct (HN z En) as [N1 N2].
  destruct Hc as [[Hc _]|[_ Hc]]; [congruence|]. rewrite N2 in Hc. discriminate.
Qed.

Lemma retry_dead f maxiter eps zs left used prev r n :
  cnan o r = false -> n < maxiter ->
  retry o f maxiter eps zs left used prev r n = Ok (r, n, used).
Proof.
  intros H1 H2. destruct left; [reflexivity|]. simpl. rewrite H1.
  destruct (Nat.eqb_spec n maxiter); [lia|]. reflexivity.
Qed.

Lemma deflate_spec f maxiter eps zs : nan_poisons o ->
  forall n used roots niter rs ks u,
  deflate o f maxiter eps zs n used roots niter = Ok (rs, ks, u) ->
  u = used + n /\ exists new nk, rs = roots ++ new /\ ks = niter ++ nk /\ length new = n /\ length nk = n /\
  forall i r k, nth_error new i = Some r -> nth_error nk i = Some k ->
    cnan o r = false /\
    fst (muller o (f_deflated o f (roots ++ firstn i new)) maxiter eps (zs (used + i))) = Ok (r, k).
Proof.
  intros HN. induction n as [|n IH]; intros used roots niter rs ks u H.
  - simpl in H. injection H; intros <- <- <-. split; [lia|]. exists [], [].
    rewrite !app_nil_r. repeat split; auto; destruct i; discriminate.
  - cbn [deflate] in H.
    destruct (fst (muller o (f_deflated o f roots) maxiter eps (zs used))) as [[r k]|] eqn:Em; [|discriminate].
    cbn [bind] in H.
    assert (N1 : cnan o r = false) by (eapply muller_not_nan; eauto).
    assert (N2 : k < maxiter).
    { destruct (muller o (f_deflated o f roots) maxiter eps (zs used)) as [r0 ev] eqn:E.
      simpl in Em. subst r0. apply muller_spec in E. tauto. }
    rewrite retry_dead in H by assumption. cbn [bind] in H.
    apply IH in H. destruct H as (Hu & new & nk & -> & -> & L1 & L2 & HH). split; [lia|].
    exists (r :: new), (k :: nk). rewrite <- !app_assoc. simpl. repeat split; auto; try lia.
    + destruct i as [|i]; simpl in *; [congruence|]. apply (HH i r0 k0 H H0).
    + destruct i as [|i]; simpl in *.
      * injection H; injection H0; intros; subst. rewrite app_nil_r, Nat.add_0_r. exact Em.
      * destruct (HH i r0 k0 H H0) as [_ E]. rewrite <- app_assoc in E. simpl in E.
        replace (used + S i) with (S used + i) by lia. exact E.
Qed.

Lemma deflate_raises f maxiter eps zs : nan_poisons o ->
  forall n used roots niter e,
  deflate o f maxiter eps zs n used roots niter = Err e -> e = RuntimeError.
Proof.
  intros HN. induction n as [|n IH]; intros used roots niter e H; [discriminate|].
  cbn [deflate] in H.
  destruct (muller o (f_deflated o f roots) maxiter eps (zs used)) as [r0 ev] eqn:E.
  cbn [fst] in H. pose proof (muller_spec _ _ _ _ E) as S. destruct r0 as [[r k]|e'].
  - cbn [bind] in H. rewrite retry_dead in H; [|eapply muller_not_nan; [exact HN|rewrite E; reflexivity]|tauto].
    cbn [bind] in H. apply IH in H. exact H.
  - simpl in H. destruct S as [_ S]. congruence.
Qed.

Section Field.
Hypothesis F : is_field o.
Lemma F' : field_theory (c0 o) (c1 o) (cadd o) (cmul o) (csub o) (copp o) (cdiv o)
  (fun x => cdiv o (c1 o) x) eq.
Proof. exact F. Qed.
Add Field FF : F'.

Lemma deflated_product f roots z : (forall r, In r roots -> csub o z r <> c0 o) ->
  cmul o (f_deflated o f roots z) (root_product o roots z) = f z.
Proof.
  unfold f_deflated. generalize (f z) as y. induction roots as [|r roots IH]; intros y Hr; simpl.
  - ring.
  - transitivity (cmul o (csub o z r) (cmul o
      (fold_left (fun y r => cdiv o y (csub o z r)) roots (cdiv o y (csub o z r))) (root_product o roots z))).
    { ring. }
    rewrite IH by (intros; apply Hr; right; assumption). field.
    apply Hr. left. reflexivity.
Qed.

(** Muller's step is exact on quadratics. *)
Lemma muller_exact a b c z1 z2 z3 :
  let q := quadratic o a b c in
  let lam := cdiv o (csub o z3 z2) (csub o z2 z1) in
  let d := cadd o (c1 o) lam in
  let g := cadd o (csub o (cmul o (cmul o (q z1) lam) lam) (cmul o (cmul o (q z2) d) d))
                  (cmul o (q z3) (cadd o (c1 o) (cmul o (c2 o) lam))) in
  let det := csub o (cmul o g g) (cmul o (cmul o (cmul o (cmul o (c4 o) (q z3)) d) lam)
               (cadd o (csub o (cmul o (q z1) lam) (cmul o (q z2) d)) (q z3))) in
  cmul o (csqrt o det) (csqrt o det) = det ->
  csub o z2 z1 <> c0 o -> csub o z3 z1 <> c0 o ->
  (if mlt o (cabs o (csub o g (csqrt o det))) (cabs o (cadd o g (csqrt o det)))
   then cadd o g (csqrt o det) else csub o g (csqrt o det)) <> c0 o ->
  q (muller_next o z1 z2 z3 (q z1) (q z2) (q z3)) = c0 o.
Proof.
  intros q lam d g det Hs H21 H31 Hp.
  assert (Hd : d <> c0 o).
  { intros E. apply H31. replace (csub o z3 z1) with (cmul o d (csub o z2 z1)).
    - rewrite E. ring.
    - unfold d, lam. field. exact H21. }
  (* along the secant direction, the quadratic is a quadratic in the step *)
  assert (Id : forall t, cmul o d (q (cadd o z3 (cmul o t (csub o z3 z2)))) =
     cadd o (cadd o (cmul o (cmul o lam (cadd o (csub o (cmul o (q z1) lam) (cmul o (q z2) d)) (q z3))) (cmul o t t))
                    (cmul o g t)) (cmul o (q z3) d)).
  { intros t. unfold g, d, lam, q, quadratic, c2. field. exact H21. }
  assert (Key : forall p, p <> c0 o ->
     (cmul o p p = cadd o (cmul o (cmul o (c2 o) g) p) (csub o det (cmul o g g))) ->
     q (cadd o z3 (cmul o (cdiv o (cmul o (cmul o (copp o (c2 o)) (q z3)) d) p) (csub o z3 z2))) = c0 o).
  { intros p Hp0 Hpp.
    assert (E : cmul o d (q (cadd o z3 (cmul o (cdiv o (cmul o (cmul o (copp o (c2 o)) (q z3)) d) p) (csub o z3 z2)))) = c0 o).
    { rewrite Id. set (A := cmul o lam (cadd o (csub o (cmul o (q z1) lam) (cmul o (q z2) d)) (q z3))).
      set (w := q z3). set (pp := cmul o p p) in *.
      assert (Hdet : csub o det (cmul o g g) = copp o (cmul o (c4 o) (cmul o w (cmul o d A)))).
      { unfold det, A, w. ring. }
      assert (Hpp2 : cadd o pp (cmul o (c4 o) (cmul o w (cmul o d A))) = cmul o (cmul o (c2 o) g) p).
      { rewrite Hpp, Hdet. ring. }
      transitivity (cdiv o (cmul o (cmul o w d) (csub o (cadd o pp (cmul o (c4 o) (cmul o w (cmul o d A)))) (cmul o (cmul o (c2 o) g) p)))
        (cmul o p p)).
      { unfold pp, c4, c2. field. exact Hp0. }
      rewrite Hpp2. field. exact Hp0. }
    transitivity (cdiv o (cmul o d (q (cadd o z3 (cmul o (cdiv o (cmul o (cmul o (copp o (c2 o)) (q z3)) d) p) (csub o z3 z2))))) d).
    { field. exact Hd. }
    rewrite E. field. exact Hd. }
  unfold muller_next. fold lam. fold d. fold g. fold det.
  destruct (mlt o _ _).
  - apply Key; [exact Hp|].
    transitivity (cadd o (cadd o (cmul o g g) (cmul o (cmul o (c2 o) g) (csqrt o det))) (cmul o (csqrt o det) (csqrt o det))).
    { unfold c2. ring. }
    rewrite Hs. unfold c2. ring.
  - apply Key; [exact Hp|].
    transitivity (cadd o (csub o (cmul o g g) (cmul o (cmul o (c2 o) g) (csqrt o det))) (cmul o (csqrt o det) (csqrt o det))).
    { unfold c2. ring. }
    rewrite Hs. unfold c2. ring.
Qed.
End Field.
End P.
