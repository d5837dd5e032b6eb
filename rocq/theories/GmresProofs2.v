From Verif Require Import Base GmresModel GmresSpec GmresProofs.
Set Implicit Arguments.

Section P.
Variables V K N : Type.
Variable vo : vops V K.
Variable no : nops N.
Variable A : V -> V.
Variable dot : V -> V -> K.
Variable norm : V -> N.
Variable inv : N -> K.
Variable a : gargs N.
Variable b : V.
Variable c0 : nat.   (* 1 if an initial guess is given *)

Notation loop := (loop vo no A dot norm inv).
Notation update := (update vo A dot norm inv).
Notation check := (check vo A norm).
Notation trip := (trip vo dot norm inv).
Notation classify := (classify no a (norm b)).

(** [P] is kept by building a new direction. *)
Variable P : V -> V -> Prop.
(** [Q x r]: what holds of iterate and tracked residual. *)
Variable Q : V -> V -> Prop.
Hypothesis HP : forall Ae e oc r, filled Ae e oc P ->
  exists w1 rp1 w2 rp2, trip Ae e oc (A r) r = Ok (w1, rp1) /\
     trip Ae e oc w1 rp1 = Ok (w2, rp2) /\ P w2 rp2.
Hypothesis HQ0 : forall x, Q x (vsub vo b (A x)).
Hypothesis HQ1 : forall Ae e oc x r w1 rp1 w2 rp2, filled Ae e oc P ->
  trip Ae e oc (A r) r = Ok (w1, rp1) -> trip Ae e oc w1 rp1 = Ok (w2, rp2) -> P w2 rp2 ->
  Q x r -> Q (vadd vo x (vscale vo (dot w2 r) rp2)) (vsub vo r (vscale vo (dot w2 r) w2)).
(** [M r r']: what holds of consecutive residuals. *)
Variable M : V -> V -> Prop.
Hypothesis HM : forall Ae e oc x r w1 rp1 w2 rp2, filled Ae e oc P ->
  trip Ae e oc (A r) r = Ok (w1, rp1) -> trip Ae e oc w1 rp1 = Ok (w2, rp2) -> P w2 rp2 ->
  Q x r -> M r (vsub vo r (vscale vo (dot w2 r) w2)) /\
           M r (vsub vo b (A (vadd vo x (vscale vo (dot w2 r) rp2)))).

Record linv (it : nat) (st : gst V N) : Prop := {
  l_inv0 : inv0 a P st;
  l_len : length (g_norms st) = it;
  l_norms : g_norms st = map norm (map snd (g_seen st));
  l_seen : Forall (fun p => Q (fst p) (snd p)) (g_seen st);
  l_last : g_last st = match rev (g_norms st) with [] => None | n :: _ => Some n end;
  l_chain : forall pre p q post, g_seen st = pre ++ p :: q :: post -> M (snd p) (snd q);
  l_next : forall pre p, g_seen st = pre ++ [p] ->
     M (snd p) (if g_recalc st then vsub vo b (A (g_x st)) else g_r st);
  l_r : g_recalc st = false -> Q (g_x st) (g_r st);
  l_on : forall n, n <= length (g_norms st) -> classify (firstn n (g_norms st)) = None;
  l_calls : g_calls st + (if g_recalc st then 1 else 0) = it + it / 10 + c0 }.

(** What is known at the end. *)
Record lout (out : goutcome V N) (st : gst V N) : Prop := {
  o_norms : g_norms st = map norm (map snd (g_seen st));
  o_seen : Forall (fun p => Q (fst p) (snd p)) (g_seen st);
  o_chain : forall pre p q post, g_seen st = pre ++ p :: q :: post -> M (snd p) (snd q);
  o_on : went_on no a (norm b) (g_norms st);
  o_len : length (g_norms st) <= a_maxiter a;
  o_calls : g_calls st <= a_maxiter a + a_maxiter a / 10 + c0;
  o_final : match out with
    | GReturn res =>
        residual_norms res = g_norms st /\ solution res = g_x st /\
        (success res = true <-> state res = GSuccess) /\
        (success res = false -> a_hard a = false) /\
        match classify (g_norms st) with
        | Some s => state res = s /\ length (g_norms st) = S (iteration_count res) /\
                    exists r, last (g_seen st) (solution res, r) = (solution res, r)
                              /\ g_seen st <> [] /\ last (g_norms st) (norm r) = norm r
        | None => state res = GMaxIter /\ length (g_norms st) = a_maxiter a /\
                  iteration_count res = a_maxiter a - 1
        end
    | GMRESError s =>
        a_hard a = true /\ s <> GSuccess /\
        match classify (g_norms st) with
        | Some s' => s = s'
        | None => s = GMaxIter /\ length (g_norms st) = a_maxiter a
        end
    | GCrash e => e = IndexError /\ a_restart a = 0 /\ length (g_norms st) = 1 /\
                  classify (g_norms st) = None
    end }.

Lemma rev_nth_err (h : list N) nr n (d : N) : 1 <= n -> n <= length (h ++ [nr]) ->
  nth_error (rev (h ++ [nr])) (n - 1) = nth_error (h ++ [nr]) (length (h ++ [nr]) - n).
Proof.
  intros H1 H2. set (l := h ++ [nr]) in *.
  assert (L : length (rev l) = length l) by apply rev_length.
  rewrite (nth_error_nth' (rev l) d) by lia. rewrite (nth_error_nth' l d) by lia.
  f_equal. rewrite rev_nth by lia. f_equal. lia.
Qed.

Lemma stall_eq h nr : stall_test no a (h ++ [nr]) nr = no_progress no a (h ++ [nr]) nr.
Proof.
  unfold stall_test, no_progress.
  destruct (a_stall a) as [|n] eqn:E; [reflexivity|].
  change (negb (S n =? 0)) with true. change (0 <? S n) with true. cbn [andb].
  destruct (Nat.ltb_spec (S n) (length (h ++ [nr]))) as [H|H]; [|reflexivity].
  cbn [andb]. rewrite (@rev_nth_err h nr (S n) nr) by lia. reflexivity.
Qed.

Lemma last_app_ (A0 : Type) (l : list A0) x d : last (l ++ [x]) d = x.
Proof. induction l as [|y l IH]; [reflexivity|]. simpl. rewrite IH. destruct l; reflexivity. Qed.

Lemma div10 it : S it / 10 = it / 10 + (if Nat.eqb (S it mod 10) 0 then 1 else 0).
Proof.
  pose proof (Nat.div_mod it 10). pose proof (Nat.mod_upper_bound it 10).
  pose proof (Nat.div_mod (S it) 10). pose proof (Nat.mod_upper_bound (S it) 10).
  destruct (Nat.eqb_spec (S it mod 10) 0); lia.
Qed.

Lemma check_eq st oc st1 : check a b st = (oc, st1) ->
  g_x st1 = g_x st /\ g_r st1 = (if g_recalc st then vsub vo b (A (g_x st)) else g_r st) /\
  g_recalc st1 = g_recalc st /\ g_last st1 = g_last st /\
  g_norms st1 = g_norms st ++ [norm (g_r st1)] /\ g_seen st1 = g_seen st ++ [(g_x st, g_r st1)] /\
  g_calls st1 = g_calls st + (if g_recalc st then 1 else 0).
Proof.
  unfold GmresModel.check. intros H.
  destruct (Nat.eqb (g_k st) (a_restart a)); destruct (g_recalc st); injection H; intros; subst; simpl;
    repeat split; auto; lia.
Qed.

Lemma loop_out : forall fuel it st out st', linv it st -> it + fuel = a_maxiter a ->
  (0 < it -> 0 < a_restart a) ->
  loop a b (norm b) fuel it st = (out, st') -> lout out st'.
Proof.
  induction fuel as [|fuel IH]; intros it st out st' HI Hm Hr.
  - simpl. intros H. injection H; intros <- <-; clear H.
    destruct HI as [I0 I1 I2 I3 I4 IC IN I5 I6 I7].
    assert (D : a_maxiter a = it) by lia.
    split; auto; try lia.
    + intros n Hn. apply I6. lia.
    + rewrite D. lia.
    + assert (C : classify (g_norms st) = None)
        by (rewrite <- (firstn_all (g_norms st)); apply I6; lia).
      unfold fail. destruct (a_hard a) eqn:Ha; rewrite C; simpl; repeat split; auto; try lia; congruence.
  - cbn [GmresModel.loop]. destruct (check a b st) as [oc st1] eqn:Ec.
    destruct (@check_inv0 V K N vo A norm a b P st oc st1 (l_inv0 HI) Ec) as (L1 & L2 & HF & Hk & Hk1 & Hk0).
    destruct (check_eq _ Ec) as (X & R & RC & LL & NN & SS & CC).
    set (nr := norm (g_r st1)) in *.
    pose proof HI as [I0 I1 I2 I3 I4 IC IN I5 I6 I7].
    assert (HQr : Q (g_x st1) (g_r st1)).
    { rewrite R, X. destruct (g_recalc st) eqn:Er; [apply HQ0|apply I5; reflexivity]. }
    assert (Hon : went_on no a (norm b) (g_norms st1)).
    { intros n Hn. rewrite NN, app_length in Hn. simpl in Hn. rewrite NN, firstn_app.
      replace (n - length (g_norms st)) with 0 by lia. simpl. rewrite app_nil_r. apply I6. lia. }
    assert (Hmap : g_norms st1 = map norm (map snd (g_seen st1))).
    { rewrite NN, SS, !map_app, <- I2. reflexivity. }
    assert (Hseen : Forall (fun p => Q (fst p) (snd p)) (g_seen st1)).
    { rewrite SS. apply Forall_app. split; [exact I3|]. constructor; [|constructor]. simpl.
      rewrite <- X. exact HQr. }
    assert (Hchain : forall pre p q post, g_seen st1 = pre ++ p :: q :: post -> M (snd p) (snd q)).
    { intros pre p q post. rewrite SS. intros E.
      destruct (@exists_last _ (q :: post) ltac:(discriminate)) as (post' & z & Ez).
      rewrite Ez in E.
      replace (pre ++ p :: post' ++ [z]) with ((pre ++ p :: post') ++ [z]) in E
        by (rewrite <- app_assoc; reflexivity).
      apply app_inj_tail in E. destruct E as [E Ezz].
      destruct post' as [|q' post'].
      - simpl in Ez. injection Ez; intros; subst z q. cbn [snd]. rewrite R. apply (IN _ _ E).
      - simpl in Ez. injection Ez; intros; subst q'. apply (IC pre p q post'). exact E. }
    assert (Hlen : length (g_norms st1) = S it) by (rewrite NN, app_length; simpl; lia).
    assert (Hcalls : g_calls st1 <= a_maxiter a + a_maxiter a / 10 + c0).
    { rewrite CC, I7. assert (it / 10 <= a_maxiter a / 10) by (apply Nat.div_le_mono; lia). lia. }
    (* the classification of the new history *)
    assert (Hcl : classify (g_norms st1) =
      if nltb no nr (nmul no (a_tol a) (norm b)) || niszero no nr then Some GSuccess
      else if (match g_last st1 with None => false | Some l => nltb no (nmul no (n125 no) l) nr end) && a_mono a
      then Some GNonMonotonic
      else if (match g_last st1 with None => false | Some _ => stall_test no a (g_norms st1) nr end)
      then Some GStalled else None).
    { unfold GmresSpec.classify. rewrite NN at 1. rewrite rev_app_distr. cbn [rev app].
      fold nr. unfold converged.
      destruct (nltb no nr (nmul no (a_tol a) (norm b)) || niszero no nr); [reflexivity|].
      rewrite LL, I4. destruct (rev (g_norms st)) as [|prev rest]; [reflexivity|].
      unfold grew. rewrite (andb_comm (nltb _ _ _)).
      destruct (a_mono a && _); [reflexivity|].
      rewrite NN, stall_eq. reflexivity. }
    assert (Hlast : exists r, last (g_seen st1) (g_x st1, r) = (g_x st1, r)
                              /\ g_seen st1 <> [] /\ last (g_norms st1) (norm r) = norm r).
    { exists (g_r st1). rewrite SS, NN, !last_app_, X. repeat split.
      intros E. destruct (g_seen st); discriminate E. }
    assert (Hfail : forall s, s <> GSuccess -> classify (g_norms st1) = Some s -> lout (fail a st1 it s) st1).
    { intros s Hs C. split; auto; try lia. unfold fail.
      destruct (a_hard a) eqn:Ha; rewrite C; simpl; repeat split; auto; try congruence; try lia. }
    destruct (nltb no nr (nmul no (a_tol a) (norm b)) || niszero no nr) eqn:Ecv.
    { intros H. injection H; intros <- <-; clear H. split; auto; try lia.
      rewrite Hcl. simpl. repeat split; auto; try congruence. }
    destruct ((match g_last st1 with None => false | Some l => nltb no (nmul no (n125 no) l) nr end) && a_mono a) eqn:Eg.
    { intros H. injection H; intros <- <-. apply Hfail; [discriminate|exact Hcl]. }
    destruct (match g_last st1 with None => false | Some _ => stall_test no a (g_norms st1) nr end) eqn:Es.
    { intros H. injection H; intros <- <-. apply Hfail; [discriminate|exact Hcl]. }
    match goal with |- context [update ?s _ _ _] => set (st2 := s) end.
    destruct (HP (g_r st2) HF) as (w1 & rp1 & w2 & rp2 & T1 & T2 & PP).
    assert (Hex : exists w1 rp1 w2 rp2, trip (g_Ae st2) (g_e st2) oc (A (g_r st2)) (g_r st2) = Ok (w1, rp1) /\
       trip (g_Ae st2) (g_e st2) oc w1 rp1 = Ok (w2, rp2) /\ P w2 rp2) by (exists w1, rp1, w2, rp2; auto).
    destruct (@update_shape V K N vo A dot norm inv a P st2 oc nr (Nat.eqb (S it mod 10) 0)
      L1 L2 HF Hex Hk) as [U1 U2].
    destruct (Nat.eq_dec (a_restart a) 0) as [R0|R0].
    + rewrite U2 by (rewrite R0; lia). intros H. injection H; intros <- <-; clear H.
      assert (it = 0) by (destruct it; [reflexivity|exfalso; lia]). subst it.
      unfold st2. split; simpl; auto; try lia. rewrite Hlen. auto.
    + destruct (U1 ltac:(simpl; apply Hk1; lia)) as (v & q & st3 & E3 & PV & J0 & (v1 & q1 & TT1 & TT2) &
        X3 & R3 & RC3 & La3 & N3 & S3 & C3 & W3). clear U1 U2.
      rewrite E3. intros H. apply (IH (S it) st3 out st'); [|lia|lia|exact H]. clear H IH.
      cbn [g_x g_r g_norms g_seen g_calls st2] in X3, R3, N3, S3, C3.
      split; auto.
      * rewrite N3. exact Hlen.
      * rewrite N3, S3. exact Hmap.
      * rewrite S3. exact Hseen.
      * rewrite La3, N3, NN, rev_app_distr. reflexivity.
      * rewrite S3. exact Hchain.
      * intros pre p. rewrite S3, SS. intros E. apply app_inj_tail in E. destruct E as [_ <-].
        cbn [snd]. rewrite RC3, R3, X3.
        edestruct HM as [M1 M2]; [exact HF|exact TT1|exact TT2|exact PV|exact HQr|].
        destruct (Nat.eqb (S it mod 10) 0); assumption.
      * intros Hrc. rewrite RC3 in Hrc. rewrite Hrc in R3. rewrite X3, R3.
        eapply HQ1; [exact HF|exact TT1|exact TT2|exact PV|exact HQr].
      * intros n Hn. rewrite N3 in Hn |- *. destruct (Nat.eq_dec n (length (g_norms st1))) as [->|Hne].
        -- rewrite firstn_all. exact Hcl.
        -- apply Hon. lia.
      * rewrite C3, RC3, CC, div10. lia.
Qed.

End P.
