From Verif Require Import Base GmresModel GmresSpec GmresProofs GmresProofs2.

Set Implicit Arguments.

Section P.
Variables V K N : Type.
Variable vo : vops V K.
Variable no : nops N.
Variable A : V -> V.
Variable dot : V -> V -> K.
Variable norm : V -> N.
Variable inv : N -> K.
Variable a : gargs N.
Variable b : V.

Definition gcalls0 (x0 : option V) : nat := match x0 with None => 0 | Some _ => 1 end.

Lemma filled0 P (st : gst V N) : g_k st = 0 -> filled (g_Ae st) (g_e st) (g_k st) P.
Proof. intros ->. intros j Hj. lia. Qed.

Lemma init_inv (P Q M : V -> V -> Prop) x0 : Q (vscale vo (kzero vo) b) b ->
  linv vo no A norm a b (gcalls0 x0) P Q M 0 (ginit vo a b x0).
Proof.
  intros HQ. destruct x0 as [x|]; simpl; split; simpl; auto; try discriminate.
  all: try (split; simpl; rewrite ?repeat_length; auto; try lia; intros j Hj; lia).
  all: try (intros pre p; destruct pre; discriminate).
  all: try (intros pre p q post; destruct pre; discriminate).
  all: intros n Hn; destruct n; reflexivity.
Qed.

Lemma run_any x0 out st : gmres_run vo no A dot norm inv a b x0 = (out, st) ->
  lout no norm a b (gcalls0 x0) (fun _ _ => True) (fun _ _ => True) out st.
Proof.
  intros H. eapply (@loop_out V K N vo no A dot norm inv a b (gcalls0 x0) (@anyp V)
    (fun _ _ => True)) with (it := 0); try exact H; auto; try lia.
  - intros Ae e oc r HF.
    destruct (@trip_any V K N vo dot norm inv Ae e oc HF (A r) r) as (w1 & q1 & T1).
    destruct (@trip_any V K N vo dot norm inv Ae e oc HF w1 q1) as (w2 & q2 & T2).
    exists w1, q1, w2, q2. unfold anyp. auto.
  - apply init_inv. exact I.
Qed.

Section Lin.
Variable vs : vspace vo.
Hypothesis HA : GmresSpec.linear vo A.
Definition resid (x r : V) : Prop := r = vsub vo b (A x).

Lemma HP_lin Ae e oc r : filled Ae e oc (img A) ->
  exists w1 rp1 w2 rp2, trip vo dot norm inv Ae e oc (A r) r = Ok (w1, rp1) /\
     trip vo dot norm inv Ae e oc w1 rp1 = Ok (w2, rp2) /\ img A w2 rp2.
Proof.
  intros HF.
  destruct (@trip_img V K N vo A dot norm inv vs HA Ae e oc HF (A r) r eq_refl) as (w1 & q1 & T1 & I1).
  destruct (@trip_img V K N vo A dot norm inv vs HA Ae e oc HF w1 q1 I1) as (w2 & q2 & T2 & I2).
  exists w1, q1, w2, q2. auto.
Qed.
Lemma HQ_lin x r w2 rp2 : img A w2 rp2 -> resid x r ->
  resid (vadd vo x (vscale vo (dot w2 r) rp2)) (vsub vo r (vscale vo (dot w2 r) w2)).
Proof.
  unfold img, resid. intros Hi Hr. generalize (dot w2 r). intros d. rewrite Hi, Hr.
  apply (sub_update vs HA).
Qed.

Lemma run_lin (M : V -> V -> Prop) x0 out st :
  (forall r w, (exists w' , w = vscale vo (inv (norm w')) w') ->
     M r (vsub vo r (vscale vo (dot w r) w))) ->
  gmres_run vo no A dot norm inv a b x0 = (out, st) ->
  lout no norm a b (gcalls0 x0) resid M out st.
Proof.
  intros HM H. eapply (@loop_out V K N vo no A dot norm inv a b (gcalls0 x0) (img A) resid)
    with (it := 0); try exact H; auto; try lia.
  - intros Ae e oc r HF. apply HP_lin. exact HF.
  - intros x. reflexivity.
  - intros. apply HQ_lin; assumption.
  - intros Ae e oc x r w1 rp1 w2 rp2 HF T1 T2 HI HR.
    assert (Hd : M r (vsub vo r (vscale vo (dot w2 r) w2))).
    { apply HM. unfold trip in T2. destruct (orth vo dot Ae e (seq 0 oc) w1 rp1) as [[w' q']|]; [|discriminate].
      simpl in T2. injection T2; intros. exists w'. auto. }
    split; [exact Hd|].
    pose proof (HQ_lin HI HR) as E. unfold resid in E. rewrite <- E. exact Hd.
  - apply init_inv. unfold resid. apply (A_init vs HA).
Qed.
End Lin.
End P.

(** The first iterate checked is the initial guess. *)
Lemma check_first (V K N : Type) (vo : vops V K) A (norm : V -> N) a b st :
  exists r, g_seen (snd (check vo A norm a b st)) = g_seen st ++ [(g_x st, r)].
Proof.
  unfold check. destruct (Nat.eqb _ _), (g_recalc st); simpl; eauto.
Qed.

Lemma loop_seen_grows (V K N : Type) (vo : vops V K) (no : nops N) A dot norm inv a b nb : forall fuel it st,
  exists l, g_seen (snd (loop vo no A dot norm inv a b nb fuel it st)) = g_seen st ++ l /\
  (0 < fuel -> exists r l', l = (g_x st, r) :: l').
Proof.
  induction fuel as [|fuel IH]; intros it st.
  - exists []. simpl. rewrite app_nil_r. split; [reflexivity|lia].
  - cbn [loop]. destruct (check_first vo A norm a b st) as [r Hr].
    destruct (check vo A norm a b st) as [oc st1]. cbn [snd] in Hr.
    assert (B : exists l, g_seen st1 = g_seen st ++ l /\ (0 < S fuel -> exists r l', l = (g_x st, r) :: l')).
    { exists [(g_x st, r)]. split; [exact Hr|]. intros _. exists r, []. reflexivity. }
    destruct (_ || _); [exact B|]. destruct (_ && _); [exact B|].
    destruct (match g_last st1 with None => _ | _ => _ end); [exact B|].
    match goal with |- context [update _ _ _ _ _ ?s ?o ?n ?r] =>
      assert (U : forall st3, update vo A dot norm inv s o n r = Ok st3 -> g_seen st3 = g_seen st1);
      [|destruct (update vo A dot norm inv s o n r) as [st3|] eqn:E] end.
    { intros st3. unfold update. simpl.
      destruct (trip vo dot norm inv _ _ _ _ _) as [[w1 q1]|]; [|discriminate]. simpl.
      destruct (trip vo dot norm inv _ _ _ w1 q1) as [[w2 q2]|]; [|discriminate]. simpl.
      destruct (wr _ _ w2); [|discriminate]. simpl. destruct (wr _ _ q2); [|discriminate]. simpl.
      intros H. injection H; intros <-. reflexivity. }
    + destruct (IH (S it) st3) as (l & Hl & _). rewrite Hl, (U _ eq_refl), Hr, <- app_assoc.
      exists ((g_x st, r) :: l). split; [reflexivity|]. eauto.
    + exact B.
Qed.

From Coq Require Import Reals Lra.
(** ** Real inner products *)
Section RealIP.
Variable V : Type.
Variable vo : vops V R.
Variable vs : vspace vo.
Variable dot : V -> V -> R.
Hypothesis dot_add : forall u v w, dot (vadd vo u v) w = (dot u w + dot v w)%R.
Hypothesis dot_scale : forall c u w, dot (vscale vo c u) w = (c * dot u w)%R.
Hypothesis dot_sym : forall u w, dot u w = dot w u.
Hypothesis dot_pos : forall u, (0 <= dot u u)%R.

Definition rnorm (x : V) : R := sqrt (Rabs (dot x x)).

Lemma dot_zero w : dot (vzero vs) w = 0%R.
Proof.
  pose proof (dot_add (vzero vs) (vzero vs) w) as H. rewrite (add_zero vs) in H. lra.
Qed.
Lemma dot_opp u w : dot (vopp vs u) w = (- dot u w)%R.
Proof.
  pose proof (dot_add u (vopp vs u) w) as H. rewrite (add_opp vs), dot_zero in H. lra.
Qed.
Lemma dot_sub u v w : dot (vsub vo u v) w = (dot u w - dot v w)%R.
Proof. rewrite (sub_def vs), dot_add, dot_opp. lra. Qed.

Lemma dot_expand r w d :
  dot (vsub vo r (vscale vo d w)) (vsub vo r (vscale vo d w))
  = (dot r r - 2 * d * dot w r + d * d * dot w w)%R.
Proof.
  rewrite dot_sub, (dot_sym r (vsub vo _ _)), dot_sub, (dot_sym (vscale vo d w) (vsub vo _ _)), dot_sub.
  rewrite !dot_scale, (dot_sym r (vscale vo d w)), (dot_sym w (vscale vo d w)), !dot_scale. ring.
Qed.

Lemma cs0 w r : dot w w = 0%R -> dot w r = 0%R.
Proof.
  intros H. destruct (Req_dec (dot w r) 0) as [E|E]; [exact E|exfalso].
  pose proof (dot_pos (vsub vo r (vscale vo ((dot r r + 1) / (2 * dot w r))%R w))) as H1.
  rewrite dot_expand, H in H1.
  replace (2 * ((dot r r + 1) / (2 * dot w r)) * dot w r)%R with (dot r r + 1)%R in H1 by (field; exact E).
  lra.
Qed.

Lemma step_shrinks r w' :
  let w := vscale vo (/ rnorm w')%R w' in
  (rnorm (vsub vo r (vscale vo (dot w r) w)) <= rnorm r)%R.
Proof.
  intros w. unfold rnorm at 1 2. rewrite !Rabs_pos_eq by apply dot_pos. apply sqrt_le_1_alt.
  rewrite dot_expand.
  destruct (Req_dec (dot w' w') 0) as [E|E].
  - assert (Hw : dot w r = 0%R) by (unfold w; rewrite dot_scale, (@cs0 w' r E); lra).
    rewrite Hw. lra.
  - assert (Hww : dot w w = 1%R).
    { unfold w. rewrite dot_scale, (dot_sym w'), dot_scale. unfold rnorm.
      rewrite Rabs_pos_eq by apply dot_pos.
      assert (Hs : (sqrt (dot w' w') * sqrt (dot w' w') = dot w' w')%R) by (apply sqrt_sqrt, dot_pos).
      assert (Hn : sqrt (dot w' w') <> 0%R) by (intros Z; rewrite Z in Hs; lra).
      rewrite <- Hs at 3. field. exact Hn. }
    rewrite Hww. pose proof (Rle_0_sqr (dot w r)) as S0. unfold Rsqr in S0. lra.
Qed.
End RealIP.
