(** The invariant of the iteration in exact arithmetic. *)
From Coq Require Import Reals Lra Ring.
From Verif Require Import Base GmresModel GmresSpec GmresProofs GcrSpec GcrProofs.
Set Implicit Arguments.

Section Loop.
Variables V K N : Type.
Variable vo : vops V K.
Variable no : nops N.
Variable A : V -> V.
Variable dot : V -> V -> K.
Variable norm : V -> N.
Variable inv : N -> K.
Variable a : gargs N.
Variable b : V.
(** The part of the state the arithmetic uses. *)
Definition same_core (s t : gst V N) : Prop :=
  g_x s = g_x t /\ g_r s = g_r t /\ g_recalc s = g_recalc t /\ g_Ae s = g_Ae t /\ g_e s = g_e t /\ g_k s = g_k t /\ g_seen s = g_seen t.
Lemma loop_ind (I : gst V N -> Prop) (J : list (V * V) -> Prop) :
  (forall st oc st1, I st -> J (g_seen st) -> check vo A norm a b st = (oc, st1) -> J (g_seen st1)) ->
  (forall st oc st1 st2 nr rc st3, I st -> check vo A norm a b st = (oc, st1) -> niszero no (norm (g_r st1)) = false ->
     same_core st2 st1 -> update vo A dot norm inv st2 oc nr rc = Ok st3 -> I st3 /\ g_seen st3 = g_seen st1) ->
  forall nb fuel it st out st', I st -> J (g_seen st) -> loop vo no A dot norm inv a b nb fuel it st = (out, st') -> J (g_seen st').
Proof.
  intros HJ HI nb. induction fuel as [|fuel IH]; intros it st out st' Hi Hj H; cbn [loop] in H.
  - injection H as _ <-. exact Hj.
  - destruct (check vo A norm a b st) as [oc st1] eqn:Ec. pose proof (HJ _ _ _ Hi Hj Ec) as J1.
    destruct (nltb no (norm (g_r st1)) (nmul no (a_tol a) nb)); cbn [orb] in H; [injection H as _ <-; exact J1|].
    destruct (niszero no (norm (g_r st1))) eqn:Ez; [injection H as _ <-; exact J1|].
    match type of H with (if ?c then _ else _) = _ => destruct c; [injection H as _ <-; exact J1|] end.
    match type of H with (if ?c then _ else _) = _ => destruct c; [injection H as _ <-; exact J1|] end.
    match type of H with context [update vo A dot norm inv ?s ?o ?n ?r] => set (st2 := s) in *;
      destruct (update vo A dot norm inv st2 o n r) as [st3|] eqn:Eu end.
    + assert (X : same_core st2 st1) by (repeat split).
      match type of Eu with update _ _ _ _ _ _ ?o ?n ?r = _ => destruct (HI st oc st1 st2 n r st3 Hi Ec Ez X Eu) as [I3 S3] end.
      eapply IH; [exact I3| |exact H]. rewrite S3. exact J1.
    + injection H as _ <-. exact J1.
Qed.
End Loop.

Section G.
Variables V K : Type.
Variable sc : scalars K.
Variable vo : vops V K.
Variable vs : vspace vo.
Variable dot : V -> V -> K.
Variable q : V -> R.
Hypothesis IP : inner_product sc vo dot q.
Variable A : V -> V.
Hypothesis HA : GmresSpec.linear vo A.
Hypothesis HD : definite sc A dot q.
Variable no : nops R.
Hypothesis HC : exact_comparisons no.
Variable a : gargs R.
Variable b : V.
Notation "a +v b" := (vadd vo a b) (at level 50, left associativity).
Notation "a -v b" := (vsub vo a b) (at level 50, left associativity).
Notation "c *v b" := (vscale vo c b) (at level 40).
Notation norm := (gnorm sc dot).
Notation inv := (ginv sc).
Notation K0 := (k0 sc).
Add Ring KR : (k_ring sc).

Definition tres (x : V) : V := b -v A x.
(** What one step achieves. *)
Definition step (r r' : V) : Prop := (q r' <= q r /\ kabs2 sc (dot r (A r)) <= (q r - q r') * q (A r))%R.
Fixpoint chain (l : list V) : Prop :=
  match l with
  | r :: (r' :: _) as t => step r r' /\ chain t
  | _ => True
  end.
Lemma chain_snoc l r r' : chain (l ++ [r]) -> step r r' -> chain ((l ++ [r]) ++ [r']).
Proof.
  induction l as [|x l IH]; cbn; [auto|]. intros H S. destruct (l ++ [r]) as [|y t] eqn:E; [destruct l; discriminate|].
  cbn. destruct H as [H1 H2]. split; [exact H1|]. exact (IH H2 S).
Qed.
Lemma chain_app l r : chain (l ++ [r]) -> chain l.
Proof.
  induction l as [|x l IH]; cbn; [auto|]. destruct l as [|y t]; [auto|]. cbn. intros [H1 H2]. split; [exact H1|]. exact (IH H2).
Qed.

Record core (st : gst V R) : Prop := Core {
  c_len : length (g_Ae st) = a_restart a /\ length (g_e st) = a_restart a;
  c_k : g_k st <= a_restart a;
  c_fill : filled (g_Ae st) (g_e st) (g_k st) (img A);
  c_on : orthonormal sc dot (g_Ae st) (g_k st);
  c_perp : perp sc dot (g_Ae st) (g_k st) (tres (g_x st));
  c_r : g_recalc st = false -> g_r st = tres (g_x st);
  c_chain : chain (map snd (g_seen st) ++ [tres (g_x st)]);
  c_seen : Forall (fun p => snd p = tres (fst p)) (g_seen st);
  c_count : length (g_seen st) <= a_restart a -> g_k st = length (g_seen st) }.

Lemma check_core st oc st1 : core st -> check vo A norm a b st = (oc, st1) ->
  g_x st1 = g_x st /\ g_r st1 = tres (g_x st) /\ g_Ae st1 = g_Ae st /\ g_e st1 = g_e st
  /\ g_seen st1 = g_seen st ++ [(g_x st, tres (g_x st))] /\ oc = g_k st
  /\ g_k st1 = (if g_k st =? a_restart a then 0 else g_k st).
Proof.
  intros Hc. unfold check. pose proof (c_r Hc) as Hr.
  destruct (Nat.eqb_spec (g_k st) (a_restart a)) as [E|E]; destruct (g_recalc st); intros H; injection H as <- <-;
    cbn [g_x g_r g_Ae g_e g_seen g_k]; unfold tres; repeat split; try reflexivity; try (rewrite Hr by reflexivity; reflexivity); auto.
Qed.

(** The arithmetic of one update. *)
Lemma update_core st oc st1 st2 nr rc st3 : core st -> check vo A norm a b st = (oc, st1) -> niszero no (norm (g_r st1)) = false ->
  same_core st2 st1 -> update vo A dot norm inv st2 oc nr rc = Ok st3 ->
  let r := tres (g_x st) in
  exists w1 rp1 w2 rp2, trip vo dot norm inv (g_Ae st) (g_e st) (g_k st) (A r) r = Ok (w1, rp1)
    /\ trip vo dot norm inv (g_Ae st) (g_e st) (g_k st) w1 rp1 = Ok (w2, rp2)
    /\ perp sc dot (g_Ae st) (g_k st) w2 /\ q w2 = 1%R /\ dot r w2 <> K0
    /\ (kabs2 sc (dot r (A r)) <= kabs2 sc (dot r w2) * q (A r))%R
    /\ w2 = A rp2
    /\ tres (g_x st3) = r -v dot w2 r *v w2
    /\ g_x st3 = g_x st +v dot w2 r *v rp2
    /\ g_seen st3 = g_seen st ++ [(g_x st, r)] /\ (rc = false -> g_r st3 = tres (g_x st3)) /\ g_recalc st3 = rc
    /\ length (g_Ae st3) = a_restart a /\ length (g_e st3) = a_restart a
    /\ (let k := if g_k st =? a_restart a then 0 else g_k st in
        k < a_restart a /\ g_k st3 = S k /\ slot (g_Ae st3) k w2 /\ slot (g_e st3) k rp2
        /\ (forall i, i <> k -> nth_error (g_Ae st3) i = nth_error (g_Ae st) i /\ nth_error (g_e st3) i = nth_error (g_e st) i)).
Proof.
  intros Hc Hk Hz (E1 & E2 & E3 & E4 & E5 & E6 & E7) Hu r.
  destruct (check_core Hc Hk) as (F1 & F2 & F3 & F4 & F5 & -> & F7).
  assert (Hq : q r <> 0%R).
  { intros Z. assert (X : niszero no (norm (g_r st1)) = true); [|congruence].
    apply (proj1 (proj2 HC)). rewrite F2. fold r. rewrite (@gnorm_q V K sc vo dot q IP), Z. apply sqrt_0. }
  assert (Hn : dot r (A r) <> K0) by (intros Z; exact (Hq (HD Z))).
  unfold update in Hu. rewrite E2, E4, E5, E6, F2, F3, F4 in Hu. fold r in Hu.
  destruct (@trip_img V K R vo A dot norm inv vs HA _ _ _ (c_fill Hc) (A r) r eq_refl) as (w1 & rp1 & T1 & I1).
  rewrite T1 in Hu. cbn [bind] in Hu.
  destruct (@trip_img V K R vo A dot norm inv vs HA _ _ _ (c_fill Hc) w1 rp1 I1) as (w2 & rp2 & T2 & I2).
  rewrite T2 in Hu. cbn [bind] in Hu.
  destruct (@trip_dot V K sc vo vs dot q IP _ _ _ _ _ _ _ r (c_on Hc) (c_perp Hc) Hn T1) as (P1 & Q1 & N1 & M1).
  destruct (@trip_dot V K sc vo vs dot q IP _ _ _ _ _ _ _ r (c_on Hc) (c_perp Hc) N1 T2) as (P2 & Q2 & N2 & M2).
  exists w1, rp1, w2, rp2. split; [exact T1|]. split; [exact T2|]. split; [exact P2|]. split; [exact Q2|]. split; [exact N2|].
  split. { rewrite Q1, Rmult_1_r in M2. eapply Rle_trans; [exact M1|]. apply Rmult_le_compat_r; [apply (ip_pos IP)|exact M2]. }
  split; [exact I2|].
  destruct (wr (g_Ae st) (g_k st1) w2) as [Ae'|] eqn:W1; cbn [bind] in Hu; [|discriminate].
  destruct (wr (g_e st) (g_k st1) rp2) as [e'|] eqn:W2; cbn [bind] in Hu; [|discriminate].
  injection Hu as <-. cbn [g_x g_r g_recalc g_Ae g_e g_k g_seen]. rewrite E1, F1, E7, F5. fold r.
  assert (Hx : tres (g_x st +v dot w2 r *v rp2) = r -v dot w2 r *v w2).
  { unfold tres. rewrite <- (sub_update vs HA). unfold img in I2. rewrite <- I2. reflexivity. }
  assert (Hlt : g_k st1 < a_restart a).
  { destruct (Nat.lt_ge_cases (g_k st1) (a_restart a)) as [L|L]; [exact L|]. rewrite wr_err in W1; [discriminate|].
    rewrite (proj1 (c_len Hc)). exact L. }
  destruct (@wr_ok V (g_Ae st) (g_k st1) w2) as (Ae'' & W1' & LA & NA & OA); [rewrite (proj1 (c_len Hc)); exact Hlt|].
  destruct (@wr_ok V (g_e st) (g_k st1) rp2) as (e'' & W2' & LE & NE & OE); [rewrite (proj2 (c_len Hc)); exact Hlt|].
  assert (Ae'' = Ae') by congruence. assert (e'' = e') by congruence. subst Ae'' e''.
  split; [exact Hx|]. split; [reflexivity|]. split; [reflexivity|].
  split; [intros ->; rewrite Hx; reflexivity|]. split; [reflexivity|].
  split; [rewrite LA; apply (c_len Hc)|]. split; [rewrite LE; apply (c_len Hc)|].
  rewrite <- F7. cbv zeta. split; [exact Hlt|]. split; [reflexivity|]. split; [exact NA|]. split; [exact NE|].
  intros i Hi. split; [apply OA|apply OE]; exact Hi.
Qed.

Lemma step_core st oc st1 st2 nr rc st3 : core st -> check vo A norm a b st = (oc, st1) -> niszero no (norm (g_r st1)) = false ->
  same_core st2 st1 -> update vo A dot norm inv st2 oc nr rc = Ok st3 -> core st3 /\ g_seen st3 = g_seen st1.
Proof.
  intros Hc Hk Hz Hs Hu. destruct (@update_core st oc st1 st2 nr rc st3 Hc Hk Hz Hs Hu) as (w1 & rp1 & w2 & rp2 & T1 & T2 & P2 & Q2 & N2 & M & I2 & Hx & _ & Hsn & Hr & Hrc & L1 & L2 & Hkk).
  cbv zeta in *. set (r := tres (g_x st)) in *. set (k := if g_k st =? a_restart a then 0 else g_k st) in *.
  destruct Hkk as (Hlt & Ek & SA & SE & OA).
  assert (Kle : k <= g_k st) by (unfold k; destruct (g_k st =? a_restart a); lia).
  split; [|rewrite Hsn; symmetry; apply (check_core Hc Hk)].
  assert (old : forall i x, i < g_k st3 -> slot (g_Ae st3) i x -> (i = k /\ x = w2) \/ (i < k /\ slot (g_Ae st) i x)).
  { intros i x Hi Sx. destruct (Nat.eq_dec i k) as [->|Hne]; [left; split; [reflexivity|unfold slot in *; congruence]|].
    right. split; [lia|]. unfold slot in *. rewrite <- (proj1 (OA i Hne)). exact Sx. }
  assert (Dw : dot w2 w2 = k1 sc) by (rewrite (ip_self IP), Q2; apply (real_one sc)).
  constructor.
  - split; assumption.
  - lia.
  - intros j Hj. destruct (Nat.eq_dec j k) as [->|Hne].
    + exists w2, rp2. split; [exact SA|]. split; [exact SE|exact I2].
    + destruct (OA j Hne) as [-> ->]. apply (c_fill Hc). lia.
  - intros i j x y Hi Hj Sx Sy. destruct (old i x Hi Sx) as [[-> ->]|[Hi' Sx']]; destruct (old j y Hj Sy) as [[-> ->]|[Hj' Sy']].
    + rewrite Nat.eqb_refl. exact Dw.
    + destruct (Nat.eqb_spec k j) as [X|_]; [lia|]. apply (dot_flip IP). apply (P2 j y); [lia|exact Sy'].
    + destruct (Nat.eqb_spec i k) as [X|_]; [lia|]. apply (P2 i x); [lia|exact Sx'].
    + apply (c_on Hc); try assumption; lia.
  - intros i x Hi Sx. rewrite Hx. rewrite (dot_sub_r vs IP), (ip_scale IP).
    destruct (old i x Hi Sx) as [[-> ->]|[Hi' Sx']].
    + rewrite Dw. ring.
    + rewrite (c_perp Hc (i := i)) by (assumption || lia). rewrite (P2 i x) by (assumption || lia). ring.
  - rewrite Hrc. exact Hr.
  - rewrite Hsn, map_app. cbn [map snd]. apply chain_snoc; [exact (c_chain Hc)|]. fold r.
    assert (Eq : q (tres (g_x st3)) = (q r - kabs2 sc (dot w2 r))%R) by (rewrite Hx; apply (q_orth vs IP); exact Q2).
    rewrite (ip_conj IP r w2), (abs2_conj sc) in Eq. split.
    + rewrite Eq. pose proof (abs2_pos sc (dot r w2)). lra.
    + rewrite Eq. replace (q r - (q r - kabs2 sc (dot r w2)))%R with (kabs2 sc (dot r w2)) by ring. exact M.
  - rewrite Hsn. apply Forall_app. split; [exact (c_seen Hc)|]. constructor; [reflexivity|constructor].
  - rewrite Hsn, app_length. cbn [length]. intros L. pose proof (c_count Hc) as X. rewrite Ek.
    assert (Y : g_k st = length (g_seen st)) by (apply X; lia).
    unfold k. destruct (Nat.eqb_spec (g_k st) (a_restart a)); lia.
Qed.
End G.
