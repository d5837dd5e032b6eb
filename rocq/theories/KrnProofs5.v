(** Every launch terminates: no infinite sequence of steps of workers that still have work. *)
From Coq Require Import QArith Permutation.
From Verif Require Import Base RefineModel AssocModel FmmModel FmmProofs FmlModel KrnModel KrnSpec KrnProofs.
Set Implicit Arguments.
Open Scope list_scope. Open Scope nat_scope.

(** Lexicographic order of lists of numbers. *)
Fixpoint lexlt (a b : list nat) : Prop :=
  match a, b with
  | x :: a, y :: b => (x < y /\ length a = length b) \/ (x = y /\ lexlt a b)
  | _, _ => False
  end.
Lemma lexlt_length a : forall b, lexlt a b -> length a = length b.
Proof. induction a as [|x a IH]; intros [|y b]; cbn; try tauto. intros [(_ & L)|(_ & L)]; [congruence|]. f_equal. auto. Qed.
Lemma lexlt_acc : forall n l, length l = n -> Acc lexlt l.
Proof.
  induction n as [|n IH]; intros l L.
  - destruct l; [|discriminate]. constructor. intros [|]; cbn; tauto.
  - destruct l as [|x l]; [discriminate|]. cbn in L. injection L as L. revert l L.
    induction x as [x IHx] using lt_wf_ind. intros l L. pose proof (IH l L) as A. revert L. induction A as [l _ IHl]. intros L.
    constructor. intros [|y b]; cbn; [tauto|]. intros [(Lt & Lb)|(-> & Lb)].
    + apply IHx; [exact Lt|congruence].
    + apply IHl; [exact Lb|]. pose proof (lexlt_length _ _ Lb). congruence.
Qed.

Lemma all_nil_dec (A : Type) (ks : list (list A)) : {Forall (fun k => k = []) ks} + {~ Forall (fun k => k = []) ks}.
Proof. apply Forall_dec. intros [|a k]; [left; reflexivity|right; discriminate]. Qed.

Section Terminate.
Variable R : Type.
Fixpoint rank (c : cmd R) : nat :=
  match c with Seq c1 c2 => S (Nat.max (rank c1) (rank c2)) | For _ _ _ c => S (S (rank c)) | If _ c => S (rank c) | _ => 0 end.
Definition count (r : nat) (l : list (cmd R)) : nat := length (filter (fun c => rank c =? r) l).
(** Numbers of commands of every rank below [D], the highest rank first. *)
Fixpoint profile (D : nat) (l : list (cmd R)) : list nat := match D with 0 => [] | S r => count r l :: profile r l end.
Lemma profile_length D l : length (profile D l) = D.
Proof. induction D; cbn; auto. Qed.
Lemma count_app r l l' : count r (l ++ l') = count r l + count r l'.
Proof. unfold count. rewrite filter_app, app_length. reflexivity. Qed.
Lemma count_none r l : Forall (fun c => rank c < r) l -> count r l = 0.
Proof.
  unfold count. induction 1 as [|c l H _ IH]; cbn; [reflexivity|]. destruct (rank c =? r) eqn:E; [apply Nat.eqb_eq in E; lia|exact IH].
Qed.
(** Replacing a command by commands of smaller rank. *)
Lemma profile_decreases D c l new l' : rank c < D -> Forall (fun d => rank d < rank c) new ->
  (forall r, count r l' + count r [c] = count r l + count r new) -> lexlt (profile D l') (profile D l).
Proof.
  intros HD HN HC. induction D as [|r IH]; [lia|]. cbn [profile lexlt]. destruct (Nat.eq_dec (rank c) r) as [<-|N].
  - left. split; [|rewrite !profile_length; reflexivity]. specialize (HC (rank c)). rewrite (count_none HN) in HC.
    unfold count at 2 in HC. cbn in HC. rewrite Nat.eqb_refl in HC. cbn in HC. lia.
  - right. split; [|apply IH; lia]. specialize (HC r). rewrite (@count_none r new) in HC by (eapply Forall_impl; [|exact HN]; cbn; intros; lia).
    rewrite (@count_none r [c]) in HC by (constructor; [lia|constructor]). lia.
Qed.
Lemma step1_new c k p m : exists new, fst (fst (step1 c k p m)) = new ++ k /\ Forall (fun d => rank d < rank c) new.
Proof.
  destruct c; cbn.
  - exists []. split; [reflexivity|constructor].
  - exists []. split; [reflexivity|constructor].
  - exists []. split; [reflexivity|constructor].
  - exists []. split; [reflexivity|constructor].
  - exists [c1; c2]. split; [reflexivity|]. constructor; [lia|]. constructor; [lia|constructor].
  - exists (map (iteration x c) (seq (lo p) (hi p - lo p))). split; [reflexivity|]. apply Forall_forall. intros d I. apply in_map_iff in I.
    destruct I as (i & <- & _). cbn. lia.
  - destruct (t p); [exists [c]|exists []]; (split; [reflexivity|]); repeat constructor.
Qed.
Lemma count_set_nth r c k new : forall (ls : list (list (cmd R))) t, nth_error ls t = Some (c :: k) ->
  count r (concat (set_nth ls t (new ++ k))) + count r [c] = count r (concat ls) + count r new.
Proof.
  induction ls as [|a ls IH]; intros [|t] E; try discriminate; cbn in E.
  - injection E as ->. cbn [set_nth concat]. change (c :: k) with ([c] ++ k). rewrite !count_app. lia.
  - cbn [set_nth concat]. rewrite !count_app. specialize (IH t E). lia.
Qed.
Lemma max_rank (l : list (cmd R)) : exists D, Forall (fun c => rank c < D) l.
Proof.
  induction l as [|c l (D & F)]; [exists 0; constructor|]. exists (Nat.max (S (rank c)) D). constructor; [apply Nat.max_lt_iff; left; apply Nat.lt_succ_diag_r|].
  eapply Forall_impl; [|exact F]. cbn beta. intros d Hd. apply Nat.max_lt_iff. right. exact Hd.
Qed.

(** Worker [t] has work left. *)
Definition active (st : mstate R) (t : nat) : Prop := exists c k p, nth_error (todo st) t = Some (c :: k) /\ nth_error (envs st) t = Some p.
Definition next (st' st : mstate R) : Prop := exists t, active st t /\ st' = step st t.
Lemma next_profile D st st' : Forall (fun c => rank c < D) (concat (todo st)) -> next st' st ->
  lexlt (profile D (concat (todo st'))) (profile D (concat (todo st))) /\ Forall (fun c => rank c < D) (concat (todo st')).
Proof.
  intros F (t & (c & k & p & Et & Ep) & ->). unfold step. rewrite Et, Ep. destruct (step1_new c k p (mem st)) as (new & En & Fn).
  destruct (step1 c k p (mem st)) as ((k', p'), m'). cbn [fst] in En. subst k'. cbn [todo].
  assert (Ic : forall d, In d (c :: k) -> In d (concat (todo st))). { intros d I. apply in_concat. exists (c :: k). split; [eapply nth_error_In; exact Et|exact I]. }
  rewrite Forall_forall in F. split.
  - apply profile_decreases with (c := c) (new := new); [apply F, Ic; left; reflexivity|exact Fn|]. intros r. apply count_set_nth. exact Et.
  - apply Forall_forall. intros d I. apply in_concat in I. destruct I as (l & Il & I). apply In_nth_error in Il. destruct Il as (t' & E').
    rewrite nth_error_set_nth in E'. destruct (t' =? t) eqn:Q.
    + destruct (t <? length (todo st)); [|discriminate]. injection E' as <-. apply in_app_or in I. destruct I as [I|I].
      * rewrite Forall_forall in Fn. specialize (Fn d I). specialize (F c (Ic c (or_introl eq_refl))). lia.
      * apply F, Ic. right. exact I.
    + apply F. apply in_concat. exists l. split; [eapply nth_error_In; exact E'|exact I].
Qed.
Theorem no_infinite_run (st : mstate R) : Acc next st.
Proof.
  destruct (max_rank (concat (todo st))) as (D & F).
  pose proof (@lexlt_acc D _ (profile_length D (concat (todo st)))) as A. remember (profile D (concat (todo st))) as v eqn:Ev. revert st F Ev.
  induction A as [v _ IH]. intros st F ->. constructor. intros st' N. destruct (next_profile F N) as (L & F'). eapply IH; [exact L|exact F'|reflexivity].
Qed.
Lemma not_finished_active (st : mstate R) : length (envs st) = length (todo st) -> ~ finished st -> exists t, active st t.
Proof.
  intros L N. assert (H : forall ks es, length es = length ks -> ~ Forall (fun k : list (cmd R) => k = []) ks ->
    exists t c k p, nth_error ks t = Some (c :: k) /\ nth_error es t = Some (p : env)).
  { clear. induction ks as [|[|c k] ks IH]; intros [|p es] L N; try discriminate.
    - destruct N. constructor.
    - destruct (IH es) as (t & c & k & p' & H). { cbn in L. lia. } { intros F. apply N. constructor; auto. } exists (S t), c, k, p'. exact H.
    - exists 0, c, k, p. split; reflexivity. }
  destruct (H (todo st) (envs st) L N) as (t & c & k & p & H1 & H2). exists t, c, k, p. auto.
Qed.
Lemma step_envs_length (st : mstate R) t : length (envs (step st t)) = length (envs st).
Proof.
  unfold step. destruct (nth_error (todo st) t) as [[|c k]|]; try reflexivity. destruct (nth_error (envs st) t) as [p|]; [|reflexivity].
  destruct (step1 c k p (mem st)) as ((k', p'), m'). cbn. apply set_nth_length.
Qed.
Lemma run_envs_length sched : forall st : mstate R, length (envs (run st sched)) = length (envs st).
Proof. induction sched as [|t sched IH]; intros st; cbn; [reflexivity|]. unfold run in IH. rewrite IH. apply step_envs_length. Qed.
Lemma can_finish (st : mstate R) : length (envs st) = length (todo st) -> exists sched, finished (run st sched).
Proof.
  induction (no_infinite_run st) as [st _ IH]. intros L.
  destruct (all_nil_dec (todo st)) as [F|F].
  - exists []. exact F.
  - destruct (not_finished_active L F) as (t & A). destruct (IH (step st t)) as (sched & H).
    + exists t. auto.
    + rewrite step_envs_length, step_todo_length. exact L.
    + exists (t :: sched). exact H.
Qed.
End Terminate.
