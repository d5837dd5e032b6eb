From Coq Require Import QArith Permutation.
From Verif Require Import Base SymProofs SymProofs2 RefineModel RefineSpec AssocModel AssocSpec AssocProps FmmModel FmmSpec FmmProofs FmmProofs2 FmmProofs3.
Set Implicit Arguments.
Open Scope nat_scope.

Lemma Forall2_nth_error A B (R : A -> B -> Prop) l l' j x : Forall2 R l l' -> nth_error l j = Some x -> exists y, nth_error l' j = Some y /\ R x y.
Proof.
  intros F. revert j. induction F as [|a b l l' H F IH]; intros [|j] E; try discriminate.
  - injection E as <-. exists b. auto.
  - apply IH. exact E.
Qed.
Lemma Forall2_len A B (R : A -> B -> Prop) l l' : Forall2 R l l' -> length l = length l'.
Proof. induction 1; cbn; congruence. Qed.
Lemma eval_map_full knl sw nsrc r u : eval knl (map (fun s => (nth s sw 0, s)) (seq 0 nsrc)) r u = full_potential knl sw nsrc r u.
Proof. unfold eval, full_potential. rewrite map_map. reflexivity. Qed.

Lemma all_pts_nth ts k i : k < length ts -> i < length (fst (nth k ts ([], 0%Z))) ->
  nth_pt (all_pts ts) (total (firstn k ts) + i) = nth_pt (fst (nth k ts ([], 0%Z))) i.
Proof.
  intros K I. unfold all_pts, nth_pt. rewrite <- flat_map_concat_map. apply (@nth_concat pt ts fst (fun _ => eq_refl)); assumption.
Qed.
Lemma all_sides_nth ts k i : k < length ts -> i < length (fst (nth k ts ([], 0%Z))) ->
  nth (total (firstn k ts) + i) (all_sides ts) 0%Z = snd (nth k ts ([], 0%Z)).
Proof.
  intros K I. unfold all_sides.
  rewrite (@nth_concat Z ts (fun t => repeat (snd t) (length (fst t))) (fun t => repeat_length _ _)) by assumption.
  rewrite nth_indep with (d' := snd (nth k ts ([], 0%Z))) by (rewrite repeat_length; exact I). apply nth_rep.
Qed.
Lemma offset_lt ts k i : k < length ts -> i < length (fst (nth k ts ([], 0%Z))) -> total (firstn k ts) + i < length (all_pts ts).
Proof.
  intros K I. unfold all_pts. rewrite total_concat. pose proof (total_firstn_S ts K). pose proof (total_firstn_le ts (S k)). lia.
Qed.
(** Every position belongs to a target discretization. *)
Lemma offset_split ts : forall i, i < length (all_pts ts) -> exists k j, k < length ts /\ j < length (fst (nth k ts ([], 0%Z))) /\ i = total (firstn k ts) + j.
Proof.
  unfold all_pts. rewrite total_concat. induction ts as [|[x s] ts IH]; intros i I; [cbn in I; lia|]. rewrite total_cons in I.
  destruct (lt_dec i (length x)) as [L|L].
  - exists 0, i. cbn. repeat split; auto; lia.
  - destruct (IH (i - length x)) as (k & j & K & J & E); [lia|]. exists (S k), j. split; [cbn; lia|]. split; [exact J|].
    change (firstn (S k) ((x, s) :: ts)) with ((x, s) :: firstn k ts). rewrite total_cons. lia.
Qed.


(** * exec_fmm *)
Section Exec.
Variable q : qsource.
Variable near : pt -> pt -> Q.
Hypothesis SO : source_ok q near.
Let nc := length (q_ctr q).

(** The value at one target of one discretization. *)
Lemma fmm_value ts a nknl knl k i : fmm_at q (target_points (q_ctr q) ts) -> associate_all q ts = Associated a -> knl < nknl -> k < length ts -> i < length (fst (nth k ts ([], 0%Z))) ->
  let TV := q_fmm q (target_points (q_ctr q) ts) in
  value_ok q (target_points (q_ctr q) ts) knl (snd (nth k ts ([], 0%Z))) (nth_pt (fst (nth k ts ([], 0%Z))) i)
    (nth (nc + total (firstn k ts) + i) (nth knl (drive_fmm (fst TV) (snd TV) nc (user_ttc nc a) (seq 0 (q_nquad q)) nknl) []) []).
Proof.
  intros FA HA KN K I TV. destruct FA as (OK & NT & NS). fold TV in OK, NT, NS.
  assert (LT : length (target_points (q_ctr q) ts) = nc + length (all_pts ts)) by (rewrite target_points_eq; apply app_length).
  assert (TT : ttc_ok nc (ft_ntgt (fst TV)) (user_ttc nc a)) by (rewrite NT, LT; apply (user_ttc_ok SO _ HA)).
  pose proof (associate_all_spec SO ts) as S. cbv zeta in S. rewrite HA in S. destruct S as (L & _ & S).
  assert (J := offset_lt ts K I). set (m := total (firstn k ts) + i) in *. set (u := nc + total (firstn k ts) + i).
  assert (Eu : u = nc + m) by (unfold u, m; lia).
  assert (U1 : nc <= u) by lia. assert (U2 : u < ft_ntgt (fst TV)) by (rewrite NT, LT; lia).
  rewrite drive_fmm_nth by exact KN.
  destruct (@reorder_target (fst TV) (snd TV) OK nc _ TT (map (fun u => nth u (seq 0 (q_nquad q)) 0) (ft_user_src (fst TV))) knl u U1 U2) as (kb & KB & E).
  exists u, (route_of (nth u (user_ttc nc a) 0%Z)). split; [rewrite LT; lia|]. split; [|split].
  - unfold nth_pt at 1. rewrite target_points_eq, app_nth2 by (fold nc; lia). fold nc. replace (u - nc) with m by lia. apply all_pts_nth; assumption.
  - assert (UT : nth u (user_ttc nc a) 0%Z = z_of (nth (u - nc) a None)) by (apply user_ttc_nth; fold nc; lia). rewrite UT. replace (u - nc) with m by lia. rewrite (route_of_z q). specialize (S m J).
    rewrite <- (all_pts_nth ts K I), <- (all_sides_nth ts K I). fold m. destruct (nth m a None); exact S.
  - rewrite E, <- NS, <- eval_map_full. apply Permutation_map. apply (parts_perm OK). exact KB.
Qed.
Lemma drive_length ts a nknl knl : fmm_at q (target_points (q_ctr q) ts) -> associate_all q ts = Associated a -> knl < nknl ->
  let TV := q_fmm q (target_points (q_ctr q) ts) in
  length (nth knl (drive_fmm (fst TV) (snd TV) nc (user_ttc nc a) (seq 0 (q_nquad q)) nknl) []) = nc + total ts.
Proof.
  intros FA HA KN TV. destruct FA as (OK & NT & NS). fold TV in OK, NT, NS.
  rewrite drive_fmm_nth by exact KN. rewrite reorder_length with (V := snd TV) by exact OK. rewrite NT, target_points_eq, app_length, total_concat. reflexivity.
Qed.

Section F.
Variable points : nat -> result (list pt).
Variable nknl : nat.
Variable outs : list output.

Lemma exec_fmm_inv res : exec_fmm q points nknl outs = Ok res ->
  exists d ts a, gather_targets points outs [] [] = Ok (d, ts) /\ ginv points d ts /\ associate_all q ts = Associated a
    /\ (forall k, In k (map fst d) -> exists o, In o outs /\ gkey o = k)
    /\ Forall2 (fun o r => exists n, lookup_key d (gkey o) = Some n /\ n < length ts
          /\ points (o_tgt o) = Ok (fst (nth n ts ([], 0%Z))) /\ snd (nth n ts ([], 0%Z)) = limit_side (o_limit o) /\ o_knl o < nknl
          /\ let TV := q_fmm q (target_points (q_ctr q) ts) in
             r = (o_name o, slice (nth (o_knl o) (drive_fmm (fst TV) (snd TV) nc (user_ttc nc a) (seq 0 (q_nquad q)) nknl) [])
                      (nc + total (firstn n ts)) (nc + total (firstn n ts) + length (fst (nth n ts ([], 0%Z)))))) outs res.
Proof.
  unfold exec_fmm. intros H. apply bind_Ok in H. destruct H as ([d ts] & G & H).
  assert (G0 : ginv points [] []) by (unfold ginv; cbn; repeat split; try constructor; intros; lia).
  destruct (gather_inv outs G0 G) as (GI & _ & A & B).
  destruct (associate_all q ts) as [a| |] eqn:HA; try discriminate. fold nc in H.
  destruct (q_fmm q (target_points (q_ctr q) ts)) as [T V] eqn:TV. assert (NF : existsb (fun c => (c =? -2)%Z) (user_ttc nc a) = false) by apply user_ttc_no_failed. rewrite NF in H.
  exists d, ts, a. split; [exact G|]. split; [exact GI|]. split; [exact HA|].
  split; [intros k I; destruct (B k I) as [[]|X]; exact X|].
  apply mapM_Ok_inv in H. rewrite TV. clear G A B. induction H as [|o r outs0 res0 H F IH]; constructor; [|apply IH].
  destruct (lookup_key d (o_tgt o, o_limit o)) as [n|] eqn:L; [|discriminate].
  destruct (nth_error _ (o_knl o)) as [p|] eqn:N; [|discriminate]. injection H as <-.
  destruct GI as (_ & GS & GL & GP). destruct (lookup_nth d GS _ L) as (NL & EK). destruct (GP n NL) as (P1 & P2). rewrite EK in P1, P2. cbn [fst snd] in P1, P2.
  assert (KN : o_knl o < nknl).
  { assert (X : o_knl o < length (drive_fmm T V nc (user_ttc nc a) (seq 0 (q_nquad q)) nknl)) by (apply nth_error_Some; congruence).
    unfold drive_fmm in X. rewrite map_length, seq_length in X. exact X. }
  exists n. split; [exact L|]. split; [lia|]. split; [exact P1|]. split; [exact P2|]. split; [exact KN|]. cbn zeta. cbn [fst snd].
  rewrite (nth_error_nth _ _ [] N). f_equal. rewrite !discr_starts_nth by lia.
  replace (n + 1) with (S n) by lia. rewrite total_firstn_S by lia. f_equal. lia.
Qed.
End F.
End Exec.

(** * exec_direct *)
Section Direct.
Variable q : qsource.
Variable near : pt -> pt -> Q.
Hypothesis SO : source_ok q near.
Let nc := length (q_ctr q).
Variable self : nat -> bool.
Variable points : nat -> result (list pt).
Variable nknl : nat.

Definition members (g : group) : list (nat * output) := flat_map snd g.
Definition okey (o : output) : nat * option Z := (o_tgt o, Some (limit_side (o_limit o))).
Definition keyed (key : output -> nat * option Z) (g : group) : Prop := forall k l, In (k, l) g -> forall i o, In (i, o) l -> k = key o.
Lemma In_add_to g k x y : In y (members (add_to g k x)) <-> y = x \/ In y (members g).
Proof.
  unfold members. induction g as [|[k' l] g IH]; cbn [add_to flat_map].
  - cbn. intuition congruence.
  - destruct (key_eqb k' k); cbn [flat_map snd]; rewrite !in_app_iff; [cbn [In]; intuition congruence|]. rewrite IH. tauto.
Qed.
Lemma keyed_add_to key g i o : keyed key g -> keyed key (add_to g (key o) (i, o)).
Proof.
  unfold keyed. induction g as [|[k' l] g IH]; intros K k0 l0 I i0 o0 J; cbn [add_to] in I.
  - destruct I as [E|[]]. injection E as <- <-. destruct J as [E|[]]. injection E as <- <-. reflexivity.
  - destruct (key_eqb k' (key o)) eqn:E.
    + destruct I as [F|I]; [|eapply K; [right; exact I|exact J]]. injection F as <- <-. apply in_app_iff in J. destruct J as [J|[J|[]]]; [eapply K; [left; reflexivity|exact J]|].
      injection J as <- <-. apply key_eqb_eq in E. exact E.
    + destruct I as [F|I]; [injection F as <- <-; eapply K; [left; reflexivity|exact J]|].
      eapply IH; [|exact I|exact J]. intros k1 l1 I1. apply K. right. exact I1.
Qed.
Lemma partition_spec outs : forall gs go gs' go', partition_outputs self outs gs go = Ok (gs', go') ->
  keyed gkey gs -> keyed okey go ->
  keyed gkey gs' /\ keyed okey go'
  /\ (forall x, In x (members gs') <-> In x (members gs) \/ (In x outs /\ self (o_tgt (snd x)) = true))
  /\ (forall x, In x (members go') <-> In x (members go) \/ (In x outs /\ self (o_tgt (snd x)) = false))
  /\ (forall x, In x outs -> self (o_tgt (snd x)) = true -> exists z, o_limit (snd x) = Some z /\ z <> 0%Z).
Proof.
  induction outs as [|[i o] outs IH]; intros gs go gs' go' H K1 K2; cbn [partition_outputs] in H.
  - injection H as <- <-. split; [exact K1|]. split; [exact K2|]. split; [intros x; cbn; tauto|]. split; [intros x; cbn; tauto|]. intros x [].
  - destruct (self (o_tgt o)) eqn:S.
    + destruct (o_limit o) as [z|] eqn:L; [|discriminate]. destruct (0 <? Z.abs z)%Z eqn:Z0; [|discriminate].
      rewrite <- L in H. apply IH in H; [|apply (@keyed_add_to gkey gs i o K1)|exact K2]. destruct H as (A & B & C & D & E). split; [exact A|]. split; [exact B|]. split; [|split].
      * intros x. rewrite C, In_add_to. cbn [In]. split.
        -- intros [[->|X]|X]; [right; cbn; auto|auto|right; tauto].
        -- intros [X|[[X|X] Y]]; [auto|subst x; auto|right; auto].
      * intros x. rewrite D. cbn [In]. split; [tauto|]. intros [X|[[X|X] Y]]; [auto| |right; auto]. subst x. cbn in Y. congruence.
      * intros x [X|X] Y; [|exact (E x X Y)]. subst x. exists z. split; [exact L|]. apply Z.ltb_lt in Z0. lia.
    + apply IH in H; [|exact K1|apply (@keyed_add_to okey go i o K2)]. destruct H as (A & B & C & D & E). split; [exact A|]. split; [exact B|]. split; [|split].
      * intros x. rewrite C. cbn [In]. split; [tauto|]. intros [X|[[X|X] Y]]; [auto| |right; auto]. subst x. cbn in Y. congruence.
      * intros x. rewrite D, In_add_to. cbn [In]. split.
        -- intros [[->|X]|X]; [right; cbn; auto|auto|right; tauto].
        -- intros [X|[[X|X] Y]]; [auto|subst x; auto|right; auto].
      * intros x [X|X] Y; [|exact (E x X Y)]. subst x. cbn in Y. congruence.
Qed.
Lemma partition_total outs : (forall x, In x outs -> self (o_tgt (snd x)) = true -> exists z, o_limit (snd x) = Some z /\ z <> 0%Z) ->
  forall gs go, exists r, partition_outputs self outs gs go = Ok r.
Proof.
  induction outs as [|[i o] outs IH]; intros H gs go; cbn [partition_outputs]; [eauto|].
  assert (IH' := IH (fun x I => H x (or_intror I))). destruct (self (o_tgt o)) eqn:S; [|apply IH'].
  destruct (H (i, o) (or_introl eq_refl) S) as (z & L & Z). cbn in L. rewrite L. assert (Z0 : (0 <? Z.abs z)%Z = true) by (apply Z.ltb_lt; lia). rewrite Z0. apply IH'.
Qed.

Definition nonempty (g : group) : Prop := forall k l, In (k, l) g -> l <> [].
Lemma nonempty_add_to g k x : nonempty g -> nonempty (add_to g k x).
Proof.
  unfold nonempty. induction g as [|[k' l] g IH]; intros H k0 l0 I; cbn [add_to] in I.
  - destruct I as [E|[]]. injection E as <- <-. discriminate.
  - destruct (key_eqb k' k).
    + destruct I as [E|I]; [injection E as <- <-; destruct l; discriminate|eapply H; right; exact I].
    + destruct I as [E|I]; [injection E as <- <-; eapply H; left; reflexivity|]. eapply IH; [|exact I]. intros k1 l1 I1. eapply H. right. exact I1.
Qed.
Lemma partition_nonempty outs : forall gs go gs' go', partition_outputs self outs gs go = Ok (gs', go') -> nonempty gs -> nonempty go -> nonempty gs' /\ nonempty go'.
Proof.
  induction outs as [|[i o] outs IH]; intros gs go gs' go' H N1 N2; cbn [partition_outputs] in H; [injection H as <- <-; auto|].
  destruct (self (o_tgt o)).
  - destruct (o_limit o) as [z|]; [|discriminate]. destruct (0 <? Z.abs z)%Z; [|discriminate]. eapply IH; [exact H|apply nonempty_add_to; exact N1|exact N2].
  - eapply IH; [exact H|exact N1|apply nonempty_add_to; exact N2].
Qed.

(** What one output receives. *)
Definition other_tt (x : list pt) (lim : Z) : result (list Z) :=
  match associate_all q [(x, lim)] with
  | Raised e => Err e
  | Failed _ _ => Err TargetAssociationFailed
  | Associated a => Ok (skipn nc (user_ttc nc a))
  end.
Definition self_value (o : output) : result (list (list contr)) :=
  do x <- points (o_tgt o);
  if o_knl o <? nknl then Ok (self_potential (q_nquad q) (limit_side (o_limit o)) x (o_knl o)) else Err IndexError.
Definition other_value (o : output) : result (list (list contr)) :=
  do x <- points (o_tgt o);
  do tc <- other_tt x (limit_side (o_limit o));
  if (Z.abs (limit_side (o_limit o)) =? 1)%Z && (length (qbx_tgt_numbers tc) <? length x) then Err RuntimeError else
  if o_knl o <? nknl then Ok (apply_on_subset (q_nquad q) tc (o_knl o) (p2p (q_nquad q) x (o_knl o))) else Err IndexError.

Lemma exec_self_spec g r : keyed gkey [g] -> exec_self (q_nquad q) nknl points g = Ok r ->
  Forall2 (fun x y => exists v, y = (fst x, (o_name (snd x), v)) /\ self_value (snd x) = Ok v) (snd g) r.
Proof.
  destruct g as [[t l] os]. intros K H. unfold exec_self in H. apply bind_Ok in H. destruct H as (x & X & H). apply mapM_Ok_inv in H. cbn [snd].
  assert (KK : forall i o, In (i, o) os -> (t, l) = gkey o) by (intros i o I; eapply K; [left; reflexivity|exact I]). clear K.
  induction H as [|[i o] y os r H F IH]; constructor; [|apply IH; intros i' o' I'; eapply KK; right; exact I'].
  unfold named in H. assert (E := KK i o (or_introl eq_refl)). unfold gkey in E. injection E as -> ->. cbn [fst snd].
  destruct (o_knl o <? nknl) eqn:N; [|discriminate]. injection H as <-. eexists. split; [reflexivity|]. unfold self_value. rewrite X. cbn [bind]. rewrite N. reflexivity.
Qed.
Lemma exec_other_spec g r : keyed okey [g] -> exec_other q nknl points g = Ok r ->
  Forall2 (fun x y => exists v, y = (fst x, (o_name (snd x), v)) /\ other_value (snd x) = Ok v) (snd g) r.
Proof.
  destruct g as [[t l] os]. intros K H. unfold exec_other in H. apply bind_Ok in H. destruct H as (x & X & H). fold nc in H. cbn [snd].
  destruct (associate_all q [(x, match l with Some z => z | None => 0%Z end)]) as [a| |] eqn:A; try discriminate.
  destruct (_ && _) eqn:C in H; [discriminate|]. apply mapM_Ok_inv in H.
  assert (KK : forall i o, In (i, o) os -> (t, l) = okey o) by (intros i o I; eapply K; [left; reflexivity|exact I]). clear K.
  induction H as [|[i o] y os r H F IH]; constructor; [|apply IH; intros i' o' I'; eapply KK; right; exact I'].
  unfold named in H. assert (E := KK i o (or_introl eq_refl)). unfold okey in E. injection E as -> ->. cbn [fst snd].
  destruct (o_knl o <? nknl) eqn:N; [|discriminate]. injection H as <-. eexists. split; [reflexivity|]. unfold other_value, other_tt. rewrite X. cbn [bind]. rewrite A. cbn [bind].
  cbn [limit_side] in C. rewrite C, N. reflexivity.
Qed.

Definition out_value (o : output) : result (list (list contr)) := if self (o_tgt o) then self_value o else other_value o.

Lemma put_results_eq A (res : list (option A)) l : put_results res l = fold_left (write_step (fun p : nat * A => Some (fst p, Some (snd p)))) l res.
Proof. unfold put_results. apply fold_left_ext'. intros a [i v]. reflexivity. Qed.

Lemma groups_spec key (f : (nat * option Z) * list (nat * output) -> result (list (nat * (string * list (list contr))))) val g r :
  (forall g0 r0, keyed key [g0] -> f g0 = Ok r0 -> Forall2 (fun x y => exists v, y = (fst x, (o_name (snd x), v)) /\ val (snd x) = Ok v) (snd g0) r0) ->
  keyed key g -> mapM f g = Ok r ->
  Forall2 (fun (x : nat * output) y => exists v, y = (fst x, (o_name (snd x), v)) /\ val (snd x) = Ok v) (members g) (concat r).
Proof.
  intros HF K H. apply mapM_Ok_inv in H. induction H as [|g0 r0 g r H F IH]; [constructor|]. unfold members. cbn [flat_map concat].
  apply Forall2_app.
  - apply HF; [|exact H]. intros k l [E|[]]. subst g0. apply K. left. reflexivity.
  - apply IH. intros k l I. apply K. right. exact I.
Qed.

Lemma exec_direct_inv outs res : exec_direct q self points nknl outs = Ok res ->
  length res = length outs
  /\ forall j o, nth_error outs j = Some o -> exists v, nth_error res j = Some (Some (o_name o, v)) /\ out_value o = Ok v
       /\ (self (o_tgt o) = true -> exists z, o_limit o = Some z /\ z <> 0%Z).
Proof.
  unfold exec_direct. intros H. apply bind_Ok in H. destruct H as ([gs go] & P & H). cbn [fst snd] in H.
  apply bind_Ok in H. destruct H as (r1 & R1 & H). apply bind_Ok in H. destruct H as (r2 & R2 & H). injection H as <-.
  assert (P' := P). apply partition_spec in P'; [|intros k l []|intros k l []]. destruct P' as (K1 & K2 & M1 & M2 & LZ).
  assert (F1 := groups_spec (key := gkey) _ self_value exec_self_spec K1 R1).
  assert (F2 := groups_spec (key := okey) _ other_value exec_other_spec K2 R2).
  assert (LR : length (put_results (put_results (repeat None (length outs)) (concat r1)) (concat r2)) = length outs).
  { rewrite !put_results_eq, !writes_length. apply repeat_length. }
  split; [exact LR|]. intros j o E. assert (J : j < length outs) by (apply nth_error_Some; congruence).
  assert (IN : forall i o', In (i, o') (combine (seq 0 (length outs)) outs) <-> nth_error outs i = Some o').
  { intros i o'. split.
    - intros I. apply In_combine_nth with (da := 0) (db := o') in I. destruct I as (k & A & B & C & D). rewrite seq_length in A. rewrite seq_nth in C by exact A. cbn in C. subst k.
      rewrite <- D. apply nth_error_nth'. exact B.
    - intros N. assert (L : i < length outs) by (apply nth_error_Some; congruence).
      pose proof (@combine_nth_In _ _ (seq 0 (length outs)) outs i 0 o') as C. rewrite seq_length in C. specialize (C L eq_refl).
      rewrite seq_nth in C by exact L. rewrite (nth_error_nth _ _ o' N) in C. exact C. }
  set (good := fun i y => forall o', nth_error outs i = Some o' -> exists v, y = (o_name o', v) /\ out_value o' = Ok v).
  assert (W1 : forall i y, In (i, y) (concat r1) -> good i y /\ exists o', nth_error outs i = Some o' /\ self (o_tgt o') = true).
  { intros i y I. destruct (Forall2_In_r F1 I) as ([i' o'] & I' & v & Ey & V). cbn [fst snd] in Ey, V. injection Ey as -> ->.
    apply M1 in I'. destruct I' as [[]|[I' S]]. apply IN in I'. cbn [snd] in S. split; [|eauto]. intros o2 E2. assert (o2 = o') by congruence. subst o2. exists v. split; [reflexivity|]. unfold out_value. rewrite S. exact V. }
  assert (W2 : forall i y, In (i, y) (concat r2) -> good i y /\ exists o', nth_error outs i = Some o' /\ self (o_tgt o') = false).
  { intros i y I. destruct (Forall2_In_r F2 I) as ([i' o'] & I' & v & Ey & V). cbn [fst snd] in Ey, V. injection Ey as -> ->.
    apply M2 in I'. destruct I' as [[]|[I' S]]. apply IN in I'. cbn [snd] in S. split; [|eauto]. intros o2 E2. assert (o2 = o') by congruence. subst o2. exists v. split; [reflexivity|]. unfold out_value. rewrite S. exact V. }
  assert (IJ : In (j, o) (combine (seq 0 (length outs)) outs)) by (apply IN; exact E).
  assert (RV : exists v, out_value o = Ok v /\ nth j (put_results (put_results (repeat None (length outs)) (concat r1)) (concat r2)) None = Some (o_name o, v)).
  { rewrite !put_results_eq. destruct (self (o_tgt o)) eqn:S.
    - assert (I1 : In (j, o) (members gs)) by (apply M1; right; split; [exact IJ|exact S]).
      destruct (Forall2_In_l F1 I1) as (y & Iy & v & Ey & V). cbn [fst snd] in Ey, V. subst y. exists v. split; [unfold out_value; rewrite S; exact V|].
      rewrite writes_none.
      + apply writes_some; [rewrite repeat_length; exact J| |right; exists (j, (o_name o, v)); split; [exact Iy|reflexivity]].
        intros [i y] v' I Ew. cbn [fst snd] in Ew. injection Ew as -> <-. destruct (W1 _ _ I) as [G _]. destruct (G o E) as (v2 & -> & V2). do 2 f_equal. unfold out_value in V2. rewrite S in V2. congruence.
      + intros [i y] v' I Ew. cbn [fst snd] in Ew. injection Ew as -> _. destruct (W2 _ _ I) as [_ (o' & E' & S')]. congruence.
    - assert (I2 : In (j, o) (members go)) by (apply M2; right; split; [exact IJ|exact S]).
      destruct (Forall2_In_l F2 I2) as (y & Iy & v & Ey & V). cbn [fst snd] in Ey, V. subst y. exists v. split; [unfold out_value; rewrite S; exact V|].
      apply writes_some; [rewrite writes_length, repeat_length; exact J| |right; exists (j, (o_name o, v)); split; [exact Iy|reflexivity]].
      intros [i y] v' I Ew. cbn [fst snd] in Ew. injection Ew as -> <-. destruct (W2 _ _ I) as [G _]. destruct (G o E) as (v2 & -> & V2). do 2 f_equal. unfold out_value in V2. rewrite S in V2. congruence. }
  destruct RV as (v & V & N). exists v. split; [|split; [exact V|]].
  - rewrite <- N. apply nth_error_nth'. rewrite LR. exact J.
  - intros S. exact (LZ (j, o) IJ S).
Qed.

(** ** One output *)
Lemma self_value_spec o v : self_value o = Ok v -> exists x, points (o_tgt o) = Ok x /\ o_knl o < nknl /\ length v = length x
  /\ forall i, i < length x -> nth i v [] = full_potential (o_knl o) (seq 0 (q_nquad q)) (q_nquad q) (Own i (limit_side (o_limit o))) i.
Proof.
  unfold self_value. intros H. apply bind_Ok in H. destruct H as (x & X & H). destruct (o_knl o <? nknl) eqn:K; [|discriminate]. injection H as <-.
  exists x. split; [exact X|]. split; [apply Nat.ltb_lt; exact K|]. unfold self_potential. split; [rewrite map_length; apply seq_length|].
  intros i I. rewrite nth_map_seq by exact I. rewrite <- eval_map_full. f_equal. unfold all_sources. apply map_ext_in. intros s Hs. apply in_seq in Hs. rewrite seq_nth by lia. reflexivity.
Qed.
Lemma qbx_tgt_numbers_In tt i : In i (qbx_tgt_numbers tt) <-> i < length tt /\ (0 <= nth i tt (-1))%Z.
Proof.
  unfold qbx_tgt_numbers. rewrite in_map_iff. split.
  - intros ([z i'] & E & I). cbn in E. subst i'. apply filter_In in I. destruct I as [I P]. cbn in P. apply Z.leb_le in P.
    apply In_combine_nth with (da := (-1)%Z) (db := 0) in I. destruct I as (k & K1 & K2 & F1 & F2). rewrite seq_length in K2. rewrite seq_nth in F2 by exact K2. cbn in F2. subst k. rewrite F1. auto.
  - intros [L P]. exists (nth i tt (-1)%Z, i). split; [reflexivity|]. apply filter_In. split; [|cbn; apply Z.leb_le; exact P].
    replace i with (nth i (seq 0 (length tt)) 0) at 2 by (rewrite seq_nth; [reflexivity|exact L]). apply combine_nth_In; [exact L|symmetry; apply seq_length].
Qed.
Lemma qbx_tgt_numbers_NoDup tt : NoDup (qbx_tgt_numbers tt).
Proof. unfold qbx_tgt_numbers. apply NoDup_snd_filter. rewrite map_snd_combine_seq. apply seq_NoDup. Qed.
Lemma qbx_tgt_numbers_full tt : length tt <= length (qbx_tgt_numbers tt) -> forall i, i < length tt -> (0 <= nth i tt (-1))%Z.
Proof.
  intros L i I. assert (X : incl (seq 0 (length tt)) (qbx_tgt_numbers tt)).
  { apply NoDup_length_incl; [apply qbx_tgt_numbers_NoDup|rewrite seq_length; exact L|]. intros j J. apply qbx_tgt_numbers_In in J. apply in_seq. lia. }
  apply qbx_tgt_numbers_In. apply X. apply in_seq. lia.
Qed.
Lemma other_tt_spec x lim tt : other_tt x lim = Ok tt -> exists a, associate_all q [(x, lim)] = Associated a /\ tt = map z_of a.
Proof.
  unfold other_tt. destruct (associate_all q [(x, lim)]) as [a| |]; try discriminate. intros H. injection H as <-. exists a. split; [reflexivity|].
  unfold user_ttc. rewrite skipn_app, skipn_all2, repeat_length, Nat.sub_diag by (rewrite repeat_length; lia). reflexivity.
Qed.
Lemma single_assoc x lim a : associate_all q [(x, lim)] = Associated a -> length a = length x /\ 2 * length (q_src q) = nc
  /\ forall i, i < length x -> match nth i a None with Some c => close_pt q (nth_pt x i) /\ chosen_pt q lim (nth_pt x i) c | None => ~ close_pt q (nth_pt x i) end.
Proof.
  intros H. pose proof (associate_all_spec SO [(x, lim)]) as S. cbv zeta in S. rewrite H in S.
  unfold all_pts, all_sides in S. cbn [map fst concat flat_map snd] in S. rewrite !app_nil_r in S. destruct S as (A & B & C). split; [exact A|]. split; [exact B|].
  intros i I. specialize (C i I). assert (E : nth i (repeat lim (length x)) 0%Z = lim) by (rewrite nth_indep with (d' := lim) by (rewrite repeat_length; exact I); apply nth_rep).
  rewrite E in C. exact C.
Qed.
Lemma other_value_core o v : other_value o = Ok v -> exists x, points (o_tgt o) = Ok x /\ o_knl o < nknl /\ length v = length x /\ 2 * length (q_src q) = nc
  /\ forall i, i < length x -> (exists r, route_ok q (limit_side (o_limit o)) (nth_pt x i) r /\ Permutation (nth i v []) (full_potential (o_knl o) (seq 0 (q_nquad q)) (q_nquad q) r i))
       /\ (Z.abs (limit_side (o_limit o)) = 1%Z -> close_pt q (nth_pt x i)).
Proof.
  unfold other_value. intros H. apply bind_Ok in H. destruct H as (x & X & H). apply bind_Ok in H. destruct H as (tt & T & H).
  destruct (other_tt_spec _ _ T) as (a & A & ->). destruct (single_assoc _ _ A) as (L & N & S).
  destruct (_ && _) eqn:C in H; [discriminate|]. destruct (o_knl o <? nknl) eqn:K; [|discriminate]. injection H as <-.
  exists x. split; [exact X|]. split; [apply Nat.ltb_lt; exact K|].
  set (wr := fun i : nat => Some (i, eval (o_knl o) (all_sources (q_nquad q)) (Via (Z.to_nat (nth i (map z_of a) (-1)%Z))) i)).
  assert (E : apply_on_subset (q_nquad q) (map z_of a) (o_knl o) (p2p (q_nquad q) x (o_knl o)) = fold_left (write_step wr) (qbx_tgt_numbers (map z_of a)) (p2p (q_nquad q) x (o_knl o))).
  { unfold apply_on_subset. apply fold_left_ext'. reflexivity. }
  assert (LP : length (p2p (q_nquad q) x (o_knl o)) = length x) by (unfold p2p; rewrite map_length; apply seq_length).
  rewrite E. split; [rewrite writes_length; exact LP|]. split; [exact N|].
  assert (ZN : forall i, i < length x -> nth i (map z_of a) (-1)%Z = z_of (nth i a None)) by (intros i I; apply nth_map_d; lia).
  assert (FE : forall r i, eval (o_knl o) (all_sources (q_nquad q)) r i = full_potential (o_knl o) (seq 0 (q_nquad q)) (q_nquad q) r i).
  { intros r i. rewrite <- eval_map_full. f_equal. unfold all_sources. apply map_ext_in. intros s Hs. apply in_seq in Hs. rewrite seq_nth by lia. reflexivity. }
  intros i I. specialize (S i I). split.
  - exists (match nth i a None with Some c => Via c | None => Point end). split; [destruct (nth i a None); exact S|].
    destruct (nth i a None) as [c|] eqn:EA.
    + rewrite (writes_some wr) with (v := eval (o_knl o) (all_sources (q_nquad q)) (Via c) i).
      * rewrite FE. apply Permutation_refl.
      * rewrite LP. exact I.
      * intros i' v' _ W. unfold wr in W. injection W as -> <-. rewrite ZN, EA by exact I. cbn [z_of]. rewrite Nat2Z.id. reflexivity.
      * right. exists i. split; [apply qbx_tgt_numbers_In; rewrite map_length, ZN, EA by exact I; split; [lia|cbn; lia]|]. unfold wr. rewrite ZN, EA by exact I. cbn [z_of]. rewrite Nat2Z.id. reflexivity.
    + rewrite writes_none.
      * unfold p2p. rewrite nth_map_seq by exact I. rewrite FE. apply Permutation_refl.
      * intros i' v' J W. unfold wr in W. injection W as -> _. apply qbx_tgt_numbers_In in J. rewrite ZN, EA in J by exact I. cbn in J. lia.
  - intros Z1. apply Z.eqb_eq in Z1. rewrite Z1 in C. cbn [andb] in C. apply Nat.ltb_ge in C.
    assert (P : (0 <= nth i (map z_of a) (-1))%Z) by (apply qbx_tgt_numbers_full; rewrite map_length; lia).
    rewrite ZN in P by exact I. destruct (nth i a None) as [c|]; [apply S|cbn in P; lia].
Qed.
Lemma other_value_spec o v : other_value o = Ok v -> exists x, points (o_tgt o) = Ok x /\ o_knl o < nknl /\ length v = length x /\ 2 * length (q_src q) = nc
  /\ forall i, i < length x -> value_ok q x (o_knl o) (limit_side (o_limit o)) (nth_pt x i) (nth i v [])
       /\ (Z.abs (limit_side (o_limit o)) = 1%Z -> close_pt q (nth_pt x i)).
Proof.
  intros H. destruct (other_value_core o H) as (x & A & B & C & D & F). exists x. split; [exact A|]. split; [exact B|]. split; [exact C|]. split; [exact D|].
  intros i I. destruct (F i I) as ((r & RO & P) & Z). split; [|exact Z]. exists i, r. split; [exact I|]. split; [reflexivity|]. split; [exact RO|exact P].
Qed.
Lemma other_value_at o v x i : other_value o = Ok v -> points (o_tgt o) = Ok x -> i < length x ->
  exists r, route_ok q (limit_side (o_limit o)) (nth_pt x i) r /\ Permutation (nth i v []) (full_potential (o_knl o) (seq 0 (q_nquad q)) (q_nquad q) r i).
Proof.
  intros H X I. destruct (other_value_core o H) as (x' & A & _ & _ & _ & F). assert (x' = x) by congruence. subst x'. apply F. exact I.
Qed.
(** ... and when it is there. *)
Lemma other_value_total o x : points (o_tgt o) = Ok x -> o_knl o < nknl -> 2 * length (q_src q) = nc ->
  (forall p, In p x -> ~ failing_pt q (limit_side (o_limit o)) p) ->
  (Z.abs (limit_side (o_limit o)) = 1%Z -> forall p, In p x -> close_pt q p) ->
  exists v, other_value o = Ok v.
Proof.
  intros X K N NF CL. unfold other_value, other_tt. rewrite X. cbn [bind].
  pose proof (associate_all_spec SO [(x, limit_side (o_limit o))]) as S. cbv zeta in S. fold nc in S.
  unfold all_pts, all_sides in S. cbn [map fst concat flat_map snd] in S. rewrite !app_nil_r in S.
  assert (RE : forall i, i < length x -> nth i (repeat (limit_side (o_limit o)) (length x)) 0%Z = limit_side (o_limit o)).
  { intros i I. rewrite nth_indep with (d' := limit_side (o_limit o)) by (rewrite repeat_length; exact I). apply nth_rep. }
  destruct (associate_all q [(x, limit_side (o_limit o))]) as [a|fl fa|e] eqn:A; cbn [bind].
  - destruct (single_assoc _ _ A) as (L & _ & SA).
    assert (C : (Z.abs (limit_side (o_limit o)) =? 1)%Z && (length (qbx_tgt_numbers (skipn nc (user_ttc nc a))) <? length x) = false).
    { destruct (Z.abs (limit_side (o_limit o)) =? 1)%Z eqn:Z1; [|reflexivity]. cbn [andb]. apply Z.eqb_eq in Z1. apply Nat.ltb_ge.
      assert (E : skipn nc (user_ttc nc a) = map z_of a).
      { unfold user_ttc. rewrite skipn_app, skipn_all2, repeat_length, Nat.sub_diag by (rewrite repeat_length; lia). reflexivity. }
      rewrite E. rewrite <- (seq_length (length x) 0). apply NoDup_incl_length; [apply seq_NoDup|]. intros i I. apply in_seq in I. apply qbx_tgt_numbers_In.
      rewrite map_length. split; [lia|]. rewrite (@nth_map_d _ _ z_of a i None) by lia. assert (I' : i < length x) by lia. specialize (SA i I').
      destruct (nth i a None) as [c|]; [cbn; lia|]. exfalso. apply SA. apply CL; [exact Z1|]. apply nth_In. exact I'. }
    rewrite C. apply Nat.ltb_lt in K. rewrite K. eauto.
  - destruct S as (i & I & F). exfalso. rewrite RE in F by exact I. eapply NF; [|exact F]. apply nth_In. exact I.
  - destruct S as (_ & [S|(i & I & F)]); [congruence|]. exfalso. rewrite RE in F by exact I. eapply NF; [|exact F]. apply nth_In. exact I.
Qed.
Lemma exec_self_total t l os x : os <> [] -> (forall i o, In (i, o) os -> (t, l) = gkey o /\ points (o_tgt o) = Ok x /\ o_knl o < nknl) ->
  exists r, exec_self (q_nquad q) nknl points ((t, l), os) = Ok r.
Proof.
  intros NE H. unfold exec_self. assert (X : points t = Ok x).
  { destruct os as [|[i o] os]; [congruence|]. destruct (H i o (or_introl eq_refl)) as (K & P & _). injection K as -> _. exact P. }
  rewrite X. cbn [bind]. apply mapM_total. intros [i o] I. destruct (H i o I) as (_ & _ & K). unfold named. apply Nat.ltb_lt in K. rewrite K. eauto.
Qed.
Lemma exec_other_total t l os : os <> [] -> (forall i o, In (i, o) os -> (t, l) = okey o /\ exists v, other_value o = Ok v) ->
  exists r, exec_other q nknl points ((t, l), os) = Ok r.
Proof.
  intros NE H. unfold exec_other. fold nc.
  assert (E : exists x a, points t = Ok x /\ associate_all q [(x, match l with Some z => z | None => 0%Z end)] = Associated a
     /\ (Z.abs (match l with Some z => z | None => 0%Z end) =? 1)%Z && (length (qbx_tgt_numbers (skipn nc (user_ttc nc a))) <? length x) = false).
  { destruct os as [|[i o] os]; [congruence|]. destruct (H i o (or_introl eq_refl)) as (K & v & V). unfold okey in K. injection K as -> ->.
    unfold other_value, other_tt in V. apply bind_Ok in V. destruct V as (x & X & V). exists x.
    destruct (associate_all q [(x, limit_side (o_limit o))]) as [a| |] eqn:A; cbn [bind] in V; try discriminate. exists a. split; [exact X|]. split; [first [exact A|reflexivity]|].
    destruct (_ && _) eqn:C in V; [discriminate|]. exact C. }
  destruct E as (x & a & X & A & C). rewrite X. cbn [bind]. rewrite A, C. apply mapM_total. intros [i o] I. destruct (H i o I) as (K & v & V). unfold okey in K. injection K as -> ->.
  unfold named. destruct (o_knl o <? nknl) eqn:N; [eauto|]. exfalso. unfold other_value, other_tt in V. rewrite X in V. cbn [bind] in V. cbn [limit_side] in A, C. rewrite A in V. cbn [bind] in V.
  rewrite C in V. rewrite N in V. discriminate.
Qed.
Lemma not_failing z p c : chosen_pt q z p c -> ~ failing_pt q z p.
Proof. intros [[A _] _] [_ F]. exact (F c A). Qed.
Lemma not_close_not_failing z p : ~ close_pt q p -> ~ failing_pt q z p.
Proof. intros N [C _]. exact (N C). Qed.
End Direct.
