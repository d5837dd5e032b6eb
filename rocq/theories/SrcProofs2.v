From Verif Require Import Base SrcModel SrcSpec SrcProofs.
Set Implicit Arguments.
Open Scope list_scope.
Open Scope nat_scope.

(** * Dictionaries *)
Lemma find_filter (A : Type) (f g : A -> bool) l : (forall x, g x = true -> f x = true) -> find g (filter f l) = find g l.
Proof.
  intros H. induction l as [|x l IH]; [reflexivity|]. simpl. destruct (f x) eqn:Ef; simpl.
  - destruct (g x); auto.
  - destruct (g x) eqn:Eg; [rewrite (H x Eg) in Ef; discriminate|]. exact IH.
Qed.
Lemma find_congr (A : Type) (f g : A -> bool) l : (forall x, In x l -> f x = g x) -> find f l = find g l.
Proof. intros H. induction l as [|x l IH]; [reflexivity|]. simpl. rewrite (H x) by (left; reflexivity). rewrite IH; [reflexivity|]. intros y Hy; apply H; right; exact Hy. Qed.
Lemma get_put (A : Type) (d : list (string * A)) n x m : get (put d n x) m = if String.eqb n m then Some x else get d m.
Proof.
  unfold get, put. simpl. destruct (String.eqb n m) eqn:E; [reflexivity|].
  rewrite find_filter; [reflexivity|]. intros [a b]; simpl. intros H. apply String.eqb_eq in H. subst a.
  rewrite String.eqb_sym, E. reflexivity.
Qed.
Lemma get_In (A : Type) (d : list (string * A)) n x : get d n = Some x -> In (n, x) d.
Proof.
  unfold get. destruct (find _ d) as [[a b]|] eqn:E; simpl; [|discriminate]. intros H; inversion H; subst.
  apply find_some in E. destruct E as [Hi He]. simpl in He. apply String.eqb_eq in He. subst. exact Hi.
Qed.
Lemma In_get (A : Type) (d : list (string * A)) n x : NoDup (map fst d) -> In (n, x) d -> get d n = Some x.
Proof.
  unfold get. induction d as [|[m y] d IH]; intros HN Hi; [contradiction|]. simpl in HN. inversion HN; subst.
  simpl. destruct Hi as [H|H].
  - inversion H; subst. rewrite String.eqb_refl. reflexivity.
  - destruct (String.eqb m n) eqn:E; [|apply IH; assumption].
    apply String.eqb_eq in E. subst. exfalso. apply H1. apply (in_map fst) in H. exact H.
Qed.
Lemma get_None (A : Type) (d : list (string * A)) n : get d n = None <-> ~ In n (map fst d).
Proof.
  unfold get. induction d as [|[m y] d IH]; simpl; [tauto|].
  destruct (String.eqb m n) eqn:E; simpl.
  - apply String.eqb_eq in E. split; [discriminate|]. intros H; exfalso; apply H; auto.
  - rewrite IH. assert (m <> n) by (intros H; apply String.eqb_eq in H; congruence). tauto.
Qed.

Section A.
Variable E : Type.

Section ValueInd.
Variable P : value E -> Prop.
Hypothesis Hs : forall x, P (VScalar x).
Hypothesis Ha : forall x, P (VArr x).
Hypothesis Hd : forall gs, P (VDof gs).
Hypothesis Ho : forall l, Forall P l -> P (VObj l).
Fixpoint value_ind' (v : value E) : P v :=
  match v with
  | VScalar x => Hs x
  | VArr x => Ha x
  | VDof gs => Hd gs
  | VObj l => Ho ((fix go l : Forall P l := match l with [] => Forall_nil _ | v :: l' => Forall_cons v (value_ind' v) (go l') end) l)
  end.
End ValueInd.

Lemma flatten_flattened v : flattened v (@flatten_leaves E v).
Proof.
  induction v as [x|x|gs|l IH] using value_ind'; simpl; constructor.
  induction IH as [|v l Hv _ IHl]; simpl; constructor; auto.
Qed.
Lemma flattened_fun (v w w' : value E) : flattened v w -> flattened v w' -> w = w'.
Proof.
  revert w w'; induction v as [x|x|gs|l IH] using value_ind'; intros w w' H H'; inversion H; inversion H'; subst; auto.
  f_equal. clear H H'. rename H1 into A1, H4 into A2. revert l' l'0 A1 A2.
  induction IH as [|v l Hv _ IHl]; intros l1 l2 A1 A2; inversion A1; inversion A2; subst; auto.
  f_equal; auto.
Qed.

Lemma take_iff ids (x y : list E) : take ids x = Ok y <-> Forall2 (fun i e => nth_error x i = Some e) ids y.
Proof.
  unfold take. revert y; induction ids as [|i ids IH]; intros y; simpl.
  - split; [intros H; inversion H; constructor|intros H; inversion H; reflexivity].
  - destruct (nth_error x i) as [e|] eqn:Ei; simpl.
    + destruct (mapM _ ids) as [ys|er] eqn:Em; simpl.
      * split.
        -- intros H; inversion H; subst. constructor; [exact Ei|]. apply IH. reflexivity.
        -- intros H; inversion H; subst. apply IH in H4. inversion H4; subst. congruence.
      * split; [discriminate|]. intros H; inversion H; subst. apply IH in H4. discriminate.
    + split; [discriminate|]. intros H; inversion H; subst. congruence.
Qed.
Lemma take_total ids (x : list E) n : length x = n -> (forall i, In i ids -> i < n) -> exists y, take ids x = Ok y.
Proof.
  intros Hl. induction ids as [|i ids IH]; intros Hi; [exists []; reflexivity|].
  destruct IH as [y Hy]; [intros j Hj; apply Hi; right; exact Hj|].
  destruct (nth_error x i) as [e|] eqn:Ei.
  - exists (e :: y). unfold take in *. simpl. rewrite Ei. simpl. rewrite Hy. reflexivity.
  - exfalso. apply nth_error_None in Ei. specialize (Hi i (or_introl eq_refl)). lia.
Qed.

Definition go_reorder ids := fix go (l : list (value E)) : result (list (value E)) :=
  match l with
  | [] => Ok []
  | v :: l' => do y <- rec_reorder ids v; do ys <- go l'; Ok (y :: ys)
  end.
Lemma rec_obj ids l : rec_reorder ids (VObj l) = do l' <- go_reorder ids l; Ok (VObj l').
Proof. reflexivity. Qed.
Lemma rec_reorder_iff ids (v w : value E) : rec_reorder ids v = Ok w <-> reordered ids v w.
Proof.
  revert w; induction v as [x|x|gs|l IH] using value_ind'; intros w.
  - simpl. split; intros H; inversion H; subst; [constructor|reflexivity].
  - simpl. destruct (take ids x) as [y|e] eqn:Et; simpl.
    + split; intros H; inversion H; subst; [constructor; apply take_iff; exact Et|].
      match goal with H0 : Forall2 _ ids _ |- _ => apply take_iff in H0 end. congruence.
    + split; intros H; inversion H; subst. match goal with H0 : Forall2 _ ids _ |- _ => apply take_iff in H0 end. congruence.
  - simpl. destruct (take ids (concat gs)) as [y|e] eqn:Et; simpl.
    + split; intros H; inversion H; subst; [constructor; apply take_iff; exact Et|].
      match goal with H0 : Forall2 _ ids _ |- _ => apply take_iff in H0 end. congruence.
    + split; intros H; inversion H; subst. match goal with H0 : Forall2 _ ids _ |- _ => apply take_iff in H0 end. congruence.
  - rewrite rec_obj.
    assert (Hgo : forall ls, go_reorder ids l = Ok ls <-> Forall2 (reordered ids) l ls).
    { induction IH as [|v l Hv _ IHl]; intros ls; simpl.
      - split; intros H; inversion H; subst; [constructor|reflexivity].
      - destruct (rec_reorder ids v) as [y|e] eqn:Ev; simpl.
        + destruct (go_reorder ids l) as [ys|e'] eqn:El; simpl.
          * split; intros H; inversion H; subst.
            -- constructor; [apply Hv; reflexivity|apply IHl; reflexivity].
            -- apply Hv in H2. apply IHl in H4. congruence.
          * split; intros H; inversion H; subst. apply IHl in H4. discriminate.
        + split; intros H; inversion H; subst. apply Hv in H2. discriminate. }
    destruct (go_reorder ids l) as [ls|e] eqn:El; simpl.
    + split; intros H; inversion H; subst; [constructor; apply Hgo; reflexivity|].
      match goal with H0 : Forall2 _ _ _ |- _ => apply Hgo in H0 end. congruence.
    + split; intros H; inversion H; subst. match goal with H0 : Forall2 _ _ _ |- _ => apply Hgo in H0 end. discriminate.
Qed.
Lemma rec_reorder_total ids n (v : value E) : per_source n v -> (forall i, In i ids -> i < n) -> exists w, rec_reorder ids v = Ok w.
Proof.
  intros Hp Hi. revert Hp. induction v as [x|x|gs|l IH] using value_ind'; intros Hp; inversion Hp; subst.
  - eexists; reflexivity.
  - destruct (@take_total ids x _ eq_refl Hi) as [y Hy]. simpl. rewrite Hy. simpl. eauto.
  - destruct (@take_total ids (concat gs) _ eq_refl Hi) as [y Hy]. simpl. rewrite Hy. simpl. eauto.
  - rewrite rec_obj. assert (Hgo : exists ls, go_reorder ids l = Ok ls).
    { clear Hp. induction IH as [|v l Hv _ IHl]; [eexists; reflexivity|]. inversion H0; subst.
      destruct (Hv H2) as [w Hw]. destruct (IHl H3) as [ws Hws]. simpl. rewrite Hw, Hws. simpl. eauto. }
    destruct Hgo as [ls ->]. simpl. eauto.
Qed.
(** Reordering what was flattened is reordering. *)
Lemma reordered_flat ids (v u w : value E) : flattened v u -> (reordered ids v w <-> reordered ids u w).
Proof.
  revert u w; induction v as [x|x|gs|l IH] using value_ind'; intros u w H; inversion H; subst; try tauto.
  - split; intros H'; inversion H'; subst; constructor; assumption.
  - assert (Hgo : forall ls, Forall2 (reordered ids) l ls <-> Forall2 (reordered ids) l' ls).
    { clear H. revert l' H1. induction IH as [|v l Hv _ IHl]; intros l' H1; inversion H1; subst; intros ls; [tauto|].
      match goal with A : flattened v _, B : Forall2 (@flattened E) l _ |- _ => assert (Q1 := fun w => Hv _ w A); assert (Q2 := IHl _ B) end.
      split; intros H'; inversion H'; subst; constructor; try (apply Q1; assumption); apply Q2; assumption. }
    split; intros H'; inversion H'; subst; constructor; apply Hgo; assumption.
Qed.

Section Ev.
Variable X : Type.
Variable evaluate : X -> result (value E).

Lemma In_gather f ks n : In n (gather f ks) <-> needed f ks n.
Proof.
  unfold gather, needed.
  assert (H : forall acc, In n (fold_left (fun acc k => union acc (f k)) ks acc) <-> In n acc \/ exists k, In k ks /\ In n (f k)).
  { induction ks as [|k ks IH]; intros acc; simpl.
    - split; [auto|]. intros [H|(k & [] & _)]; exact H.
    - rewrite IH, In_union. split.
      + intros [[H|H]|(k' & Hk & Hn)]; eauto.
      + intros [H|(k' & [->|Hk] & Hn)]; eauto. }
  rewrite H. simpl. tauto.
Qed.
Lemma NoDup_gather f ks : NoDup (gather f ks).
Proof.
  unfold gather. assert (H : forall acc, NoDup acc -> NoDup (fold_left (fun acc k => union acc (f k)) ks acc)).
  { induction ks as [|k ks IH]; intros acc Hn; simpl; [exact Hn|]. apply IH, NoDup_union, Hn. }
  apply H. constructor.
Qed.

Lemma extra_into_ok ids args names d d' :
  extra_into evaluate ids args names d = Ok d' -> NoDup names ->
  forall n, (In n names -> exists x v w, get args n = Some x /\ evaluate x = Ok v /\ reordered ids v w /\ get d' n = Some w)
    /\ (~ In n names -> get d' n = get d n).
Proof.
  revert d; induction names as [|m names IH]; intros d H HN n; simpl in H.
  - inversion H; subst. split; [intros []|reflexivity].
  - inversion HN; subst. destruct (get args m) as [x|] eqn:Ex; [|discriminate].
    destruct (evaluate x) as [v|] eqn:Ev; simpl in H; [|discriminate].
    destruct (rec_reorder ids v) as [w|] eqn:Er; simpl in H; [|discriminate].
    apply rec_reorder_iff in Er. destruct (IH _ H H3 n) as [I1 I2]. split.
    + intros [<-|Hn]; [|auto]. exists x, v, w. repeat split; auto.
      destruct (IH _ H H3 m) as [_ I2']. rewrite (I2' H2), get_put, String.eqb_refl. reflexivity.
    + intros Hn. simpl in Hn. rewrite I2 by tauto. rewrite get_put. destruct (String.eqb m n) eqn:En; [|reflexivity].
      apply String.eqb_eq in En. tauto.
Qed.
Lemma extra_into_total ids args names d N :
  (forall n, In n names -> exists x v, get args n = Some x /\ evaluate x = Ok v /\ per_source N v) ->
  (forall i, In i ids -> i < N) ->
  exists d', extra_into evaluate ids args names d = Ok d'.
Proof.
  intros Ha Hi. revert d; induction names as [|m names IH]; intros d; simpl; [eauto|].
  destruct (Ha m (or_introl eq_refl)) as (x & v & -> & Hv & Hp). rewrite Hv. simpl.
  destruct (rec_reorder_total ids Hp Hi) as [w ->]. simpl. apply IH. intros n Hn. apply Ha. right. exact Hn.
Qed.
Lemma extra_into_missing ids args names d N :
  (forall n x, get args n = Some x -> exists v, evaluate x = Ok v /\ per_source N v) ->
  (forall i, In i ids -> i < N) ->
  (exists n, In n names /\ get args n = None) ->
  extra_into evaluate ids args names d = Err KeyError.
Proof.
  intros Ha Hi. revert d; induction names as [|m names IH]; intros d (n & Hn & Hg); [contradiction|]. simpl.
  destruct (get args m) as [x|] eqn:Ex; [|reflexivity].
  destruct (Ha _ _ Ex) as (v & Hv & Hp). rewrite Hv. simpl. destruct (rec_reorder_total ids Hp Hi) as [w ->]. simpl.
  apply IH. destruct Hn as [->|Hn]; [congruence|]. eauto.
Qed.

Lemma extra_ok ids ks args kd sd : NoDup (map fst args) -> extra_kwargs evaluate ids ks args = Ok (kd, sd) ->
  dict_of evaluate args (needed k_args ks) (reordered ids) kd /\ dict_of evaluate args (needed k_sargs ks) (reordered ids) sd.
Proof.
  intros HN H. unfold extra_kwargs in H.
  destruct (extra_into evaluate ids args (gather k_args ks) []) as [kd'|] eqn:Ek; simpl in H; [|discriminate].
  destruct (extra_into evaluate ids args (gather k_sargs ks) []) as [sd'|] eqn:Es; simpl in H; [|discriminate].
  inversion H; subst.
  assert (G : forall f d, extra_into evaluate ids args (gather f ks) [] = Ok d -> dict_of evaluate args (needed f ks) (reordered ids) d).
  { intros f d Hd. pose proof (@extra_into_ok _ _ _ _ _ Hd (NoDup_gather f ks)) as Hx. split.
    - intros n. rewrite <- In_gather. split.
      + intros [w Hw]. destruct (in_dec String.string_dec n (gather f ks)) as [Hi|Hi]; [exact Hi|].
        rewrite (proj2 (Hx n) Hi) in Hw. discriminate.
      + intros Hi. destruct (proj1 (Hx n) Hi) as (x & v & w & _ & _ & _ & Hw). eauto.
    - intros n w Hw. destruct (in_dec String.string_dec n (gather f ks)) as [Hi|Hi].
      + destruct (proj1 (Hx n) Hi) as (x & v & w' & H1 & H2 & H3 & H4). exists x, v.
        rewrite Hw in H4; inversion H4; subst w'. split; [apply get_In; exact H1|]. auto.
      + rewrite (proj2 (Hx n) Hi) in Hw. discriminate. }
  auto.
Qed.
Lemma extra_total ids ks args N : NoDup (map fst args) ->
  (forall n, needed k_args ks n \/ needed k_sargs ks n -> exists x v, In (n, x) args /\ evaluate x = Ok v /\ per_source N v) ->
  (forall i, In i ids -> i < N) ->
  exists kd sd, extra_kwargs evaluate ids ks args = Ok (kd, sd).
Proof.
  intros HN Ha Hi. unfold extra_kwargs.
  destruct (@extra_into_total ids args (gather k_args ks) [] N) as [kd ->]; auto.
  { intros n Hn. apply In_gather in Hn. destruct (Ha n (or_introl Hn)) as (x & v & H1 & H2 & H3). exists x, v. split; [apply In_get; auto|auto]. }
  simpl. destruct (@extra_into_total ids args (gather k_sargs ks) [] N) as [sd ->]; auto.
  { intros n Hn. apply In_gather in Hn. destruct (Ha n (or_intror Hn)) as (x & v & H1 & H2 & H3). exists x, v. split; [apply In_get; auto|auto]. }
  simpl. eauto.
Qed.
Lemma extra_missing ids ks args N :
  (forall n x, In (n, x) args -> exists v, evaluate x = Ok v /\ per_source N v) ->
  (forall i, In i ids -> i < N) ->
  (exists n, (needed k_args ks n \/ needed k_sargs ks n) /\ ~ In n (map fst args)) ->
  extra_kwargs evaluate ids ks args = Err KeyError.
Proof.
  intros Ha Hi (n & Hn & Hm). unfold extra_kwargs.
  assert (Ha' : forall n x, get args n = Some x -> exists v, evaluate x = Ok v /\ per_source N v).
  { intros m x Hg. apply (Ha m x). apply get_In. exact Hg. }
  destruct Hn as [Hn|Hn]; apply In_gather in Hn; apply get_None in Hm.
  - rewrite (@extra_into_missing _ _ _ _ N Ha' Hi); eauto.
  - destruct (extra_into evaluate ids args (gather k_args ks) []) as [kd|e] eqn:Ek; simpl.
    + rewrite (@extra_into_missing _ _ _ _ N Ha' Hi); eauto.
    + assert (Hd : forall names d e, extra_into evaluate ids args names d = Err e -> e = KeyError).
      { clear Ek. induction names as [|m names IH]; intros d e' He; simpl in He; [discriminate|].
        destruct (get args m) as [x|] eqn:Ex; [|congruence].
        destruct (Ha' _ _ Ex) as (v & Hv & Hp). rewrite Hv in He. simpl in He.
        destruct (rec_reorder_total ids Hp Hi) as [w Hw]. rewrite Hw in He. simpl in He. eauto. }
      rewrite (Hd _ _ _ Ek). reflexivity.
Qed.

(** evaluate_kernel_arguments *)
Lemma eval_into_ok flat args d d' : evaluate_args_into evaluate flat args d = Ok d' -> NoDup (map fst args) ->
  forall n, (forall x, In (n, x) args -> exists v, evaluate x = Ok v /\
               get d' n = Some (if flat && negb (is_scalar_like v) then flatten_leaves v else v))
    /\ (~ In n (map fst args) -> get d' n = get d n).
Proof.
  revert d; induction args as [|[m e] args IH]; intros d H HN n; simpl in H.
  - inversion H; subst. split; [intros x []|reflexivity].
  - simpl in HN. inversion HN; subst. destruct (evaluate e) as [v|] eqn:Ev; simpl in H; [|discriminate].
    destruct (IH _ H H3 n) as [I1 I2]. split.
    + intros x [Hx|Hx]; [|auto]. inversion Hx; subst. exists v. split; [exact Ev|].
      rewrite (I2 H2), get_put, String.eqb_refl. reflexivity.
    + intros Hn. simpl in Hn. rewrite I2 by tauto. rewrite get_put. destruct (String.eqb m n) eqn:En; [|reflexivity].
      apply String.eqb_eq in En. tauto.
Qed.
Lemma eval_ok flat args d : NoDup (map fst args) -> evaluate_kernel_arguments evaluate flat args = Ok d ->
  dict_of evaluate args (fun n => In n (map fst args)) (fun v w => if flat then flattened v w else w = v) d.
Proof.
  intros HN H. pose proof (@eval_into_ok _ _ _ _ H HN) as Hx. split.
  - intros n. split.
    + intros [w Hw]. destruct (in_dec String.string_dec n (map fst args)) as [Hi|Hi]; [exact Hi|].
      rewrite (proj2 (Hx n) Hi) in Hw. discriminate.
    + intros Hi. apply in_map_iff in Hi. destruct Hi as ([m x] & <- & Hi). simpl.
      destruct (proj1 (Hx m) _ Hi) as (v & _ & Hg). eauto.
  - intros n w Hw. destruct (in_dec String.string_dec n (map fst args)) as [Hi|Hi].
    + apply in_map_iff in Hi. destruct Hi as ([m x] & E0 & Hi). simpl in E0. subst m.
      destruct (proj1 (Hx n) _ Hi) as (v & Hv & Hg). exists x, v. rewrite Hw in Hg. inversion Hg; subst w.
      split; [exact Hi|]. split; [exact Hv|]. destruct flat; simpl; [|reflexivity].
      destruct v; cbn [is_scalar_like negb]; [constructor| | |]; apply flatten_flattened.
    + rewrite (proj2 (Hx n) Hi) in Hw. discriminate.
Qed.
Lemma eval_total flat args : (forall n x, In (n, x) args -> exists v, evaluate x = Ok v) ->
  exists d, evaluate_kernel_arguments evaluate flat args = Ok d.
Proof.
  unfold evaluate_kernel_arguments. generalize (@nil (string * value E)) as d0.
  induction args as [|[m e] args IH]; intros d0 Ha; simpl; [eauto|].
  destruct (Ha m e (or_introl eq_refl)) as [v ->]. simpl. apply IH. intros n x Hx. apply (Ha n x). right. exact Hx.
Qed.
Lemma NoDup_map_filter (A B : Type) (g : A -> B) f (l : list A) : NoDup (map g l) -> NoDup (map g (filter f l)).
Proof.
  induction l as [|x l IH]; simpl; intros H; [constructor|]. inversion H; subst. destruct (f x); [|auto].
  simpl. constructor; [|auto]. intros Hi. apply H2. apply in_map_iff in Hi. destruct Hi as (y & <- & Hy).
  apply filter_In in Hy. apply in_map. tauto.
Qed.

(** Strengths. *)
Variable mul : E -> E -> E.
Lemma mapM_iff (A B : Type) (f : A -> result B) l ys : mapM f l = Ok ys <-> Forall2 (fun x y => f x = Ok y) l ys.
Proof.
  revert ys; induction l as [|x l IH]; intros ys; simpl.
  - split; intros H; inversion H; [constructor|reflexivity].
  - destruct (f x) as [y|e] eqn:Ex; simpl.
    + destruct (mapM f l) as [zs|e] eqn:Em; simpl.
      * split; intros H; inversion H; subst; [constructor; [exact Ex|apply IH; reflexivity]|].
        apply IH in H4. congruence.
      * split; intros H; inversion H; subst. apply IH in H4. discriminate.
    + split; intros H; inversion H; subst. congruence.
Qed.
Lemma combine_concat (a b : list (list E)) : map (@length E) a = map (@length E) b ->
  concat (map (fun p => zip_mul mul (fst p) (snd p)) (combine a b)) = zip_mul mul (concat a) (concat b).
Proof.
  revert b; induction a as [|x a IH]; intros [|y b] H; simpl in H; try discriminate; [reflexivity|].
  inversion H. simpl. rewrite (IH _ H2). unfold zip_mul.
  rewrite <- map_app. f_equal. clear -H1. revert y H1. induction x as [|e x IH]; intros [|f y] H; simpl in *; try discriminate; auto.
  f_equal. apply IH. lia.
Qed.
Lemma dof_mul_ok waa d y : dof_mul mul waa d = Ok y -> map (@length E) waa = map (@length E) d /\ concat y = zip_mul mul (concat waa) (concat d).
Proof.
  unfold dof_mul. destruct (list_eqb _ _ _) eqn:El; [|discriminate]. apply (list_eqb_iff Nat.eqb Nat.eqb_eq) in El.
  intros H; inversion H; subst. split; [exact El|]. apply combine_concat. exact El.
Qed.
Lemma strengths_ok waa ds fs : flat_strengths evaluate mul waa ds = Ok fs ->
  Forall2 (fun d f => exists gs, evaluate d = Ok (VDof gs) /\ map (@length E) gs = map (@length E) waa
                        /\ f = zip_mul mul (concat waa) (concat gs)) ds fs.
Proof.
  unfold flat_strengths. destruct (mapM evaluate ds) as [vs|] eqn:E1; simpl; [|discriminate].
  destruct (mapM (@as_dof E) vs) as [gs|] eqn:E2; simpl; [|discriminate]. intros E3.
  apply mapM_iff in E1, E2, E3. revert gs fs E2 E3.
  induction E1 as [|d v ds vs Hd _ IH]; intros gs fs E2 E3; inversion E2; subst; inversion E3; subst; constructor.
  - destruct v; simpl in H1; try discriminate. inversion H1; subst.
    destruct (dof_mul mul waa y) as [z|] eqn:Ez; simpl in H2; [|discriminate]. inversion H2; subst.
    destruct (@dof_mul_ok _ _ _ Ez) as [A1 A2]. exists y. auto.
  - eapply IH; eassumption.
Qed.
Lemma strengths_total waa ds : (forall d, In d ds -> exists gs, evaluate d = Ok (VDof gs) /\ map (@length E) gs = map (@length E) waa) ->
  exists fs, flat_strengths evaluate mul waa ds = Ok fs.
Proof.
  intros H. unfold flat_strengths.
  assert (G : exists vs gs fs, mapM evaluate ds = Ok vs /\ mapM (@as_dof E) vs = Ok gs /\ mapM (fun d => do y <- dof_mul mul waa d; Ok (concat y)) gs = Ok fs).
  { induction ds as [|d ds IH]; [exists [], [], []; auto|].
    destruct IH as (vs & gs & fs & A1 & A2 & A3); [intros d' Hd'; apply H; right; exact Hd'|].
    destruct (H d (or_introl eq_refl)) as (g & Hg & Hl).
    exists (VDof g :: vs), (g :: gs), (concat (map (fun p => zip_mul mul (fst p) (snd p)) (combine waa g)) :: fs).
    simpl. rewrite Hg, A1, A2. simpl. rewrite A3. unfold dof_mul.
    replace (list_eqb Nat.eqb (map (length (A:=E)) waa) (map (length (A:=E)) g)) with true; [simpl; auto|].
    symmetry. apply (list_eqb_iff Nat.eqb Nat.eqb_eq). auto. }
  destruct G as (vs & gs & fs & -> & A2 & A3). simpl. rewrite A2. simpl. eauto.
Qed.
Lemma strengths_type waa ds : (forall d, In d ds -> exists v, evaluate d = Ok v) ->
  (exists d v, In d ds /\ evaluate d = Ok v /\ forall gs, v <> VDof gs) ->
  flat_strengths evaluate mul waa ds = Err TypeError.
Proof.
  intros H (d0 & v0 & Hi & Hv0 & Hn). unfold flat_strengths.
  assert (G : exists vs, mapM evaluate ds = Ok vs /\ mapM (@as_dof E) vs = Err TypeError).
  { induction ds as [|d ds IH]; [contradiction|].
    destruct (H d (or_introl eq_refl)) as [v Hv]. destruct Hi as [->|Hi].
    - assert (exists vs, mapM evaluate ds = Ok vs) as [vs Hvs].
      { clear IH. assert (forall d, In d ds -> exists v, evaluate d = Ok v) by (intros x Hx; apply H; right; exact Hx).
        clear H. induction ds as [|d ds IH]; [exists []; reflexivity|].
        destruct (H0 d (or_introl eq_refl)) as [w Hw]. destruct IH as [ws Hws]; [intros x Hx; apply H0; right; exact Hx|].
        exists (w :: ws). simpl. rewrite Hw, Hws. reflexivity. }
      exists (v0 :: vs). simpl. rewrite Hv0, Hvs. split; [reflexivity|].
      destruct v0; try reflexivity. exfalso; apply (Hn gs); reflexivity.
    - destruct IH as (vs & A1 & A2); [intros x Hx; apply H; right; exact Hx|exact Hi|].
      exists (v :: vs). simpl. rewrite Hv, A1. split; [reflexivity|]. rewrite A2.
      destruct v; reflexivity. }
  destruct G as (vs & -> & A2). simpl. rewrite A2. reflexivity.
Qed.

(** The point source's executor. *)
Variable call_p2p : p2p -> list (list E) -> list (list E) -> list (value E) -> list (string * value E) -> result (list (list E)).
Variable places : nat -> result (tgt E).
Definition good_out (P : p2p) nodes strengths args (o : out) (r : string * value E) : Prop :=
  fst r = o_name o /\ exists t each x, places (o_tgt o) = Ok t /\ call_p2p P (t_nodes t) nodes strengths args = Ok each
    /\ nth_error each (o_knl o) = Some x /\ snd r = shape_as t x.
Lemma point_outputs_some s nodes (i : pinsn X) args strengths outs P a acc rs a' :
  point_outputs call_p2p places s nodes i args strengths outs (Some P) a acc = (Ok rs, a') ->
  a' = a /\ exists rs', rs = acc ++ rs' /\ Forall2 (good_out P nodes strengths args) outs rs'.
Proof.
  revert acc; induction outs as [|o outs IH]; intros acc H; cbn [point_outputs] in H.
  - inversion H; subst. split; [reflexivity|]. exists []. rewrite app_nil_r. auto.
  - destruct (places (o_tgt o)) as [t|] eqn:Et; [|discriminate]. cbn [bind] in H.
    destruct (call_p2p P (t_nodes t) nodes strengths args) as [each|] eqn:Ec; cbn [bind] in H; [|discriminate].
    destruct (nth_error each (o_knl o)) as [x|] eqn:Ex; [|discriminate].
    destruct (IH _ H) as (-> & rs' & -> & HF). split; [reflexivity|].
    exists ((o_name o, shape_as t x) :: rs'). rewrite <- app_assoc. split; [reflexivity|].
    constructor; [|exact HF]. split; [reflexivity|]. exists t, each, x. auto.
Qed.
Lemma point_outputs_none s nodes (i : pinsn X) args strengths outs a rs a' :
  point_outputs call_p2p places s nodes i args strengths outs None a [] = (Ok rs, a') ->
  (outs = [] /\ rs = [] /\ a' = a) \/
  exists P, get_p2p s (pi_tgt i) (Some (pi_src i)) a = (Ok P, a') /\ Forall2 (good_out P nodes strengths args) outs rs.
Proof.
  destruct outs as [|o outs]; cbn [point_outputs]; intros H; [inversion H; subst; auto|].
  right. destruct (places (o_tgt o)) as [t|] eqn:Et; [|discriminate].
  destruct (get_p2p s (pi_tgt i) (Some (pi_src i)) a) as [[P|e] a1]; cbn [bind] in H; [|discriminate].
  destruct (call_p2p P (t_nodes t) nodes strengths args) as [each|] eqn:Ec; cbn [bind] in H; [|discriminate].
  destruct (nth_error each (o_knl o)) as [x|] eqn:Ex; [|discriminate].
  destruct (@point_outputs_some _ _ _ _ _ _ _ _ _ _ _ H) as (-> & rs' & -> & HF).
  exists P. split; [reflexivity|]. simpl. constructor; [|exact HF]. split; [reflexivity|]. exists t, each, x. auto.
Qed.
Lemma point_outputs_total s nodes (i : pinsn X) args strengths outs a P a1 cur acc :
  match cur with Some Q => Q = P /\ a = a1 | None => get_p2p s (pi_tgt i) (Some (pi_src i)) a = (Ok P, a1) end ->
  (forall o, In o outs -> exists t each x, places (o_tgt o) = Ok t /\ call_p2p P (t_nodes t) nodes strengths args = Ok each
    /\ nth_error each (o_knl o) = Some x) ->
  exists rs, fst (point_outputs call_p2p places s nodes i args strengths outs cur a acc) = Ok rs.
Proof.
  revert cur a acc; induction outs as [|o outs IH]; intros cur a acc Hc Ho; cbn [point_outputs]; [simpl; eauto|].
  destruct (Ho o (or_introl eq_refl)) as (t & each & x & -> & Hx & Hn).
  replace (match cur with Some p => (Ok p, a) | None => get_p2p s (pi_tgt i) (Some (pi_src i)) a end) with (Ok P, a1)
    by (destruct cur; [destruct Hc; subst; reflexivity|auto]).
  cbn [bind]. rewrite Hx. cbn [bind]. rewrite Hn. apply IH; [auto|]. intros o' Ho'. apply Ho. right. exact Ho'.
Qed.
Lemma concat_split ns (x : list E) : length x = fold_right plus 0 ns -> concat (split ns x) = x /\ map (@length E) (split ns x) = ns.
Proof.
  revert x; induction ns as [|n ns IH]; intros x H; simpl in *.
  - destruct x; [auto|discriminate].
  - destruct (IH (skipn n x)) as [A1 A2]; [rewrite skipn_length; lia|].
    rewrite A1, A2, firstn_skipn, firstn_length. split; [reflexivity|]. f_equal. lia.
Qed.
End Ev.
End A.
