From Coq Require Import Reals Lra Lia Eqdep_dec.
From Coquelicot Require Import Complex.
From Verif Require Import Base VdotModel VdotSpec.
Set Implicit Arguments.

Section Ind.
Variable P : value -> Prop.
Hypothesis Hn : forall t z, P (VNum t z).
Hypothesis Hh : forall zs, P (VHost zs).
Hypothesis Hd : forall zs, P (VDev zs).
Hypothesis Ho : forall es, Forall P es -> P (VObj es).
Hypothesis Hc : forall c es, Forall P es -> P (VCont c es).
Fixpoint value_ind' (v : value) : P v :=
  let fix go (es : list value) : Forall P es :=
    match es with [] => Forall_nil P | e :: r => Forall_cons e (value_ind' e) (go r) end in
  match v with
  | VNum t z => Hn t z | VHost zs => Hh zs | VDev zs => Hd zs
  | VObj es => Ho (go es) | VCont c es => Hc c (go es)
  end.
End Ind.
Section LInd.
Variable P : layout -> Prop.
Hypothesis Hn : forall t, P (LNum t).
Hypothesis Hh : forall n, P (LHost n).
Hypothesis Hd : forall n, P (LDev n).
Hypothesis Ho : forall es, Forall P es -> P (LObj es).
Hypothesis Hc : forall c es, Forall P es -> P (LCont c es).
Fixpoint layout_ind' (v : layout) : P v :=
  let fix go (es : list layout) : Forall P es :=
    match es with [] => Forall_nil P | e :: r => Forall_cons e (layout_ind' e) (go r) end in
  match v with
  | LNum t => Hn t | LHost n => Hh n | LDev n => Hd n
  | LObj es => Ho (go es) | LCont c es => Hc c (go es)
  end.
End LInd.

(** ** The value of the inner product *)
Lemma scp_nil : sum_conj_prod [] [] = RtoC 0.
Proof. reflexivity. Qed.
Lemma scp_cons x y xs ys : sum_conj_prod (x :: xs) (y :: ys) = Cplus (Cmult (Cconj x) y) (sum_conj_prod xs ys).
Proof. reflexivity. Qed.
Lemma scp_app xs ys xs' ys' : length xs = length ys ->
  sum_conj_prod (xs ++ xs') (ys ++ ys') = Cplus (sum_conj_prod xs ys) (sum_conj_prod xs' ys').
Proof.
  revert ys. induction xs as [|x xs IH]; intros [|y ys] H; try discriminate H.
  - simpl. rewrite scp_nil. symmetry. apply Cplus_0_l.
  - injection H as H. simpl app. rewrite !scp_cons, (IH _ H). apply Cplus_assoc.
Qed.

Lemma vdot_list_iff xs : forall ys r, vdot_list xs ys = Ok r <-> length xs = length ys /\ r = sum_conj_prod xs ys.
Proof.
  induction xs as [|x xs IH]; intros [|y ys] r; simpl.
  - rewrite scp_nil. split; [intros H; injection H as <-; auto|intros [_ ->]; reflexivity].
  - split; [discriminate|intros [H _]; discriminate H].
  - split; [discriminate|intros [H _]; discriminate H].
  - destruct (vdot_list xs ys) as [s|e] eqn:E; simpl.
    + apply IH in E. destruct E as [E1 ->]. rewrite scp_cons. split.
      * intros H. injection H as <-. auto.
      * intros [_ ->]. reflexivity.
    + split; [discriminate|]. intros [H _]. injection H as H.
      assert (X : vdot_list xs ys = Ok (sum_conj_prod xs ys)) by (apply IH; auto). congruence.
Qed.

Fixpoint vdots (xs ys : list value) : result C :=
  match xs, ys with
  | [], [] => Ok (RtoC 0)
  | x :: xs', y :: ys' => do a <- actx_vdot x y; do s <- vdots xs' ys'; Ok (Cplus a s)
  | _, _ => Err ValueError
  end.
Lemma actx_obj xs : forall ys, actx_vdot (VObj xs) (VObj ys) = vdots xs ys.
Proof.
  simpl. induction xs as [|x xs IH]; intros [|y ys]; try reflexivity.
Qed.
Lemma actx_cont c d xs ys : actx_vdot (VCont c xs) (VCont d ys) = if Nat.eqb c d then vdots xs ys else Err TypeError.
Proof. rewrite <- actx_obj. reflexivity. Qed.

Lemma dev_obj ls : on_device (LObj ls) <-> Forall on_device ls.
Proof.
  simpl. induction ls as [|l r IH]; [split; constructor|]. rewrite IH. split; [intros [? ?]; constructor; auto|].
  intros H. inversion H; auto.
Qed.

Definition vdot_for (x : value) := forall y r, actx_vdot x y = Ok r <->
  layout_of x = layout_of y /\ on_device (layout_of x) /\ r = sum_conj_prod (entries x) (entries y).

Lemma entries_length v : length (entries v) = size (layout_of v).
Proof.
  induction v as [t z|zs|zs|es IH|c es IH] using value_ind'; simpl; try reflexivity;
  induction IH as [|e r He _ IHr]; simpl; rewrite ?app_length; congruence.
Qed.

Lemma vdots_iff xs : Forall vdot_for xs -> forall ys r, vdots xs ys = Ok r <->
  map layout_of xs = map layout_of ys /\ Forall on_device (map layout_of xs) /\
  r = sum_conj_prod (flat_map entries xs) (flat_map entries ys).
Proof.
  induction 1 as [|x xs Hx _ IH]; intros [|y ys] r; simpl.
  - rewrite scp_nil. split; [intros H; injection H as <-; auto|intros (_ & _ & ->); reflexivity].
  - split; [discriminate|intros [H _]; discriminate H].
  - split; [discriminate|intros [H _]; discriminate H].
  - split.
    + destruct (actx_vdot x y) as [a|e] eqn:Ea; [|discriminate]. simpl.
      destruct (vdots xs ys) as [s|e] eqn:Es; [|discriminate]. simpl. intros H. injection H as <-.
      apply Hx in Ea. destruct Ea as (E1 & E2 & ->). apply IH in Es. destruct Es as (E3 & E4 & ->).
      split; [congruence|]. split; [constructor; assumption|].
      symmetry. apply scp_app. rewrite !entries_length, E1. reflexivity.
    + intros (E & HF & ->). injection E as E1 E3. inversion HF as [|? ? E2 E4]; subst.
      rewrite (proj2 (Hx y _) (conj E1 (conj E2 eq_refl))). simpl.
      rewrite (proj2 (IH ys _) (conj E3 (conj E4 eq_refl))). simpl. f_equal.
      symmetry. apply scp_app. rewrite !entries_length, E1. reflexivity.
Qed.

Lemma actx_vdot_iff x : vdot_for x.
Proof.
  induction x as [t z|zs|zs|es IH|c es IH] using value_ind'; intros y r.
  - simpl. split; [destruct y; discriminate|tauto].
  - simpl. split; [destruct y; discriminate|tauto].
  - destruct y; simpl; try (split; [discriminate|intros [H _]; discriminate H]).
    rewrite vdot_list_iff. split; [intros [-> ->]; auto|]. intros (H & _ & ->). injection H as ->. auto.
  - destruct y as [| | |ys|]; try (simpl; split; [discriminate|intros [H _]; discriminate H]).
    rewrite actx_obj, (vdots_iff IH). simpl layout_of. rewrite dev_obj. simpl entries.
    split; [intros (-> & ? & ->); auto|]. intros (H & ? & ->). injection H as H. rewrite <- H. auto.
  - destruct y as [| | | |d ys]; try (simpl; split; [discriminate|intros [H _]; discriminate H]).
    rewrite actx_cont. simpl layout_of. change (on_device (LCont c (map layout_of es))) with (on_device (LObj (map layout_of es))).
    rewrite dev_obj. simpl entries.
    destruct (Nat.eqb_spec c d) as [->|Hn].
    + rewrite (vdots_iff IH). split; [intros (-> & ? & ->); auto|]. intros (H & ? & ->). injection H as H. rewrite <- H. auto.
    + split; [discriminate|]. intros (H & _). injection H as H _. contradiction.
Qed.

Lemma structured_vdot_l mixed actx x y r :
  (forall xs ys, x = VHost xs -> y = VObj ys -> False) ->
  structured_vdot mixed actx x y = Ok r <->
  layout_of x = layout_of y /\ supported actx (layout_of x) /\ r = sum_conj_prod (entries x) (entries y).
Proof.
  intros Hm. unfold structured_vdot.
  destruct (pytype_eqb (type_of x) (type_of y)) eqn:Et.
  2:{ simpl. split; [discriminate|]. intros (H & _). exfalso.
      destruct x, y; simpl in *; try discriminate H; try discriminate Et;
      injection H; intros; subst; rewrite ?Nat.eqb_refl in Et; discriminate Et. }
  cbn [negb].
  assert (Ha : forall x y, (if negb actx then Err ValueError else actx_vdot x y) = Ok r <->
    layout_of x = layout_of y /\ (actx = true /\ on_device (layout_of x)) /\ r = sum_conj_prod (entries x) (entries y)).
  { intros x' y'. destruct actx; simpl; [rewrite (actx_vdot_iff x' y' r); tauto|]. split; [discriminate|].
    intros (_ & [H _] & _). discriminate H. }
  destruct x as [t a|xs|xs|xs|c xs]; destruct y as [t' b|ys|ys|ys|d ys]; try discriminate Et; try apply Ha.
  - simpl. apply Nat.eqb_eq in Et. subst t'. unfold sum_conj_prod. simpl. rewrite Cplus_0_r.
    split; [intros H; injection H as <-; auto|]. intros (_ & _ & ->). reflexivity.
  - simpl. rewrite vdot_list_iff. split; [intros [-> ->]; auto|]. intros (H & _ & ->). injection H as ->. auto.
  - destruct (Hm xs ys eq_refl eq_refl).
Qed.

(** ** The space of the values of a layout *)
Fixpoint layout_eqb (a b : layout) {struct a} : bool :=
  match a, b with
  | LNum i, LNum j | LHost i, LHost j | LDev i, LDev j => Nat.eqb i j
  | LObj xs, LObj ys =>
      (fix go xs ys := match xs, ys with [], [] => true | x :: xs', y :: ys' => layout_eqb x y && go xs' ys' | _, _ => false end) xs ys
  | LCont c xs, LCont d ys => Nat.eqb c d &&
      (fix go xs ys := match xs, ys with [], [] => true | x :: xs', y :: ys' => layout_eqb x y && go xs' ys' | _, _ => false end) xs ys
  | _, _ => false
  end.
Lemma layout_eqb_eq a : forall b, layout_eqb a b = true <-> a = b.
Proof.
  assert (Hl : forall es, Forall (fun a => forall b, layout_eqb a b = true <-> a = b) es -> forall ys,
    (fix go xs ys := match xs, ys with [], [] => true | x :: xs', y :: ys' => layout_eqb x y && go xs' ys' | _, _ => false end) es ys = true
    <-> es = ys).
  { induction 1 as [|x xs Hx _ IH]; intros [|y ys]; try (split; congruence); try tauto.
    rewrite andb_true_iff, Hx, IH. split; [intros [-> ->]; reflexivity|]. intros H; injection H; auto. }
  induction a as [t|n|n|es IH|c es IH] using layout_ind'; intros [t'|n'|n'|es'|c' es']; simpl; try (split; congruence);
    try (rewrite Nat.eqb_eq; split; congruence).
  - rewrite (Hl _ IH). split; congruence.
  - rewrite andb_true_iff, Nat.eqb_eq, (Hl _ IH). split; [intros [-> ->]; reflexivity|]. intros H; injection H; auto.
Qed.

Lemma map2_length A B D (f : A -> B -> D) l : forall l', length l = length l' -> length (map2 f l l') = length l.
Proof. induction l as [|a l IH]; intros [|b l'] H; try discriminate H; simpl; [reflexivity|]. injection H as H. rewrite IH; auto. Qed.
Lemma map2_app A B D (f : A -> B -> D) l : forall l' m m', length l = length l' -> map2 f (l ++ m) (l' ++ m') = map2 f l l' ++ map2 f m m'.
Proof. induction l as [|a l IH]; intros [|b l'] m m' H; try discriminate H; simpl; [reflexivity|]. injection H as H. rewrite IH; auto. Qed.

Lemma vmap2_list f xs : forall ys,
  (fix go a b := match a, b with x :: a', y :: b' => vmap2 f x y :: go a' b' | _, _ => [] end) xs ys = map2 (vmap2 f) xs ys.
Proof. induction xs as [|x xs IH]; intros [|y ys]; try reflexivity. simpl. rewrite IH. reflexivity. Qed.

Lemma vmap2_ok f x : forall y, layout_of x = layout_of y ->
  layout_of (vmap2 f x y) = layout_of x /\ entries (vmap2 f x y) = map2 f (entries x) (entries y).
Proof.
  assert (Hl : forall xs, Forall (fun x => forall y, layout_of x = layout_of y ->
     layout_of (vmap2 f x y) = layout_of x /\ entries (vmap2 f x y) = map2 f (entries x) (entries y)) xs ->
     forall ys, map layout_of xs = map layout_of ys ->
     map layout_of (map2 (vmap2 f) xs ys) = map layout_of xs /\
     flat_map entries (map2 (vmap2 f) xs ys) = map2 f (flat_map entries xs) (flat_map entries ys)).
  { induction 1 as [|x0 xs Hx _ IH]; intros [|y ys] H; try discriminate H; simpl; [auto|].
    injection H as H1 H2. destruct (Hx _ H1) as [E1 E2]. destruct (IH _ H2) as [E3 E4].
    rewrite E1, E2, E3, E4. split; [reflexivity|]. symmetry. apply map2_app. rewrite !entries_length, H1. reflexivity. }
  induction x as [t z|zs|zs|es IH|c es IH] using value_ind'; intros [t' z'|zs'|zs'|es'|c' es'] H; try discriminate H;
    simpl; injection H; intros.
  - auto.
  - rewrite map2_length by assumption. auto.
  - rewrite map2_length by assumption. auto.
  - rewrite vmap2_list. destruct (Hl _ IH _ H0) as [-> ->]. auto.
  - rewrite vmap2_list. destruct (Hl _ IH _ H0) as [-> ->]. auto.
Qed.

Lemma entries_inj x : forall y, layout_of x = layout_of y -> entries x = entries y -> x = y.
Proof.
  assert (Hl : forall xs, Forall (fun x => forall y, layout_of x = layout_of y -> entries x = entries y -> x = y) xs ->
     forall ys, map layout_of xs = map layout_of ys -> flat_map entries xs = flat_map entries ys -> xs = ys).
  { induction 1 as [|x0 xs Hx _ IH]; intros [|y ys] H E; try discriminate H; [reflexivity|].
    injection H as H1 H2. simpl in E.
    assert (Hlen : length (entries x0) = length (entries y)) by (rewrite !entries_length, H1; reflexivity).
    assert (E1 : entries x0 = entries y).
    { apply (f_equal (firstn (length (entries x0)))) in E. rewrite !firstn_app, Nat.sub_diag in E.
      rewrite Hlen, Nat.sub_diag in E. rewrite <- Hlen in E. rewrite firstn_all in E. rewrite Hlen, firstn_all in E.
      simpl in E. rewrite !app_nil_r in E. exact E. }
    rewrite E1 in E. apply app_inv_head in E. rewrite (Hx _ H1 E1), (IH _ H2 E). reflexivity. }
  induction x as [t z|zs|zs|es IH|c es IH] using value_ind'; intros [t' z'|zs'|zs'|es'|c' es'] H E; try discriminate H;
    simpl in E; injection H; intros; subst; try reflexivity.
  - injection E as ->. reflexivity.
  - rewrite (Hl _ IH _ H0 E). reflexivity.
  - rewrite (Hl _ IH _ H0 E). reflexivity.
Qed.

(** A value of a layout with given entries. *)
Fixpoint build (L : layout) (g : nat -> C) (off : nat) : value :=
  match L with
  | LNum t => VNum t (g off)
  | LHost n => VHost (map g (seq off n))
  | LDev n => VDev (map g (seq off n))
  | LObj ls => VObj ((fix go ls off := match ls with [] => [] | l :: r => build l g off :: go r (off + size l) end) ls off)
  | LCont c ls => VCont c ((fix go ls off := match ls with [] => [] | l :: r => build l g off :: go r (off + size l) end) ls off)
  end.
Lemma build_ok L g : forall off, layout_of (build L g off) = L /\ entries (build L g off) = map g (seq off (size L)).
Proof.
  assert (Hl : forall ls, Forall (fun L => forall off, layout_of (build L g off) = L /\ entries (build L g off) = map g (seq off (size L))) ls ->
     forall off, let b := (fix go ls off := match ls with [] => [] | l :: r => build l g off :: go r (off + size l) end) ls off in
       map layout_of b = ls /\ flat_map entries b = map g (seq off (fold_right (fun l s => size l + s) 0 ls))).
  { induction 1 as [|x xs Hx _ IH]; intros off; simpl; [auto|].
    destruct (Hx off) as [-> ->]. destruct (IH (off + size x)) as [-> ->]. split; [reflexivity|].
    rewrite seq_app, map_app. reflexivity. }
  induction L as [t|n|n|es IH|c es IH] using layout_ind'; intros off; simpl.
  - auto.
  - rewrite map_length, seq_length. auto.
  - rewrite map_length, seq_length. auto.
  - destruct (Hl _ IH off) as [-> ->]. auto.
  - destruct (Hl _ IH off) as [-> ->]. auto.
Qed.
