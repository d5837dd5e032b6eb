(** C121: interpolations during binding. *)
From Verif Require Import Base DofModel DofProps SymModel SymSpec SymProofs SymProps TagModel TagSpec.
Set Implicit Arguments.

(** ** Proofs *)
Lemma dd_eqb_refl d : dd_eqb d d = true.
Proof. apply dd_eqb_eq. reflexivity. Qed.
Lemma mapM_Forall2 A B (f : A -> result B) : forall l l', mapM f l = Ok l' -> Forall2 (fun a b => f a = Ok b) l l'.
Proof.
  induction l as [|a l IH]; intros l' H; cbn [mapM] in H; [injection H as <-; constructor|].
  destruct (f a) eqn:E; cbn [bind] in H; [|discriminate]. destruct (mapM f l); cbn [bind] in H; [|discriminate].
  injection H as <-. constructor; auto.
Qed.
Lemma mapM_of_Forall A B (f : A -> result B) (g : A -> B) l : Forall (fun a => f a = Ok (g a)) l -> mapM f l = Ok (map g l).
Proof. induction 1 as [|a l H _ IH]; [reflexivity|]. cbn [mapM map]. rewrite H. cbn [bind]. rewrite IH. reflexivity. Qed.
Lemma mapM_err A B (f : A -> result B) l x : mapM f l = Err x -> exists a, In a l /\ f a = Err x.
Proof.
  induction l as [|a l IH]; cbn [mapM]; [discriminate|]. destruct (f a) eqn:E; cbn [bind].
  - destruct (mapM f l); cbn [bind]; [discriminate|]. intros H. injection H as ->. destruct IH as (b0 & I & J); [reflexivity|]. exists b0. split; [now right|exact J].
  - intros H. injection H as ->. exists a. split; [now left|exact E].
Qed.

(** One node, given that the children were tagged exactly. *)
Lemma tag_node_drop ds dt h cs cs' e' : cs' = map drop_trivial cs ->
  tag_node ds dt h cs' = Ok e' -> e' = drop_trivial (Node (tag_head ds dt h) cs).
Proof.
  intros -> H. unfold tag_node in H. cbn [drop_trivial].
  destruct (tag_head ds dt h) as [| | | | | | | | | | | | | | | | | |f t| | |]; try (injection H as <-; reflexivity).
  destruct (map drop_trivial cs) as [|c [|? ?]]; try (injection H as <-; reflexivity).
  unfold new_interpolation in H. destruct (dd_eqb f t) eqn:E; [|injection H as <-; reflexivity].
  destruct c as [[] ?]; try discriminate; injection H as <-; reflexivity.
Qed.
Lemma loc_exact_drop ds dt : forall e e', loc_tag_exact ds dt e = Ok e' -> e' = drop_trivial (loc_tag ds dt e).
Proof.
  induction e as [h cs IH] using sexpr_ind'. intros e' H. cbn [loc_tag_exact] in H.
  destruct (mapM (loc_tag_exact ds dt) cs) as [cs'|] eqn:M; cbn [bind] in H; [|discriminate].
  cbn [loc_tag]. eapply tag_node_drop; [|exact H].
  clear H. apply mapM_Forall2 in M. induction M as [|a b l l' Hab _ IHM]; [reflexivity|].
  inversion IH as [|? ? Ha Hl]; subst. cbn [map]. f_equal; auto.
Qed.
Lemma to_target_exact_drop ds dt : forall e e', to_target_tag_exact ds dt e = Ok e' -> e' = drop_trivial (to_target_tag ds dt e).
Proof.
  induction e as [h cs IH] using sexpr_ind'. intros e' H.
  assert (D : (exists g, h = HIntG g) \/ is_intg h = false) by (destruct h; eauto).
  destruct D as [[g ->]|D].
  - cbn [to_target_tag_exact] in H. destruct (mapM (loc_tag_exact ds ds) cs) as [cs'|] eqn:M; cbn [bind] in H; [|discriminate].
    cbn [to_target_tag]. eapply tag_node_drop; [|exact H].
    clear H IH. apply mapM_Forall2 in M. induction M as [|a b l l' Hab _ IHM]; [reflexivity|]. cbn [map]. f_equal; auto. now apply loc_exact_drop.
  - assert (H' : (do cs' <- mapM (to_target_tag_exact ds dt) cs; tag_node ds dt h cs') = Ok e') by (destruct h; try exact H; discriminate D).
    clear H. destruct (mapM (to_target_tag_exact ds dt) cs) as [cs'|] eqn:M; cbn [bind] in H'; [|discriminate].
    replace (to_target_tag ds dt (Node h cs)) with (Node (tag_head ds dt h) (map (to_target_tag ds dt) cs)) by (destruct h; try reflexivity; discriminate D).
    eapply tag_node_drop; [|exact H'].
    clear H'. apply mapM_Forall2 in M. induction M as [|a b l l' Hab _ IHM]; [reflexivity|].
    inversion IH as [|? ? Ha Hl]; subst. cbn [map]. f_equal; auto.
Qed.

Lemma occurs_child h cs c s : In c cs -> occurs c s -> occurs (Node h cs) s.
Proof.
  intros I [p H]. apply In_nth_error in I. destruct I as [i I]. exists (i :: p). cbn [at_path sexpr_children]. rewrite I. exact H.
Qed.
Lemma occurs_inv h cs s : occurs (Node h cs) s -> s = Node h cs \/ exists c, In c cs /\ occurs c s.
Proof.
  intros [[|i p] H]; cbn [at_path sexpr_children] in H; [left; congruence|].
  destruct (nth_error cs i) eqn:E; [|discriminate]. right. exists s0. split; [eapply nth_error_In; eauto|exists p; exact H].
Qed.
Lemma drop_trivial_top : forall e d cs c, drop_trivial e = Node (HInterp d d) cs -> cs = [c] -> False.
Proof.
  induction e as [h cs IH] using sexpr_ind'. intros d cs' c H ->. cbn [drop_trivial] in H.
  destruct h as [| | | | | | | | | | | | | | | | | |f' t'| | |]; try (injection H; discriminate).
  destruct cs as [|c1 [|c2 cs]]; cbn [map] in H; try (injection H; discriminate).
  destruct (dd_eqb f' t') eqn:E.
  - inversion IH as [|? ? IHc _]; subst. eapply IHc; [exact H|reflexivity].
  - injection H as -> -> _. rewrite dd_eqb_refl in E. discriminate.
Qed.

Lemma arity_child h cs c : arity_ok (Node h cs) -> In c cs -> arity_ok c.
Proof. intros H I f t cs' O. apply (H f t). eapply occurs_child; eauto. Qed.
Lemma stacked_child h cs c : In c cs -> stacked c -> stacked (Node h cs).
Proof. intros I (d & f & t & s & N & O). exists d, f, t, s. split; [exact N|]. eapply occurs_child; eauto. Qed.

Lemma drop_stacks : forall e d f t cs, arity_ok e -> drop_trivial e = Node (HInterp f t) cs -> stacked (Node (HInterp d d) [e]).
Proof.
  induction e as [h cs IH] using sexpr_ind'. intros d f t cs' A H.
  assert (G : forall f' t' c, h = HInterp f' t' -> cs = [c] -> stacked (Node (HInterp d d) [Node h cs])).
  { intros f' t' c -> ->. destruct (dd_eqb f' t') eqn:E.
    - apply dd_eqb_eq in E. subst t'. apply stacked_child with (c := Node (HInterp f' f') [c]); [now left|].
      cbn [drop_trivial map] in H. rewrite dd_eqb_refl in H. inversion IH as [|? ? IHc _]; subst.
      eapply IHc; [eapply arity_child; [exact A|now left]|exact H].
    - exists d, f', t', [c]. split; [intros ->; rewrite dd_eqb_refl in E; discriminate|]. exists []. reflexivity. }
  cbn [drop_trivial] in H. destruct h as [| | | | | | | | | | | | | | | | | |f' t'| | |]; try (injection H; discriminate).
  destruct (A f' t' cs) as [c ->]; [exists []; reflexivity|]. eapply G; reflexivity.
Qed.

Lemma tag_node_fails ds dt h cs x : arity_ok (Node (tag_head ds dt h) cs) ->
  tag_node ds dt h (map drop_trivial cs) = Err x -> x = OutOfFuel /\ stacked (Node (tag_head ds dt h) cs).
Proof.
  intros A H. unfold tag_node in H.
  destruct (tag_head ds dt h) as [| | | | | | | | | | | | | | | | | |f t| | |]; try discriminate.
  destruct cs as [|c [|? ?]]; cbn [map] in H; try discriminate.
  unfold new_interpolation in H. destruct (dd_eqb f t) eqn:E; [|discriminate]. apply dd_eqb_eq in E. subst t.
  destruct (drop_trivial c) as [hc cc] eqn:D. destruct hc; try discriminate. split; [congruence|].
  eapply drop_stacks; [eapply arity_child; [exact A|now left]|exact D].
Qed.
Lemma tag_node_succeeds ds dt h cs e' : Forall (fun c => ~ stacked c) cs ->
  tag_node ds dt h (map drop_trivial cs) = Ok e' -> ~ stacked (Node (tag_head ds dt h) cs).
Proof.
  intros N H (d & f & t & s & Hne & O). apply occurs_inv in O. destruct O as [E|(c & I & O)].
  - unfold tag_node in H. injection E as Eh Ec. rewrite <- Eh in H. rewrite <- Ec in H. cbn [map] in H.
    unfold new_interpolation in H. rewrite dd_eqb_refl in H.
    destruct (drop_trivial (Node (HInterp f t) s)) as [h2 c2] eqn:D.
    cbn [drop_trivial] in D. destruct (map drop_trivial s) as [|x [|? ?]]; try (injection D as <- <-; discriminate).
    destruct (dd_eqb f t) eqn:E2; [apply dd_eqb_eq in E2; contradiction|]. injection D as <- <-. discriminate.
  - rewrite Forall_forall in N. apply (N c I). exists d, f, t, s. auto.
Qed.

Lemma loc_exact_iff ds dt : forall e, arity_ok (loc_tag ds dt e) ->
  (forall e', loc_tag_exact ds dt e = Ok e' -> ~ stacked (loc_tag ds dt e)) /\
  (forall x, loc_tag_exact ds dt e = Err x -> x = OutOfFuel /\ stacked (loc_tag ds dt e)).
Proof.
  induction e as [h cs IH] using sexpr_ind'. intros A. cbn [loc_tag_exact loc_tag] in A |- *.
  destruct (mapM (loc_tag_exact ds dt) cs) as [cs'|y] eqn:M; cbn [bind].
  - assert (M' := mapM_Forall2 _ _ M).
    assert (E : cs' = map drop_trivial (map (loc_tag ds dt) cs)).
    { clear -M'. induction M' as [|a b l l' H _ IHM]; [reflexivity|]. cbn [map]. f_equal; [now apply loc_exact_drop|exact IHM]. }
    subst cs'. split; [|intros x H; exact (tag_node_fails _ _ _ A H)].
    intros e' H. eapply tag_node_succeeds; [|exact H]. apply Forall_forall. intros c I. apply in_map_iff in I. destruct I as (a & <- & I).
    rewrite Forall_forall in IH. destruct (IH a I) as [IH1 _]; [eapply arity_child; [exact A|now apply in_map]|].
    clear - M' I IH1. revert M' I. generalize (map drop_trivial (map (loc_tag ds dt) cs)). intros l M. induction M as [|a0 b0 l0 l' H _ IHM]; intros [].
    + subst. eapply IH1; eauto.
    + auto.
  - split; [discriminate|]. intros x H. injection H as ->. destruct (mapM_err _ _ M) as (a & I & Ea).
    rewrite Forall_forall in IH. destruct (IH a I) as [_ IH2]; [eapply arity_child; [exact A|now apply in_map]|].
    destruct (IH2 _ Ea) as [-> S]. split; [reflexivity|]. apply stacked_child with (c := loc_tag ds dt a); [now apply in_map|exact S].
Qed.
Lemma to_target_exact_iff ds dt : forall e, arity_ok (to_target_tag ds dt e) ->
  (forall e', to_target_tag_exact ds dt e = Ok e' -> ~ stacked (to_target_tag ds dt e)) /\
  (forall x, to_target_tag_exact ds dt e = Err x -> x = OutOfFuel /\ stacked (to_target_tag ds dt e)).
Proof.
  induction e as [h cs IH] using sexpr_ind'. intros A.
  (* either the children go through the location tagger (layer potentials) or through this one *)
  assert (STEP : forall (g : sexpr -> result sexpr) (k : sexpr -> sexpr),
    to_target_tag_exact ds dt (Node h cs) = (do cs' <- mapM g cs; tag_node ds dt h cs') ->
    to_target_tag ds dt (Node h cs) = Node (tag_head ds dt h) (map k cs) ->
    (forall c c', g c = Ok c' -> c' = drop_trivial (k c)) ->
    (forall c, In c cs -> (forall e', g c = Ok e' -> ~ stacked (k c)) /\ (forall x, g c = Err x -> x = OutOfFuel /\ stacked (k c))) ->
    (forall e', to_target_tag_exact ds dt (Node h cs) = Ok e' -> ~ stacked (to_target_tag ds dt (Node h cs))) /\
    (forall x, to_target_tag_exact ds dt (Node h cs) = Err x -> x = OutOfFuel /\ stacked (to_target_tag ds dt (Node h cs)))).
  { intros g k E1 E2 GD GI. rewrite E1, E2 in *. clear E1 E2 IH.
    destruct (mapM g cs) as [cs'|y] eqn:M; cbn [bind].
    - assert (M' := mapM_Forall2 _ _ M).
      assert (E : cs' = map drop_trivial (map k cs)).
      { clear -M' GD. induction M' as [|a b l l' H _ IHM]; [reflexivity|]. cbn [map]. f_equal; [now apply GD|exact IHM]. }
      subst cs'. split; [|intros x H; exact (tag_node_fails _ _ _ A H)].
      intros e' H. eapply tag_node_succeeds; [|exact H]. apply Forall_forall. intros c I. apply in_map_iff in I. destruct I as (a & <- & I).
      destruct (GI a I) as [G1 _].
      clear - M' I G1. revert M' I. generalize (map drop_trivial (map k cs)). intros l M. induction M as [|a0 b0 l0 l' H _ IHM]; intros [].
      + subst. eapply G1; eauto.
      + auto.
    - split; [discriminate|]. intros x H. injection H as ->. destruct (mapM_err _ _ M) as (a & I & Ea).
      destruct (GI a I) as [_ G2]. destruct (G2 _ Ea) as [-> S]. split; [reflexivity|]. apply stacked_child with (c := k a); [now apply in_map|exact S]. }
  assert (D : (exists g, h = HIntG g) \/ is_intg h = false) by (destruct h; eauto).
  destruct D as [[g ->]|D].
  - apply STEP with (g := loc_tag_exact ds ds) (k := loc_tag ds ds); try reflexivity.
    + intros c c' H. now apply loc_exact_drop.
    + intros c I. apply loc_exact_iff. eapply arity_child; [exact A|]. cbn [to_target_tag]. now apply in_map.
  - apply STEP with (g := to_target_tag_exact ds dt) (k := to_target_tag ds dt).
    + destruct h; try reflexivity; discriminate D.
    + destruct h; try reflexivity; discriminate D.
    + intros c c' H. now apply to_target_exact_drop.
    + intros c I. rewrite Forall_forall in IH. apply IH; [exact I|].
      replace (to_target_tag ds dt (Node h cs)) with (Node (tag_head ds dt h) (map (to_target_tag ds dt) cs)) in A by (destruct h; try reflexivity; discriminate D).
      eapply arity_child; [exact A|]. now apply in_map.
Qed.

Lemma drop_value V (I : head -> list V -> V) : trivial_interpolation_is_identity I -> forall e, value I (drop_trivial e) = value I e.
Proof.
  intros L. induction e as [h cs IH] using sexpr_ind'.
  assert (M : map (value I) (map drop_trivial cs) = map (value I) cs).
  { clear -IH. induction IH as [|a l H _ IHl]; [reflexivity|]. cbn [map]. f_equal; assumption. }
  cbn [drop_trivial value]. destruct h as [| | | | | | | | | | | | | | | | | |f t| | |];
    try (cbn [value]; rewrite M; reflexivity).
  destruct cs as [|c [|c2 cs]]; cbn [map] in M |- *; try (cbn [value map]; injection M; intros; congruence).
  - reflexivity.
  - destruct (dd_eqb f t) eqn:E.
    + apply dd_eqb_eq in E. subst t. rewrite L. congruence.
    + cbn [value map]. congruence.
Qed.
Lemma drop_nodes : forall e h cs, occurs (drop_trivial e) (Node h cs) -> exists cs0, occurs e (Node h cs0).
Proof.
  induction e as [h0 cs0 IH] using sexpr_ind'. intros h cs O.
  assert (K : occurs (Node h0 (map drop_trivial cs0)) (Node h cs) \/ exists c, In c cs0 /\ occurs (drop_trivial c) (Node h cs)).
  { cbn [drop_trivial] in O. destruct h0 as [| | | | | | | | | | | | | | | | | |f t| | |]; try (left; exact O).
    destruct cs0 as [|c [|c2 cs0]]; cbn [map] in O; try (left; exact O).
    destruct (dd_eqb f t); [right; exists c; split; [now left|exact O]|left; exact O]. }
  assert (G : forall c, In c cs0 -> occurs (drop_trivial c) (Node h cs) -> exists cs1, occurs (Node h0 cs0) (Node h cs1)).
  { intros c I Oc. rewrite Forall_forall in IH. destruct (IH c I _ _ Oc) as [cs1 O1]. exists cs1. eapply occurs_child; eauto. }
  destruct K as [K|(c & I & K)]; [|eauto].
  apply occurs_inv in K. destruct K as [E|(c & I & K)].
  - injection E as -> _. exists cs0. exists []. reflexivity.
  - apply in_map_iff in I. destruct I as (a & <- & I). eauto.
Qed.

Lemma drop_proper : forall e, arity_ok e -> all_proper (drop_trivial e).
Proof.
  induction e as [h cs IH] using sexpr_ind'. intros A f t s O ->.
  assert (K : (exists c, In c cs /\ occurs (drop_trivial c) (Node (HInterp t t) s))
              \/ (h = HInterp t t /\ (forall c, cs <> [c]))).
  { cbn [drop_trivial] in O.
    assert (G : forall hh, occurs (Node hh (map drop_trivial cs)) (Node (HInterp t t) s) ->
       (hh = HInterp t t /\ s = map drop_trivial cs) \/ exists c, In c cs /\ occurs (drop_trivial c) (Node (HInterp t t) s)).
    { intros hh Oh. apply occurs_inv in Oh. destruct Oh as [E|(c & I & Oc)]; [injection E as <- <-; auto|].
      apply in_map_iff in I. destruct I as (a & <- & I). eauto. }
    destruct h as [| | | | | | | | | | | | | | | | | |f' t'| | |];
      try (apply G in O; destruct O as [[E _]|O]; [discriminate|left; exact O]).
    destruct cs as [|c [|c2 cs]].
    - apply G in O. destruct O as [[E _]|O]; [right; split; [exact E|discriminate]|left; exact O].
    - cbn [map] in O. destruct (dd_eqb f' t') eqn:E; [left; exists c; split; [now left|exact O]|].
      apply G in O. destruct O as [[E' _]|O]; [|left; exact O]. injection E' as -> ->. rewrite dd_eqb_refl in E. discriminate.
    - apply G in O. destruct O as [[E _]|O]; [right; split; [exact E|discriminate]|left; exact O]. }
  destruct K as [(c & I & K)|[-> K]].
  - rewrite Forall_forall in IH. exact (IH c I (arity_child A I) _ _ _ K eq_refl).
  - destruct (A t t cs) as [c ->]; [exists []; reflexivity|]. exact (K c eq_refl).
Qed.
Lemma drop_id : forall e, all_proper e -> drop_trivial e = e.
Proof.
  induction e as [h cs IH] using sexpr_ind'. intros P.
  assert (M : map drop_trivial cs = cs).
  { assert (C : forall c, In c cs -> all_proper c) by (intros c I f t s O; apply (P f t s); eapply occurs_child; eauto).
    clear P. induction IH as [|a l H _ IHl]; [reflexivity|]. cbn [map]. rewrite H by (apply C; now left). rewrite IHl; [reflexivity|]. intros c I. apply C. now right. }
  cbn [drop_trivial]. rewrite M. destruct h as [| | | | | | | | | | | | | | | | | |f t| | |]; try reflexivity.
  destruct cs as [|c [|? ?]]; try reflexivity.
  destruct (dd_eqb f t) eqn:E; [|reflexivity]. apply dd_eqb_eq in E. exfalso. apply (P f t [c]); [exists []; reflexivity|exact E].
Qed.
Lemma tagged_arity ds dt e : arity_ok e -> arity_ok (to_target_tag ds dt e).
Proof.
  intros A f t cs [p H]. destruct (to_target_path_inv _ _ _ _ H) as (h & cs0 & E).
  destruct (to_target_path ds dt _ _ E) as (cs' & E' & L). rewrite H in E'. injection E' as Eh <-.
  destruct h; cbn [tag_head] in Eh; try discriminate.
  destruct (A from_dd to_dd cs0) as [c ->]; [exists p; exact E|]. destruct cs as [|c' [|? ?]]; try discriminate. eauto.
Qed.

(** * C121 *)

(** The constructor interpolates between different descriptors, ... *)
Theorem interpolation_constructor : forall f t e, f <> t -> new_interpolation f t e = Ok (Node (HInterp f t) [e]).
Proof.
  intros f t e N. unfold new_interpolation. destruct (dd_eqb f t) eqn:E; [|reflexivity]. apply dd_eqb_eq in E. contradiction.
Qed.
Print Assumptions interpolation_constructor.
(** ... and between equal ones gives the operand, unless that is an interpolation itself. *)
Theorem interpolation_constructor_trivial : forall d e,
  ((forall f t cs, e <> Node (HInterp f t) cs) -> new_interpolation d d e = Ok e) /\
  (forall f t cs, e = Node (HInterp f t) cs -> new_interpolation d d e = Err OutOfFuel).
Proof.
  intros d e. unfold new_interpolation. rewrite dd_eqb_refl. split.
  - intros N. destruct e as [[] cs]; try reflexivity. now destruct (N from_dd to_dd cs).
  - intros f t cs ->. reflexivity.
Qed.
Print Assumptions interpolation_constructor_trivial.

(** What tagging for binding returns: every interpolation between (now) equal descriptors is
    left out, nothing else is; the value does not change; every geometry is explicit. *)
Theorem binding_drops_trivial_interpolations : forall ds dt e e', arity_ok e ->
  to_target_tag_exact ds dt e = Ok e' ->
  e' = drop_trivial (to_target_tag ds dt e) /\ all_proper e' /\
  (forall V (I : head -> list V -> V), trivial_interpolation_is_identity I ->
     value I e' = value I (to_target_tag ds dt e)) /\
  (geometry ds <> None -> geometry dt <> None ->
     forall h cs r d, occurs e' (Node h cs) -> In (r, d) (locations h) -> geometry d <> None).
Proof.
  intros ds dt e e' A H. apply to_target_exact_drop in H. subst e'. split; [reflexivity|].
  split; [now apply drop_proper, tagged_arity|]. split.
  - intros V I L. now apply drop_value.
  - intros Gs Gt h cs r d O I. apply drop_nodes in O. destruct O as (cs0 & p & O).
    exact (@binding_leaves_nothing_unspecified ds dt e p h cs0 r d Gs Gt O I).
Qed.
Print Assumptions binding_drops_trivial_interpolations.

(** Tagging fails iff an interpolation that becomes trivial stands directly above one that
    does not. *)
Theorem binding_fails_iff_stacked : forall ds dt e, arity_ok e ->
  ((exists e', to_target_tag_exact ds dt e = Ok e') <-> ~ stacked (to_target_tag ds dt e)) /\
  (forall x, to_target_tag_exact ds dt e = Err x -> x = OutOfFuel /\ stacked (to_target_tag ds dt e)).
Proof.
  intros ds dt e A. destruct (to_target_exact_iff ds dt e (tagged_arity ds dt A)) as [B C]. split; [split|exact C].
  - intros [e' H]. eapply B; eauto.
  - intros N. destruct (to_target_tag_exact ds dt e) as [e'|x] eqn:E; [eauto|]. destruct (C x eq_refl). contradiction.
Qed.
Print Assumptions binding_fails_iff_stacked.

(** Without interpolations that become trivial, binding is the one of C17 to C21. *)
Theorem binding_without_trivial_interpolations : forall ps ds dt e, arity_ok e -> all_proper (to_target_tag ds dt e) ->
  to_target_tag_exact ds dt e = Ok (to_target_tag ds dt e) /\
  prepare_expr_exact ps ds dt e = prepare_expr ps ds dt e.
Proof.
  intros ps ds dt e A P. assert (E : to_target_tag_exact ds dt e = Ok (to_target_tag ds dt e)).
  { destruct (@binding_fails_iff_stacked ds dt e A) as [[_ B] _]. destruct B as [e' E].
    - intros (d & f & t & cs & _ & O). now apply (P d d [Node (HInterp f t) cs]).
    - rewrite E. apply to_target_exact_drop in E. rewrite drop_id in E by exact P. congruence. }
  split; [exact E|]. unfold prepare_expr_exact, prepare_expr. rewrite E. reflexivity.
Qed.
Print Assumptions binding_without_trivial_interpolations.

(** The claim that every expression made of proper interpolations can be bound is false: an
    interpolation to the default source, applied to an interpolation. *)
Definition on_q (s : option stage) : dofdesc := DD (Some (GName "q")) s NODE.
Definition inner : sexpr := Node (HInterp (on_q (Some QUAD_STAGE2)) (on_q None)) [Node (HVar "sigma") []].
Definition two_interpolations : sexpr := Node (HInterp (DD None None NODE) (on_q None)) [inner].
Theorem nested_interpolation_refuted :
  ~ (forall ps ds dt e, arity_ok e -> all_proper e -> explicit ds -> explicit dt ->
       exists e', prepare_expr_exact ps ds dt e = Ok e').
Proof.
  intros H. destruct (H [] (on_q None) (on_q None) two_interpolations) as [e' E].
  - intros f t cs O. unfold two_interpolations, inner in O.
    apply occurs_inv in O. destruct O as [E|(c & [<-|[]] & O)]; [injection E as _ _ ->; eauto|].
    apply occurs_inv in O. destruct O as [E|(c & [<-|[]] & O)]; [injection E as _ _ ->; eauto|].
    apply occurs_inv in O. destruct O as [E|(c & [] & _)]. discriminate.
  - intros f t cs O. unfold two_interpolations, inner in O.
    apply occurs_inv in O. destruct O as [E|(c & [<-|[]] & O)]; [injection E as -> -> _; discriminate|].
    apply occurs_inv in O. destruct O as [E|(c & [<-|[]] & O)]; [injection E as -> -> _; discriminate|].
    apply occurs_inv in O. destruct O as [E|(c & [] & _)]. discriminate.
  - exists (GName "q"). split; [reflexivity|]. split; discriminate.
  - exists (GName "q"). split; [reflexivity|]. split; discriminate.
  - discriminate E.
Qed.
Print Assumptions nested_interpolation_refuted.
(** With a product in between, it can: the outer interpolation disappears. *)
Example product_in_between : exists e', prepare_expr_exact [] (on_q None) (on_q None)
    (Node (HInterp (DD None None NODE) (on_q None)) [Node HProd [Node (HVar "x") []; inner]]) = Ok e'
  /\ e' = Node HProd [Node (HVar "x") []; inner].
Proof. eexists. split; reflexivity. Qed.
Example proper_applies : arity_ok inner /\ all_proper (to_target_tag (on_q None) (on_q None) inner)
  /\ to_target_tag_exact (on_q None) (on_q None) inner = Ok inner.
Proof.
  split; [|split; [|reflexivity]]; intros f t cs O; cbn in O; unfold inner in O.
  - apply occurs_inv in O. destruct O as [E|(c & [<-|[]] & O)]; [injection E as _ _ ->; eauto|].
    apply occurs_inv in O. destruct O as [E|(c & [] & _)]. discriminate.
  - apply occurs_inv in O. destruct O as [E|(c & [<-|[]] & O)]; [injection E as -> -> _; discriminate|].
    apply occurs_inv in O. destruct O as [E|(c & [] & _)]. discriminate.
Qed.
