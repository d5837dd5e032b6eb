(** Theorems about copying layer potential sources (C35, C67). *)
From Verif Require Import Base CopyModel.
Open Scope string_scope.
Open Scope list_scope.
Open Scope Z_scope.

(** *** Specification *)
(** An argument of [copy] that was actually given: not the default of the signature. *)
Definition given (call : src) (p : param) : Prop := call p <> copy_default p.

(** Python's false values. *)
Definition falsy (v : pyval) : Prop := v = VNone \/ v = VBool false \/ v = VInt 0 \/ v = VFloat 0 \/ v = VStr "".

(** Overrides with a definite value: neither None nor the sentinel; where the code writes
    [value or old], not zero, empty or False. *)
Definition or_param (p : param) : bool :=
  match p with PDiscr | PFactory | PMaxLeaf | PNorm | PSepCrit | PTree | PInspector | PBackend => true | _ => false end.
Definition definite (call : src) : Prop :=
  call PWellSep = VNone /\ call PMinNsources = VNone /\
  forall p, given call p -> call p <> VNone /\ call p <> VNotProvided /\ (or_param p = true -> ~ falsy (call p)).

(** What a copy should look like. *)
Definition overridden (self call : src) (p : param) (v : pyval) : Prop :=
  match p with
  | AFmmOrder | ADisableRefinement => True
  | PLevelToOrder =>
      (given call AFmmOrder /\ call AFmmOrder = VBool false /\ v = VBool false) \/
      (given call AFmmOrder /\ call AFmmOrder <> VBool false /\ v = VConstOrder (call AFmmOrder)) \/
      (given call PLevelToOrder /\ v = call PLevelToOrder) \/
      (~ given call AFmmOrder /\ ~ given call PLevelToOrder /\ v = self PLevelToOrder)
  | PMode =>
      (given call PMode /\ v = call PMode) \/
      (~ given call PMode /\ given call ADisableRefinement /\ exists b, v = VMode b /\ (b = false <-> falsy (call ADisableRefinement))) \/
      (~ given call PMode /\ ~ given call ADisableRefinement /\ v = self PMode)
  | p => (given call p /\ v = call p) \/ (~ given call p /\ v = self p)
  end.

(** The values a source may have. *)
Definition valid (s : src) : Prop :=
  is_int (s PFineOrder) = true /\ is_int (s PQbxOrder) = true /\
  (exists id dim, s PDiscr = VDiscr id dim (dim + 1)) /\
  is_float (s PTolerance) = true /\ is_str (s PNorm) = true /\ is_str (s PSepCrit) = true /\
  (is_bool (s PLevelToOrder) = true \/ is_callable (s PLevelToOrder) = true) /\
  is_int (s PMaxLeaf) = true /\ is_int (s PMinNsources) = true /\
  s PFactory <> VNone /\ s PCostModel <> VNone /\ s PMode <> VNone.

(** *** Proofs *)
Lemma truthy_falsy v : truthy v = false <-> falsy v.
Proof.
  unfold falsy. split.
  - destruct v as [| |b|z|z| |x|id d a|o|id|b|id| |]; cbn; intros H; try discriminate; auto.
    + destruct b; [discriminate|auto].
    + apply negb_false_iff, Z.eqb_eq in H. subst. auto.
    + apply negb_false_iff, Z.eqb_eq in H. subst. auto 6.
    + apply negb_false_iff, String.eqb_eq in H. subst. auto 6.
  - intros [-> |[-> |[-> |[-> | ->]]]]; reflexivity.
Qed.
Lemma truthy_true v : ~ falsy v -> truthy v = true.
Proof. intros H. destruct (truthy v) eqn:E; [reflexivity|]. apply truthy_falsy in E. contradiction. Qed.
Lemma assertb_Ok b u : assertb b = Ok u -> b = true.
Proof. unfold assertb. destruct b; [reflexivity | discriminate]. Qed.

Lemma dflt_none_not d v : d <> VNone -> dflt_none v d <> VNone.
Proof. intros H. unfold dflt_none. destruct v; simpl; auto; discriminate. Qed.

Ltac step H :=
  match type of H with
  | bind (assertb ?b) _ = Ok _ => let E := fresh "A" in destruct (assertb b) as [[]|] eqn:E; [|discriminate H]; apply assertb_Ok in E; cbn [bind] in H
  | (if ?b then Err _ else _) = Ok _ => let E := fresh "C" in destruct b eqn:E; [discriminate H|]
  end.

(** Sources that exist are valid. *)
Lemma init_valid a s : qbx_init a = Ok s -> valid s /\ s AFmmOrder = VNone /\ s ADisableRefinement = VNone.
Proof.
  unfold qbx_init. intros H. repeat step H.
  destruct (a PDiscr) as [ | | | | | | |id dim amb| | | | | | ] eqn:Ed; try discriminate H. cbn zeta in H. repeat step H.
  match type of H with bind ?x _ = _ => destruct x as [lto|] eqn:El; [|discriminate H] end. cbn [bind] in H. repeat step H.
  injection H as <-. split; [|split; reflexivity]. unfold valid.
  repeat match goal with |- _ /\ _ => split end; cbn beta iota; try assumption.
  - rewrite Ed. exists id, dim. f_equal. apply negb_false_iff, Z.eqb_eq in C2. lia.
  - apply orb_true_iff in A4. exact A4.
  - apply dflt_none_not. discriminate.
  - apply dflt_none_not. discriminate.
  - apply dflt_none_not. discriminate.
Qed.

Definition pfun (p : param) (a : src) (lto mode : pyval) : pyval :=
  match p with AFmmOrder | ADisableRefinement => VNone | PLevelToOrder => lto | PMode => mode | p => a p end.

(** The constructor, applied to definite values. *)
Lemma init_definite a : a PTolerance <> VNotProvided -> a PNorm <> VNone -> a PSepCrit <> VNone -> a PMaxLeaf <> VNone -> a PMinNsources <> VNone ->
  a PFactory <> VNone -> a PCostModel <> VNone -> a PMode <> VNone -> a ADisableRefinement = VNone ->
  (a PLevelToOrder <> VNone /\ a AFmmOrder = VNone) \/ (a PLevelToOrder = VNone /\ a AFmmOrder <> VNone) ->
  let lto := if is_none (a PLevelToOrder) then if is_false (a AFmmOrder) then VBool false else VConstOrder (a AFmmOrder) else a PLevelToOrder in
  (forall s, qbx_init a = Ok s -> forall p, s p = pfun p a lto (a PMode)) /\
  ((is_none (a PLevelToOrder) = true -> is_false (a AFmmOrder) = false -> is_int (a AFmmOrder) && negb (is_bool (a AFmmOrder)) = true) ->
   valid (fun p => pfun p a lto (a PMode)) -> exists s, qbx_init a = Ok s).
Proof.
  intros H1 H2 H3 H4 H5 H6 H7 H8 H9 H10 lto.
  assert (D : forall v d, v <> VNone -> dflt_none v d = v) by (intros v d; destruct v; try reflexivity; intros []; reflexivity).
  assert (N : forall v, v <> VNone -> is_none v = false) by (intros v; destruct v; try reflexivity; intros []; reflexivity).
  assert (NP : is_not_provided (a PTolerance) = false) by (destruct (a PTolerance); try reflexivity; destruct H1; reflexivity).
  assert (X : Bool.eqb (is_none (a AFmmOrder)) (is_none (a PLevelToOrder)) = false).
  { destruct H10 as [[L F]|[L F]]; [rewrite F, (N _ L) | rewrite L, (N _ F)]; reflexivity. }
  split.
  - intros s H. unfold qbx_init in H. repeat step H.
    destruct (a PDiscr) as [ | | | | | | |id dim amb| | | | | | ] eqn:Ed; try discriminate H. cbn zeta in H. repeat step H.
    match type of H with bind ?x _ = _ => destruct x as [l|] eqn:El; [|discriminate H] end. cbn [bind] in H. repeat step H.
    injection H as <-. 
    assert (E : l = lto).
    { unfold lto. destruct (is_none (a PLevelToOrder)); [|congruence]. destruct (is_false (a AFmmOrder)); [congruence|].
      destruct (assertb _); cbn [bind] in El; congruence. }
    intros p. destruct p; cbn [pfun]; try reflexivity; try (apply D; assumption); try exact E.
    + rewrite NP. reflexivity.
    + rewrite H9. cbn [is_none]. apply D. assumption.
  - intros Hi (V1 & V2 & (id & dim & V3) & V4 & V5 & V6 & V7 & V8 & V9 & _). cbn [pfun] in *. unfold qbx_init.
    assert (I : forall v, is_int v = true -> is_none v = false) by (intros v; destruct v; try reflexivity; discriminate).
    rewrite (I _ V1), V1, (I _ V2), V2, V3. cbn [assertb bind]. cbn zeta. rewrite NP, V4. cbn [assertb bind]. rewrite X.
    rewrite (D _ _ H2), V5. cbn [assertb bind]. rewrite (D _ _ H3), V6. cbn [assertb bind].
    assert (El : (if is_none (a PLevelToOrder)
                 then if is_false (a AFmmOrder) then Ok (VBool false)
                      else do _ <- assertb (is_int (a AFmmOrder) && negb (is_bool (a AFmmOrder)));
                           Ok (VConstOrder (a AFmmOrder))
                 else Ok (a PLevelToOrder)) = Ok lto).
    { unfold lto. destruct (is_none (a PLevelToOrder)); [|reflexivity]. destruct (is_false (a AFmmOrder)); [reflexivity|]. rewrite Hi by reflexivity. reflexivity. }
    rewrite El. cbn [bind]. assert (B : is_bool lto || is_callable lto = true) by (apply orb_true_iff; exact V7). rewrite B. cbn [assertb bind].
    rewrite (D _ _ H4), V8. cbn [assertb bind]. rewrite (D _ _ H5), V9. cbn [assertb bind].
    replace (dim =? dim + 1 - 1) with true by (symmetry; apply Z.eqb_eq; lia). cbn [negb]. eexists. reflexivity.
Qed.

Lemma pyval_eq_dec (v w : pyval) : {v = w} + {v <> w}.
Proof. decide equality; (apply Z.eq_dec || apply Nat.eq_dec || apply string_dec || apply Bool.bool_dec). Qed.

Lemma given_dec call p : {given call p} + {~ given call p}.
Proof. unfold given. destruct (pyval_eq_dec (call p) (copy_default p)); [right; tauto | left; assumption]. Qed.

Lemma np_false v : v <> VNotProvided -> is_not_provided v = false.
Proof. destruct v; try reflexivity. intros []; reflexivity. Qed.
Lemma none_false v : v <> VNone -> is_none v = false.
Proof. destruct v; try reflexivity. intros []; reflexivity. Qed.

Lemma or_cases call p self : definite call -> or_param p = true ->
  (given call p /\ py_or (call p) (self p) = call p) \/ (~ given call p /\ py_or (call p) (self p) = self p).
Proof.
  intros (_ & _ & Hd) Ho. destruct (given_dec call p) as [G|G].
  - left. split; [exact G|]. unfold py_or. rewrite (truthy_true _ (proj2 (proj2 (Hd p G)) Ho)). reflexivity.
  - right. split; [exact G|]. unfold given in G. destruct (pyval_eq_dec (call p) (copy_default p)) as [E|]; [|tauto].
    rewrite E. destruct p; try discriminate; reflexivity.
Qed.
Lemma np_cases call p self : definite call -> copy_default p = VNotProvided ->
  (given call p /\ (if is_not_provided (call p) then self p else call p) = call p) \/
  (~ given call p /\ (if is_not_provided (call p) then self p else call p) = self p).
Proof.
  intros (_ & _ & Hd) Hn. destruct (given_dec call p) as [G|G].
  - left. split; [exact G|]. rewrite np_false; [reflexivity | apply Hd; exact G].
  - right. split; [exact G|]. unfold given in G. rewrite Hn in G. destruct (call p); try reflexivity; exfalso; apply G; discriminate.
Qed.
Lemma none_cases call p self : definite call -> copy_default p = VNone ->
  (given call p /\ (if is_none (call p) then self p else call p) = call p) \/
  (~ given call p /\ (if is_none (call p) then self p else call p) = self p).
Proof.
  intros (_ & _ & Hd) Hn. destruct (given_dec call p) as [G|G].
  - left. split; [exact G|]. rewrite none_false; [reflexivity | apply Hd; exact G].
  - right. split; [exact G|]. unfold given in G. rewrite Hn in G. destruct (call p); try reflexivity; exfalso; apply G; discriminate.
Qed.

(** The arguments [copy] passes to the constructor. *)
Definition copy_args (self call : src) (fmm : pyval * pyval) : src := fun p =>
  let np p := if is_not_provided (call p) then self p else call p in
  match p with
    | PDiscr | PFactory | PMaxLeaf | PNorm | PSepCrit | PTree | PInspector | PBackend => py_or (call p) (self p)
    | PFineOrder | PQbxOrder => if is_none (call p) then self p else call p
    | PTolerance | PDebug | PExtent | PStickOut | PTargetSpecific | PCostModel => np p
    | PMode => if negb (is_not_provided (call ADisableRefinement)) && is_not_provided (call PMode)
              then VMode (truthy (call ADisableRefinement)) else np PMode
    | PWellSep | PMinNsources => self p
    | AFmmOrder => fst fmm
    | PLevelToOrder => snd fmm
    | ADisableRefinement => VNone
    end.

Lemma not_given_np call p : copy_default p = VNotProvided -> ~ given call p -> call p = VNotProvided.
Proof. intros H G. unfold given in G. rewrite H in G. destruct (call p); try reflexivity; exfalso; apply G; discriminate. Qed.

Lemma copy_unfold self call : definite call -> ~ (given call AFmmOrder /\ given call PLevelToOrder) ->
  qbx_copy self call = qbx_init (copy_args self call
    (if given_dec call AFmmOrder then (call AFmmOrder, VNone)
     else if given_dec call PLevelToOrder then (VNone, call PLevelToOrder) else (VNone, self PLevelToOrder))).
Proof.
  intros (_ & _ & Hd) Hb. unfold qbx_copy. destruct (given_dec call AFmmOrder) as [G|G], (given_dec call PLevelToOrder) as [G'|G']; try tauto.
  - rewrite (np_false (call AFmmOrder)) by (apply Hd; exact G). rewrite (not_given_np call PLevelToOrder eq_refl G'). reflexivity.
  - rewrite (np_false (call PLevelToOrder)) by (apply Hd; exact G'). rewrite (not_given_np call AFmmOrder eq_refl G). reflexivity.
  - rewrite (not_given_np call PLevelToOrder eq_refl G'), (not_given_np call AFmmOrder eq_refl G). reflexivity.
Qed.

Definition copy_fmm (self call : src) : pyval * pyval :=
  if given_dec call AFmmOrder then (call AFmmOrder, VNone)
     else if given_dec call PLevelToOrder then (VNone, call PLevelToOrder) else (VNone, self PLevelToOrder).

Lemma copy_args_ok self call : valid self -> definite call -> ~ (given call AFmmOrder /\ given call PLevelToOrder) ->
  let a := copy_args self call (copy_fmm self call) in
  let lto := if is_none (a PLevelToOrder) then if is_false (a AFmmOrder) then VBool false else VConstOrder (a AFmmOrder) else a PLevelToOrder in
  (forall p, overridden self call p (pfun p a lto (a PMode))) /\
  a PTolerance <> VNotProvided /\ a PNorm <> VNone /\ a PSepCrit <> VNone /\ a PMaxLeaf <> VNone /\ a PMinNsources <> VNone /\
  a PFactory <> VNone /\ a PCostModel <> VNone /\ a PMode <> VNone /\ a ADisableRefinement = VNone /\
  ((a PLevelToOrder <> VNone /\ a AFmmOrder = VNone) \/ (a PLevelToOrder = VNone /\ a AFmmOrder <> VNone)).
Proof.
  intros (V1 & V2 & (id & dim & V3) & V4 & V5 & V6 & V7 & V8 & V9 & V10 & V11 & V12) Hd Hb a lto.
  pose proof (proj2 (proj2 Hd)) as Hd'.
  assert (L : self PLevelToOrder <> VNone) by (intros E; rewrite E in V7; destruct V7; discriminate).
  assert (Hl : (a PLevelToOrder <> VNone /\ a AFmmOrder = VNone) \/ (a PLevelToOrder = VNone /\ a AFmmOrder <> VNone)).
  { unfold a, copy_args, copy_fmm. destruct (given_dec call AFmmOrder) as [G|G]; simpl; [right; split; [reflexivity | apply Hd'; exact G]|].
    destruct (given_dec call PLevelToOrder) as [G'|G']; simpl; left; (split; [|reflexivity]); [apply Hd'; exact G' | exact L]. }
  split.
  { intros p. destruct p; cbn [pfun overridden]; try exact I;
      try (destruct (or_cases call PDiscr self Hd eq_refl); assumption);
      try (unfold a, copy_args; apply or_cases; [exact Hd | reflexivity]);
      try (unfold a, copy_args; apply none_cases; [exact Hd | reflexivity]);
      try (unfold a, copy_args; apply np_cases; [exact Hd | reflexivity]).
    - unfold lto, a, copy_args, copy_fmm. destruct (given_dec call AFmmOrder) as [G|G]; simpl.
      + destruct (pyval_eq_dec (call AFmmOrder) (VBool false)) as [E|E].
        * left. rewrite E. auto.
        * right; left. split; [exact G|]. split; [exact E|]. destruct (call AFmmOrder) as [ | |[|]| | | | | | | | | | | ]; try reflexivity. destruct E; reflexivity.
      + destruct (given_dec call PLevelToOrder) as [G'|G']; simpl.
        * right; right; left. split; [exact G'|]. rewrite none_false by (apply Hd'; exact G'). reflexivity.
        * right; right; right. split; [exact G|]. split; [exact G'|]. rewrite none_false by exact L. reflexivity.
    - unfold a, copy_args. destruct (given_dec call PMode) as [G|G].
      + left. split; [exact G|]. rewrite (np_false (call PMode)) by (apply Hd'; exact G). rewrite andb_false_r. reflexivity.
      + right. rewrite (not_given_np call PMode eq_refl G). destruct (given_dec call ADisableRefinement) as [G'|G'].
        * left. split; [exact G|]. split; [exact G'|]. rewrite np_false by (apply Hd'; exact G'). cbn [negb andb].
          eexists. split; [reflexivity|]. apply truthy_falsy.
        * right. split; [exact G|]. split; [exact G'|]. rewrite (not_given_np call ADisableRefinement eq_refl G'). reflexivity.
    - right. destruct Hd as (E & _). split; [unfold given; rewrite E; intros []; reflexivity | reflexivity].
    - right. destruct Hd as (_ & E & _). split; [unfold given; rewrite E; intros []; reflexivity | reflexivity]. }
  assert (OR : forall p, or_param p = true -> self p <> VNone -> py_or (call p) (self p) <> VNone).
  { intros p Ho Hs. destruct (or_cases call p self Hd Ho) as [[G E]|[G E]]; rewrite E; [apply Hd'; exact G | exact Hs]. }
  assert (NPn : forall p, copy_default p = VNotProvided -> self p <> VNone -> (if is_not_provided (call p) then self p else call p) <> VNone).
  { intros p Ho Hs. destruct (np_cases call p self Hd Ho) as [[G E]|[G E]]; rewrite E; [apply Hd'; exact G | exact Hs]. }
  split; [|split; [|split; [|split; [|split; [|split; [|split; [|split; [|split; [reflexivity | exact Hl]]]]]]]]].
  - unfold a, copy_args. destruct (np_cases call PTolerance self Hd eq_refl) as [[G E]|[G E]]; rewrite E; [apply Hd'; exact G|].
    intros E'. rewrite E' in V4. discriminate.
  - apply (OR PNorm eq_refl). intros E. rewrite E in V5. discriminate.
  - apply (OR PSepCrit eq_refl). intros E. rewrite E in V6. discriminate.
  - apply (OR PMaxLeaf eq_refl). intros E. rewrite E in V8. discriminate.
  - unfold a, copy_args. intros E. rewrite E in V9. discriminate.
  - apply (OR PFactory eq_refl). exact V10.
  - apply (NPn PCostModel eq_refl). exact V11.
  - unfold a, copy_args. destruct (negb _ && _); [discriminate|]. apply (NPn PMode eq_refl). exact V12.
Qed.

(** *** C35 *)
(** A copy has the given values for the arguments given, and the original's values otherwise. *)
Theorem copy_overrides : forall args self call copied,
  qbx_init args = Ok self -> definite call -> qbx_copy self call = Ok copied ->
  ~ (given call AFmmOrder /\ given call PLevelToOrder) /\ valid copied /\
  forall p, overridden self call p (copied p).
Proof.
  intros args self call copied Hi Hd Hc. destruct (init_valid _ _ Hi) as [Hv _].
  assert (Hb : ~ (given call AFmmOrder /\ given call PLevelToOrder)).
  { intros [G G']. unfold qbx_copy in Hc. rewrite (np_false (call AFmmOrder)) in Hc by (apply Hd; exact G).
    rewrite (np_false (call PLevelToOrder)) in Hc by (apply Hd; exact G'). discriminate. }
  split; [exact Hb|]. rewrite (copy_unfold _ _ Hd Hb) in Hc. fold (copy_fmm self call) in Hc.
  split; [apply (init_valid _ _ Hc)|].
  destruct (copy_args_ok self call Hv Hd Hb) as (Ho & H1 & H2 & H3 & H4 & H5 & H6 & H7 & H8 & H9 & H10).
  destruct (init_definite (copy_args self call (copy_fmm self call)) H1 H2 H3 H4 H5 H6 H7 H8 H9 H10) as [Hs _].
  intros p. rewrite (Hs _ Hc). apply Ho.
Qed.
Print Assumptions copy_overrides.

(** Copying succeeds exactly when the resulting parameters are valid (an FMM order being an
    integer or False, and not given together with a level-to-order function). *)
Theorem copy_succeeds_iff : forall args self call,
  qbx_init args = Ok self -> definite call ->
  ((exists copied, qbx_copy self call = Ok copied) <->
   ~ (given call AFmmOrder /\ given call PLevelToOrder) /\
   (given call AFmmOrder -> call AFmmOrder = VBool false \/ exists n, call AFmmOrder = VInt n) /\
   exists expected, valid expected /\ forall p, overridden self call p (expected p)).
Proof.
  intros args self call Hi Hd. split.
  - intros [copied Hc]. destruct (copy_overrides _ _ _ _ Hi Hd Hc) as (Hb & Hv & Ho). split; [exact Hb|]. split; [|eauto].
    intros G. rewrite (copy_unfold _ _ Hd Hb) in Hc. destruct (given_dec call AFmmOrder) as [_|]; [|tauto].
    unfold qbx_init in Hc. repeat step Hc. destruct (copy_args _ _ _ PDiscr); try discriminate Hc. cbn zeta in Hc. repeat step Hc.
    match type of Hc with bind ?x _ = _ => destruct x as [l|] eqn:El; [|discriminate Hc] end. clear - El. cbn [copy_args fst snd is_none] in El.
    destruct (call AFmmOrder) as [ | |[|]| | | | | | | | | | | ]; try discriminate El; eauto.
  - intros (Hb & Hf & e & He & Hoe). destruct (init_valid _ _ Hi) as [Hv _].
    destruct (copy_args_ok self call Hv Hd Hb) as (Ho & H1 & H2 & H3 & H4 & H5 & H6 & H7 & H8 & H9 & H10).
    rewrite (copy_unfold _ _ Hd Hb). fold (copy_fmm self call).
    destruct (init_definite (copy_args self call (copy_fmm self call)) H1 H2 H3 H4 H5 H6 H7 H8 H9 H10) as [_ Hs].
    apply Hs.
    + unfold copy_fmm. destruct (given_dec call AFmmOrder) as [G|G]; cbn [copy_args fst snd].
      * intros _ Hnf. destruct (Hf G) as [E|[n E]]; rewrite E in *; [discriminate | reflexivity].
      * destruct (given_dec call PLevelToOrder) as [G'|G']; cbn [copy_args fst snd is_none is_false]; intros Hn; exfalso.
        -- rewrite none_false in Hn by (apply Hd; exact G'). discriminate.
        -- rewrite none_false in Hn; [discriminate|]. destruct Hv as (_ & _ & _ & _ & _ & _ & V7 & _). intros E. rewrite E in V7. destruct V7; discriminate.
    + set (f := fun p => pfun p _ _ _).
      assert (E : forall p, p <> AFmmOrder -> p <> ADisableRefinement -> f p = e p).
      { intros p N1 N2. specialize (Ho p). specialize (Hoe p). change (overridden self call p (f p)) in Ho.
        destruct p; cbn [overridden] in Ho, Hoe; try (exfalso; first [apply N1; reflexivity | apply N2; reflexivity]);
          try (destruct Ho as [[? ->]|[? ->]], Hoe as [[? ->]|[? ->]]; tauto).
        - destruct Ho as [(? & ? & ->)|[(? & ? & ->)|[(? & ->)|(? & ? & ->)]]], Hoe as [(? & ? & ->)|[(? & ? & ->)|[(? & ->)|(? & ? & ->)]]]; tauto.
        - destruct Ho as [(? & ->)|[(? & ? & b1 & -> & B1)|(? & ? & ->)]], Hoe as [(? & ->)|[(? & ? & b2 & -> & B2)|(? & ? & ->)]]; try tauto. f_equal. destruct b1, b2; try reflexivity; [assert (X := proj2 B1 (proj1 B2 eq_refl))|assert (X := proj2 B2 (proj1 B1 eq_refl))]; discriminate X. }
      clearbody f. unfold valid in *. rewrite !E by discriminate. exact He.
Qed.
Print Assumptions copy_succeeds_iff.

(** A plain copy has the same parameters. *)
Theorem copy_preserves : forall args self, qbx_init args = Ok self ->
  exists copied, qbx_copy self copy_default = Ok copied /\ forall p, copied p = self p.
Proof.
  intros args self Hi. destruct (init_valid _ _ Hi) as (Hv & Ef & Er).
  assert (Hg : forall p, ~ given copy_default p) by (intros p G; apply G; reflexivity).
  assert (Hd : definite copy_default) by (split; [reflexivity|]; split; [reflexivity|]; intros p G; destruct (Hg p G)).
  assert (Hx : exists c, qbx_copy self copy_default = Ok c).
  { apply (copy_succeeds_iff _ _ _ Hi Hd). split; [intros [G _]; exact (Hg _ G)|]. split; [intros G; destruct (Hg _ G)|].
    exists self. split; [exact Hv|]. intros p. destruct p; cbn [overridden]; try exact I; try (right; split; [apply Hg | reflexivity]).
    - right; right; right. auto.
    - right; right. auto. }
  destruct Hx as [c Hc]. exists c. split; [exact Hc|]. destruct (init_valid _ _ Hc) as (_ & Ef' & Er'). destruct (copy_overrides _ _ _ _ Hi Hd Hc) as (_ & _ & Ho). intros p. specialize (Ho p).
  destruct p; cbn [overridden] in Ho; try (rewrite Ef, Ef'; reflexivity); try (rewrite Er, Er'; reflexivity);
    try (destruct Ho as [[G _]|[_ E]]; [destruct (Hg _ G) | exact E]).
  - destruct Ho as [(G & _)|[(G & _)|[(G & _)|(_ & _ & E)]]]; try (destruct (Hg _ G)). exact E.
  - destruct Ho as [(G & _)|[(_ & G & _)|(_ & _ & E)]]; try (destruct (Hg _ G)). exact E.
Qed.
Print Assumptions copy_preserves.

(** Unregularized sources: the discretization, the FMM orders and the debug flag. *)
Theorem unreg_copy_overrides : forall discr fmm_order lto factory debug self discr' lto' debug',
  unreg_init discr fmm_order lto factory debug = Ok self ->
  (discr' = VNone \/ ~ falsy discr') -> (lto' = VNone \/ ~ falsy lto') ->
  exists copied, unreg_copy self discr' lto' debug' = Ok copied /\
    u_discr copied = (if pyval_eq_dec discr' VNone then u_discr self else discr') /\
    u_lto copied = (if pyval_eq_dec lto' VNone then u_lto self else lto') /\
    u_debug copied = (if pyval_eq_dec debug' VNone then u_debug self else debug').
Proof.
  intros discr fmm_order lto factory debug self discr' lto' debug' Hi H1 H2.
  assert (L : u_lto self <> VNone).
  { unfold unreg_init in Hi. destruct (negb (is_false fmm_order) && negb (is_none lto)); [discriminate|]. injection Hi as <-. cbn [u_lto].
    destruct lto; cbn [is_none]; try discriminate. destruct (is_false fmm_order); discriminate. }
  assert (O : forall v w, v = VNone \/ ~ falsy v -> py_or v w = if pyval_eq_dec v VNone then w else v).
  { intros v w H. unfold py_or. destruct (pyval_eq_dec v VNone) as [->|N]; [reflexivity|]. destruct H as [E|E]; [contradiction | rewrite (truthy_true _ E); reflexivity]. }
  unfold unreg_copy, unreg_init. cbn [is_false negb andb]. eexists. split; [reflexivity|]. cbn [u_discr u_lto u_debug]. split; [apply O; exact H1|]. split.
  - rewrite (O _ _ H2). destruct (pyval_eq_dec lto' VNone) as [->|N]; rewrite none_false by assumption; reflexivity.
  - destruct (pyval_eq_dec debug' VNone) as [->|N]; [reflexivity | rewrite none_false by assumption; reflexivity].
Qed.
Print Assumptions unreg_copy_overrides.

(** *** Examples *)
Definition upd (s : src) (p : param) (v : pyval) : src :=
  fun q => if (fun a b => match a, b with
                         | PDiscr, PDiscr | PFineOrder, PFineOrder | PQbxOrder, PQbxOrder | PLevelToOrder, PLevelToOrder
                         | PFactory, PFactory | PTolerance, PTolerance | PDebug, PDebug | PMode, PMode | PExtent, PExtent
                         | PStickOut, PStickOut | PMaxLeaf, PMaxLeaf | PNorm, PNorm | PTree, PTree | PWellSep, PWellSep
                         | PSepCrit, PSepCrit | PMinNsources, PMinNsources | PTargetSpecific, PTargetSpecific
                         | PInspector, PInspector | PCostModel, PCostModel | PBackend, PBackend | AFmmOrder, AFmmOrder
                         | ADisableRefinement, ADisableRefinement => true | _, _ => false end) q p then v else s q.
Definition ex_args : src :=
  upd (upd (upd (upd (upd (upd init_defaults PDiscr (VDiscr 7 1 2)) PFineOrder (VInt 12)) PQbxOrder (VInt 4)) AFmmOrder (VInt 15))
           PCostModel (VObj 3)) PStickOut (VFloat 0).
Definition ex_src : src := match qbx_init ex_args with Ok s => s | Err _ => init_defaults end.
Example ex_init : qbx_init ex_args = Ok ex_src /\ ex_src PLevelToOrder = VConstOrder (VInt 15) /\ ex_src PMaxLeaf = VInt 64
  /\ ex_src PTolerance = VTol 7 /\ ex_src PCostModel = VObj 3.
Proof. repeat split; vm_compute; reflexivity. Qed.
Definition ex_call : src := upd (upd (upd copy_default PDiscr (VDiscr 8 2 3)) AFmmOrder (VBool false)) PDebug (VBool false).
Example ex_definite : definite ex_call.
Proof.
  split; [reflexivity|]. split; [reflexivity|]. intros p. unfold given. destruct p; vm_compute; intros G; try (exfalso; apply G; reflexivity); (split; [discriminate|]; split; [discriminate|]); intros X [Y|[Y|[Y|[Y|Y]]]]; discriminate.
Qed.
Example ex_copy : exists c, qbx_copy ex_src ex_call = Ok c /\ c PDiscr = VDiscr 8 2 3 /\ c PLevelToOrder = VBool false /\ c PDebug = VBool false
  /\ c PMaxLeaf = VInt 64 /\ c PCostModel = VObj 3 /\ c PStickOut = VFloat 0.
Proof. eexists. split; [vm_compute; reflexivity|]. repeat split. Qed.
Example ex_copy_both : qbx_copy ex_src (upd (upd copy_default AFmmOrder (VInt 3)) PLevelToOrder (VCallable 1)) = Err TypeError.
Proof. reflexivity. Qed.

(** What a source made with only the mandatory arguments is like: the documented defaults. *)
Theorem default_source : forall did dim amb fine qbx order s,
  qbx_init (upd (upd (upd (upd init_defaults PDiscr (VDiscr did dim amb)) PFineOrder fine) PQbxOrder qbx) AFmmOrder order) = Ok s ->
  s PDiscr = VDiscr did dim amb /\ s PFineOrder = fine /\ s PQbxOrder = qbx /\
  s PLevelToOrder = (if is_false order then VBool false else VConstOrder order) /\
  s PFactory = VDefaultFactory /\ s PTolerance = VTol did /\ s PDebug = VBool true /\ s PMode = VMode false /\
  s PExtent = VBool true /\ s PStickOut = VFloat 1 /\ s PMaxLeaf = VInt (if amb =? 3 then 512 else 64) /\ s PNorm = VStr "l2" /\
  s PTree = VStr "adaptive" /\ s PWellSep = VInt 2 /\ s PSepCrit = VStr "precise_linf" /\
  s PMinNsources = VInt (if dim =? 1 then 15 else 30) /\ s PTargetSpecific = VNone /\ s PInspector = VNone /\
  s PCostModel = VDefaultCostModel /\ s PBackend = VStr "sumpy" /\ dim = amb - 1.
Proof.
  intros did dim amb fine qbx order s H. unfold qbx_init in H. cbn [upd init_defaults is_none is_not_provided dflt_none] in H.
  repeat step H. cbn in H. destruct (Bool.eqb (is_none order) true) eqn:B; [discriminate|].
  destruct (if is_false order then _ else _) as [lto|] eqn:L in H; [|discriminate]. cbn [bind] in H. repeat step H.
  injection H as <-. cbn. repeat split; auto.
  - destruct (is_false order); [congruence|]. destruct (assertb _); cbn [bind] in L; congruence.
  - destruct (amb =? 2) eqn:Z2; [|destruct (amb =? 3); reflexivity]. apply Z.eqb_eq in Z2. subst. reflexivity.
  - repeat match goal with C : negb _ = false |- _ => apply negb_false_iff, Z.eqb_eq in C end. assumption.
Qed.
Print Assumptions default_source.
Example ex_default : exists s, qbx_init (upd (upd (upd (upd init_defaults PDiscr (VDiscr 7 1 2)) PFineOrder (VInt 8)) PQbxOrder (VInt 4)) AFmmOrder (VInt 10)) = Ok s.
Proof. eexists. vm_compute. reflexivity. Qed.

(** *** C67: what copies lose *)
(** The expansion factory of an unregularized source is not copied. *)
Theorem unreg_copy_drops_factory_refuted :
  exists self copied, unreg_init (VDiscr 7 1 2) (VInt 5) VNone (VObj 9) (VBool true) = Ok self /\
    unreg_copy self VNone VNone VNone = Ok copied /\ u_factory self = VObj 9 /\ u_factory copied <> VObj 9.
Proof. do 2 eexists. split; [reflexivity|]. split; [reflexivity|]. split; [reflexivity | discriminate]. Qed.
(** An unregularized source's FMM cannot be switched off by a copy. *)
Theorem unreg_copy_fmm_off_ignored_refuted :
  exists self copied, unreg_init (VDiscr 7 1 2) (VInt 5) VNone VNone (VBool true) = Ok self /\
    unreg_copy self VNone (VBool false) VNone = Ok copied /\ u_lto copied <> VBool false.
Proof. do 2 eexists. split; [reflexivity|]. split; [reflexivity|]. discriminate. Qed.
(** A leaf weight of zero is ignored by QBX copies. *)
Theorem copy_zero_leaf_weight_ignored_refuted :
  exists copied, qbx_copy ex_src (upd copy_default PMaxLeaf (VInt 0)) = Ok copied /\ given (upd copy_default PMaxLeaf (VInt 0)) PMaxLeaf /\ copied PMaxLeaf = VInt 64.
Proof. eexists. split; [vm_compute; reflexivity|]. split; [discriminate | reflexivity]. Qed.
Print Assumptions unreg_copy_drops_factory_refuted.
Print Assumptions unreg_copy_fmm_off_ignored_refuted.
Print Assumptions copy_zero_leaf_weight_ignored_refuted.
