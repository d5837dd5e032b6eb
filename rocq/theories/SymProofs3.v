(** Fuel of the upsampling preprocessor (C20) and differentiation (C21). *)
From Verif Require Import Base DofModel DofProps SymModel SymSpec SymProofs SymProofs2.
From Coq Require Import QArith_base Ring.
Set Implicit Arguments.

(** ** Sizes and fuel *)
Lemma size_child h cs c : In c cs -> (size c < size (Node h cs))%nat.
Proof.
  intros H. simpl. induction cs as [|d cs IH]; [contradiction|]. simpl.
  destruct H as [->|H]; [lia|]. specialize (IH H). lia.
Qed.

Lemma size_stage_tag s e : size (stage_tag s e) = size e.
Proof.
  induction e as [h cs IH] using sexpr_ind'.
  assert (M : forall h h', size (Node h (map (stage_tag s) cs)) = size (Node h' cs)).
  { intros. simpl. f_equal. clear h h0 h'. induction cs as [|c cs IHc]; simpl; [reflexivity|].
    inversion IH; subst. rewrite H1, IHc by assumption. reflexivity. }
  destruct h; try apply M; simpl; destruct (has_stage dd s); try reflexivity.
  apply (M (HNumRefDer axes (set_stage dd s)) (HNumRefDer axes dd)).
Qed.

Definition quad_der (e : sexpr) : nat :=
  match e with Node (HNumRefDer _ d) _ => if has_stage d QUAD_STAGE2 then 1 else 0 | _ => 0 end.
Definition need (e : sexpr) : nat := (2 * size e + quad_der e)%nat.

Lemma need_child h cs c : In c cs -> (need c < need (Node h cs))%nat.
Proof.
  intros H. pose proof (size_child h _ _ H) as S1. unfold need.
  assert (quad_der c <= 1)%nat by (destruct c as [[] ?]; simpl; try destruct (has_stage _ _); lia).
  lia.
Qed.

Lemma need_tag_child fs h cs c : In c cs -> (need (stage_tag fs c) < need (Node h cs))%nat.
Proof.
  intros H. pose proof (size_child h _ _ H) as S1. unfold need. rewrite size_stage_tag.
  assert (quad_der (stage_tag fs c) <= 1)%nat
    by (destruct (stage_tag fs c) as [[] ?]; simpl; try destruct (has_stage _ _); lia).
  lia.
Qed.

Lemma need_tag_der fs a d cs : fs <> QUAD_STAGE2 -> has_stage d QUAD_STAGE2 = true ->
  (need (stage_tag fs (Node (HNumRefDer a d) cs)) < need (Node (HNumRefDer a d) cs))%nat.
Proof.
  intros Hf Hd. unfold need. rewrite size_stage_tag.
  assert (quad_der (stage_tag fs (Node (HNumRefDer a d) cs)) = 0%nat).
  { cbn [stage_tag]. destruct (has_stage d fs) eqn:E.
    - apply (opt_eqb_eq _ stage_eqb_eq) in E, Hd. congruence.
    - simpl. unfold has_stage, set_stage. simpl. destruct fs; try reflexivity. congruence. }
  rewrite H. cbn [quad_der]. rewrite Hd. lia.
Qed.

Lemma mapM_ext_in {A B : Type} (f g : A -> result B) l :
  (forall x, In x l -> f x = g x) -> mapM f l = mapM g l.
Proof.
  induction l as [|x l IH]; simpl; intros H; [reflexivity|].
  rewrite (H x) by auto. destruct (g x); simpl; [|reflexivity]. rewrite IH by auto. reflexivity.
Qed.

(** More fuel than needed does not matter. *)
Lemma interp_fuel_enough ps fs : fs <> QUAD_STAGE2 -> forall n m e,
  (need e <= n)%nat -> (need e <= m)%nat -> interp_pre n ps fs e = interp_pre m ps fs e.
Proof.
  intros Hf n. induction n as [|n IH]; intros m [h cs] Hn Hm.
  { exfalso. unfold need in Hn. simpl in Hn. lia. }
  destruct m as [|m]. { exfalso. unfold need in Hm. simpl in Hm. lia. }
  assert (C : forall c, In c cs -> interp_pre n ps fs c = interp_pre m ps fs c).
  { intros c Hc. pose proof (need_child h _ _ Hc). apply IH; lia. }
  assert (T : forall c, In c cs -> interp_pre n ps fs (stage_tag fs c) = interp_pre m ps fs (stage_tag fs c)).
  { intros c Hc. pose proof (need_tag_child fs h _ _ Hc). apply IH; lia. }
  assert (M : mapM (interp_pre n ps fs) cs = mapM (interp_pre m ps fs) cs) by (apply mapM_ext_in; exact C).
  destruct h; try (cbn [interp_pre]; rewrite M; reflexivity).
  - cbn [interp_pre]. destruct (has_stage dd QUAD_STAGE2) eqn:Hd; cbn [negb]; [|reflexivity].
    pose proof (@need_tag_der fs axes dd cs Hf Hd) as L.
    replace (interp_pre n ps fs (stage_tag fs (Node (HNumRefDer axes dd) cs)))
      with (interp_pre m ps fs (stage_tag fs (Node (HNumRefDer axes dd) cs))) by (symmetry; apply IH; lia).
    reflexivity.
  - cbn [interp_pre]. fold (upd_target g).
    destruct (discr_stage (g_src (upd_target g))); [reflexivity|].
    destruct (get_geometry ps (geometry (g_src (upd_target g)))) as [[]|]; cbn [bind]; try reflexivity.
    assert (F1 : forall k x, In x (firstn k cs) -> In x cs)
      by (intros k x Hx; rewrite <- (firstn_skipn k cs); apply in_or_app; auto).
    assert (F2 : forall k x, In x (skipn k cs) -> In x cs)
      by (intros k x Hx; rewrite <- (firstn_skipn k cs); apply in_or_app; auto).
    match goal with |- bind (mapM ?f1 ?l) _ = bind (mapM ?f2 ?l) _ =>
      replace (mapM f1 l) with (mapM f2 l) by
        (apply mapM_ext_in; intros x Hx; rewrite (C x (F1 _ x Hx)); reflexivity) end.
    match goal with |- bind ?x _ = bind ?x _ => destruct x; cbn [bind]; [|reflexivity] end.
    match goal with |- bind (mapM ?f1 ?l) _ = bind (mapM ?f2 ?l) _ =>
      replace (mapM f1 l) with (mapM f2 l); [reflexivity|] end.
    apply mapM_ext_in. intros x Hx. symmetry.
    unfold componentwise.
    destruct x as [hx cx]. pose proof (F2 _ _ Hx) as Hx'.
    assert (T1 : interp_pre n ps fs (stage_tag fs (Node hx cx)) = interp_pre m ps fs (stage_tag fs (Node hx cx)))
      by (apply T; exact Hx').
    destruct hx; try (rewrite T1; reflexivity).
    match goal with |- bind (mapM ?f1 ?l) _ = bind (mapM ?f2 ?l) _ =>
      replace (mapM f1 l) with (mapM f2 l); [reflexivity|] end.
    apply mapM_ext_in. intros y Hy. symmetry.
    replace (interp_pre n ps fs (stage_tag fs y)) with (interp_pre m ps fs (stage_tag fs y)); [reflexivity|].
    symmetry. apply IH.
    + pose proof (need_tag_child fs HArray _ _ Hy). pose proof (need_child (HIntG g) _ _ Hx'). lia.
    + pose proof (need_tag_child fs HArray _ _ Hy). pose proof (need_child (HIntG g) _ _ Hx'). lia.
Qed.

Lemma need_le e : (need e <= 2 * size e + 1)%nat.
Proof. unfold need. destruct e as [[] ?]; simpl; try destruct (has_stage _ _); lia. Qed.

Lemma interp_enough ps fs n e : fs <> QUAD_STAGE2 -> (2 * size e + 1 <= n)%nat ->
  interp_pre n ps fs e = interp ps fs e.
Proof. intros Hf Hn. pose proof (need_le e). apply interp_fuel_enough; [exact Hf|lia|lia]. Qed.

(** The only errors: an unknown geometry, or interpolating to centers. *)
Lemma interp_errors ps fs : fs <> QUAD_STAGE2 -> forall n e x, (need e <= n)%nat ->
  interp_pre n ps fs e = Err x -> x = KeyError \/ x = ValueError.
Proof.
  intros Hf n. induction n as [|n IH]; intros [h cs] x Hn E.
  { exfalso. unfold need in Hn. simpl in Hn. lia. }
  assert (C : forall c y, In c cs -> interp_pre n ps fs c = Err y -> y = KeyError \/ y = ValueError).
  { intros c y Hc. pose proof (need_child h _ _ Hc). apply IH; lia. }
  assert (T : forall c y, In c cs -> interp_pre n ps fs (stage_tag fs c) = Err y -> y = KeyError \/ y = ValueError).
  { intros c y Hc. pose proof (need_tag_child fs h _ _ Hc). apply IH; lia. }
  assert (GE : forall o y, get_geometry ps o = Err y -> y = KeyError).
  { intros [o|] y; simpl; [destruct (get_place ps o)|]; congruence. }
  assert (IE : forall e f t y, interpolate e f t = Err y -> y = ValueError).
  { intros e f t y. unfold interpolate. destruct (dd_eqb f t); [discriminate|].
    destruct (gran_eqb _ _); congruence. }
  assert (M : forall y, mapM (interp_pre n ps fs) cs = Err y -> y = KeyError \/ y = ValueError).
  { intros y Hy. apply mapM_Err_inv in Hy. destruct Hy as [c [Hc Hy]]. eauto. }
  destruct h;
    try (cbn [interp_pre] in E; destruct (mapM (interp_pre n ps fs) cs) eqn:Em;
         [discriminate|]; simpl in E; injection E as ->; apply M; reflexivity).
  - cbn [interp_pre] in E. destruct (has_stage dd QUAD_STAGE2) eqn:Hd; cbn [negb] in E; [|discriminate].
    destruct (get_geometry ps (geometry dd)) as [[]|y] eqn:Eg; cbn [bind] in E; try discriminate.
    + pose proof (@need_tag_der fs axes dd cs Hf Hd) as L.
      destruct (interp_pre n ps fs _) eqn:Ei; cbn [bind] in E; [right; eapply IE; eauto|].
      injection E as ->. eapply IH; [|exact Ei]. lia.
    + injection E as ->. left. eapply GE; eauto.
  - cbn [interp_pre] in E. fold (upd_target g) in E.
    destruct (discr_stage (g_src (upd_target g))); [discriminate|].
    destruct (get_geometry ps (geometry (g_src (upd_target g)))) as [[]|y] eqn:Eg; cbn [bind] in E; try discriminate.
    2:{ injection E as ->. left. eapply GE; eauto. }
    assert (F1 : forall k x, In x (firstn k cs) -> In x cs)
      by (intros k y Hx; rewrite <- (firstn_skipn k cs); apply in_or_app; auto).
    assert (F2 : forall k x, In x (skipn k cs) -> In x cs)
      by (intros k y Hx; rewrite <- (firstn_skipn k cs); apply in_or_app; auto).
    match type of E with bind ?a _ = _ => destruct a eqn:E1; cbn [bind] in E end.
    2:{ injection E as ->. apply mapM_Err_inv in E1. destruct E1 as [c [Hc E1]].
        destruct (interp_pre n ps fs c) eqn:Ei; cbn [bind] in E1; [right; eapply IE; eauto|].
        injection E1 as ->. eapply C; [eapply F1; eauto|exact Ei]. }
    match type of E with bind ?a _ = _ => destruct a eqn:E2; cbn [bind] in E end; [discriminate|].
    injection E as ->. apply mapM_Err_inv in E2. destruct E2 as [[hc ccs] [Hc E2]].
    pose proof (F2 _ _ Hc) as Hc'.
    unfold componentwise in E2.
    assert (S1 : forall c f t, In c cs -> (do c' <- interp_pre n ps fs (stage_tag fs c); interpolate c' f t) = Err x ->
                 x = KeyError \/ x = ValueError).
    { intros c f t Hcc Ex. destruct (interp_pre n ps fs (stage_tag fs c)) eqn:Ei; cbn [bind] in Ex;
        [right; eapply IE; eauto|]. injection Ex as ->. eapply T; eauto. }
    destruct hc; try (eapply S1; [exact Hc'|exact E2]).
    match type of E2 with bind ?a _ = _ => destruct a eqn:E3; cbn [bind] in E2 end; [discriminate|].
    injection E2 as ->. apply mapM_Err_inv in E3. destruct E3 as [y [Hy E3]].
    destruct (interp_pre n ps fs (stage_tag fs y)) eqn:Ei; cbn [bind] in E3; [right; eapply IE; eauto|].
    injection E3 as ->. eapply IH; [|exact Ei].
    pose proof (need_tag_child fs HArray _ _ Hy). pose proof (need_child (HIntG g) _ _ Hc'). lia.
Qed.

(** ** C21 *)
Lemma value_node V (I : head -> list V -> V) h cs : value I (Node h cs) = I h (map (value I) cs).
Proof. reflexivity. Qed.

Section DiffProofs.
Variable R : diff_ring.
Variable J : head -> list (dr_car R) -> dr_car R.
Hypothesis HJ : sound_interpretation R J.
Notation "x + y" := (dr_add R x y).
Notation "x * y" := (dr_mul R x y).
Add Ring Rring : (dr_ring R).


Lemma no_inverse_child h cs c : no_inverse (Node h cs) -> In c cs -> no_inverse c.
Proof. intros H Hc op v ex d cs' Ho. eapply H. eapply occurs_child; eauto. Qed.

Lemma d_cancel x : x + x = x -> x = dr_0 R.
Proof.
  intros H. transitivity ((x + x) + dr_opp R x); [|rewrite H; ring]. ring.
Qed.
Lemma d_zero i : dr_d R i (dr_0 R) = dr_0 R.
Proof.
  apply d_cancel. rewrite <- dr_d_add. f_equal. ring.
Qed.
Lemma d_one i : dr_d R i (dr_1 R) = dr_0 R.
Proof.
  apply d_cancel.
  transitivity (dr_d R i (dr_1 R * dr_1 R)); [|f_equal; ring].
  rewrite dr_d_mul. ring.
Qed.

Lemma existsb_false_in l : existsb (fun b : bool => b) l = false -> forall b, In b l -> b = false.
Proof.
  induction l as [|a l IH]; simpl; [contradiction|]. intros H b. apply orb_false_iff in H.
  destruct H as [-> H]. intros [<-|Hb]; auto.
Qed.

(** What is recognized as spatially constant has zero derivative. *)
Lemma not_varying_constant i e : no_inverse e -> varying e = Ok false ->
  dr_d R i (value J e) = dr_0 R.
Proof.
  destruct HJ as (JS & JP & J0 & JC & JSp & JO & _).
  induction e as [h cs IH] using sexpr_ind'. intros NI E. rewrite Forall_forall in IH.
  assert (K : forall bs, mapM varying cs = Ok bs -> existsb (fun b : bool => b) bs = false ->
              Forall (fun v => dr_d R i v = dr_0 R) (map (value J) cs)).
  { intros bs Em Hb. apply Forall_forall. intros v Hv. apply in_map_iff in Hv.
    destruct Hv as [c [<- Hc]]. apply IH; [exact Hc|eapply no_inverse_child; eauto|].
    apply mapM_Ok_inv in Em. destruct (Forall2_In_l Em Hc) as [b [Hb' Eb]].
    rewrite (existsb_false_in _ Hb b Hb') in Eb. exact Eb. }
  destruct h; simpl in E; try discriminate; rewrite ?value_node;
    try (apply JC; fail); try (apply JSp; fail);
    destruct (mapM varying cs) as [bs|] eqn:Em; simpl in E; try discriminate;
    assert (Hb : existsb (fun b : bool => b) bs = false) by congruence;
    specialize (K bs eq_refl Hb);
    try (apply JO; [solve [eauto 20]|exact K]).
  - rewrite JS. clear - K. induction (map (value J) cs) as [|v vs IHv]; simpl; [apply d_zero|].
    inversion K; subst. rewrite dr_d_add, IHv by assumption. rewrite H1. ring.
  - rewrite JP. clear - K. induction (map (value J) cs) as [|v vs IHv]; simpl; [apply d_one|].
    inversion K; subst. rewrite dr_d_mul, IHv by assumption. rewrite H1. ring.
  - exfalso. eapply NI. apply occ_here.
Qed.

Definition prod_of (cs : list sexpr) : dr_car R := fold_right (dr_mul R) (dr_1 R) (map (value J) cs).

Lemma split_factors_spec cs const nonconst : split_factors cs = Ok (const, nonconst) ->
  prod_of cs = prod_of const * prod_of nonconst
  /\ (forall c, In c const -> In c cs /\ varying c = Ok false)
  /\ (forall c, In c nonconst -> In c cs /\ varying c = Ok true).
Proof.
  revert const nonconst. induction cs as [|c cs IH]; simpl; intros const nonconst E.
  - assert (const = [] /\ nonconst = []) by (split; congruence). destruct H; subst.
    unfold prod_of. simpl. split; [ring|]. split; contradiction.
  - destruct (varying c) as [v|] eqn:Ev; simpl in E; [|discriminate].
    destruct (split_factors cs) as [[c1 n1]|]; simpl in E; [|discriminate].
    destruct (IH _ _ eq_refl) as (P & A & B).
    destruct v.
    + assert (const = c1 /\ nonconst = c :: n1) by (split; congruence). destruct H; subst.
      unfold prod_of in *. simpl. rewrite P. split; [ring|]. split.
      * intros d Hd. destruct (A d Hd). auto.
      * intros d [<-|Hd]; [auto|]. destruct (B d Hd). auto.
    + assert (const = c :: c1 /\ nonconst = n1) by (split; congruence). destruct H; subst.
      unfold prod_of in *. simpl. rewrite P. split; [ring|]. split.
      * intros d [<-|Hd]; [auto|]. destruct (A d Hd). auto.
      * intros d Hd. destruct (B d Hd). auto.
Qed.
End DiffProofs.

(** The product rule case of the derivative, with the search for the varying factor
    replaced by that factor. *)
Lemma take_derivative_prod axis cs const x : split_factors cs = Ok (const, [x]) ->
  take_derivative axis (Node HProd cs)
  = (do d <- take_derivative axis x; Ok (Node HProd [Node HProd const; d])).
Proof.
  intros E. cbn [take_derivative]. rewrite E. cbn [bind]. fold take_derivative.
  assert (G : forall const0 const, split_factors cs = Ok (const, [x]) ->
    (fix go (l : list sexpr) : result sexpr :=
       match l with
       | [] => Err AssertionError
       | c :: l' =>
           match varying c with
           | Ok true => do d <- take_derivative axis c; Ok (Node HProd [Node HProd const0; d])
           | _ => go l'
           end
       end) cs = (do d <- take_derivative axis x; Ok (Node HProd [Node HProd const0; d])));
    [|eapply G; exact E].
  clear const E. intros const0.
  induction cs as [|c cs IH]; simpl; intros const E; [discriminate|].
  destruct (varying c) as [v|] eqn:Ev; simpl in E; [|discriminate].
  destruct (split_factors cs) as [[c1 n1]|]; simpl in E; [|discriminate].
  destruct v.
  - assert (c = x) by congruence. subst c. reflexivity.
  - eapply IH. f_equal. f_equal. congruence.
Qed.

Section DiffMain.
Variable R : diff_ring.
Variable J : head -> list (dr_car R) -> dr_car R.
Hypothesis HJ : sound_interpretation R J.
Notation "x + y" := (dr_add R x y).
Notation "x * y" := (dr_mul R x y).
Add Ring Rring' : (dr_ring R).

Lemma take_derivative_value i : forall e e', no_inverse e -> take_derivative i e = Ok e' ->
  value J e' = dr_d R i (value J e).
Proof.
  pose proof HJ as (JS & JP & J0 & JC & JSp & JO & JK).
  induction e as [h cs IH] using sexpr_ind'. rewrite Forall_forall in IH. intros e' NI E.
  assert (Const0 : forall const, (forall c, In c const -> In c cs /\ varying c = Ok false) ->
                   dr_d R i (prod_of R J const) = dr_0 R).
  { intros const A. unfold prod_of.
    assert (Q : forall c, In c const -> dr_d R i (value J c) = dr_0 R).
    { intros c Hc. destruct (A c Hc) as [Hin Hv]. apply not_varying_constant; auto.
      eapply no_inverse_child; eauto. }
    clear - Q. induction const as [|c cs IHc]; simpl; [apply d_one|].
    rewrite dr_d_mul, IHc by (intros; apply Q; right; assumption).
    rewrite (Q c) by (left; reflexivity). ring. }
  destruct h; try discriminate E.
  - simpl in E. injection E as <-. simpl. rewrite J0, JC. reflexivity.
  - simpl in E. apply bind_Ok in E. destruct E as [cs' [Em E]].
    assert (e' = Node HSum cs') by congruence. subst e'. clear E.
    apply mapM_Ok_inv in Em. rewrite !value_node, !JS.
    clear - Em IH NI.
    induction Em as [|c c' cs cs' E F IHF]; simpl; [symmetry; apply d_zero|].
    rewrite dr_d_add. f_equal.
    + apply IH; [left; reflexivity| |exact E]. eapply no_inverse_child; [exact NI|left; reflexivity].
    + apply IHF.
      * intros x Hx. apply IH. right. exact Hx.
      * intros op v ex d cs1 Ho. apply occurs_inv in Ho. destruct Ho as [Ho|[x [Hx Ho]]]; [discriminate|].
        eapply NI. eapply occurs_child; [right; exact Hx|exact Ho].
  - destruct (split_factors cs) as [[const nonconst]|] eqn:Es; [|cbn [take_derivative] in E; rewrite Es in E; discriminate].
    destruct (split_factors_spec R J _ Es) as (P & A & B).
    assert (V : value J (Node HProd cs) = prod_of R J cs) by (rewrite value_node; apply JP).
    assert (VC : value J (Node HProd const) = prod_of R J const) by (rewrite value_node; apply JP).
    rewrite V, P, dr_d_mul, (Const0 const A).
    destruct nonconst as [|x [|y nonconst]].
    + cbn [take_derivative] in E. rewrite Es in E. cbn [bind] in E. injection E as <-.
      rewrite value_node, JP. cbn [map fold_right]. rewrite VC.
      unfold num. rewrite value_node, J0. change (prod_of R J []) with (dr_1 R).
      rewrite d_one. ring.
    + rewrite (take_derivative_prod i cs Es) in E. apply bind_Ok in E. destruct E as [d [Ed E]].
      assert (e' = Node HProd [Node HProd const; d]) by congruence. subst e'. clear E.
      destruct (B x (or_introl eq_refl)) as [Hx _].
      assert (IHx : value J d = dr_d R i (value J x))
        by (apply IH; [exact Hx|eapply no_inverse_child; eauto|exact Ed]).
      rewrite value_node, JP. cbn [map fold_right]. rewrite VC, IHx.
      assert (X : prod_of R J [x] = value J x) by (unfold prod_of; cbn [map fold_right]; ring).
      rewrite X. ring.
    + cbn [take_derivative] in E. rewrite Es in E. discriminate.
  - simpl in E. injection E as <-. rewrite !value_node. apply JK.
Qed.
End DiffMain.

(** ** Classification of factors *)
Lemma proper_child h cs c : proper (Node h cs) -> In c cs -> proper c.
Proof.
  intros [A B] Hc. split; intros; [eapply A|eapply B]; eapply occurs_child; eauto.
Qed.

Lemma varying_spec e : proper e -> ~ mentions unclassified_node e ->
  exists b, varying e = Ok b /\ (b = true <-> mentions varying_node e).
Proof.
  induction e as [h cs IH] using sexpr_ind'. rewrite Forall_forall in IH. intros PR NU.
  assert (PRc : forall c, In c cs -> proper c) by (intros; eapply proper_child; eauto).
  assert (NUc : forall c, In c cs -> ~ mentions unclassified_node c).
  { intros c Hc (h1 & cs1 & Ho & P). apply NU. exists h1, cs1. split; [|exact P].
    eapply occurs_child; eauto. }
  assert (K : exists bs, mapM varying cs = Ok bs /\
     (existsb (fun b : bool => b) bs = true <-> exists c, In c cs /\ mentions varying_node c)).
  { clear NU PR. induction cs as [|c cs IHc].
    - exists []. split; [reflexivity|]. simpl. split; [discriminate|]. intros (c & [] & _).
    - destruct (IH c) as (b & Eb & Hb); [left; reflexivity|apply PRc; left; reflexivity|apply NUc; left; reflexivity|].
      destruct IHc as (bs & Ebs & Hbs).
      + intros d Hd. apply IH. right. exact Hd.
      + intros d Hd. apply PRc. right. exact Hd.
      + intros d Hd. apply NUc. right. exact Hd.
      + exists (b :: bs). simpl. rewrite Eb, Ebs. split; [reflexivity|].
        rewrite orb_true_iff, Hb, Hbs. split.
        * intros [H|(d & Hd & H)]; [exists c|exists d]; auto.
        * intros (d & [<-|Hd] & H); [left; exact H|right; eauto]. }
  assert (Self : varying_node h -> mentions varying_node (Node h cs)).
  { intros V. exists h, cs. split; [apply occ_here|exact V]. }
  assert (Up : mentions varying_node (Node h cs) <->
               varying_node h \/ exists c, In c cs /\ mentions varying_node c).
  { split.
    - intros (h1 & cs1 & Ho & P). apply occurs_inv in Ho. destruct Ho as [Ho|[c [Hc Ho]]].
      + injection Ho as -> ->. left. exact P.
      + right. exists c. split; [exact Hc|]. exists h1, cs1. auto.
    - intros [V|(c & Hc & h1 & cs1 & Ho & P)]; [auto|]. exists h1, cs1. split; [|exact P].
      eapply occurs_child; eauto. }
  enough (G : exists b, varying (Node h cs) = Ok b /\
    (b = true <-> varying_node h \/ exists c, In c cs /\ mentions varying_node c)).
  { destruct G as (b & E & I). exists b. split; [exact E|]. rewrite Up. exact I. }
  clear Up Self. destruct K as (bs & Ebs & Hbs).
  assert (NV : forall (hh := h), ~ varying_node h -> forall b, (b = true <-> exists c, In c cs /\ mentions varying_node c) ->
               (b = true <-> varying_node h \/ exists c, In c cs /\ mentions varying_node c)) by (intros; tauto).
  assert (Cases : (varying (Node h cs) = Ok (existsb (fun b : bool => b) bs) /\ ~ varying_node h)
     \/ (varying (Node h cs) = Ok true /\ varying_node h)
     \/ (varying (Node h cs) = Ok false /\ ~ varying_node h /\ ((exists c, h = HConst c) \/ exists n, h = HSpatial n))
     \/ unclassified_node h).
  { unfold varying_node, unclassified_node.
    destruct h; simpl; rewrite ?Ebs; simpl;
    first [ solve [right; right; right; eauto 10]
          | solve [right; left; split; [reflexivity|eauto 10]]
          | solve [right; right; left; split; [reflexivity|split; [intros [[? H]|[[? H]|[? H]]]; discriminate|eauto]]]
          | left; split; [reflexivity|intros [[? H]|[[? H]|[? H]]]; discriminate] ]. }
  destruct Cases as [[E N]|[[E V]|[[E [N L]]|U]]].
  - eexists. split; [exact E|]. apply NV; [exact N|exact Hbs].
  - exists true. split; [exact E|]. tauto.
  - exists false. split; [exact E|]. split; [discriminate|]. intros [V|(c & Hc & _)]; [contradiction|].
    exfalso. destruct PR as [A B].
    assert (cs = []) by (destruct L as [[z ->]|[z ->]]; [eapply A|eapply B]; apply occ_here).
    subst. contradiction.
  - exfalso. apply NU. exists h, cs. split; [apply occ_here|exact U].
Qed.

Lemma split_factors_ok cs : (forall c, In c cs -> exists v, varying c = Ok v) ->
  exists const nonconst, split_factors cs = Ok (const, nonconst).
Proof.
  induction cs as [|c cs IH]; simpl; intros H; [eauto|].
  destruct (H c) as [v Ev]; [auto|]. rewrite Ev. simpl.
  destruct IH as (a & b & ->); [auto|]. simpl. destruct v; eauto.
Qed.

Lemma split_factors_app l1 l2 a1 b1 a2 b2 :
  split_factors l1 = Ok (a1, b1) -> split_factors l2 = Ok (a2, b2) ->
  split_factors (l1 ++ l2) = Ok (a1 ++ a2, b1 ++ b2).
Proof.
  revert a1 b1. induction l1 as [|c l1 IH]; simpl; intros a1 b1 E1 E2.
  - assert (a1 = [] /\ b1 = []) by (split; congruence). destruct H; subst. exact E2.
  - destruct (varying c) as [v|]; simpl in *; [|discriminate].
    destruct (split_factors l1) as [[x y]|]; simpl in *; [|discriminate].
    rewrite (IH x y eq_refl E2). simpl. destruct v;
      assert (E : (a1, b1) = _) by (injection E1; intros; subst; reflexivity); injection E1 as <- <-; reflexivity.
Qed.

Arguments split_factors_app {l1 l2 a1 b1 a2 b2} _ _.

Lemma split_const l : (forall c, In c l -> varying c = Ok false) -> split_factors l = Ok (l, []).
Proof.
  induction l as [|c l IH]; simpl; intros H; [reflexivity|].
  rewrite (H c) by auto. simpl. rewrite IH by auto. reflexivity.
Qed.

Lemma take_derivative_rejects i cs l1 a l2 b l3 :
  cs = l1 ++ a :: l2 ++ b :: l3 ->
  (forall c, In c cs -> proper c /\ ~ mentions unclassified_node c) ->
  mentions varying_node a -> mentions varying_node b ->
  take_derivative i (Node HProd cs) = Err TypeError.
Proof.
  intros -> H Ha Hb.
  assert (V : forall c, In c (l1 ++ a :: l2 ++ b :: l3) ->
              exists v, varying c = Ok v /\ (v = true <-> mentions varying_node c)).
  { intros c Hc. destruct (H c Hc). apply varying_spec; assumption. }
  assert (Va : varying a = Ok true).
  { destruct (V a) as (v & E & I); [apply in_or_app; right; left; reflexivity|].
    rewrite E. f_equal. apply I. exact Ha. }
  assert (Vb : varying b = Ok true).
  { destruct (V b) as (v & E & I); [apply in_or_app; right; right; apply in_or_app; right; left; reflexivity|].
    rewrite E. f_equal. apply I. exact Hb. }
  destruct (@split_factors_ok l1) as (a1 & b1 & E1).
  { intros c Hc. destruct (V c) as (v & E & _); [apply in_or_app; auto|eauto]. }
  destruct (@split_factors_ok l2) as (a2 & b2 & E2).
  { intros c Hc. destruct (V c) as (v & E & _); [apply in_or_app; right; right; apply in_or_app; auto|eauto]. }
  destruct (@split_factors_ok l3) as (a3 & b3 & E3).
  { intros c Hc. destruct (V c) as (v & E & _);
      [apply in_or_app; right; right; apply in_or_app; right; right; auto|eauto]. }
  assert (S3 : split_factors (b :: l3) = Ok (a3, b :: b3)) by (simpl; rewrite Vb; simpl; rewrite E3; reflexivity).
  pose proof (split_factors_app E2 S3) as S2.
  assert (S1 : split_factors (a :: l2 ++ b :: l3) = Ok (a2 ++ a3, a :: b2 ++ b :: b3))
    by (simpl; rewrite Va; simpl; rewrite S2; reflexivity).
  pose proof (split_factors_app E1 S1) as S0.
  cbn [take_derivative]. rewrite S0. cbn [bind].
  destruct b1 as [|x [|y b1]]; simpl; [|destruct b2; reflexivity|reflexivity].
  destruct b2; reflexivity.
Qed.

Lemma take_derivative_total i e : proper e -> linear_in_potentials e ->
  exists e', take_derivative i e = Ok e'.
Proof.
  induction e as [h cs IH] using sexpr_ind'. rewrite Forall_forall in IH. intros PR L.
  inversion L; subst.
  - simpl. eauto.
  - simpl. eauto.
  - cbn [take_derivative].
    match goal with H : Forall linear_in_potentials _ |- _ => rename H into F; rewrite Forall_forall in F end.
    destruct (@mapM_total _ _ (take_derivative i) cs) as [ys Ey].
    { intros c Hc. apply IH; auto. eapply proper_child; eauto. }
    rewrite Ey. simpl. eauto.
  - match goal with H : Forall _ (l1 ++ l2) |- _ => rename H into F; rewrite Forall_forall in F end.
    assert (PC : forall c, In c (l1 ++ x :: l2) -> proper c) by (intros; eapply proper_child; eauto).
    assert (K : forall c, In c (l1 ++ l2) -> varying c = Ok false).
    { intros c Hc. destruct (F c Hc) as [N1 N2].
      assert (Pc : proper c).
      { apply PC. apply in_app_or in Hc. apply in_or_app. destruct Hc; [auto|right; right; assumption]. }
      destruct (@varying_spec c Pc N2) as (v & E & I). rewrite E. f_equal.
      destruct v; [|reflexivity]. exfalso. apply N1. apply I. reflexivity. }
    assert (Px : proper x) by (apply PC, in_or_app; right; left; reflexivity).
    destruct (IH x) as [x' Ex']; [apply in_or_app; right; left; reflexivity|exact Px|assumption|].
    assert (S1 : split_factors l1 = Ok (l1, [])) by (apply split_const; intros; apply K, in_or_app; auto).
    assert (S2 : split_factors l2 = Ok (l2, [])) by (apply split_const; intros; apply K, in_or_app; auto).
    match goal with H : ~ mentions unclassified_node x |- _ =>
      destruct (@varying_spec x Px H) as (v & E & _) end.
    destruct v.
    + assert (Sx : split_factors (x :: l2) = Ok (l2, [x])) by (simpl; rewrite E; simpl; rewrite S2; reflexivity).
      pose proof (split_factors_app S1 Sx) as S0.
      rewrite (@take_derivative_prod i _ _ _ S0), Ex'. simpl. eauto.
    + assert (Sx : split_factors (x :: l2) = Ok (x :: l2, [])) by (simpl; rewrite E; simpl; rewrite S2; reflexivity).
      pose proof (split_factors_app S1 Sx) as S0.
      cbn [take_derivative]. rewrite S0. cbn [bind app]. eauto.
Qed.
