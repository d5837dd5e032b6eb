(** Proofs about tagging (C17), the QBX and unregularized preprocessors (C18, C19). *)
From Verif Require Import Base DofModel DofProps SymModel SymSpec.
From Coq Require Import QArith_base.
Set Implicit Arguments.

Lemma copy_geometry_ok d o : dd_copy d (GADesc o) OSentinel ONone = Ok (copy_geometry d o).
Proof. destruct d as [[]? ?], o as [[]  []? ]; reflexivity. Qed.
Lemma set_stage_ok d s : dd_copy d GANone (OStage s) ONone = Ok (set_stage d s).
Proof. destruct d; reflexivity. Qed.

Lemma mapM_Ok_inv {A B : Type} (f : A -> result B) xs ys :
  mapM f xs = Ok ys -> Forall2 (fun x y => f x = Ok y) xs ys.
Proof.
  revert ys. induction xs as [|x xs IH]; simpl; intros ys H.
  - injection H as <-. constructor.
  - destruct (f x) as [y|] eqn:E; simpl in H; [|discriminate].
    destruct (mapM f xs) as [ys'|]; simpl in H; [|discriminate].
    injection H as <-. constructor; auto.
Qed.
Lemma mapM_Ok_intro {A B : Type} (f : A -> result B) xs ys :
  Forall2 (fun x y => f x = Ok y) xs ys -> mapM f xs = Ok ys.
Proof. induction 1 as [|x y xs ys E _ IH]; simpl; [reflexivity|]. rewrite E, IH. reflexivity. Qed.
Lemma mapM_Err_inv {A B : Type} (f : A -> result B) xs e :
  mapM f xs = Err e -> exists x, In x xs /\ f x = Err e.
Proof.
  induction xs as [|x xs IH]; simpl; intros H; [discriminate|].
  destruct (f x) as [y|e'] eqn:E; simpl in H.
  - destruct (mapM f xs) as [ys'|e'']; simpl in H; [discriminate|].
    injection H as ->. destruct IH as [x' [? ?]]; [reflexivity|]. eauto.
  - injection H as ->. eauto.
Qed.
Lemma mapM_total {A B : Type} (f : A -> result B) xs :
  (forall x, In x xs -> exists y, f x = Ok y) -> exists ys, mapM f xs = Ok ys.
Proof.
  induction xs as [|x xs IH]; simpl; intros H; [eauto|].
  destruct (H x) as [y Hy]; [auto|]. rewrite Hy. simpl.
  destruct IH as [ys ->]; [auto|]. simpl. eauto.
Qed.

(** ** C17 *)
Lemma tag_head_ok ds dt (inside : bool) h :
  geometry ds <> None -> geometry dt <> None ->
  let dt' := if inside then ds else dt in
  blank (tag_head ds dt' h) = blank h
  /\ Forall2 (fun (rd d' : role * dofdesc) => resolved ds dt inside (fst rd) (snd rd) (snd d'))
       (locations h) (locations (tag_head ds dt' h)).
Proof.
  intros Hs Ht dt'.
  assert (Q : forall d, resolved ds dt inside Quantity d (default_dofdesc ds dt' d)).
  { intros d. unfold resolved, default_dofdesc, explicit, applicable_default, copy_geometry, dt'.
    destruct d as [[g|] st gr]; simpl.
    - assert (X : forall o, geometry o <> None ->
                 match geometry o with None => Some g | Some g0 => Some g0 end = geometry o)
        by (intros o; destruct (geometry o); congruence).
      destruct g; simpl; rewrite ?X by (destruct inside; assumption);
        repeat split; intros; subst; try congruence;
        try (destruct H as (g' & E & N1 & N2); congruence).
    - assert (X : forall o, geometry o <> None ->
                 match geometry o with None => None | Some g0 => Some g0 end = geometry o)
        by (intros o; destruct (geometry o); congruence).
      destruct st, gr; simpl; rewrite ?X by (destruct inside; assumption);
        repeat split; intros; subst; try congruence;
        destruct H as (g' & E & N1 & N2); congruence. }
  assert (F : forall d, resolved ds dt inside SourceSide d (fill d ds)).
  { intros d. unfold resolved, fill, explicit, applicable_default, copy_geometry.
    destruct d as [[g|] st gr]; simpl; repeat split; intros; try congruence.
    - destruct H as (g' & E & N1 & N2); congruence.
    - destruct (geometry ds); congruence. }
  assert (T : forall d, resolved ds dt inside TargetSide d (fill d dt')).
  { intros d. unfold resolved, fill, explicit, applicable_default, copy_geometry, dt'.
    destruct d as [[g|] st gr]; simpl; repeat split; intros; try congruence.
    - destruct H as (g' & E & N1 & N2); congruence.
    - destruct inside; [destruct (geometry ds)|destruct (geometry dt)]; congruence. }
  split; [destruct h; reflexivity|].
  destruct h; cbn [tag_head locations g_src g_tgt];
    repeat first [apply Forall2_nil | apply Forall2_cons; [cbn [fst snd]; auto|]].
Qed.

Lemma loc_tag_path ds dt e : forall p h cs,
  at_path e p = Some (Node h cs) ->
  at_path (loc_tag ds dt e) p = Some (Node (tag_head ds dt h) (map (loc_tag ds dt) cs)).
Proof.
  intros p. revert e. induction p as [|i p IH]; intros e h cs; destruct e as [h0 cs0]; simpl.
  - intros E. injection E as -> ->. reflexivity.
  - rewrite nth_error_map. destruct (nth_error cs0 i) as [c|]; [|discriminate]. simpl. apply IH.
Qed.

Lemma to_target_path ds dt e : forall p h cs,
  at_path e p = Some (Node h cs) ->
  exists cs', at_path (to_target_tag ds dt e) p =
    Some (Node (tag_head ds (if inside_intg e p then ds else dt) h) cs') /\ length cs' = length cs.
Proof.
  intros p. revert e. induction p as [|i p IH]; intros e h cs; destruct e as [h0 cs0].
  - simpl. intros E. injection E as -> ->.
    destruct h; eexists; (split; [reflexivity|apply map_length]).
  - cbn [at_path sexpr_children inside_intg sexpr_head].
    destruct (nth_error cs0 i) as [c|] eqn:E; [|discriminate]. intros H.
    destruct (is_intg h0) eqn:Hi.
    + destruct h0; try discriminate Hi. simpl. rewrite nth_error_map, E. simpl.
      exists (map (loc_tag ds ds) cs). split; [|apply map_length].
      apply loc_tag_path. exact H.
    + replace (sexpr_children (to_target_tag ds dt (Node h0 cs0)))
        with (map (to_target_tag ds dt) cs0) by (destruct h0; try reflexivity; discriminate Hi).
      rewrite nth_error_map, E. simpl. apply IH. exact H.
Qed.

Lemma to_target_path_inv ds dt e : forall p e',
  at_path (to_target_tag ds dt e) p = Some e' -> exists h cs, at_path e p = Some (Node h cs).
Proof.
  assert (L : forall p e e', at_path (loc_tag ds ds e) p = Some e' ->
                             exists h cs, at_path e p = Some (Node h cs)).
  { intros p. induction p as [|i p IH]; intros [h0 cs0] e'; simpl; [eauto|].
    rewrite nth_error_map. destruct (nth_error cs0 i); simpl; [apply IH|discriminate]. }
  intros p. revert e. induction p as [|i p IH]; intros [h0 cs0] e'; [simpl; eauto|].
  cbn [at_path sexpr_children].
  destruct (is_intg h0) eqn:Hi.
  - destruct h0; try discriminate Hi. simpl.
    rewrite nth_error_map. destruct (nth_error cs0 i); simpl; [apply L|discriminate].
  - replace (sexpr_children (to_target_tag ds dt (Node h0 cs0)))
      with (map (to_target_tag ds dt) cs0) by (destruct h0; try reflexivity; discriminate Hi).
    rewrite nth_error_map. destruct (nth_error cs0 i); simpl; [apply IH|discriminate].
Qed.

Lemma tag_locations ds dt e : geometry ds <> None -> geometry dt <> None ->
  forall p h cs, at_path e p = Some (Node h cs) ->
  exists h' cs', at_path (to_target_tag ds dt e) p = Some (Node h' cs')
    /\ length cs' = length cs /\ blank h' = blank h
    /\ Forall2 (fun (rd d' : role * dofdesc) => resolved ds dt (inside_intg e p) (fst rd) (snd rd) (snd d'))
         (locations h) (locations h').
Proof.
  intros Hs Ht p h cs H. destruct (to_target_path ds dt _ _ H) as (cs' & E & L).
  exists (tag_head ds (if inside_intg e p then ds else dt) h), cs'.
  destruct (@tag_head_ok ds dt (inside_intg e p) h Hs Ht) as [A B]. auto.
Qed.

Lemma tag_complete ds dt e : geometry ds <> None -> geometry dt <> None ->
  forall p h cs r d, at_path (to_target_tag ds dt e) p = Some (Node h cs) ->
  In (r, d) (locations h) -> geometry d <> None.
Proof.
  intros Hs Ht p h cs r d H Hin.
  destruct (to_target_path_inv _ _ _ _ H) as (h0 & cs0 & H0).
  destruct (to_target_path ds dt _ _ H0) as (cs' & E & _).
  assert (X : h = tag_head ds (if inside_intg e p then ds else dt) h0) by congruence. subst h.
  set (dt' := if inside_intg e p then ds else dt) in *.
  assert (Ht' : geometry dt' <> None) by (unfold dt'; destruct (inside_intg e p); assumption).
  assert (C : forall x o, geometry o <> None -> geometry (copy_geometry x o) <> None).
  { intros x o Ho. unfold copy_geometry. simpl. destruct (geometry o); congruence. }
  assert (D : forall x, geometry (default_dofdesc ds dt' x) <> None).
  { intros [[g|] st gr]; unfold default_dofdesc; simpl.
    - destruct g; try (simpl; congruence); apply C; assumption.
    - destruct (_ && _); apply C; assumption. }
  assert (F : forall x o, geometry o <> None -> geometry (fill x o) <> None).
  { intros [[g|] st gr] o Ho; unfold fill; cbn [geometry]; [simpl; congruence|apply C; assumption]. }
  destruct h0; simpl in Hin; try contradiction;
    repeat (destruct Hin as [Hin|Hin]; [assert (Y : d = snd (r, d)) by reflexivity;
       rewrite <- Hin in Y; simpl in Y; subst d; auto|]); try contradiction.
Qed.

Lemma tag_head_idem ds dt dt' h : explicit ds -> explicit dt -> explicit dt' ->
  tag_head ds dt' (tag_head ds dt h) = tag_head ds dt h.
Proof.
  intros Hs Ht Ht'.
  assert (C : forall x o, explicit o -> explicit (copy_geometry x o)).
  { intros x o (g & E & N1 & N2). exists g. unfold copy_geometry. simpl. rewrite E. auto. }
  assert (K : forall x, explicit x -> default_dofdesc ds dt' x = x).
  { intros x (g & E & N1 & N2). unfold default_dofdesc. rewrite E. destruct g; congruence. }
  assert (D : forall x, default_dofdesc ds dt' (default_dofdesc ds dt x) = default_dofdesc ds dt x).
  { intros x. destruct x as [[g|] st gr]; unfold default_dofdesc at 2 3; simpl.
    - destruct g; simpl; try reflexivity; apply K, C; assumption.
    - destruct (_ && _); apply K, C; assumption. }
  assert (F : forall x o o', explicit o -> fill (fill x o) o' = fill x o).
  { intros x o o' Ho. destruct x as [[g|] st gr]; unfold fill at 2 3; simpl; [reflexivity|].
    destruct (C (DD None st gr) _ Ho) as (g & E & _). unfold fill. rewrite E. reflexivity. }
  destruct h; simpl; rewrite ?D, ?F by assumption; reflexivity.
Qed.

Lemma loc_tag_idem ds dt e : explicit ds -> explicit dt ->
  loc_tag ds dt (loc_tag ds dt e) = loc_tag ds dt e.
Proof.
  intros Hs Ht. induction e as [h cs IH] using sexpr_ind'. simpl.
  rewrite tag_head_idem by assumption. f_equal. rewrite map_map.
  apply map_ext_in. rewrite Forall_forall in IH. exact IH.
Qed.

Lemma to_target_idem ds dt e : explicit ds -> explicit dt ->
  to_target_tag ds dt (to_target_tag ds dt e) = to_target_tag ds dt e.
Proof.
  intros Hs Ht. induction e as [h cs IH] using sexpr_ind'.
  assert (M : map (to_target_tag ds dt) (map (to_target_tag ds dt) cs) = map (to_target_tag ds dt) cs).
  { rewrite map_map. apply map_ext_in. rewrite Forall_forall in IH. exact IH. }
  assert (M' : map (loc_tag ds ds) (map (loc_tag ds ds) cs) = map (loc_tag ds ds) cs).
  { rewrite map_map. apply map_ext_in. intros. apply loc_tag_idem; assumption. }
  pose proof (tag_head_idem h Hs Ht Ht) as E.
  destruct h; simpl in *; rewrite ?M, ?M'; congruence.
Qed.

(** ** C18 *)
Lemma opt_geom_eq a b : opt_eqb geom_eqb a b = true <-> a = b.
Proof. exact (opt_eqb_eq _ geom_eqb_eq a b). Qed.

Lemma is_self_spec g : is_self g = true <-> on_surface g.
Proof.
  unfold is_self, on_surface.
  rewrite andb_true_iff, (opt_eqb_eq _ geom_eqb_eq), (opt_eqb_eq _ stage_eqb_eq). tauto.
Qed.
Lemma is_self_false g : is_self g = false <-> ~ on_surface g.
Proof. rewrite <- is_self_spec. destruct (is_self g); split; congruence. Qed.

Lemma occurs_trans a b c : occurs a b -> occurs b c -> occurs a c.
Proof. induction 1; intros; [assumption|]. econstructor; eauto. Qed.

Lemma all_intg_child P h cs c : all_intg P (Node h cs) -> In c cs -> all_intg P c.
Proof. intros H Hin g cs' Ho. apply (H g cs'). econstructor; eauto. Qed.

(** What the preprocessor does with a node, given its processed children. *)
Lemma qbx_pre_other name h cs : (forall g, h <> HIntG g) ->
  qbx_pre name (Node h cs) = (do cs' <- mapM (qbx_pre name) cs; Ok (Node h cs')).
Proof. intros H. destruct h; try reflexivity. exfalso. apply (H g). reflexivity. Qed.

Lemma head_dec h : {g | h = HIntG g} + {forall g, h <> HIntG g}.
Proof. destruct h; try (right; congruence). left. eauto. Qed.

Lemma qbx_pre_ok_iff name e : all_intg (fun g => valid_limit (g_lim g)) e ->
  (exists e', qbx_pre name e = Ok e') <-> (forall g, exposed name e g -> legal_limit g).
Proof.
  induction e as [h cs IH] using sexpr_ind'. intros HV. rewrite Forall_forall in IH.
  destruct (head_dec h) as [[g ->]|Hn].
  - simpl. destruct (opt_eqb geom_eqb (geometry (g_src g)) (Some name)) eqn:Eg; simpl.
    2:{ split; [|eauto]. intros _ g' Hx. exfalso.
        assert (geometry (g_src g) <> Some name)
          by (intros X; apply opt_geom_eq in X; congruence).
        inversion Hx; subst; congruence. }
    apply opt_geom_eq in Eg.
    assert (V : valid_limit (g_lim g)) by (apply (HV g cs); constructor).
    assert (IH' : (exists cs', mapM (qbx_pre name) cs = Ok cs') <->
                  (forall c, In c cs -> forall g, exposed name c g -> legal_limit g)).
    { split.
      - intros [cs' E] c Hc. apply IH; [exact Hc|eapply all_intg_child; eauto|].
        apply mapM_Ok_inv in E. clear - E Hc. induction E; [contradiction|].
        destruct Hc as [->|Hc]; eauto.
      - intros H. apply mapM_total. intros c Hc. apply IH; eauto using all_intg_child. }
    assert (Split : (forall g0, exposed name (Node (HIntG g) cs) g0 -> legal_limit g0) <->
                    (legal_limit g /\ (forall c, In c cs -> forall g, exposed name c g -> legal_limit g))).
    { split.
      - intros H. split; [apply H; constructor; exact Eg|].
        intros c Hc g' Hx. apply H. eapply exp_intg; eauto.
      - intros [H1 H2] g' Hx. inversion Hx; subst; try congruence; eauto. }
    rewrite Split. clear Split IH. rewrite <- IH'. clear IH'.
    assert (L : forall x : result sexpr,
      (g_lim g = LInt 0 -> False) ->
      (match g_lim g with LInt 0%Z => Err ValueError | _ => x end) = x).
    { intros x N. destruct (g_lim g) as [| |[]]; try reflexivity. exfalso. apply N. reflexivity. }
    rewrite L by (intros X; destruct V as [V|[V|[V|[V|[V|V]]]]]; congruence). clear L.
    destruct (mapM (qbx_pre name) cs) as [cs'|x]; simpl.
    2:{ split; [intros [e' E]; discriminate|intros [_ [cs' E]]; discriminate]. }
    assert (Y : (legal_limit g /\ exists cs'0, Ok cs' = Ok cs'0) <-> legal_limit g)
      by (split; [tauto|eauto]).
    rewrite Y. clear Y. unfold legal_limit.
    destruct (is_self g) eqn:Es; simpl.
    + apply is_self_spec in Es. unfold valid_limit in V.
      destruct V as [V|[V|[V|[V|[V|V]]]]]; rewrite V; simpl;
      (split; [try (intros [e' E]; discriminate); intros _|intros [H _]; specialize (H Es);
                 try (destruct H as [?|[?|?]]; discriminate); eauto]);
      (split; [intros _; auto|contradiction]).
    + apply is_self_false in Es. unfold valid_limit in V.
      destruct V as [V|[V|[V|[V|[V|V]]]]]; rewrite V; simpl;
      (split; [try (intros [e' E]; discriminate); intros _|intros [_ H]; specialize (H Es);
                 try (destruct H as [?|[?|?]]; discriminate); eauto]);
      (split; [contradiction|intros _; auto]).
  - rewrite qbx_pre_other by exact Hn.
    assert (IH' : (exists cs', mapM (qbx_pre name) cs = Ok cs') <->
                  (forall c, In c cs -> forall g, exposed name c g -> legal_limit g)).
    { split.
      - intros [cs' E] c Hc. apply IH; [exact Hc|eapply all_intg_child; eauto|].
        apply mapM_Ok_inv in E. clear - E Hc. induction E; [contradiction|].
        destruct Hc as [->|Hc]; eauto.
      - intros H. apply mapM_total. intros c Hc. apply IH; eauto using all_intg_child. }
    split.
    + intros [e' E] g Hx. destruct (mapM (qbx_pre name) cs) as [cs'|] eqn:Em; [|discriminate].
      inversion Hx; subst; try (exfalso; eapply Hn; reflexivity).
      eapply (proj1 IH'); eauto.
    + intros H. destruct (proj2 IH') as [cs' ->]; [|simpl; eauto].
      intros c Hc g Hx. apply H. eapply exp_op; eauto.
Qed.

Lemma qbx_pre_err name e x : qbx_pre name e = Err x -> x = ValueError.
Proof.
  revert x. induction e as [h cs IH] using sexpr_ind'. rewrite Forall_forall in IH. intros x.
  destruct (head_dec h) as [[g ->]|Hn].
  - simpl. destruct (negb _); [discriminate|].
    assert (M : forall y, mapM (qbx_pre name) cs = Err y -> y = ValueError).
    { intros y Hy. apply mapM_Err_inv in Hy. destruct Hy as [c [Hc Hy]]. eapply IH; eauto. }
    destruct (mapM (qbx_pre name) cs) as [cs'|y] eqn:Em; simpl.
    + destruct (g_lim g) as [| |[]]; destruct (negb (is_self g)); simpl;
        repeat match goal with |- context[if ?b then _ else _] => destruct b end;
        intros H; congruence.
    + specialize (M y eq_refl). subst y. destruct (g_lim g) as [| |[]]; congruence.
  - rewrite qbx_pre_other by exact Hn. intros H.
    destruct (mapM (qbx_pre name) cs) as [cs'|y] eqn:Em; simpl in H; [discriminate|].
    injection H as ->. apply mapM_Err_inv in Em. destruct Em as [c [Hc Hy]]. eapply IH; eauto.
Qed.

(** Inversion of a successful run. *)
Lemma qbx_pre_inv name h cs e' : qbx_pre name (Node h cs) = Ok e' ->
  (exists g, h = HIntG g /\ geometry (g_src g) <> Some name /\ e' = Node h cs)
  \/ exists cs', Forall2 (fun c c' => qbx_pre name c = Ok c') cs cs' /\
     (((forall g, h <> HIntG g) /\ e' = Node h cs')
      \/ exists g, h = HIntG g /\ geometry (g_src g) = Some name
           /\ ((~ on_surface g /\ g_lim g <> LAvg /\ g_lim g <> LInt 1 /\ g_lim g <> LInt (-1)
                /\ e' = Node h cs')
             \/ (on_surface g /\ g_lim g = LAvg /\
                 e' = Node HProd [num qhalf; Node HSum
                          [Node (HIntG (with_lim g (LInt 1))) cs';
                           Node (HIntG (with_lim g (LInt (-1)))) cs']])
             \/ (on_surface g /\ g_lim g <> LNone /\ g_lim g <> LAvg /\ g_lim g <> LInt 2
                /\ g_lim g <> LInt (-2) /\ e' = Node h cs'))).
Proof.
  destruct (head_dec h) as [[g ->]|Hn].
  - simpl. destruct (opt_eqb geom_eqb (geometry (g_src g)) (Some name)) eqn:Eg; simpl.
    2:{ intros E. left. exists g. split; [reflexivity|]. split; [|congruence].
        intros X. apply opt_geom_eq in X. congruence. }
    apply opt_geom_eq in Eg. intros E. right.
    destruct (mapM (qbx_pre name) cs) as [cs'|] eqn:Em.
    2:{ simpl in E. destruct (g_lim g) as [| |[]]; discriminate. }
    exists cs'. split; [apply mapM_Ok_inv; exact Em|]. right. exists g.
    split; [reflexivity|]. split; [exact Eg|].
    destruct (is_self g) eqn:Es; simpl in E.
    + apply is_self_spec in Es. right.
      destruct (g_lim g) as [| |z] eqn:El; simpl in E; try discriminate.
      * left. repeat split; try apply Es; try congruence.
      * right. repeat split; try apply Es; try discriminate;
          try (intros X; injection X as ->; simpl in E; discriminate).
        destruct z; simpl in E; try discriminate;
          match type of E with (if ?b then _ else _) = _ => destruct b end; congruence.
    + apply is_self_false in Es. left. split; [exact Es|].
      destruct (g_lim g) as [| |z] eqn:El; simpl in E; try discriminate.
      * repeat split; try discriminate. congruence.
      * repeat split; try discriminate;
          try (intros X; injection X as ->; simpl in E; discriminate).
        destruct z; simpl in E; try discriminate;
          match type of E with (if ?b then _ else _) = _ => destruct b end; congruence.
  - rewrite qbx_pre_other by exact Hn. intros E. right.
    destruct (mapM (qbx_pre name) cs) as [cs'|] eqn:Em; [|discriminate].
    exists cs'. split; [apply mapM_Ok_inv; exact Em|]. left. split; [exact Hn|].
    simpl in E. congruence.
Qed.

Lemma value_ext_children V (I : head -> list V -> V) name cs cs' :
  (forall c, In c cs -> forall e', qbx_pre name c = Ok e' -> value I e' = value I c) ->
  Forall2 (fun c c' => qbx_pre name c = Ok c') cs cs' -> map (value I) cs' = map (value I) cs.
Proof.
  intros H F. induction F as [|c c' cs cs' E F IH]; simpl; [reflexivity|].
  f_equal; [apply H; [left; reflexivity|exact E]|]. apply IH. intros d Hd. apply H. right. exact Hd.
Qed.

Lemma qbx_pre_value V (I : head -> list V -> V) name e e' : avg_is_average I ->
  qbx_pre name e = Ok e' -> value I e' = value I e.
Proof.
  intros HI. revert e'. induction e as [h cs IH] using sexpr_ind'. rewrite Forall_forall in IH.
  intros e' E. apply qbx_pre_inv in E.
  destruct E as [(g & -> & _ & ->)|(cs' & F & [(Hn & ->)|(g & -> & Hg & D)])]; [reflexivity| |];
    pose proof (@value_ext_children V I name cs cs' (fun c Hc e1 => IH c Hc e1) F) as M.
  - simpl. rewrite M. reflexivity.
  - destruct D as [(_ & _ & _ & _ & ->)|[(_ & El & ->)|(_ & _ & _ & _ & _ & ->)]]; simpl; rewrite M;
      try reflexivity.
    symmetry. apply HI. exact El.
Qed.

Lemma Forall2_In_r {A B : Type} (R : A -> B -> Prop) l l' y : Forall2 R l l' -> In y l' ->
  exists x, In x l /\ R x y.
Proof.
  induction 1 as [|a b l l' H F IH]; [contradiction|]. intros [->|Hy]; [exists a; simpl; auto|].
  destruct (IH Hy) as [x [? ?]]. exists x. simpl. auto.
Qed.
Lemma Forall2_In_l {A B : Type} (R : A -> B -> Prop) l l' x : Forall2 R l l' -> In x l ->
  exists y, In y l' /\ R x y.
Proof.
  induction 1 as [|a b l l' H F IH]; [contradiction|]. intros [->|Hy]; [exists b; simpl; auto|].
  destruct (IH Hy) as [y [? ?]]. exists y. simpl. auto.
Qed.

Arguments Forall2_In_r {A B R l l' y} _ _.
Arguments Forall2_In_l {A B R l l' x} _ _.

Lemma qbx_pre_after name e e' : all_intg (fun g => valid_limit (g_lim g)) e ->
  qbx_pre name e = Ok e' -> forall g, exposed name e' g -> legal_after g.
Proof.
  revert e'. induction e as [h cs IH] using sexpr_ind'. rewrite Forall_forall in IH.
  intros e' HV E. apply qbx_pre_inv in E.
  assert (K : forall cs' c g, Forall2 (fun c c' => qbx_pre name c = Ok c') cs cs' ->
              In c cs' -> exposed name c g -> legal_after g).
  { intros cs' c g F Hc Hx. destruct (Forall2_In_r F Hc) as [c0 [Hc0 E0]].
    eapply IH; eauto using all_intg_child. }
  destruct E as [(g0 & -> & Hg & ->)|(cs' & F & [(Hn & ->)|(g0 & -> & Hg & D)])]; intros g Hx.
  - inversion Hx; subst; congruence.
  - inversion Hx; subst; try (exfalso; eapply Hn; reflexivity). eapply K; eauto.
  - assert (V : valid_limit (g_lim g0)) by (apply (HV g0 cs); constructor). unfold valid_limit in V.
    destruct D as [(Hs & N1 & N2 & N3 & ->)|[(Hs & El & ->)|(Hs & N1 & N2 & N3 & N4 & ->)]].
    + inversion Hx; subst; try congruence; [|eapply K; eauto].
      split; [contradiction|]. intros _. intuition.
    + inversion Hx as [|h1 cs1 c1 g1 N Hin Hx1|]; subst.
      destruct Hin as [<-|[<-|[]]]; [inversion Hx1; subst; contradiction|].
      inversion Hx1 as [|h2 cs2 c2 g2 N' Hin' Hx2|]; subst.
      destruct Hin' as [<-|[<-|[]]]; inversion Hx2; subst; simpl in *; try congruence;
        try (eapply K; eauto; fail);
        (split; [intros _; simpl; auto|intros X; exfalso; apply X; exact Hs]).
    + inversion Hx; subst; try congruence; [|eapply K; eauto].
      split; [|contradiction]. intros _. intuition.
Qed.

Lemma qbx_pre_same name e : (forall g, ~ exposed name e g) -> qbx_pre name e = Ok e.
Proof.
  induction e as [h cs IH] using sexpr_ind'. rewrite Forall_forall in IH. intros H.
  destruct (head_dec h) as [[g ->]|Hn].
  - simpl. destruct (opt_eqb geom_eqb (geometry (g_src g)) (Some name)) eqn:Eg; [|reflexivity].
    apply opt_geom_eq in Eg. exfalso. apply (H g). constructor. exact Eg.
  - rewrite qbx_pre_other by exact Hn.
    replace (mapM (qbx_pre name) cs) with (Ok cs); [reflexivity|]. symmetry.
    apply mapM_Ok_intro.
    assert (X : forall c, In c cs -> qbx_pre name c = Ok c).
    { intros c Hc. apply IH; [exact Hc|]. intros g Hx. apply (H g). eapply exp_op; eauto. }
    clear - X. induction cs as [|c cs IHc]; constructor; [apply X; left; reflexivity|].
    apply IHc. intros d Hd. apply X. right. exact Hd.
Qed.

(** When only one source occurs, every layer potential is exposed. *)
Lemma single_source_exposed name e g cs : all_intg (fun g => geometry (g_src g) = Some name) e ->
  occurs e (Node (HIntG g) cs) -> exposed name e g.
Proof.
  intros H Ho. remember (Node (HIntG g) cs) as x eqn:Ex. revert H.
  induction Ho as [e|h cs0 c e Hc Ho IH]; intros H.
  - subst. constructor. apply (H g cs). constructor.
  - assert (X : exposed name c g) by (apply IH; [exact Ex|eapply all_intg_child; eauto]).
    destruct (head_dec h) as [[g0 ->]|Hn].
    + eapply exp_intg; eauto. apply (H g0 cs0). constructor.
    + eapply exp_op; eauto.
Qed.

Lemma qbx_pre_keeps_source name e e' n : qbx_pre name e = Ok e' ->
  all_intg (fun g => geometry (g_src g) = Some n) e -> all_intg (fun g => geometry (g_src g) = Some n) e'.
Proof.
  revert e'. induction e as [h cs IH] using sexpr_ind'. rewrite Forall_forall in IH.
  intros e' E H. apply qbx_pre_inv in E.
  assert (K : forall cs' c, Forall2 (fun c c' => qbx_pre name c = Ok c') cs cs' ->
              In c cs' -> all_intg (fun g => geometry (g_src g) = Some n) c).
  { intros cs' c F Hc. destruct (Forall2_In_r F Hc) as [c0 [Hc0 E0]].
    eapply IH; eauto using all_intg_child. }
  assert (N : forall g cs' (Hg : geometry (g_src g) = Some n),
             Forall2 (fun c c' => qbx_pre name c = Ok c') cs cs' ->
             all_intg (fun g => geometry (g_src g) = Some n) (Node (HIntG g) cs')).
  { intros g cs' Hg F g1 cs1 Ho. inversion Ho; subst; [exact Hg|]. eapply K; eauto. }
  destruct E as [(g0 & -> & Hg & ->)|(cs' & F & [(Hn & ->)|(g0 & -> & Hg & D)])].
  - exact H.
  - intros g1 cs1 Ho. inversion Ho; subst; [exfalso; eapply Hn; reflexivity|]. eapply K; eauto.
  - assert (Hn : geometry (g_src g0) = Some n) by (apply (H g0 cs); constructor).
    destruct D as [(_ & _ & _ & _ & ->)|[(_ & _ & ->)|(_ & _ & _ & _ & _ & ->)]];
      try (apply N; assumption).
    intros g1 cs1 Ho.
    inversion Ho as [|h1 cs2 c1 e1 Hin Ho1]; subst.
    destruct Hin as [<-|[<-|[]]]; [inversion Ho1; contradiction|].
    inversion Ho1 as [|h2 cs3 c2 e2 Hin' Ho2]; subst.
    destruct Hin' as [<-|[<-|[]]];
      eapply N with (g := with_lim g0 _); eauto.
Qed.

Lemma qbx_pre_no_avg name e e' :
  all_intg (fun g => valid_limit (g_lim g)) e ->
  all_intg (fun g => geometry (g_src g) = Some name) e ->
  qbx_pre name e = Ok e' -> all_intg (fun g => g_lim g <> LAvg) e'.
Proof.
  intros HV HS E g cs Ho.
  pose proof (@qbx_pre_keeps_source name e e' name E HS) as HS'.
  pose proof (@qbx_pre_after name e e' HV E g (@single_source_exposed name e' g cs HS' Ho)) as [A B].
  destruct (is_self g) eqn:Es.
  - apply is_self_spec in Es. destruct (A Es) as [->| ->]; discriminate.
  - apply is_self_false in Es. destruct (B Es) as [->|[->| ->]]; discriminate.
Qed.

(** ** C19 *)
Lemma unreg_inv name h cs : unreg_pre name (Node h cs) =
  match h with
  | HIntG g => if one_sided (g_lim g) then Err ValueError else
      do cs' <- mapM (unreg_pre name) cs; Ok (Node (HIntG (with_lim g LNone)) cs')
  | _ => do cs' <- mapM (unreg_pre name) cs; Ok (Node h cs')
  end.
Proof. destruct h; reflexivity. Qed.

Lemma one_sided_spec l : one_sided l = true <-> l = LInt 1 \/ l = LInt (-1).
Proof.
  destruct l as [| |z]; simpl; try (split; [discriminate|intros [|]; discriminate]).
  rewrite orb_true_iff, !Z.eqb_eq. split; intros [H|H]; [left|right|left|right]; congruence.
Qed.

Lemma unreg_ok name e :
  (forall e', unreg_pre name e = Ok e' ->
     all_intg (fun g => g_lim g <> LInt 1 /\ g_lim g <> LInt (-1)) e
     /\ all_intg (fun g => g_lim g = LNone) e' /\ forget_limits e' = forget_limits e)
  /\ (forall x, unreg_pre name e = Err x -> x = ValueError
     /\ ~ all_intg (fun g => g_lim g <> LInt 1 /\ g_lim g <> LInt (-1)) e).
Proof.
  induction e as [h cs IH] using sexpr_ind'. rewrite Forall_forall in IH.
  rewrite unreg_inv.
  assert (KO : forall cs', mapM (unreg_pre name) cs = Ok cs' ->
     (forall c, In c cs -> all_intg (fun g => g_lim g <> LInt 1 /\ g_lim g <> LInt (-1)) c)
     /\ (forall c, In c cs' -> all_intg (fun g => g_lim g = LNone) c)
     /\ map forget_limits cs' = map forget_limits cs).
  { intros cs' E. apply mapM_Ok_inv in E. split; [|split].
    - intros c Hc. destruct (Forall2_In_l E Hc) as [c' [_ E']]. eapply IH; eauto.
    - intros c Hc. destruct (Forall2_In_r E Hc) as [c' [Hc' E']]. eapply IH; eauto.
    - clear - E IH. induction E as [|c c' cs cs' E F IHF]; simpl; [reflexivity|].
      f_equal; [eapply IH; [left; reflexivity|exact E]|]. apply IHF. intros d Hd. apply IH.
      right. exact Hd. }
  assert (KE : forall x, mapM (unreg_pre name) cs = Err x -> x = ValueError /\
     exists c, In c cs /\ ~ all_intg (fun g => g_lim g <> LInt 1 /\ g_lim g <> LInt (-1)) c).
  { intros x E. apply mapM_Err_inv in E. destruct E as [c [Hc E]].
    destruct (proj2 (IH c Hc) x E). eauto. }
  destruct (head_dec h) as [[g ->]|Hn].
  - destruct (one_sided (g_lim g)) eqn:E1.
    + split; [discriminate|]. intros x Ex. split; [congruence|]. intros H.
      apply one_sided_spec in E1. destruct (H g cs (occ_here _)). tauto.
    + assert (N1 : g_lim g <> LInt 1 /\ g_lim g <> LInt (-1))
        by (split; intros X; rewrite X in E1; discriminate).
      destruct (mapM (unreg_pre name) cs) as [cs'|y]; simpl; split; intros z Ez; try discriminate.
      * assert (z = Node (HIntG (with_lim g LNone)) cs') by congruence. subst z.
        destruct (KO _ eq_refl) as (A & B & C). split; [|split].
        -- intros g1 cs1 Ho. inversion Ho; subst; [exact N1|]. eapply A; eauto.
        -- intros g1 cs1 Ho. inversion Ho; subst; [reflexivity|]. eapply B; eauto.
        -- simpl. rewrite C. destruct g; reflexivity.
      * assert (z = y) by congruence. subst. destruct (KE _ eq_refl) as [? [c [Hc Hx]]].
        split; [assumption|]. intros HH. apply Hx. eapply all_intg_child; eauto.
  - replace (match h with
      | HIntG g => if one_sided (g_lim g) then Err ValueError else
          do cs' <- mapM (unreg_pre name) cs; Ok (Node (HIntG (with_lim g LNone)) cs')
      | _ => do cs' <- mapM (unreg_pre name) cs; Ok (Node h cs')
      end) with (do cs' <- mapM (unreg_pre name) cs; Ok (Node h cs'))
      by (destruct h; try reflexivity; exfalso; eapply Hn; reflexivity).
    destruct (mapM (unreg_pre name) cs) as [cs'|y]; simpl; split; intros z Ez; try discriminate.
    + assert (z = Node h cs') by congruence. subst z.
      destruct (KO _ eq_refl) as (A & B & C). split; [|split].
      * intros g1 cs1 Ho. inversion Ho; subst; [exfalso; eapply Hn; reflexivity|]. eapply A; eauto.
      * intros g1 cs1 Ho. inversion Ho; subst; [exfalso; eapply Hn; reflexivity|]. eapply B; eauto.
      * simpl. rewrite C. reflexivity.
    + assert (z = y) by congruence. subst. destruct (KE _ eq_refl) as [? [c [Hc Hx]]].
      split; [assumption|]. intros HH. apply Hx. eapply all_intg_child; eauto.
Qed.
