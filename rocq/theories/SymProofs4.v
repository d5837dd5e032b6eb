(** The preparation pipeline for a single source, and the local form of upsampling. *)
From Verif Require Import Base DofModel DofProps SymModel SymSpec SymProofs SymProofs2 SymProofs3.
Set Implicit Arguments.

Fixpoint lims (e : sexpr) : list limit :=
  let 'Node h cs := e in
  (match h with HIntG g => [g_lim g] | _ => [] end) ++ flat_map lims cs.

Lemma lims_occurs e l : In l (lims e) <-> exists g cs, occurs e (Node (HIntG g) cs) /\ g_lim g = l.
Proof.
  induction e as [h cs IH] using sexpr_ind'. rewrite Forall_forall in IH. simpl.
  rewrite in_app_iff, in_flat_map. split.
  - intros [H|(c & Hc & H)].
    + destruct h; try contradiction. destruct H as [<-|[]]. exists g, cs. split; [apply occ_here|reflexivity].
    + apply IH in H; [|exact Hc]. destruct H as (g & cs' & Ho & E). exists g, cs'.
      split; [eapply occurs_child; eauto|exact E].
  - intros (g & cs' & Ho & E). apply occurs_inv in Ho. destruct Ho as [Ho|(c & Hc & Ho)].
    + injection Ho as <- <-. left. simpl. auto.
    + right. exists c. split; [exact Hc|]. apply IH; eauto.
Qed.

Lemma flat_map_ext_in {A B : Type} (f g : A -> list B) l :
  (forall x, In x l -> f x = g x) -> flat_map f l = flat_map g l.
Proof.
  induction l as [|x l IH]; simpl; intros H; [reflexivity|].
  rewrite (H x) by auto. f_equal. apply IH. auto.
Qed.

Lemma flat_map_map {A B C : Type} (f : A -> B) (g : B -> list C) l :
  flat_map g (map f l) = flat_map (fun x => g (f x)) l.
Proof. induction l; simpl; [reflexivity|]. f_equal. assumption. Qed.

Lemma lims_unstage e : lims (unstage e) = lims e.
Proof.
  induction e as [h cs IH] using sexpr_ind'. rewrite Forall_forall in IH.
  assert (D : {f & {t | h = HInterp f t}} + {forall f t, h <> HInterp f t}).
  { destruct h; try (right; congruence). left. eauto. }
  assert (M : flat_map lims (map unstage cs) = flat_map lims cs).
  { rewrite flat_map_map. apply flat_map_ext_in. exact IH. }
  destruct D as [(f & t & ->)|D].
  - destruct cs as [|c [|c2 cs]].
    + reflexivity.
    + simpl. rewrite app_nil_r. apply IH. left. reflexivity.
    + cbn [unstage]. cbn [lims]. exact M.
  - rewrite unstage_node by exact D. cbn [lims]. rewrite M. f_equal. destruct h; reflexivity.
Qed.

Lemma interp_lims n ps fs e e' : interp_pre n ps fs e = Ok e' -> lims e' = lims e.
Proof. intros H. apply interp_unstage in H. rewrite <- (lims_unstage e'), H. apply lims_unstage. Qed.

Lemma loc_tag_lims ds dt e : lims (loc_tag ds dt e) = lims e.
Proof.
  induction e as [h cs IH] using sexpr_ind'. rewrite Forall_forall in IH. simpl.
  rewrite flat_map_map. rewrite (flat_map_ext_in _ _ _ IH). f_equal. destruct h; reflexivity.
Qed.
Lemma to_target_lims ds dt e : lims (to_target_tag ds dt e) = lims e.
Proof.
  induction e as [h cs IH] using sexpr_ind'. rewrite Forall_forall in IH.
  assert (M1 : flat_map lims (map (to_target_tag ds dt) cs) = flat_map lims cs).
  { rewrite flat_map_map. apply flat_map_ext_in. exact IH. }
  assert (M2 : flat_map lims (map (loc_tag ds ds) cs) = flat_map lims cs).
  { rewrite flat_map_map. apply flat_map_ext_in. intros. apply loc_tag_lims. }
  destruct h; cbn [to_target_tag lims tag_head]; rewrite ?M1, ?M2; reflexivity.
Qed.

(** Source geometries after tagging. *)
Fixpoint srcs (e : sexpr) : list (option geom) :=
  let 'Node h cs := e in
  (match h with HIntG g => [geometry (g_src g)] | _ => [] end) ++ flat_map srcs cs.
Lemma srcs_occurs e o : In o (srcs e) <-> exists g cs, occurs e (Node (HIntG g) cs) /\ geometry (g_src g) = o.
Proof.
  induction e as [h cs IH] using sexpr_ind'. rewrite Forall_forall in IH. simpl.
  rewrite in_app_iff, in_flat_map. split.
  - intros [H|(c & Hc & H)].
    + destruct h; try contradiction. destruct H as [<-|[]]. exists g, cs. split; [apply occ_here|reflexivity].
    + apply IH in H; [|exact Hc]. destruct H as (g & cs' & Ho & E). exists g, cs'.
      split; [eapply occurs_child; eauto|exact E].
  - intros (g & cs' & Ho & E). apply occurs_inv in Ho. destruct Ho as [Ho|(c & Hc & Ho)].
    + injection Ho as <- <-. left. simpl. auto.
    + right. exists c. split; [exact Hc|]. apply IH; eauto.
Qed.
Definition fill_src (ds : dofdesc) (o : option geom) : option geom :=
  match o with None => geometry ds | Some g => Some g end.
Lemma fill_geometry d ds : geometry (fill d ds) = fill_src ds (geometry d).
Proof.
  unfold fill, fill_src, copy_geometry. destruct d as [[g|] st gr]; simpl; [reflexivity|].
  destruct (geometry ds); reflexivity.
Qed.
Lemma map_flat_map {A B C : Type} (f : B -> C) (g : A -> list B) l :
  map f (flat_map g l) = flat_map (fun x => map f (g x)) l.
Proof. induction l; simpl; [reflexivity|]. rewrite map_app. f_equal. assumption. Qed.
Lemma loc_tag_srcs ds dt e : srcs (loc_tag ds dt e) = map (fill_src ds) (srcs e).
Proof.
  induction e as [h cs IH] using sexpr_ind'. rewrite Forall_forall in IH. simpl.
  rewrite flat_map_map, (flat_map_ext_in _ _ _ IH), map_app, map_flat_map. f_equal.
  destruct h; try reflexivity. simpl. rewrite fill_geometry. reflexivity.
Qed.
Lemma to_target_srcs ds dt e : srcs (to_target_tag ds dt e) = map (fill_src ds) (srcs e).
Proof.
  induction e as [h cs IH] using sexpr_ind'. rewrite Forall_forall in IH.
  assert (M1 : flat_map srcs (map (to_target_tag ds dt) cs) = map (fill_src ds) (flat_map srcs cs)).
  { rewrite flat_map_map, map_flat_map. apply flat_map_ext_in. exact IH. }
  assert (M2 : flat_map srcs (map (loc_tag ds ds) cs) = map (fill_src ds) (flat_map srcs cs)).
  { rewrite flat_map_map, map_flat_map. apply flat_map_ext_in. intros. apply loc_tag_srcs. }
  destruct h; cbn [to_target_tag srcs tag_head]; rewrite ?M1, ?M2, ?map_app; try reflexivity.
  cbn. rewrite fill_geometry. reflexivity.
Qed.

Lemma prepare_single_no_avg name ds dt e e' :
  geometry ds = Some name ->
  all_intg (fun g => valid_limit (g_lim g)) e ->
  all_intg (fun g => geometry (g_src g) = None \/ geometry (g_src g) = Some name) e ->
  prepare_expr [(name, PQbx)] ds dt e = Ok e' ->
  all_intg (fun g => g_lim g = LNone \/ g_lim g = LInt 1 \/ g_lim g = LInt (-1)
                     \/ g_lim g = LInt 2 \/ g_lim g = LInt (-2)) e'.
Proof.
  intros Hd HV HS E. unfold prepare_expr in E. apply bind_Ok in E. destruct E as [e1 [E1 E2]].
  cbn [preprocess_all preprocess_place fst snd] in E1.
  apply bind_Ok in E1. destruct E1 as [e0 [E0 E1]]. assert (e0 = e1) by congruence. subst e0. clear E1.
  assert (HV' : all_intg (fun g => valid_limit (g_lim g)) (to_target_tag ds dt e)).
  { intros g cs Ho. assert (X : In (g_lim g) (lims (to_target_tag ds dt e)))
      by (apply lims_occurs; eauto).
    rewrite to_target_lims in X. apply lims_occurs in X. destruct X as (g0 & cs0 & Ho0 & <-).
    apply (HV g0 cs0 Ho0). }
  assert (HS' : all_intg (fun g => geometry (g_src g) = Some name) (to_target_tag ds dt e)).
  { intros g cs Ho. assert (X : In (geometry (g_src g)) (srcs (to_target_tag ds dt e)))
      by (apply srcs_occurs; eauto).
    rewrite to_target_srcs in X. apply in_map_iff in X. destruct X as (o & <- & Hin).
    apply srcs_occurs in Hin. destruct Hin as (g0 & cs0 & Ho0 & <-).
    unfold fill_src. destruct (HS g0 cs0 Ho0) as [-> | ->]; [exact Hd|reflexivity]. }
  assert (A : forall g cs, occurs e1 (Node (HIntG g) cs) ->
     g_lim g = LNone \/ g_lim g = LInt 1 \/ g_lim g = LInt (-1) \/ g_lim g = LInt 2 \/ g_lim g = LInt (-2)).
  { intros g cs Ho.
    pose proof (@qbx_pre_keeps_source name _ _ name E0 HS') as HS1.
    pose proof (@qbx_pre_after name _ _ HV' E0 g (@single_source_exposed name e1 g cs HS1 Ho)) as [A B].
    destruct (is_self g) eqn:Es.
    - apply is_self_spec in Es. destruct (A Es) as [->| ->]; auto.
    - apply is_self_false in Es. destruct (B Es) as [->|[->| ->]]; auto. }
  intros g cs Ho.
  assert (X : In (g_lim g) (lims e')) by (apply lims_occurs; eauto).
  unfold interp in E2. rewrite (interp_lims _ _ _ _ E2) in X. apply lims_occurs in X.
  destruct X as (g0 & cs0 & Ho0 & <-). eapply A; eauto.
Qed.

(** The local form of upsampling. *)
Lemma interp_intg_unstaged ps g cs e' : unstaged_qbx ps g ->
  interp ps STAGE2 (Node (HIntG g) cs) = Ok e' ->
  exists ds ks g',
    e' = Node (HIntG g') (ds ++ ks)
    /\ g_tk g' = g_tk g /\ g_sks g' = g_sks g /\ g_nd g' = g_nd g /\ g_lim g' = g_lim g
    /\ g_kargs g' = g_kargs g
    /\ g_src g' = set_stage (g_src g) QUAD_STAGE2
    /\ g_tgt g' = match discr_stage (g_tgt g) with None => set_stage (g_tgt g) STAGE1 | Some _ => g_tgt g end
    /\ Forall2 (fun c c' => exists x, interp ps STAGE2 c = Ok x
          /\ c' = Node (HInterp (set_stage (g_src g) STAGE1) (set_stage (g_src g) QUAD_STAGE2)) [x])
         (firstn (g_nd g) cs) ds
    /\ Forall2 (fun c c' =>
         (exists x, interp ps STAGE2 (stage_tag STAGE2 c) = Ok x
            /\ c' = Node (HInterp (set_stage (g_src g) STAGE2) (set_stage (g_src g) QUAD_STAGE2)) [x])
         \/ (exists l l', c = Node HArray l /\ c' = Node HArray l' /\
              Forall2 (fun a a' => exists x, interp ps STAGE2 (stage_tag STAGE2 a) = Ok x
                /\ a' = Node (HInterp (set_stage (g_src g) STAGE2) (set_stage (g_src g) QUAD_STAGE2)) [x]) l l'))
         (skipn (g_nd g) cs) ks.
Proof.
  intros U E. unfold interp in E.
  remember (2 * size (Node (HIntG g) cs) + 1)%nat as n0 eqn:Hn.
  destruct n0 as [|n]; [discriminate|].
  apply interp_pre_inv in E.
  destruct E as [(a & d & X & _)|[(a & d & x & X & _)|[(g0 & X & NU & _)|
                [(g0 & ds & ks & X & _ & Fd & Fk & ->)|(cs' & _ & N2 & _)]]]]; try discriminate X.
  - assert (g = g0) by congruence. subst. contradiction.
  - assert (g = g0) by congruence. subst g0. clear X.
    assert (F1 : forall k y, In y (firstn k cs) -> In y cs)
      by (intros k y Hx; rewrite <- (firstn_skipn k cs); apply in_or_app; auto).
    assert (F2 : forall k y, In y (skipn k cs) -> In y cs)
      by (intros k y Hx; rewrite <- (firstn_skipn k cs); apply in_or_app; auto).
    assert (NE : forall s, s <> QUAD_STAGE2 -> set_stage (g_src g) s <> set_stage (g_src g) QUAD_STAGE2)
      by (unfold set_stage; congruence).
    assert (IE : forall s x c', s <> QUAD_STAGE2 ->
       interpolate x (set_stage (g_src g) s) (set_stage (g_src g) QUAD_STAGE2) = Ok c' ->
       c' = Node (HInterp (set_stage (g_src g) s) (set_stage (g_src g) QUAD_STAGE2)) [x]).
    { intros s x c' Hs Hi. apply interpolate_inv in Hi. destruct Hi as [[Y _]|(_ & _ & Y)]; [|exact Y].
      exfalso. exact (NE s Hs Y). }
    assert (S2 : STAGE2 <> QUAD_STAGE2) by discriminate.
    assert (SZ : forall c, In c cs -> (2 * size c + 1 <= n)%nat).
    { intros c Hc. pose proof (size_child (HIntG g) _ _ Hc). lia. }
    assert (F2in : forall (P Q : sexpr -> sexpr -> Prop) l l', (forall a b, In a l -> P a b -> Q a b) ->
                   Forall2 P l l' -> Forall2 Q l l').
    { intros P Q l l' H F. induction F; constructor; [apply H; [left; reflexivity|assumption]|].
      apply IHF. intros a b Ha. apply H. right. exact Ha. }
    exists ds, ks, (with_src (upd_target g) (set_stage (g_src g) QUAD_STAGE2)).
    split; [reflexivity|].
    repeat (split; [unfold upd_target; destruct (discr_stage (g_tgt g)); reflexivity|]).
    split.
    + eapply F2in; [|exact Fd]. intros c c' Hc (x & Ex & Ei). exists x. split.
      * rewrite <- Ex. symmetry. apply interp_enough; [exact S2|apply SZ; eapply F1; eauto].
      * apply IE in Ei; [exact Ei|discriminate].
    + eapply F2in; [|exact Fk]. intros c c' Hc [(x & Ex & Ei)|(l & l' & -> & -> & F)].
      * left. exists x. split; [|apply IE in Ei; [exact Ei|discriminate]].
        rewrite <- Ex. symmetry. apply interp_enough; [exact S2|]. rewrite size_stage_tag.
        apply SZ. eapply F2; eauto.
      * right. exists l, l'. split; [reflexivity|]. split; [reflexivity|].
        eapply F2in; [|exact F]. intros a b Ha (x & Ex & Ei). exists x.
        split; [|apply IE in Ei; [exact Ei|discriminate]].
        rewrite <- Ex. symmetry. apply interp_enough; [exact S2|]. rewrite size_stage_tag.
        pose proof (SZ _ (F2 _ _ Hc)). pose proof (size_child HArray _ _ Ha). lia.
  - exfalso. eapply N2. reflexivity.
Qed.

(** Layer potentials that are not upsampled keep everything but a missing target stage. *)
Lemma interp_intg_other ps g cs e' : ~ unstaged_qbx ps g ->
  interp ps STAGE2 (Node (HIntG g) cs) = Ok e' -> e' = Node (HIntG (upd_target g)) cs.
Proof.
  intros U E. unfold interp in E.
  remember (2 * size (Node (HIntG g) cs) + 1)%nat as n0 eqn:Hn.
  destruct n0 as [|n]; [discriminate|].
  apply interp_pre_inv in E.
  destruct E as [(a & d & X & _)|[(a & d & x & X & _)|[(g0 & X & NU & Y)|
                [(g0 & ds & ks & X & U' & _)|(cs' & _ & N2 & _)]]]]; try discriminate X.
  - congruence.
  - assert (g = g0) by congruence. subst. contradiction.
  - exfalso. eapply N2. reflexivity.
Qed.

(** With the quadrature stage itself as the stage to differentiate on, the recursion
    never ends on a derivative on the quadrature stage. *)
Lemma interp_quad_diverges n ps a d cs nm :
  discr_stage d = Some QUAD_STAGE2 -> geometry d = Some nm -> get_place ps nm = Some PQbx ->
  interp_pre n ps QUAD_STAGE2 (Node (HNumRefDer a d) cs) = Err OutOfFuel.
Proof.
  intros H1 H2 H3. induction n as [|n IH]; [reflexivity|].
  cbn [interp_pre]. assert (Hs : has_stage d QUAD_STAGE2 = true) by (unfold has_stage; rewrite H1; reflexivity).
  rewrite Hs. cbn [negb]. rewrite H2. cbn [get_geometry]. rewrite H3. cbn [bind].
  cbn [stage_tag]. rewrite Hs, IH. reflexivity.
Qed.
