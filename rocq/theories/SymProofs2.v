(** Proofs about upsampling (C20) and differentiation (C21). *)
From Verif Require Import Base DofModel DofProps SymModel SymSpec SymProofs.
From Coq Require Import QArith_base Ring.
Set Implicit Arguments.

(** ** Tree facts *)
Lemma occurs_inv h cs x : occurs (Node h cs) x -> x = Node h cs \/ exists c, In c cs /\ occurs c x.
Proof. intros H. inversion H; subst; eauto. Qed.

Lemma occurs_child h cs c x : In c cs -> occurs c x -> occurs (Node h cs) x.
Proof. intros. econstructor; eauto. Qed.

Lemma geometric_inv h cs : geometric (Node h cs) -> Forall geometric cs.
Proof. intros H. inversion H; subst. assumption. Qed.

Lemma geometric_occurs e : geometric e -> forall x, occurs e x -> geometric x.
Proof.
  induction e as [h cs IH] using sexpr_ind'. intros G x Ho.
  apply occurs_inv in Ho. destruct Ho as [->|[c [Hc Ho]]]; [exact G|].
  apply geometric_inv in G. rewrite Forall_forall in *. eapply IH; eauto.
Qed.

Definition geo_head (h : head) : bool :=
  match h with
  | HConst _ | HSpatial _ | HSum | HProd | HQuot | HPow | HCall _ | HCse _ _ | HArray
  | HNodeCoord _ _ | HNumRefDer _ _ | HNodeRed _ => true
  | _ => false
  end.
Lemma geometric_head h cs : geometric (Node h cs) -> geo_head h = true.
Proof.
  intros X. inversion X as [h0 cs0 H F]; subst.
  destruct H as [[? ->]|[[? ->]|[->|[->|[->|[->|[[? ->]|[(? & ? & ->)|[->|[(? & ? & ->)|[(? & ? & ->)|[? ->]]]]]]]]]]]];
    reflexivity.
Qed.
Definition op_head (h : head) : bool :=
  match h with HSum | HProd | HQuot | HPow | HCall _ | HCse _ _ | HArray => true | _ => false end.
Lemma op_head_spec h :
  (h = HSum \/ h = HProd \/ h = HQuot \/ h = HPow \/ (exists f, h = HCall f)
     \/ (exists x s, h = HCse x s) \/ h = HArray) -> op_head h = true.
Proof. intros [->|[->|[->|[->|[[? ->]|[(? & ? & ->)| ->]]]]]]; reflexivity. Qed.

Lemma geometric_no_intg e g cs : geometric e -> ~ occurs e (Node (HIntG g) cs).
Proof.
  intros G Ho. pose proof (geometric_head (geometric_occurs G Ho)). discriminate.
Qed.

Lemma geometric_args e : geometric e -> geometric_arguments e.
Proof.
  intros G. split.
  - intros g cs Ho. exfalso. eapply geometric_no_intg; eauto.
  - intros a d cs Ho. eapply geometric_inv, geometric_occurs; eauto.
Qed.

Lemma geoargs_child h cs c : geometric_arguments (Node h cs) -> In c cs -> geometric_arguments c.
Proof.
  intros [A B] Hc. split; intros.
  - eapply A. eapply occurs_child; eauto.
  - eapply B. eapply occurs_child; eauto.
Qed.

Lemma hidden_child ps h cs c : no_hidden_intg ps (Node h cs) -> In c cs -> no_hidden_intg ps c.
Proof. intros A Hc g cs1 c1 g' cs' Ho. eapply A. eapply occurs_child; eauto. Qed.

(** ** stage_tag *)
Lemma stage_tag_head s h cs : exists h' cs', stage_tag s (Node h cs) = Node h' cs'
  /\ (h' = h \/ (exists a d, h = HNodeCoord a d /\ h' = HNodeCoord a (set_stage d s))
             \/ (exists a d, h = HNumRefDer a d /\ h' = HNumRefDer a (set_stage d s)))
  /\ (cs' = cs \/ cs' = map (stage_tag s) cs).
Proof.
  destruct h; simpl; try (do 2 eexists; split; [reflexivity|]; auto; fail);
    destruct (has_stage dd s); do 2 eexists; (split; [reflexivity|]); eauto 8.
Qed.

Lemma stage_tag_geometric s e : geometric e -> geometric (stage_tag s e).
Proof.
  induction e as [h cs IH] using sexpr_ind'. intros G.
  inversion G as [h0 cs0 H F]; subst.
  destruct (stage_tag_head s h cs) as (h' & cs' & -> & Hh & Hc).
  constructor.
  - destruct Hh as [->|[(a & d & -> & ->)|(a & d & -> & ->)]]; [exact H| |]; eauto 20.
  - destruct Hc as [->| ->]; [exact F|].
    rewrite Forall_forall in *. intros x Hx. apply in_map_iff in Hx.
    destruct Hx as [c [<- Hc]]. auto.
Qed.

Lemma unstage_node h cs : (forall f t, h <> HInterp f t) ->
  unstage (Node h cs) = Node (unstage_head h) (map unstage cs).
Proof. intros H. destruct h; try reflexivity. exfalso. eapply H. reflexivity. Qed.

Lemma unstage_congr h cs cs' : map unstage cs' = map unstage cs ->
  unstage (Node h cs') = unstage (Node h cs).
Proof.
  intros H. assert (D : {f & {t | h = HInterp f t}} + {forall f t, h <> HInterp f t}).
  { destruct h; try (right; congruence). left. eauto. }
  destruct D as [(f & t & ->)|D].
  - destruct cs' as [|c' [|c2' cs']], cs as [|c [|c2 cs]]; try discriminate H; simpl in *;
      try reflexivity; congruence.
  - rewrite !unstage_node by exact D. rewrite H. reflexivity.
Qed.

Lemma unstage_stage_tag s e : unstage (stage_tag s e) = unstage e.
Proof.
  induction e as [h cs IH] using sexpr_ind'.
  assert (M : map unstage (map (stage_tag s) cs) = map unstage cs).
  { rewrite map_map. apply map_ext_in. rewrite Forall_forall in IH. exact IH. }
  destruct h; try (cbn [stage_tag]; apply unstage_congr; exact M).
  - simpl. destruct (has_stage dd s); reflexivity.
  - cbn [stage_tag]. destruct (has_stage dd s); [reflexivity|].
    rewrite !unstage_node by congruence. rewrite M. reflexivity.
Qed.

Lemma interpolate_inv e f t e' : interpolate e f t = Ok e' ->
  (f = t /\ e' = e) \/ (f <> t /\ granularity t <> CENTER /\ e' = Node (HInterp f t) [e]).
Proof.
  unfold interpolate. destruct (dd_eqb f t) eqn:E.
  - apply dd_eqb_eq in E. intros H. left. split; congruence.
  - destruct (gran_eqb (granularity t) CENTER) eqn:Eg; [discriminate|].
    intros H. right. repeat split; [| |congruence].
    + intros X. apply dd_eqb_eq in X. congruence.
    + intros X. apply gran_eqb_eq in X. congruence.
Qed.

Lemma interpolate_unstage e f t e' : interpolate e f t = Ok e' -> unstage e' = unstage e.
Proof. intros H. apply interpolate_inv in H. destruct H as [[_ ->]|(_ & _ & ->)]; reflexivity. Qed.

(** ** Inversion of one step of the preprocessor *)
Definition upd_target (g : intg) : intg :=
  match discr_stage (g_tgt g) with
  | None => with_tgt g (set_stage (g_tgt g) STAGE1)
  | Some _ => g
  end.

Lemma upd_target_src g : g_src (upd_target g) = g_src g.
Proof. unfold upd_target. destruct (discr_stage (g_tgt g)); reflexivity. Qed.
Lemma upd_target_nd g : g_nd (upd_target g) = g_nd g.
Proof. unfold upd_target. destruct (discr_stage (g_tgt g)); reflexivity. Qed.

Definition up_density n ps fs from_dd to_dd (c c' : sexpr) : Prop :=
  exists x, interp_pre n ps fs c = Ok x /\ interpolate x from_dd to_dd = Ok c'.
Definition up_karg1 n ps fs from_dd to_dd (c c' : sexpr) : Prop :=
  exists x, interp_pre n ps fs (stage_tag fs c) = Ok x /\ interpolate x from_dd to_dd = Ok c'.
Definition up_karg n ps fs from_dd to_dd (c c' : sexpr) : Prop :=
  up_karg1 n ps fs from_dd to_dd c c'
  \/ exists cs cs', c = Node HArray cs /\ c' = Node HArray cs'
       /\ Forall2 (up_karg1 n ps fs from_dd to_dd) cs cs'.

Lemma bind_Ok {A B : Type} (x : result A) (f : A -> result B) y :
  bind x f = Ok y -> exists a, x = Ok a /\ f a = Ok y.
Proof. destruct x; simpl; intros H; [eauto|discriminate]. Qed.
Arguments bind_Ok {A B x f y} _.

Lemma Forall2_weaken {A B : Type} (R R' : A -> B -> Prop) l l' :
  (forall a b, R a b -> R' a b) -> Forall2 R l l' -> Forall2 R' l l'.
Proof. intros H F. induction F; constructor; auto. Qed.
Arguments Forall2_weaken {A B R R' l l'} _ _.

Lemma interp_pre_inv n ps fs h cs e' : interp_pre (S n) ps fs (Node h cs) = Ok e' ->
  (* unchanged *)
  (exists a d, h = HNumRefDer a d /\ e' = Node h cs)
  \/ (exists a d x, h = HNumRefDer a d /\ discr_stage d = Some QUAD_STAGE2
       /\ interp_pre n ps fs (stage_tag fs (Node h cs)) = Ok x
       /\ interpolate x (set_stage d fs) d = Ok e')
  \/ (exists g, h = HIntG g /\ ~ unstaged_qbx ps g /\ e' = Node (HIntG (upd_target g)) cs)
  \/ (exists g ds ks, h = HIntG g /\ unstaged_qbx ps g
       /\ Forall2 (up_density n ps fs (set_stage (g_src g) STAGE1) (set_stage (g_src g) QUAD_STAGE2))
                  (firstn (g_nd g) cs) ds
       /\ Forall2 (up_karg n ps fs (set_stage (g_src g) fs) (set_stage (g_src g) QUAD_STAGE2))
                  (skipn (g_nd g) cs) ks
       /\ e' = Node (HIntG (with_src (upd_target g) (set_stage (g_src g) QUAD_STAGE2))) (ds ++ ks))
  \/ (exists cs', (forall a d, h <> HNumRefDer a d) /\ (forall g, h <> HIntG g)
       /\ Forall2 (fun c c' => interp_pre n ps fs c = Ok c') cs cs' /\ e' = Node h cs').
Proof.
  assert (Other : (forall a d, h <> HNumRefDer a d) -> (forall g, h <> HIntG g) ->
    interp_pre (S n) ps fs (Node h cs) = (do cs' <- mapM (interp_pre n ps fs) cs; Ok (Node h cs'))).
  { intros N1 N2. destruct h; try reflexivity; exfalso; [eapply N1|eapply N2]; reflexivity. }
  assert (D : {a & {d | h = HNumRefDer a d}} + {g | h = HIntG g}
              + {(forall a d, h <> HNumRefDer a d) /\ (forall g, h <> HIntG g)}).
  { destruct h; try (right; split; congruence); left; [left|right]; eauto. }
  destruct D as [[(a & d & ->)|(g & ->)]|[N1 N2]].
  - clear Other. simpl. intros E.
    destruct (has_stage d QUAD_STAGE2) eqn:Hs; simpl in E; [|left; exists a, d; split; congruence].
    apply bind_Ok in E. destruct E as [p [Ep E]].
    destruct p; try (left; exists a, d; split; congruence).
    apply bind_Ok in E. destruct E as [x [Ex E]]. right. left. exists a, d, x.
    split; [reflexivity|]. split; [|split].
    + unfold has_stage in Hs. apply (opt_eqb_eq _ stage_eqb_eq) in Hs. exact Hs.
    + exact Ex.
    + exact E.
  - clear Other. cbn [interp_pre]. fold (upd_target g). intros E. right. right.
    rewrite upd_target_src in E.
    destruct (discr_stage (g_src g)) as [s|] eqn:Es.
    + left. exists g. split; [reflexivity|]. split; [|congruence].
      intros [X _]. congruence.
    + apply bind_Ok in E. destruct E as [p [Ep E]].
      assert (Hp : exists nm, geometry (g_src g) = Some nm /\ get_place ps nm = Some p).
      { unfold get_geometry in Ep. destruct (geometry (g_src g)) as [nm|]; [|discriminate].
        destruct (get_place ps nm) as [p'|] eqn:Eg; [|discriminate]. exists nm. split; congruence. }
      destruct p; try (left; exists g; split; [reflexivity|]; split; [|congruence];
        intros [_ [nm [X Y]]]; destruct Hp as [nm' [X' Y']]; congruence).
      apply bind_Ok in E. destruct E as [ds [Ed E]].
      apply bind_Ok in E. destruct E as [ks [Ek E]].
      rewrite upd_target_nd in Ed, Ek.
      right. left. exists g, ds, ks. split; [reflexivity|]. split; [split; [exact Es|exact Hp]|].
      split; [|split; [|unfold set_stage in *; simpl in *; congruence]].
      * apply mapM_Ok_inv in Ed. refine (Forall2_weaken _ Ed). intros c c' Hc.
        apply bind_Ok in Hc. exact Hc.
      * apply mapM_Ok_inv in Ek. refine (Forall2_weaken _ Ek). intros c c' Hc.
        assert (K1 : forall c c', (do c'0 <- interp_pre n ps fs (stage_tag fs c);
             interpolate c'0 (set_stage (set_stage (g_src g) STAGE1) fs)
               (set_stage (set_stage (g_src g) STAGE1) QUAD_STAGE2)) = Ok c' ->
             up_karg1 n ps fs (set_stage (g_src g) fs) (set_stage (g_src g) QUAD_STAGE2) c c').
        { intros c0 c0' H. apply bind_Ok in H. exact H. }
        unfold componentwise in Hc. destruct c as [hc ccs].
        destruct hc; try (left; apply K1; exact Hc).
        right. apply bind_Ok in Hc. destruct Hc as [cs' [Hm Hc]].
        exists ccs, cs'. split; [reflexivity|]. split; [congruence|].
        apply mapM_Ok_inv in Hm. refine (Forall2_weaken _ Hm). exact K1.
  - rewrite Other by assumption. intros E. apply bind_Ok in E. destruct E as [cs' [Em E]].
    right. right. right. right. exists cs'. repeat split; auto; [|congruence].
    apply mapM_Ok_inv. exact Em.
Qed.

Lemma map_unstage_F2 (R : sexpr -> sexpr -> Prop) l l' :
  (forall c c', R c c' -> unstage c' = unstage c) -> Forall2 R l l' -> map unstage l' = map unstage l.
Proof. intros H F. induction F; simpl; [reflexivity|]. f_equal; auto. Qed.

(** Nothing but stages and interpolations changes. *)
Lemma interp_unstage n ps fs e e' : interp_pre n ps fs e = Ok e' -> unstage e' = unstage e.
Proof.
  revert e e'. induction n as [|n IH]; intros [h cs] e' E; [discriminate|].
  apply interp_pre_inv in E.
  destruct E as [(a & d & -> & ->)|[(a & d & x & -> & _ & Ex & Ei)|[(g & -> & _ & ->)|
                [(g & ds & ks & -> & _ & Fd & Fk & ->)|(cs' & _ & _ & F & ->)]]]].
  - reflexivity.
  - apply interpolate_unstage in Ei. apply IH in Ex. rewrite Ei, Ex. apply unstage_stage_tag.
  - rewrite !unstage_node by congruence. f_equal.
    unfold upd_target, unstage_head, unstage_dd. destruct g as [tk sks nd lim src tgt ka].
    cbn. destruct (discr_stage tgt); reflexivity.
  - rewrite !unstage_node by congruence. f_equal.
    + unfold upd_target, unstage_head, unstage_dd. destruct g as [tk sks nd lim src tgt ka].
      cbn. destruct (discr_stage tgt); reflexivity.
    + rewrite map_app.
      assert (A : map unstage ds = map unstage (firstn (g_nd g) cs)).
      { eapply map_unstage_F2; [|exact Fd]. intros c c' (x & Ex & Ei).
        apply interpolate_unstage in Ei. apply IH in Ex. congruence. }
      assert (K1 : forall c c', up_karg1 n ps fs (set_stage (g_src g) fs) (set_stage (g_src g) QUAD_STAGE2) c c' ->
                   unstage c' = unstage c).
      { intros c c' (x & Ex & Ei). apply interpolate_unstage in Ei. apply IH in Ex.
        rewrite Ei, Ex. apply unstage_stage_tag. }
      assert (B : map unstage ks = map unstage (skipn (g_nd g) cs)).
      { eapply map_unstage_F2; [|exact Fk]. intros c c' [H|(l & l' & -> & -> & F)]; [auto|].
        apply unstage_congr. eapply map_unstage_F2; [|exact F]. exact K1. }
      rewrite A, B, <- map_app, firstn_skipn. reflexivity.
  - apply unstage_congr. eapply map_unstage_F2; [|exact F]. exact (IH).
Qed.

(** Layer potentials left without a source stage. *)
Lemma interpolate_occurs_intg e f t e' g cs : interpolate e f t = Ok e' ->
  occurs e' (Node (HIntG g) cs) -> occurs e (Node (HIntG g) cs).
Proof.
  intros H Ho. apply interpolate_inv in H. destruct H as [[_ ->]|(_ & _ & ->)]; [exact Ho|].
  apply occurs_inv in Ho. destruct Ho as [Ho|[c [Hc Ho]]]; [discriminate|].
  destruct Hc as [->|[]]. exact Ho.
Qed.

Lemma interp_geometric n ps fs e e' g cs : geometric e -> interp_pre n ps fs e = Ok e' ->
  ~ occurs e' (Node (HIntG g) cs).
Proof.
  revert e e'. induction n as [|n IH]; intros [h cs0] e' G E; [discriminate|].
  apply interp_pre_inv in E.
  destruct E as [(a & d & -> & ->)|[(a & d & x & -> & _ & Ex & Ei)|[(g0 & -> & _ & ->)|
                [(g0 & ds & ks & -> & _)|(cs' & _ & N & F & ->)]]]].
  - apply geometric_no_intg. exact G.
  - intros Ho. eapply interpolate_occurs_intg in Ho; [|exact Ei].
    eapply IH; [|exact Ex|exact Ho]. apply stage_tag_geometric. exact G.
  - exfalso. eapply geometric_no_intg; [exact G|apply occ_here].
  - exfalso. eapply geometric_no_intg; [exact G|apply occ_here].
  - intros Ho. apply occurs_inv in Ho. destruct Ho as [Ho|[c [Hc Ho]]]; [injection Ho as Hh _; exact (N g (eq_sym Hh))|].
    destruct (Forall2_In_r F Hc) as [c0 [Hc0 E0]].
    apply geometric_inv in G. rewrite Forall_forall in G. eapply IH; eauto.
Qed.

Lemma interp_staged n ps fs e e' : geometric_arguments e -> no_hidden_intg ps e ->
  interp_pre n ps fs e = Ok e' -> all_intg (fun g => ~ unstaged_qbx ps g) e'.
Proof.
  revert e e'. induction n as [|n IH]; intros [h cs0] e' GA NH E; [discriminate|].
  apply interp_pre_inv in E.
  destruct E as [(a & d & -> & ->)|[(a & d & x & -> & _ & Ex & Ei)|[(g0 & -> & NU & ->)|
                [(g0 & ds & ks & -> & U & Fd & Fk & ->)|(cs' & _ & N & F & ->)]]]].
  - intros g cs Ho. exfalso. apply occurs_inv in Ho. destruct Ho as [Ho|[c [Hc Ho]]]; [discriminate|].
    pose proof (proj2 GA a d cs0 (occ_here _)) as G. rewrite Forall_forall in G.
    eapply geometric_no_intg; [exact (G c Hc)|exact Ho].
  - intros g cs Ho. exfalso.
    pose proof (proj2 GA a d cs0 (occ_here _)) as G.
    assert (G' : geometric (Node (HNumRefDer a d) cs0)) by (constructor; [eauto 20|exact G]).
    eapply interpolate_occurs_intg in Ho; [|exact Ei].
    eapply interp_geometric; [|exact Ex|exact Ho]. apply stage_tag_geometric. exact G'.
  - intros g cs Ho. apply occurs_inv in Ho. destruct Ho as [Ho|[c [Hc Ho]]].
    + assert (g = upd_target g0) by congruence. subst g.
      unfold unstaged_qbx. rewrite upd_target_src. exact NU.
    + exfalso. exact (NH g0 cs0 c g cs (occ_here _) NU Hc Ho).
  - intros g cs Ho. apply occurs_inv in Ho. destruct Ho as [Ho|[c [Hc Ho]]].
    + assert (g = with_src (upd_target g0) (set_stage (g_src g0) QUAD_STAGE2)) by congruence. subst g.
      intros [X _]. discriminate X.
    + apply in_app_or in Hc. destruct Hc as [Hc|Hc].
      * destruct (Forall2_In_r Fd Hc) as [c0 [Hc0 (x & Ex & Ei)]].
        assert (Hin : In c0 cs0)
          by (rewrite <- (firstn_skipn (g_nd g0) cs0); apply in_or_app; left; exact Hc0).
        eapply interpolate_occurs_intg in Ho; [|exact Ei].
        eapply IH; [| |exact Ex|exact Ho]; [eapply geoargs_child|eapply hidden_child]; eauto.
      * exfalso. destruct (Forall2_In_r Fk Hc) as [c0 [Hc0 K]].
        pose proof (proj1 GA g0 cs0 (occ_here _)) as G. rewrite Forall_forall in G.
        specialize (G c0 Hc0).
        assert (K1 : forall c c', geometric c -> up_karg1 n ps fs (set_stage (g_src g0) fs)
                       (set_stage (g_src g0) QUAD_STAGE2) c c' -> ~ occurs c' (Node (HIntG g) cs)).
        { intros a b Ga (x & Ex & Ei) Hob. eapply interpolate_occurs_intg in Hob; [|exact Ei].
          eapply interp_geometric; [|exact Ex|exact Hob]. apply stage_tag_geometric. exact Ga. }
        destruct K as [K|(l & l' & -> & -> & F)]; [eapply K1; eauto|].
        apply occurs_inv in Ho. destruct Ho as [Ho|[c1 [Hc1 Ho]]]; [discriminate|].
        destruct (Forall2_In_r F Hc1) as [c2 [Hc2 K2]].
        apply geometric_inv in G. rewrite Forall_forall in G. eapply K1; eauto.
  - intros g cs Ho. apply occurs_inv in Ho. destruct Ho as [Ho|[c [Hc Ho]]]; [injection Ho as Hh _; exfalso; exact (N g (eq_sym Hh))|].
    destruct (Forall2_In_r F Hc) as [c0 [Hc0 E0]].
    eapply IH; [| |exact E0|exact Ho]; [eapply geoargs_child|eapply hidden_child]; eauto.
Qed.

(** ** Where values live *)
Lemma spot_set_stage d p s : spot_of d = Some p -> spot_of (set_stage d s) = Some (fst (fst p), s, snd p).
Proof.
  unfold spot_of, set_stage. simpl. destruct (geometry d); [|discriminate].
  intros H. injection H as <-. reflexivity.
Qed.

Lemma spot_upd_target g : spot_of (g_tgt (upd_target g)) = spot_of (g_tgt g).
Proof.
  unfold upd_target, spot_of. destruct (discr_stage (g_tgt g)) eqn:E; simpl.
  - rewrite E. reflexivity.
  - destruct (geometry (g_tgt g)); reflexivity.
Qed.

Lemma stage_tag_lives env s e : geometric e -> forall p, lives env p e ->
  lives env (fst (fst p), s, snd p) (stage_tag s e).
Proof.
  induction e as [h cs IH] using sexpr_ind'. intros G p L.
  pose proof (geometric_inv G) as Gc. rewrite Forall_forall in IH, Gc.
  assert (M : forall q, Forall (lives env q) cs ->
              Forall (lives env (fst (fst q), s, snd q)) (map (stage_tag s) cs)).
  { intros q F. rewrite Forall_forall in *. intros x Hx. apply in_map_iff in Hx.
    destruct Hx as [c [<- Hc]]. auto. }
  inversion L; subst; cbn [stage_tag];
    try (apply geometric_head in G; discriminate).
  - constructor.
  - constructor.
  - match goal with H : _ \/ _ |- _ => rename H into Hop end.
    pose proof (op_head_spec Hop) as Ho.
    assert (E : stage_tag s (Node h cs) = Node h (map (stage_tag s) cs))
      by (destruct h; try reflexivity; discriminate Ho).
    cbn [stage_tag] in E. rewrite E. apply lv_op; auto.
  - destruct (has_stage d s) eqn:Hs.
    + apply (opt_eqb_eq _ stage_eqb_eq) in Hs. apply lv_node. unfold spot_of in *. rewrite Hs in *.
      destruct (geometry d); [|discriminate]. match goal with H : Some _ = Some _ |- _ => injection H as <- end.
      reflexivity.
    + apply lv_node. apply spot_set_stage. assumption.
  - destruct (has_stage d s) eqn:Hs.
    + apply (opt_eqb_eq _ stage_eqb_eq) in Hs.
      assert (E : (fst (fst p), s, snd p) = p).
      { unfold spot_of in *. rewrite Hs in *.
        destruct (geometry d); [|discriminate]. match goal with H : Some _ = Some _ |- _ => injection H as <- end.
        reflexivity. }
      rewrite E. exact L.
    + apply lv_der; [apply spot_set_stage; assumption|]. auto.
  - eapply lv_nodered. apply M. eassumption.
Qed.

Lemma interpolate_lives env e f t e' p q : interpolate e f t = Ok e' ->
  spot_of f = Some q -> spot_of t = Some p -> lives env q e -> lives env p e'.
Proof.
  intros H Hf Ht L. apply interpolate_inv in H. destruct H as [[-> ->]|(_ & _ & ->)].
  - assert (q = p) by congruence. subst. exact L.
  - eapply lv_interp; eauto.
Qed.

Lemma interp_lives env n ps fs : forall e e' p, geometric_arguments e ->
  interp_pre n ps fs e = Ok e' -> lives env p e -> lives env p e'.
Proof.
  induction n as [|n IH]; intros [h cs] e' p GA E L; [discriminate|].
  apply interp_pre_inv in E.
  destruct E as [(a & d & -> & ->)|[(a & d & x & -> & Hd & Ex & Ei)|[(g & -> & _ & ->)|
                [(g & ds & ks & -> & [U1 U2] & Fd & Fk & ->)|(cs' & N1 & N2 & F & ->)]]]].
  - exact L.
  - inversion L as [| | | | | |  |p1 a1 d1 cs1 Sp Fc | | | | | | | |]; subst; try congruence.
    + exfalso. match goal with H : _ \/ _ |- _ => apply op_head_spec in H; discriminate H end.
    + pose proof (proj2 GA a d cs (occ_here _)) as G.
      assert (G' : geometric (Node (HNumRefDer a d) cs)) by (constructor; [eauto 20|exact G]).
      pose proof (stage_tag_lives fs G' L) as L'.
      eapply interpolate_lives; [exact Ei|apply spot_set_stage; exact Sp|exact Sp|].
      eapply IH; [|exact Ex|exact L']. apply geometric_args, stage_tag_geometric. exact G'.
  - inversion L as [| | | | | | | | | | | | | | |p1 q g1 cs1 St Ss Fc]; subst; try congruence.
    + exfalso. match goal with H : _ \/ _ |- _ => apply op_head_spec in H; discriminate H end.
    + eapply lv_intg; [rewrite spot_upd_target; exact St|rewrite upd_target_src; exact Ss|exact Fc].
  - inversion L as [| | | | | | | | | | | | | | |p1 q g1 cs1 St Ss Fc]; subst; try congruence.
    + exfalso. match goal with H : _ \/ _ |- _ => apply op_head_spec in H; discriminate H end.
    + set (q' := (fst (fst q), QUAD_STAGE2, snd q)).
      assert (Sq : spot_of (set_stage (g_src g) STAGE1) = Some q).
      { unfold spot_of in *. rewrite U1 in Ss. simpl. exact Ss. }
      apply lv_intg with (q := q').
      * cbn. rewrite spot_upd_target. exact St.
      * cbn. apply spot_set_stage. exact Ss.
      * rewrite Forall_forall in Fc. apply Forall_app. split; apply Forall_forall; intros c Hc.
        -- destruct (Forall2_In_r Fd Hc) as [c0 [Hc0 (x & Ex & Ei)]].
           assert (Hin : In c0 cs)
             by (rewrite <- (firstn_skipn (g_nd g) cs); apply in_or_app; left; exact Hc0).
           eapply interpolate_lives; [exact Ei|exact Sq|apply spot_set_stage; exact Ss|].
           eapply IH; [|exact Ex|apply Fc; exact Hin]. eapply geoargs_child; eauto.
        -- destruct (Forall2_In_r Fk Hc) as [c0 [Hc0 K]].
           assert (Hin : In c0 cs)
             by (rewrite <- (firstn_skipn (g_nd g) cs); apply in_or_app; right; exact Hc0).
           pose proof (proj1 GA g cs (occ_here _)) as G. rewrite Forall_forall in G.
           specialize (G c0 Hc0).
           assert (K1 : forall a b, geometric a -> lives env q a ->
              up_karg1 n ps fs (set_stage (g_src g) fs) (set_stage (g_src g) QUAD_STAGE2) a b ->
              lives env q' b).
           { intros a b Ga La (x & Ex & Ei).
             eapply interpolate_lives; [exact Ei|apply spot_set_stage; exact Ss|apply spot_set_stage; exact Ss|].
             eapply IH; [|exact Ex|apply stage_tag_lives; assumption].
             apply geometric_args, stage_tag_geometric. exact Ga. }
           specialize (Fc c0 Hin).
           destruct K as [K|(l & l' & -> & -> & F)]; [eapply K1; eauto|].
           apply lv_op; [auto 10|]. apply Forall_forall. intros c1 Hc1.
           destruct (Forall2_In_r F Hc1) as [c2 [Hc2 K2]].
           apply geometric_inv in G. rewrite Forall_forall in G.
           inversion Fc as [| | |p2 h2 cs2 _ Fl| | | | | | | | | | | |]; subst.
           rewrite Forall_forall in Fl. eapply K1; [apply G|apply Fl|]; eauto.
  - assert (M : forall q, Forall (lives env q) cs -> Forall (lives env q) cs').
    { intros q Fc. rewrite Forall_forall in *. intros c' Hc'.
      destruct (Forall2_In_r F Hc') as [c0 [Hc0 E0]].
      eapply IH; [|exact E0|apply Fc; exact Hc0]. eapply geoargs_child; eauto. }
    inversion L; subst; try (exfalso; first [eapply N1; reflexivity|eapply N2; reflexivity]);
      try (econstructor; eauto; fail).
    inversion F as [|c0 c' l l' E0 F']; subst.
    constructor; [assumption| |].
    + eapply IH; [|exact E0|assumption]. eapply geoargs_child; [exact GA|left; reflexivity].
    + match goal with H : Forall (fun _ => exists _, _) _ |- _ => rename H into Fx end.
      clear - F' Fx IH GA. rewrite Forall_forall in *. intros y Hy.
      destruct (Forall2_In_r F' Hy) as [x [Hx Ex]]. destruct (Fx x Hx) as [q Lq].
      exists q. eapply IH; [|exact Ex|exact Lq]. eapply geoargs_child; [exact GA|right; exact Hx].
Qed.
