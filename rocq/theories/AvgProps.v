(** Property C45: which averages survive binding with any number of sources.
    Vocabulary: AvgSpec.v, SymSpec.v. *)
From Verif Require Import Base DofModel SymModel SymSpec SymProofs SymProofs2 SymProofs4 SymProps AvgSpec.
Set Implicit Arguments.

Lemma averaged_inv dflt h cs s outer : averaged dflt (Node h cs) s outer <->
  (exists g, h = HIntG g /\ g_lim g = LAvg /\ s = source_of dflt g /\ outer = [])
  \/ (exists g c outer', h = HIntG g /\ In c cs /\ averaged dflt c s outer' /\ outer = source_of dflt g :: outer')
  \/ ((forall g, h <> HIntG g) /\ exists c, In c cs /\ averaged dflt c s outer).
Proof.
  split.
  - intros H. inversion H; subst; eauto 9.
  - intros [(g & -> & Hl & -> & ->)|[(g & c & o & -> & Hc & Ha & ->)|(Hn & c & Hc & Ha)]].
    + constructor. exact Hl.
    + econstructor; eauto.
    + econstructor; eauto.
Qed.

(** An average with the source of every potential around it. *)
Definition own (n : geom) (s : option geom) (outer : list (option geom)) : Prop :=
  s = Some n /\ Forall (eq (Some n)) outer.

(** ** QBXPreprocessor *)
Lemma below_iff dflt h cs s o : (forall g, h <> HIntG g) ->
  averaged dflt (Node h cs) s o <-> exists c, In c cs /\ averaged dflt c s o.
Proof.
  intros Hn. rewrite averaged_inv. split; [|auto].
  intros [(g & E & _)|[(g & c & o' & E & _)|[_ H]]]; [destruct (Hn g E)|destruct (Hn g E)|exact H].
Qed.
Lemma children_iff (f : sexpr -> result sexpr) (P : option geom -> list (option geom) -> Prop) cs cs' :
  Forall (fun c => forall c', f c = Ok c' -> forall s o, averaged None c' s o <-> averaged None c s o /\ P s o) cs ->
  Forall2 (fun c c' => f c = Ok c') cs cs' ->
  forall s o, (exists c, In c cs' /\ averaged None c s o) <-> (exists c, In c cs /\ averaged None c s o) /\ P s o.
Proof.
  intros Hf HF. induction HF as [|c c' cs cs' Hc HF IH]; intros s o.
  - split; [intros (c & [] & _)|intros [(c & [] & _) _]].
  - inversion Hf as [|? ? H1 H2]; subst. specialize (IH H2 s o). specialize (H1 c' Hc s o). split.
    + intros (x & [<-|Hx] & Ha).
      * apply H1 in Ha. destruct Ha as [Ha Hp]. split; [exists c; simpl; auto|exact Hp].
      * destruct (proj1 IH (ex_intro _ x (conj Hx Ha))) as [(y & Hy & Hya) Hp].
        split; [exists y; simpl; auto|exact Hp].
    + intros [(x & [<-|Hx] & Ha) Hp].
      * exists c'. split; [left; reflexivity|]. apply H1. auto.
      * destruct (proj2 IH (conj (ex_intro _ x (conj Hx Ha)) Hp)) as (y & Hy & Hya).
        exists y. simpl. auto.
Qed.

Lemma qbx_averaged name : forall e e', qbx_pre name e = Ok e' ->
  forall s o, averaged None e' s o <-> averaged None e s o /\ ~ own name s o.
Proof.
  induction e as [h cs IH] using sexpr_ind'. intros e' E s o.
  assert (Hgen : forall cs' h', mapM (qbx_pre name) cs = Ok cs' -> (forall g, h' <> HIntG g) ->
    (averaged None (Node h' cs') s o <-> (exists c, In c cs /\ averaged None c s o) /\ ~ own name s o)).
  { intros cs' h' Hm Hh. rewrite (@below_iff None _ _ s o Hh). apply (@children_iff (qbx_pre name) (fun s o => ~ own name s o) cs cs' IH).
    apply mapM_Ok_inv. exact Hm. }
  assert (Hother : (forall g, h <> HIntG g) -> (do cs' <- mapM (qbx_pre name) cs; Ok (Node h cs')) = Ok e' ->
    (averaged None e' s o <-> averaged None (Node h cs) s o /\ ~ own name s o)).
  { intros Hh Hm. destruct (mapM (qbx_pre name) cs) as [cs'|] eqn:Em; simpl in Hm; [|discriminate Hm].
    injection Hm as <-. rewrite (Hgen cs' h eq_refl Hh), (@below_iff None _ _ s o Hh). reflexivity. }
  destruct h; try (apply Hother; [intros; discriminate|exact E]). clear Hother.
  cbn [qbx_pre] in E.
  destruct (opt_eqb geom_eqb (geometry (g_src g)) (Some name)) eqn:Es; cbn [negb] in E.
  2:{ injection E as <-. split; [|tauto]. intros H. split; [exact H|]. intros [Hs Ho].
      assert (Hne : source_of None g <> Some name).
      { intros F. assert (geometry (g_src g) = Some name) as F'.
        { unfold source_of in F. destruct (geometry (g_src g)); congruence. }
        apply opt_geom_eq in F'. congruence. }
      apply averaged_inv in H. destruct H as [(g' & Eg & _ & F & _)|[(g' & c & o' & Eg & _ & _ & F)|[Hn _]]].
      - injection Eg as <-. congruence.
      - injection Eg as <-. subst o. inversion Ho; congruence.
      - exact (Hn g eq_refl). }
  apply opt_geom_eq in Es.
  assert (Hso : forall l, source_of None (with_lim g l) = Some name).
  { intros l. unfold source_of. simpl. rewrite Es. reflexivity. }
  assert (Hsg : source_of None g = Some name) by (unfold source_of; rewrite Es; reflexivity).
  (* what the two kinds of results contain *)
  destruct (mapM (qbx_pre name) cs) as [cs'|] eqn:Em; simpl in E;
    [|destruct (g_lim g) as [| |[| |]]; discriminate E].
  assert (Hch : forall o', (exists c, In c cs' /\ averaged None c s o') <-> (exists c, In c cs /\ averaged None c s o') /\ ~ own name s o').
  { intros o'. apply (@children_iff (qbx_pre name) (fun s o => ~ own name s o) cs cs' IH). apply mapM_Ok_inv. exact Em. }
  (* one copy of the potential with limit l, not "avg" *)
  assert (Hcopy : forall g', source_of None g' = Some name -> g_lim g' <> LAvg ->
    (averaged None (Node (HIntG g') cs') s o <-> averaged None (Node (HIntG g) cs) s o /\ ~ own name s o)).
  { intros g' Hg' Hl. rewrite !averaged_inv. split.
    - intros [(x & Ex & F & _)|[(x & c & o' & Ex & Hc & Ha & ->)|[Hn _]]].
      + injection Ex as <-. contradiction.
      + injection Ex as <-. destruct (proj1 (Hch o') (ex_intro _ c (conj Hc Ha))) as [(d & Hd & Hda) Hno]. split.
        * right; left. exists g, d, o'. rewrite Hg', Hsg. auto.
        * intros [F1 F2]. apply Hno. split; [exact F1|]. inversion F2; assumption.
      + destruct (Hn _ eq_refl).
    - intros [[(x & Ex & _ & F & ->)|[(x & c & o' & Ex & Hc & Ha & ->)|[Hn _]]] Hno].
      + injection Ex as <-. destruct Hno. split; [congruence|constructor].
      + injection Ex as <-. assert (~ own name s o') as Hno'.
        { intros [F1 F2]. apply Hno. split; [exact F1|]. constructor; [congruence|exact F2]. }
        destruct (proj2 (Hch o') (conj (ex_intro _ c (conj Hc Ha)) Hno')) as (d & Hd & Hda).
        right; left. exists g', d, o'. rewrite Hg', Hsg. auto.
      + destruct (Hn _ eq_refl). }
  assert (Hhalf : e' = Node HProd [num qhalf; Node HSum [Node (HIntG (with_lim g (LInt 1))) cs'; Node (HIntG (with_lim g (LInt (-1)))) cs']] ->
    (averaged None e' s o <-> averaged None (Node (HIntG g) cs) s o /\ ~ own name s o)).
  { intros ->. rewrite below_iff by (intros; discriminate). split.
    - intros (c & [<-|[<-|[]]] & Ha).
      + apply averaged_inv in Ha. destruct Ha as [(? & F & _)|[(? & ? & ? & F & _)|[_ (? & [] & _)]]]; discriminate F.
      + rewrite below_iff in Ha by (intros; discriminate). destruct Ha as (c & [<-|[<-|[]]] & Ha);
          (apply Hcopy in Ha; [exact Ha|apply Hso|simpl; discriminate]).
    - intros H. eexists. split; [right; left; reflexivity|]. rewrite below_iff by (intros; discriminate).
      eexists. split; [left; reflexivity|]. apply Hcopy; [apply Hso|simpl; discriminate|exact H]. }
  destruct (is_self g) eqn:Ei; cbn [negb] in E.
  - destruct (g_lim g) as [| |z] eqn:El; try discriminate E.
    + apply Hhalf. injection E as <-. reflexivity.
    + assert (e' = Node (HIntG g) cs').
      { destruct z as [|p|p]; [discriminate E| |];
          match type of E with (if ?b then _ else _) = _ => destruct b; [discriminate E|injection E as <-; reflexivity] end. }
      subst e'. apply Hcopy; [exact Hsg|rewrite El; discriminate].
  - destruct (is_avg (g_lim g) || one_sided (g_lim g)) eqn:Ea.
    { destruct (g_lim g) as [| |[| |]]; discriminate E. }
    assert (e' = Node (HIntG g) cs').
    { destruct (g_lim g) as [| |[| |]]; try discriminate E; injection E as <-; reflexivity. }
    subst e'. apply Hcopy; [exact Hsg|]. intros F. rewrite F in Ea. discriminate Ea.
Qed.

(** ** The other steps *)
Lemma unreg_averaged name : forall e e' s o, unreg_pre name e = Ok e' -> ~ averaged None e' s o.
Proof.
  intros e e' s o E H.
  destruct (proj1 (unregularized_removes_limits name e) e' E) as (_ & Hn & _).
  clear E e. induction H as [g cs Hl|g cs c s o Hc Ha IH|h cs c s o Hh Hc Ha IH].
  - rewrite (Hn g cs) in Hl; [discriminate Hl|apply occ_here].
  - apply IH. intros g' cs' Ho. apply (Hn g' cs'). exact (@occ_child _ _ _ _ Hc Ho).
  - apply IH. intros g' cs' Ho. apply (Hn g' cs'). exact (@occ_child _ _ _ _ Hc Ho).
Qed.

Lemma map_ex (A : Type) (f : A -> A) (P : A -> Prop) l :
  (forall x, In x l -> (P (f x) <-> P x)) -> ((exists c, In c (map f l) /\ P c) <-> (exists c, In c l /\ P c)).
Proof.
  intros H. split.
  - intros (c & Hc & Hp). apply in_map_iff in Hc. destruct Hc as (x & <- & Hx). exists x. split; [exact Hx|]. apply H; assumption.
  - intros (c & Hc & Hp). exists (f c). split; [apply in_map; exact Hc|]. apply H; assumption.
Qed.

Lemma intg_congr (f : sexpr -> sexpr) g g' d d' cs s o :
  g_lim g' = g_lim g -> source_of d' g' = source_of d g ->
  (forall c o, In c cs -> (averaged d' (f c) s o <-> averaged d c s o)) ->
  (averaged d' (Node (HIntG g') (map f cs)) s o <-> averaged d (Node (HIntG g) cs) s o).
Proof.
  intros Hl Hs Hc. rewrite !averaged_inv. split.
  - intros [(x & E & F & -> & ->)|[(x & c & o' & E & Hin & Ha & ->)|[Hn _]]].
    + injection E as <-. left. exists g. rewrite <- Hl, <- Hs. auto.
    + injection E as <-. apply in_map_iff in Hin. destruct Hin as (y & <- & Hy). apply Hc in Ha; [|exact Hy].
      right; left. exists g, y, o'. rewrite Hs. auto.
    + destruct (Hn _ eq_refl).
  - intros [(x & E & F & -> & ->)|[(x & c & o' & E & Hin & Ha & ->)|[Hn _]]].
    + injection E as <-. left. exists g'. rewrite Hl, Hs. auto.
    + injection E as <-. right; left. exists g', (f c), o'. rewrite Hs.
      split; [reflexivity|]. split; [apply in_map; exact Hin|]. split; [apply Hc; assumption|reflexivity].
    + destruct (Hn _ eq_refl).
Qed.

Lemma unstage_averaged : forall e s o, averaged None (unstage e) s o <-> averaged None e s o.
Proof.
  induction e as [h cs IH] using sexpr_ind'. rewrite Forall_forall in IH. intros s o.
  assert (Hg : forall h', (forall g, h <> HIntG g) -> (forall g, h' <> HIntG g) ->
    (averaged None (Node h' (map unstage cs)) s o <-> averaged None (Node h cs) s o)).
  { intros h' H1 H2. rewrite (@below_iff None _ _ s o H1), (@below_iff None _ _ s o H2).
    apply (map_ex unstage (fun c => averaged None c s o)). intros x Hx. apply IH. exact Hx. }
  destruct h; try (rewrite unstage_node by (intros; discriminate); apply Hg; intros; discriminate).
  - destruct cs as [|c [|c2 cs]].
    + cbn [unstage]. apply (Hg (unstage_head (HInterp from_dd to_dd))); intros; discriminate.
    + cbn [unstage]. rewrite below_iff by (intros; discriminate). rewrite (IH c (or_introl eq_refl)).
      split; [intros H; exists c; simpl; auto|intros (x & [<-|[]] & H); exact H].
    + cbn [unstage]. apply (Hg (unstage_head (HInterp from_dd to_dd))); intros; discriminate.
  - rewrite unstage_node by (intros; discriminate). cbn [unstage_head].
    apply intg_congr; [reflexivity|reflexivity|]. intros c o' Hc. apply IH. exact Hc.
Qed.

Lemma interp_averaged n ps fs e e' s o : interp_pre n ps fs e = Ok e' ->
  (averaged None e' s o <-> averaged None e s o).
Proof.
  intros H. apply interp_unstage in H. rewrite <- (unstage_averaged e'), H. apply unstage_averaged.
Qed.

Lemma fill_source g d : source_of None (IntG (g_tk g) (g_sks g) (g_nd g) (g_lim g) (fill (g_src g) d) (g_tgt g) (g_kargs g)) = source_of (geometry d) g.
Proof.
  unfold source_of, fill. simpl. destruct (geometry (g_src g)) as [x|] eqn:E; [rewrite E; reflexivity|].
  unfold copy_geometry. simpl. destruct (geometry d); [reflexivity|]. rewrite E. reflexivity.
Qed.
Lemma fill_source' g d t : source_of None (IntG (g_tk g) (g_sks g) (g_nd g) (g_lim g) (fill (g_src g) d) t (g_kargs g)) = source_of (geometry d) g.
Proof. exact (fill_source g d). Qed.

Lemma tag_not_intg ds dt h : (forall g, h <> HIntG g) -> (forall g, tag_head ds dt h <> HIntG g).
Proof. intros H g. destruct h; simpl; try discriminate. destruct (H g0 eq_refl). Qed.

Lemma loc_averaged ds dt : forall e s o, averaged None (loc_tag ds dt e) s o <-> averaged (geometry ds) e s o.
Proof.
  induction e as [h cs IH] using sexpr_ind'. rewrite Forall_forall in IH. intros s o. cbn [loc_tag].
  assert (D : (exists g, h = HIntG g) \/ (forall g, h <> HIntG g)) by (destruct h; eauto; right; discriminate).
  destruct D as [[g ->]|D].
  - cbn [tag_head]. apply intg_congr; [reflexivity|apply fill_source'|]. intros c o' Hc. apply IH. exact Hc.
  - rewrite below_iff by (apply tag_not_intg; exact D). rewrite (@below_iff (geometry ds) _ _ s o D).
    split; intros (c & Hc & Ha).
    + apply in_map_iff in Hc. destruct Hc as (x & <- & Hx). exists x. split; [exact Hx|]. apply IH; assumption.
    + exists (loc_tag ds dt c). split; [apply in_map; exact Hc|]. apply IH; assumption.
Qed.

Lemma tag_averaged ds dt : forall e s o, averaged None (to_target_tag ds dt e) s o <-> averaged (geometry ds) e s o.
Proof.
  induction e as [h cs IH] using sexpr_ind'. rewrite Forall_forall in IH. intros s o.
  assert (D : (exists g, h = HIntG g) \/ (forall g, h <> HIntG g)) by (destruct h; eauto; right; discriminate).
  destruct D as [[g ->]|D].
  - cbn [to_target_tag tag_head]. apply intg_congr; [reflexivity|apply fill_source'|]. intros c o' Hc. apply loc_averaged.
  - assert (Et : to_target_tag ds dt (Node h cs) = Node (tag_head ds dt h) (map (to_target_tag ds dt) cs)).
    { destruct h; try reflexivity. destruct (D g eq_refl). }
    rewrite Et. rewrite below_iff by (apply tag_not_intg; exact D). rewrite (@below_iff (geometry ds) _ _ s o D).
    split; intros (c & Hc & Ha).
    + apply in_map_iff in Hc. destruct Hc as (x & <- & Hx). exists x. split; [exact Hx|]. apply IH; assumption.
    + exists (to_target_tag ds dt c). split; [apply in_map; exact Hc|]. apply IH; assumption.
Qed.

Lemma averaged_occurs d e : (exists s o, averaged d e s o) <->
  exists g cs, occurs e (Node (HIntG g) cs) /\ g_lim g = LAvg.
Proof.
  split.
  - intros (s & o & H). induction H as [g cs Hl|g cs c s o Hc Ha IH|h cs c s o Hh Hc Ha IH].
    + exists g, cs. split; [apply occ_here|exact Hl].
    + destruct IH as (g' & cs' & Ho & El). exists g', cs'. split; [exact (@occ_child _ _ _ _ Hc Ho)|exact El].
    + destruct IH as (g' & cs' & Ho & El). exists g', cs'. split; [exact (@occ_child _ _ _ _ Hc Ho)|exact El].
  - intros (g & cs & Ho & El). remember (Node (HIntG g) cs) as x eqn:Ex. induction Ho as [e|h cs' c e Hc Ho IH].
    + subst e. exists (source_of d g), []. apply avg_here. exact El.
    + destruct (IH Ex) as (s & o & Ha).
      assert (D : (exists g, h = HIntG g) \/ (forall g, h <> HIntG g)) by (destruct h; eauto; right; discriminate).
      destruct D as [[g' ->]|D].
      * exists s, (source_of d g' :: o). exact (@avg_inside d g' _ c s o Hc Ha).
      * exists s, o. exact (@avg_below d h _ c s o D Hc Ha).
Qed.

Lemma preprocess_averaged : forall ps e e', preprocess_all ps e = Ok e' ->
  forall s o, averaged None e' s o <->
    averaged None e s o /\ (forall n, ~ In (n, PUnreg) ps) /\ ~ (exists n, In (n, PQbx) ps /\ own n s o).
Proof.
  induction ps as [|[n p] ps IH]; intros e e' E s o.
  - simpl in E. injection E as <-. split; [|tauto]. intros H. split; [exact H|]. split; [intros n []|intros (n & [] & _)].
  - cbn [preprocess_all] in E. destruct (preprocess_place (n, p) e) as [e1|] eqn:E1; simpl in E; [|discriminate E].
    rewrite (IH e1 e' E s o).
    unfold preprocess_place in E1. simpl in E1. destruct p.
    + rewrite (qbx_averaged _ _ E1 s o). split.
      * intros ((H1 & H2) & H3 & H4). split; [exact H1|]. split.
        -- intros m [F|F]; [discriminate F|exact (H3 m F)].
        -- intros (m & [F|F] & Ho); [injection F as <-; exact (H2 Ho)|apply H4; eauto].
      * intros (H1 & H3 & H4). split; [split; [exact H1|]|split].
        -- intros Ho. apply H4. exists n. split; [left; reflexivity|exact Ho].
        -- intros m F. apply (H3 m). right. exact F.
        -- intros (m & F & Ho). apply H4. exists m. split; [right; exact F|exact Ho].
    + split.
      * intros (H & _). destruct (unreg_averaged _ _ E1 H).
      * intros (_ & H & _). destruct (H n). left. reflexivity.
    + injection E1 as <-. split.
      * intros (H1 & H3 & H4). split; [exact H1|]. split.
        -- intros m [F|F]; [discriminate F|exact (H3 m F)].
        -- intros (m & [F|F] & Ho); [discriminate F|apply H4; eauto].
      * intros (H1 & H3 & H4). split; [exact H1|]. split.
        -- intros m F. apply (H3 m). right. exact F.
        -- intros (m & F & Ho). apply H4. exists m. split; [right; exact F|exact Ho].
    + injection E1 as <-. split.
      * intros (H1 & H3 & H4). split; [exact H1|]. split.
        -- intros m [F|F]; [discriminate F|exact (H3 m F)].
        -- intros (m & [F|F] & Ho); [discriminate F|apply H4; eauto].
      * intros (H1 & H3 & H4). split; [exact H1|]. split.
        -- intros m F. apply (H3 m). right. exact F.
        -- intros (m & F & Ho). apply H4. exists m. split; [right; exact F|exact Ho].
Qed.

(** ** C45 *)
(** After binding with any places and defaults, the result still contains an
    averaged limit exactly if no place is an unregularized source and the
    expression contained an average that is not the collection's QBX sources' own:
    its source is not a QBX source of the collection, or it is inside of an
    argument of a layer potential with another source. *)
Theorem averages_left_iff : forall ps ds dt e e', prepare_expr ps ds dt e = Ok e' ->
  ((exists g cs, occurs e' (Node (HIntG g) cs) /\ g_lim g = LAvg) <->
   (forall n, ~ In (n, PUnreg) ps) /\
   exists s outer, averaged (geometry ds) e s outer /\
     ~ (exists n, In (n, PQbx) ps /\ s = Some n /\ Forall (eq (Some n)) outer)).
Proof.
  intros ps ds dt e e' E. unfold prepare_expr in E.
  destruct (preprocess_all ps (to_target_tag ds dt e)) as [e1|] eqn:E1; simpl in E; [|discriminate E].
  rewrite <- (averaged_occurs None e').
  assert (H : forall s o, averaged None e' s o <-> averaged (geometry ds) e s o /\ (forall n, ~ In (n, PUnreg) ps)
      /\ ~ (exists n, In (n, PQbx) ps /\ own n s o)).
  { intros s o. unfold interp in E. rewrite (interp_averaged _ _ _ _ s o E), (preprocess_averaged _ _ E1 s o), tag_averaged. reflexivity. }
  split.
  - intros (s & o & Ha). apply H in Ha. destruct Ha as (H1 & H2 & H3). split; [exact H2|].
    exists s, o. split; [exact H1|exact H3].
  - intros (H2 & s & o & H1 & H3). exists s, o. apply H. auto.
Qed.
Print Assumptions averages_left_iff.

(** So no average is left, with any number of sources, if each averaged potential
    has as its source a QBX source of the collection and so have, the same one, all
    potentials around it. *)
Theorem no_average_left : forall ps ds dt e e',
  (forall s outer, averaged (geometry ds) e s outer ->
     exists n, In (n, PQbx) ps /\ s = Some n /\ Forall (eq (Some n)) outer) ->
  prepare_expr ps ds dt e = Ok e' ->
  all_intg (fun g => g_lim g <> LAvg) e'.
Proof.
  intros ps ds dt e e' Hown E g cs Ho El.
  destruct (proj1 (averages_left_iff _ _ _ _ E)) as (_ & s & o & Ha & Hno); [eauto|].
  exact (Hno (Hown s o Ha)).
Qed.
Print Assumptions no_average_left.

(** ** Non-vacuity: two sources, each with its own averages. *)
Example ex_two_sources :
  let e := Node HSum [slp dA dA LAvg (slp dA dA LAvg sigma); slp dB dB LAvg sigma] in
  is_ok (prepare_expr [(GName "a", PQbx); (GName "b", PQbx)] dA dA e) = true
  /\ (forall s outer, averaged (geometry dA) e s outer ->
       exists n, In (n, PQbx) [(GName "a", PQbx); (GName "b", PQbx)] /\ s = Some n /\ Forall (eq (Some n)) outer)
  /\ (exists s outer, averaged (geometry dA) e s outer /\ outer = [Some (GName "a")]).
Proof.
  split; [vm_compute; reflexivity|]. split.
  - intros s outer H. apply averaged_inv in H.
    destruct H as [(g & E & _)|[(g & c & o & E & _)|[_ (c & Hc & H)]]]; try discriminate E.
    destruct Hc as [<-|[<-|[]]].
    + exists (GName "a"). split; [left; reflexivity|].
      apply averaged_inv in H. destruct H as [(g & E & _ & -> & ->)|[(g & c & o & E & Hc & H & ->)|[Hn _]]].
      * injection E as <-. split; [reflexivity|constructor].
      * injection E as <-. destruct Hc as [<-|[]].
        apply averaged_inv in H. destruct H as [(g & E & _ & -> & ->)|[(g & c & o' & E & Hc & H & ->)|[Hn _]]].
        -- injection E as <-. split; [reflexivity|]. repeat constructor.
        -- injection E as <-. destruct Hc as [<-|[]]. apply averaged_inv in H.
           destruct H as [(g & E & _)|[(g & c & o & E & _)|[_ (c & [] & _)]]]; discriminate E.
        -- destruct (Hn _ eq_refl).
      * destruct (Hn _ eq_refl).
    + exists (GName "b"). split; [right; left; reflexivity|].
      apply averaged_inv in H. destruct H as [(g & E & _ & -> & ->)|[(g & c & o & E & Hc & H & ->)|[Hn _]]].
      * injection E as <-. split; [reflexivity|constructor].
      * injection E as <-. destruct Hc as [<-|[]]. apply averaged_inv in H.
        destruct H as [(g & E & _)|[(g & c & o' & E & _)|[_ (c & [] & _)]]]; discriminate E.
      * destruct (Hn _ eq_refl).
  - exists (Some (GName "a")), [Some (GName "a")]. split; [|reflexivity].
    eapply avg_below; [intros; discriminate|left; reflexivity|].
    change [Some (GName "a")] with (source_of (geometry dA) (IntG (KBase 0) [KBase 0] 1 LAvg dA dA []) :: []).
    unfold slp. eapply avg_inside; [left; reflexivity|]. apply avg_here. reflexivity.
Qed.
