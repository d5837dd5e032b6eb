(** C17-C21: the theorems about tagging, preprocessing and differentiation. *)
From Verif Require Import Base DofModel DofProps SymModel SymSpec SymProofs SymProofs2 SymProofs3 SymProofs4.
From Coq Require Import QArith_base Ring.
Set Implicit Arguments.

(** ** C17 *)
(** Every occurrence keeps its node type and operands, and each of its locations is
    resolved as specified (SymSpec.resolved). *)
Theorem binding_resolves_locations : forall ds dt e p h cs,
  geometry ds <> None -> geometry dt <> None ->
  at_path e p = Some (Node h cs) ->
  exists h' cs', at_path (to_target_tag ds dt e) p = Some (Node h' cs')
    /\ length cs' = length cs /\ blank h' = blank h
    /\ Forall2 (fun (rd d' : role * dofdesc) =>
                  resolved ds dt (inside_intg e p) (fst rd) (snd rd) (snd d'))
         (locations h) (locations h').
Proof. intros. eapply tag_locations; eauto. Qed.

(** No location stays unspecified. *)
Theorem binding_leaves_nothing_unspecified : forall ds dt e p h cs r d,
  geometry ds <> None -> geometry dt <> None ->
  at_path (to_target_tag ds dt e) p = Some (Node h cs) ->
  In (r, d) (locations h) -> geometry d <> None.
Proof. intros ds dt e p h cs r d Hs Ht H Hin. exact (@tag_complete ds dt e Hs Ht p h cs r d H Hin). Qed.

Theorem binding_idempotent : forall ds dt e, explicit ds -> explicit dt ->
  to_target_tag ds dt (to_target_tag ds dt e) = to_target_tag ds dt e.
Proof. intros. apply to_target_idem; assumption. Qed.

(** Examples and refutations. *)
Definition dsrc : dofdesc := DD (Some (GName "s")) None NODE.
Definition dtgt : dofdesc := DD (Some (GName "t")) None NODE.
Definition sigma : sexpr := Node (HVar "sigma") [].
Definition dd0 : dofdesc := DD None None NODE.
Definition slp (src tgt : dofdesc) (l : limit) (dens : sexpr) : sexpr :=
  Node (HIntG (IntG (KBase 0) [KBase 0] 1 l src tgt [])) [dens].

Example ex_tagging :
  explicit dsrc /\ explicit dtgt /\
  to_target_tag dsrc dtgt
    (Node HSum [Node (HNodeCoord 0 dd0) []; slp dd0 dd0 LNone (Node HProd [sigma; Node (HNodeCoord 0 dd0) []])])
  = Node HSum [Node (HNodeCoord 0 dtgt) []; slp dsrc dtgt LNone (Node HProd [sigma; Node (HNodeCoord 0 dsrc) []])].
Proof.
  repeat split; eexists; (split; [reflexivity|split; discriminate]).
Qed.

(** "Explicitly given stages are kept" fails when the geometry is not given: the stage
    of the default replaces it. *)
Theorem binding_keeps_stages_refuted :
  exists d d', discr_stage d = Some STAGE2 /\ discr_stage d' = None /\
    to_target_tag dsrc dtgt (Node (HNodeCoord 0 d) []) = Node (HNodeCoord 0 d') [].
Proof. exists (DD None (Some STAGE2) NODE), dsrc. repeat split. Qed.

(** "DEFAULT_SOURCE and DEFAULT_TARGET are replaced" fails for the source and target of
    layer potentials, and inside a layer potential DEFAULT_TARGET becomes the source. *)
Theorem binding_replaces_markers_refuted :
  (let mk := DD (Some DEFAULT_SOURCE) None NODE in let mt := DD (Some DEFAULT_TARGET) None NODE in
   to_target_tag dsrc dtgt (slp mk mt LNone sigma) = slp mk mt LNone sigma)
  /\ (let x d := Node (HNodeCoord 0 d) [] in
      to_target_tag dsrc dtgt (slp dd0 dd0 LNone (x (DD (Some DEFAULT_TARGET) None NODE)))
      = slp dsrc dtgt LNone (x dsrc)).
Proof. split; reflexivity. Qed.

(** ** C18 *)
(** Averaging preserves the value of the expression in every interpretation in which
    "avg" is the average of the one-sided values; in particular nothing else changes. *)
Theorem qbx_average_is_average : forall V (I : head -> list V -> V) name e e',
  avg_is_average I -> qbx_pre name e = Ok e' -> value I e' = value I e.
Proof. intros. eapply qbx_pre_value; eauto. Qed.

(** Accepted iff every exposed layer potential has a legal limit; otherwise ValueError. *)
Theorem qbx_limits_validated : forall name e,
  all_intg (fun g => valid_limit (g_lim g)) e ->
  ((exists e', qbx_pre name e = Ok e') <-> (forall g, exposed name e g -> legal_limit g))
  /\ (forall x, qbx_pre name e = Err x -> x = ValueError).
Proof. intros. split; [apply qbx_pre_ok_iff; assumption|apply qbx_pre_err]. Qed.

(** Afterwards every exposed layer potential is one-sided on its own surface, and has no
    one-sided or averaged limit elsewhere. *)
Theorem qbx_limits_after : forall name e e' g,
  all_intg (fun g => valid_limit (g_lim g)) e ->
  qbx_pre name e = Ok e' -> exposed name e' g -> legal_after g.
Proof. intros. eapply qbx_pre_after; eauto. Qed.

Theorem qbx_other_sources_unchanged : forall name e,
  (forall g, ~ exposed name e g) -> qbx_pre name e = Ok e.
Proof. exact qbx_pre_same. Qed.

(** With a single source, binding leaves no "avg". *)
Theorem single_source_no_average_left : forall name ds dt e e',
  geometry ds = Some name ->
  all_intg (fun g => valid_limit (g_lim g)) e ->
  all_intg (fun g => geometry (g_src g) = None \/ geometry (g_src g) = Some name) e ->
  prepare_expr [(name, PQbx)] ds dt e = Ok e' ->
  all_intg (fun g => g_lim g = LNone \/ g_lim g = LInt 1 \/ g_lim g = LInt (-1)
                     \/ g_lim g = LInt 2 \/ g_lim g = LInt (-2)) e'.
Proof. intros. eapply prepare_single_no_avg; eauto. Qed.

Definition dA : dofdesc := DD (Some (GName "a")) None NODE.
Definition dB : dofdesc := DD (Some (GName "b")) None NODE.

Example ex_qbx_avg :
  qbx_pre (GName "a") (slp dA dA LAvg sigma)
  = Ok (Node HProd [num qhalf; Node HSum [slp dA dA (LInt 1) sigma; slp dA dA (LInt (-1)) sigma]])
  /\ qbx_pre (GName "a") (slp dA dB LAvg sigma) = Err ValueError
  /\ qbx_pre (GName "a") (slp dA dA (LInt 2) sigma) = Err ValueError
  /\ qbx_pre (GName "b") (slp dA dA LAvg sigma) = Ok (slp dA dA LAvg sigma).
Proof. repeat split. Qed.
Example ex_avg_interpretation : avg_is_average (fun (_ : head) (_ : list unit) => tt).
Proof. intros g vs _. reflexivity. Qed.

(** Two QBX surfaces, a to a of b to a of the averaged b to b: binding succeeds and the
    innermost "avg" is still there. *)
Theorem multi_source_no_average_left_refuted :
  exists e e', prepare_expr [(GName "a", PQbx); (GName "b", PQbx)] dA dA e = Ok e'
    /\ all_intg (fun g => valid_limit (g_lim g)) e
    /\ ~ all_intg (fun g => g_lim g <> LAvg) e'.
Proof.
  exists (slp dA dA (LInt 1) (slp dB dA LNone (slp dB dB LAvg sigma))).
  eexists. split; [vm_compute; reflexivity|]. split.
  - intros g cs Ho. unfold valid_limit.
    repeat (apply occurs_inv in Ho; destruct Ho as [Ho|(c & [<-|[]] & Ho)];
            [injection Ho as -> _; simpl; auto|]).
    apply occurs_inv in Ho. destruct Ho as [Ho|(c & [] & Ho)]. discriminate.
  - intros H.
    match type of H with all_intg _ ?e => assert (X : In LAvg (lims e)) by (vm_compute; auto) end.
    apply lims_occurs in X. destruct X as (g & cs & Ho & E). exact (H g cs Ho E).
Qed.

(** ** C19 *)
(** What the unregularized preprocessor does: it rejects exactly the expressions with a
    one-sided limit anywhere, and otherwise removes all limits and changes nothing else. *)
Theorem unregularized_removes_limits : forall name e,
  (forall e', unreg_pre name e = Ok e' ->
     all_intg (fun g => g_lim g <> LInt 1 /\ g_lim g <> LInt (-1)) e
     /\ all_intg (fun g => g_lim g = LNone) e' /\ forget_limits e' = forget_limits e)
  /\ (forall x, unreg_pre name e = Err x -> x = ValueError
     /\ ~ all_intg (fun g => g_lim g <> LInt 1 /\ g_lim g <> LInt (-1)) e).
Proof. exact unreg_ok. Qed.

(** "Only its own source" fails: layer potentials of another (QBX) source are rejected,
    or lose their limit, because an unregularized source is in the collection. *)
Theorem unregularized_only_own_source_refuted :
  unreg_pre (GName "u") (slp dA dA (LInt 1) sigma) = Err ValueError
  /\ unreg_pre (GName "u") (slp dA dB (LInt 2) sigma) = Ok (slp dA dB LNone sigma)
  /\ prepare_expr [(GName "a", PQbx); (GName "u", PUnreg)] dA dA (slp dA dA LAvg sigma) = Err ValueError
  /\ is_ok (prepare_expr [(GName "a", PQbx)] dA dA (slp dA dA LAvg sigma)) = true.
Proof. repeat split. Qed.

(** ** C20 *)
(** Upsampling changes only stages and interpolations. *)
Theorem upsampling_changes_only_stages : forall ps e e',
  interp ps STAGE2 e = Ok e' -> unstage e' = unstage e.
Proof. intros ps e e'. apply interp_unstage. Qed.

(** Every operation still gets its operands where it expects them, and the expression's
    values stay where they were, provided kernel arguments and differentiated
    quantities are geometric. *)
Theorem upsampling_preserves_locations : forall env ps p e e',
  geometric_arguments e -> interp ps STAGE2 e = Ok e' -> lives env p e -> lives env p e'.
Proof. intros env ps p e e' G E. eapply interp_lives; eauto. Qed.

(** No QBX layer potential is left without a source stage, provided layer potentials do
    not hide inside layer potentials that are not upsampled. *)
Theorem upsampling_complete : forall ps e e',
  geometric_arguments e -> no_hidden_intg ps e ->
  interp ps STAGE2 e = Ok e' -> all_intg (fun g => ~ unstaged_qbx ps g) e'.
Proof. intros ps e e'. apply interp_staged. Qed.

(** The layer potential itself. *)
Theorem upsampling_of_layer_potential : forall ps g cs e', unstaged_qbx ps g ->
  interp ps STAGE2 (Node (HIntG g) cs) = Ok e' ->
  exists ds ks g',
    e' = Node (HIntG g') (ds ++ ks)
    /\ g_tk g' = g_tk g /\ g_sks g' = g_sks g /\ g_nd g' = g_nd g /\ g_lim g' = g_lim g
    /\ g_kargs g' = g_kargs g
    /\ g_src g' = DD (geometry (g_src g)) (Some QUAD_STAGE2) (granularity (g_src g))
    /\ g_tgt g' = match discr_stage (g_tgt g) with
                  | None => DD (geometry (g_tgt g)) (Some STAGE1) (granularity (g_tgt g))
                  | Some _ => g_tgt g
                  end
    /\ Forall2 (fun c c' => exists x, interp ps STAGE2 c = Ok x
          /\ c' = Node (HInterp (set_stage (g_src g) STAGE1) (set_stage (g_src g) QUAD_STAGE2)) [x])
         (firstn (g_nd g) cs) ds
    /\ Forall2 (fun c c' =>
         (exists x, interp ps STAGE2 (stage_tag STAGE2 c) = Ok x
            /\ c' = Node (HInterp (set_stage (g_src g) STAGE2) (set_stage (g_src g) QUAD_STAGE2)) [x])
         \/ (exists l l', c = Node HArray l /\ c' = Node HArray l' /\
              Forall2 (fun a a' => exists x, interp ps STAGE2 (stage_tag STAGE2 a) = Ok x
                /\ a' = Node (HInterp (set_stage (g_src g) STAGE2) (set_stage (g_src g) QUAD_STAGE2)) [x]) l l'))
         (skipn (g_nd g) cs) ks.
Proof. exact interp_intg_unstaged. Qed.

Theorem upsampling_leaves_others : forall ps g cs e', ~ unstaged_qbx ps g ->
  interp ps STAGE2 (Node (HIntG g) cs) = Ok e' ->
  exists g', e' = Node (HIntG g') cs /\ g_tk g' = g_tk g /\ g_sks g' = g_sks g /\ g_nd g' = g_nd g
    /\ g_lim g' = g_lim g /\ g_kargs g' = g_kargs g /\ g_src g' = g_src g
    /\ (discr_stage (g_tgt g) <> None -> g' = g).
Proof.
  intros ps g cs e' U E. exists (upd_target g). split; [apply interp_intg_other with ps; assumption|].
  unfold upd_target. destruct (discr_stage (g_tgt g)); repeat split. congruence.
Qed.

(** The recursion ends; the only errors are unknown geometries and interpolation to
    centers. *)
Theorem upsampling_errors : forall ps e x, interp ps STAGE2 e = Err x -> x = KeyError \/ x = ValueError.
Proof.
  intros ps e x E. eapply interp_errors; [| |exact E]; [discriminate|apply need_le].
Qed.

(** ... but not when asked to differentiate on the quadrature stage itself. *)
Theorem upsampling_terminates_refuted :
  exists ps e, forall n, interp_pre n ps QUAD_STAGE2 e = Err OutOfFuel.
Proof.
  exists [(GName "a", PQbx)],
    (Node (HNumRefDer [(0, 1)]%nat (DD (Some (GName "a")) (Some QUAD_STAGE2) NODE))
       [Node (HNodeCoord 0 (DD (Some (GName "a")) (Some QUAD_STAGE2) NODE)) []]).
  intros n. eapply interp_quad_diverges; reflexivity.
Qed.

Definition placesA : places := [(GName "a", PQbx)].
Definition envA (n : string) (p : spot) : Prop := p = (GName "a", STAGE1, NODE).
Definition nrm : sexpr :=
  Node (HNumRefDer [(0, 1)]%nat dA) [Node (HNodeCoord 0 dA) []].
Definition dlp (arg dens : sexpr) : sexpr :=
  Node (HIntG (IntG (KBase 0) [KDirSrc "nrm" (KBase 0)] 1 (LInt 1) dA dA ["nrm"%string])) [dens; arg].

Example ex_upsampling :
  lives envA (GName "a", STAGE1, NODE) (dlp nrm sigma) /\ geometric_arguments (dlp nrm sigma)
  /\ no_hidden_intg placesA (dlp nrm sigma) /\
  interp placesA STAGE2 (dlp nrm sigma) =
  Ok (Node (HIntG (IntG (KBase 0) [KDirSrc "nrm" (KBase 0)] 1 (LInt 1) (set_stage dA QUAD_STAGE2)
                     (set_stage dA STAGE1) ["nrm"%string]))
       [Node (HInterp (set_stage dA STAGE1) (set_stage dA QUAD_STAGE2)) [sigma];
        Node (HInterp (set_stage dA STAGE2) (set_stage dA QUAD_STAGE2))
          [Node (HNumRefDer [(0, 1)]%nat (set_stage dA STAGE2)) [Node (HNodeCoord 0 (set_stage dA STAGE2)) []]]]).
Proof.
  assert (GN : geometric (Node (HNodeCoord 0 dA) [])) by (constructor; [eauto 20|constructor]).
  assert (GR : geometric nrm) by (constructor; [eauto 20|constructor; [exact GN|constructor]]).
  split; [|split; [|split; [|reflexivity]]].
  - eapply lv_intg; [reflexivity|reflexivity|].
    constructor; [apply lv_var; reflexivity|].
    constructor; [|constructor]. apply lv_der; [reflexivity|].
    constructor; [apply lv_node; reflexivity|constructor].
  - split.
    + intros g cs Ho. apply occurs_inv in Ho. destruct Ho as [Ho|(c & [<-|[<-|[]]] & Ho)].
      * injection Ho as -> ->. simpl. constructor; [exact GR|constructor].
      * apply occurs_inv in Ho. destruct Ho as [Ho|(c & [] & _)]. discriminate.
      * exfalso. exact (geometric_no_intg GR Ho).
    + intros a d cs Ho. apply occurs_inv in Ho. destruct Ho as [Ho|(c & [<-|[<-|[]]] & Ho)].
      * discriminate.
      * apply occurs_inv in Ho. destruct Ho as [Ho|(c & [] & _)]. discriminate.
      * exact (geometric_inv (geometric_occurs GR Ho)).
  - intros g cs c g' cs' Ho NU Hc Ho'.
    apply occurs_inv in Ho. destruct Ho as [Ho|(c0 & [<-|[<-|[]]] & Ho)].
    + injection Ho as -> ->. apply NU. split; [reflexivity|]. exists (GName "a"). split; reflexivity.
    + apply occurs_inv in Ho. destruct Ho as [Ho|(c1 & [] & _)]. discriminate.
    + exact (geometric_no_intg GR Ho).
Qed.

(** Layer potentials inside one with an explicit source stage, or inside a derivative,
    are not upsampled. *)
Theorem upsampling_complete_refuted :
  let hidden := Node (HIntG (IntG (KBase 0) [KBase 0] 1 (LInt 1) (set_stage dA QUAD_STAGE2) (set_stage dA STAGE1) []))
                  [slp dA dA (LInt 1) sigma] in
  let under_der := Node (HNumRefDer [(0, 1)]%nat dA) [slp dA dA (LInt 1) sigma] in
  interp placesA STAGE2 hidden = Ok hidden /\ interp placesA STAGE2 under_der = Ok under_der
  /\ unstaged_qbx placesA (IntG (KBase 0) [KBase 0] 1 (LInt 1) dA dA []).
Proof.
  repeat split. exists (GName "a"). split; reflexivity.
Qed.

(** Kernel arguments with a quantity other than coordinates and their derivatives are
    evaluated on stage 1 and interpolated as if they were on stage 2. *)
Lemma lives_interp_inv env p f t cs q : spot_of f = Some q ->
  lives env p (Node (HInterp f t) cs) -> Forall (lives env q) cs.
Proof.
  intros Hf H. inversion H; subst.
  - match goal with H : _ \/ _ |- _ => apply op_head_spec in H; discriminate H end.
  - congruence.
Qed.
Theorem upsampling_preserves_locations_refuted :
  exists e e', lives envA (GName "a", STAGE1, NODE) e /\ interp placesA STAGE2 e = Ok e'
    /\ forall p, ~ lives envA p e'.
Proof.
  exists (dlp (Node (HOnes dA) []) sigma). eexists. split; [|split; [vm_compute; reflexivity|]].
  - eapply lv_intg; [reflexivity|reflexivity|].
    constructor; [apply lv_var; reflexivity|].
    constructor; [apply lv_ones; reflexivity|constructor].
  - intros p L. inversion L; subst.
    { match goal with H : _ \/ _ |- _ => apply op_head_spec in H; discriminate H end. }
    match goal with H : spot_of _ = Some q |- _ => vm_compute in H; injection H as <- end.
    match goal with H : Forall _ _ |- _ => inversion H as [|? ? _ F]; subst; inversion F as [|? ? X _]; subst end.
    apply (@lives_interp_inv envA _ _ _ _ (GName "a", STAGE2, NODE)) in X; [|reflexivity].
    inversion X as [|? ? Y _]; subst. inversion Y; subst.
    { match goal with H : _ \/ _ |- _ => apply op_head_spec in H; discriminate H end. }
    match goal with H : spot_of _ = _ |- _ => vm_compute in H; discriminate H end.
Qed.

(** ** C21 *)
(** In every commutative ring with derivations in which kernels with an axis derivative
    mean derivatives, the result of differentiating is the derivative. *)
Theorem derivative_is_derivative : forall (R : diff_ring) (J : head -> list (dr_car R) -> dr_car R) i e e',
  sound_interpretation R J -> no_inverse e -> take_derivative i e = Ok e' ->
  value J e' = dr_d R i (value J e).
Proof. intros. eapply take_derivative_value; eauto. Qed.

Theorem derivative_of_linear_combination_succeeds : forall i e,
  proper e -> linear_in_potentials e -> exists e', take_derivative i e = Ok e'.
Proof. intros. apply take_derivative_total; assumption. Qed.

Theorem derivative_rejects_varying_products : forall i l1 a l2 b l3,
  (forall c, In c (l1 ++ a :: l2 ++ b :: l3) -> proper c /\ ~ mentions unclassified_node c) ->
  mentions varying_node a -> mentions varying_node b ->
  take_derivative i (Node HProd (l1 ++ a :: l2 ++ b :: l3)) = Err TypeError.
Proof. intros. eapply take_derivative_rejects; eauto. Qed.

(** A ring with a nontrivial derivation (dual numbers, d(a + b eps) = b eps) and an
    interpretation satisfying the hypotheses. *)
Definition du_add (x y : Z * Z) : Z * Z := (fst x + fst y, snd x + snd y)%Z.
Definition du_mul (x y : Z * Z) : Z * Z := (fst x * fst y, fst x * snd y + snd x * fst y)%Z.
Definition du_opp (x : Z * Z) : Z * Z := (- fst x, - snd x)%Z.
Definition du_d (i : nat) (x : Z * Z) : Z * Z := (0, snd x)%Z.
Definition dual : diff_ring.
Proof.
  refine (@DR (Z * Z) (0, 0)%Z (1, 0)%Z du_add du_mul du_opp (fun x y => du_add x (du_opp y)) du_d _ _ _).
  - constructor; intros; repeat match goal with x : (Z * Z)%type |- _ => destruct x end;
      unfold du_add, du_mul, du_opp; apply injective_projections; cbn [fst snd]; try reflexivity; ring.
  - intros i [] []; reflexivity.
  - intros i [a b] [c d]. unfold du_d, du_add, du_mul. apply injective_projections; cbn [fst snd]; ring.
Defined.
Definition dualJ (h : head) (vs : list (Z * Z)) : Z * Z :=
  match h with
  | HSum => fold_right du_add (0, 0)%Z vs
  | HProd => fold_right du_mul (1, 0)%Z vs
  | HConst c => (Qnum c, 0)%Z
  | HSpatial _ => (7, 0)%Z
  | HIntG g => match g_tk g with KAxisTgt _ _ => (0, 1)%Z | _ => (2, 1)%Z end
  | _ => (0, 0)%Z
  end.
Example ex_dual_sound : sound_interpretation dual dualJ.
Proof.
  unfold sound_interpretation, dual, dualJ. cbn [dr_car dr_d dr_add dr_0 dr_mul dr_1].
  repeat split; try reflexivity.
  - intros i h vs H _.
    destruct H as [->|[->|[(? & ? & ->)|[->|[(? & ->)|[(? & ? & ->)|[(? & ? & ->)|[(? & ? & ->)|(? & ->)]]]]]]]];
      reflexivity.
  - intros i g vs. cbn. destruct (g_tk g); reflexivity.
Qed.
Definition pot : sexpr := slp dA dA (LInt 1) sigma.
Example ex_derivative :
  take_derivative 0 (Node HSum [Node HProd [num (3%Z # 1); pot; Node (HSpatial "k") []]; num (5%Z # 1)])
  = Ok (Node HSum [Node HProd [Node HProd [num (3%Z # 1); Node (HSpatial "k") []];
          Node (HIntG (IntG (KAxisTgt 0 (KBase 0)) [KBase 0] 1 (LInt 1) dA dA [])) [sigma]]; num q0])
  /\ take_derivative 0 (Node HProd [sigma; pot]) = Err TypeError.
Proof. split; reflexivity. Qed.
Example ex_linear : linear_in_potentials (Node HProd ([num (3%Z # 1)] ++ pot :: [])).
Proof.
  apply lin_prod; [apply lin_intg| |].
  - constructor; [|constructor]. split; intros (h & cs & Ho & P);
      apply occurs_inv in Ho; (destruct Ho as [Ho|(c & [] & _)]); injection Ho as -> ->.
    + destruct P as [[? P]|[[? P]|[? P]]]; discriminate.
    + destruct P as [[? P]|[[? P]|[(? & ? & P)|[(? & ? & P)|[? P]]]]]; discriminate.
  - intros (h & cs & Ho & P). apply occurs_inv in Ho. destruct Ho as [Ho|(c & [<-|[]] & Ho)].
    + injection Ho as -> ->. destruct P as [[? P]|[[? P]|[(? & ? & P)|[(? & ? & P)|[? P]]]]]; discriminate.
    + apply occurs_inv in Ho. destruct Ho as [Ho|(c & [] & _)].
      injection Ho as -> ->. destruct P as [[? P]|[[? P]|[(? & ? & P)|[(? & ? & P)|[? P]]]]]; discriminate.
Qed.

(** The solution of an integral equation with a constant right-hand side counts as
    spatially constant: its derivative is zero. *)
Theorem derivative_of_solution_refuted : forall op v d,
  let e := Node HProd [Node (HInverse op v [] d) [num q1]] in
  varying (Node (HInverse op v [] d) [num q1]) = Ok false
  /\ take_derivative 0 e = Ok (Node HProd [e; num q0]).
Proof. intros. split; reflexivity. Qed.

Print Assumptions binding_resolves_locations.
Print Assumptions binding_leaves_nothing_unspecified.
Print Assumptions binding_idempotent.
Print Assumptions binding_keeps_stages_refuted.
Print Assumptions binding_replaces_markers_refuted.
Print Assumptions qbx_average_is_average.
Print Assumptions qbx_limits_validated.
Print Assumptions qbx_limits_after.
Print Assumptions qbx_other_sources_unchanged.
Print Assumptions single_source_no_average_left.
Print Assumptions multi_source_no_average_left_refuted.
Print Assumptions unregularized_removes_limits.
Print Assumptions unregularized_only_own_source_refuted.
Print Assumptions upsampling_changes_only_stages.
Print Assumptions upsampling_preserves_locations.
Print Assumptions upsampling_complete.
Print Assumptions upsampling_of_layer_potential.
Print Assumptions upsampling_leaves_others.
Print Assumptions upsampling_errors.
Print Assumptions upsampling_terminates_refuted.
Print Assumptions upsampling_complete_refuted.
Print Assumptions upsampling_preserves_locations_refuted.
Print Assumptions derivative_is_derivative.
Print Assumptions derivative_of_linear_combination_succeeds.
Print Assumptions derivative_rejects_varying_products.
Print Assumptions derivative_of_solution_refuted.
