(** C135, C136: finding methods for nodes; printing and drawing. *)
From Verif Require Import Base DofModel SymModel DispModel.
From Coq Require Import Ascii.
Set Implicit Arguments.
Open Scope string_scope. Open Scope list_scope. Open Scope nat_scope.

(** ** Specification *)
(** pytential's node classes. *)
Definition pytential_classes : list string :=
  ["ExpressionNode"; "ErrorExpression"; "DiscretizationProperty"; "IsShapeClass"; "QWeight"; "Ones";
   "NodeCoordinateComponent"; "NumReferenceDerivative"; "Interpolation"; "Interleave"; "IterativeInverse";
   "SingleScalarOperandExpression"; "NodeSum"; "NodeMax"; "NodeMin";
   "SingleScalarOperandExpressionWithWhere"; "ElementwiseSum"; "ElementwiseMin"; "ElementwiseMax"; "IntG";
   "SpatialConstant"].
(** What is taken for granted of pymbolic's base classes of the mappers: they handle variables
    and have no methods for pytential's (and sumpy's) classes. *)
Definition pymbolic_base (base : string -> bool) : Prop :=
  base "map_variable" = true /\ (forall c, In c pytential_classes -> base (mapper_method c) = false).
(** Nodes of an expression. *)
Inductive node_of (n : sexpr) : sexpr -> Prop :=
| no_self : node_of n n
| no_child h cs c : In c cs -> node_of n c -> node_of n (Node h cs).
(** Nodes that a drawing shows: some are shown as one box with all that is in them. *)
Definition is_box (h : head) : Prop :=
  match h with HOnes _ | HQWeight _ | HNodeCoord _ _ | HNumRefDer _ _ => True | _ => False end.
Inductive shown (n : sexpr) : sexpr -> Prop :=
| sh_self : shown n n
| sh_child h cs c : ~ is_box h -> In c cs -> shown n c -> shown n (Node h cs).
Definition is_solution (e : sexpr) : Prop := exists op v ex d cs, e = Node (HInverse op v ex d) cs.
Definition has_solution (e : sexpr) : Prop := exists n, node_of n e /\ is_solution n.
Definition drawn (e : sexpr) : Prop :=
  match sexpr_head e with
  | HIsShape _ _ | HError _ | HElwise _ _ | HNodeRed _ | HInterp _ _ | HInterleave _ | HInverse _ _ _ _ => False
  | HOnes _ | HQWeight _ | HNodeCoord _ _ | HNumRefDer _ _ => ~ has_solution e
  | HIntG g => exists z, g_lim g = LInt z
  | _ => True
  end.

(** ** Proofs *)
Section P.
Variable base : string -> bool.
Hypothesis HB : pymbolic_base base.

Lemma base_false : forall c, existsb (String.eqb c) pytential_classes = true -> base (mapper_method c) = false.
Proof.
  intros c H. apply HB. apply existsb_exists in H. destruct H as (x & Hx & E). apply String.eqb_eq in E. subst. exact Hx.
Qed.

Definition is_inv (h : head) : bool := match h with HInverse _ _ _ _ => true | _ => false end.

(** The dispatch of a table, decided without the base class. *)
Definition plain (ms : list string) (h : head) : bool :=
  match h with HSpatial _ => true | _ =>
  existsb (fun m => existsb (String.eqb m) ms) (map mapper_method (node_mro h)) end.

Lemma node_mro_classes : forall h c, In c (node_mro h) -> c <> "Variable" -> existsb (String.eqb c) pytential_classes = true.
Proof.
  intros h x; destruct h; cbn [node_mro In]; try tauto; try (destruct k; cbn [In]);
    intros H N; repeat (destruct H as [<-|H]; [try reflexivity; congruence|]); tauto.
Qed.

Lemma dispatch_none_ms : forall ms h, node_mro h <> [] -> (dispatch base ms h = None <-> plain ms h = false).
Proof.
  intros ms h N. destruct HB as (BV & _). unfold dispatch.
  destruct (match h with HSpatial _ => true | _ => false end) eqn:Es.
  - destruct h; try discriminate. cbn [plain]. split; [|discriminate]. intros H. exfalso.
    pose proof (find_none _ _ H "map_variable" (or_intror (or_introl eq_refl))) as X.
    unfold has_method in X. rewrite BV, orb_true_r in X. discriminate.
  - assert (Hm : forall m, In m (map mapper_method (node_mro h)) -> has_method base ms m = existsb (String.eqb m) ms).
    { intros m Hi. apply in_map_iff in Hi. destruct Hi as (c & <- & Hc). unfold has_method.
      rewrite base_false, orb_false_r; [reflexivity|]. apply (node_mro_classes h); [exact Hc|]. intros ->.
      destruct h; cbn [node_mro In] in Hc; try discriminate; try tauto; try (destruct k; cbn [In] in Hc);
        repeat (destruct Hc as [Hc|Hc]; [discriminate|]); tauto. }
    assert (Ep : plain ms h = existsb (fun m => existsb (String.eqb m) ms) (map mapper_method (node_mro h))).
    { destruct h; try reflexivity. discriminate. }
    rewrite Ep. clear Ep Es. revert Hm. induction (map mapper_method (node_mro h)) as [|m l IH]; intros Hm; cbn [find existsb].
    + split; reflexivity.
    + rewrite (Hm m) by (left; reflexivity). destruct (existsb (String.eqb m) ms); cbn [orb].
      * split; discriminate.
      * apply IH. intros m' Hi. apply Hm. right. exact Hi.
Qed.

Lemma walk_cons : forall ms h cs,
  walk base ms (Node h cs) =
  match node_mro h, dispatch base ms h with
  | _ :: _, None => Err ValueError
  | _, _ => do _ <- mapM (walk base ms) cs; Ok tt
  end.
Proof.
  intros ms h cs. cbn [walk].
  assert (G : forall l, (fix go (l : list sexpr) : result unit :=
               match l with [] => Ok tt | c :: l' => do _ <- walk base ms c; go l' end) l
            = do _ <- mapM (walk base ms) l; Ok tt).
  { induction l as [|c l IH]; [reflexivity|]. cbn [mapM]. rewrite IH. destruct (walk base ms c); [|reflexivity].
    cbn. destruct (mapM (walk base ms) l); reflexivity. }
  rewrite !G. reflexivity.
Qed.

Lemma mapM_unit : forall (f : sexpr -> result unit) l,
  (do _ <- mapM f l; Ok tt) = Ok tt <-> forall c, In c l -> f c = Ok tt.
Proof.
  intros f l. induction l as [|c l IH].
  - split; [intros _ c []|reflexivity].
  - cbn [mapM]. destruct (f c) as [[]|e] eqn:E.
    + cbn [bind]. transitivity ((do _ <- mapM f l; Ok tt) = Ok tt).
      { destruct (mapM f l); reflexivity. }
      rewrite IH. split.
      * intros H x [<-|Hx]; auto.
      * intros H x Hx. apply H. right. exact Hx.
    + cbn [bind]. split; [discriminate|]. intros H. specialize (H c (or_introl eq_refl)). congruence.
Qed.

(** Tables that have a method for everything but solutions. *)
Definition complete (ms : list string) : Prop := forall h, node_mro h <> [] -> plain ms h = negb (is_inv h).

Lemma tables_complete : complete identity_methods /\ complete tagger_methods /\ complete stringify_methods.
Proof.
  split; [|split]; intros h N; destruct h; try (exfalso; apply N; reflexivity); try (destruct k); vm_compute; reflexivity.
Qed.

Lemma walk_iff : forall ms, complete ms -> forall e, walk base ms e = Ok tt <-> ~ has_solution e.
Proof.
  intros ms C e. induction e as [h cs IH] using sexpr_ind'. rewrite walk_cons.
  assert (R : node_mro h = [] \/ plain ms h = true ->
    (match node_mro h, dispatch base ms h with
     | _ :: _, None => Err ValueError | _, _ => do _ <- mapM (walk base ms) cs; Ok tt end) = do _ <- mapM (walk base ms) cs; Ok tt).
  { intros [->|Hp]; [reflexivity|]. destruct (dispatch base ms h) eqn:D.
    - destruct (node_mro h); reflexivity.
    - destruct (node_mro h) eqn:N; [reflexivity|]. apply dispatch_none_ms in D; [congruence|congruence]. }
  destruct (is_inv h) eqn:Ei.
  - assert (D : dispatch base ms h = None).
    { apply dispatch_none_ms; [destruct h; discriminate|]. rewrite C by (destruct h; discriminate). rewrite Ei. reflexivity. }
    rewrite D. destruct h; try discriminate. cbn [node_mro]. split; [discriminate|].
    intros H. exfalso. apply H. exists (Node (HInverse op v extra dd) cs). split; [constructor|]. repeat eexists.
  - rewrite R. 2:{ destruct (node_mro h) eqn:N; [left; reflexivity|right]. rewrite C by congruence. rewrite Ei. reflexivity. }
    rewrite mapM_unit. rewrite Forall_forall in IH. split.
    + intros H (n & Hn & Hs). inversion Hn; subst.
      * destruct Hs as (op & v & ex & d & cs' & Hs). inversion Hs; subst. discriminate.
      * apply (IH c) in H2 as X. apply X; [apply H; assumption|]. exists n. split; assumption.
    + intros H c Hc. apply (IH c Hc). intros (n & Hn & Hs). apply H. exists n. split; [|exact Hs].
      econstructor; eassumption.
Qed.

Lemma walk_err : forall ms e, walk base ms e = Ok tt \/ walk base ms e = Err ValueError.
Proof.
  intros ms e. induction e as [h cs IH] using sexpr_ind'. rewrite walk_cons.
  assert (G : (do _ <- mapM (walk base ms) cs; Ok tt) = Ok tt \/ (do _ <- mapM (walk base ms) cs; Ok tt) = Err ValueError).
  { induction IH as [|c l Hc _ IHl]; [left; reflexivity|]. cbn [mapM]. destruct Hc as [-> | ->]; [|right; reflexivity].
    cbn [bind]. destruct (mapM (walk base ms) l) as [x|x]; cbn [bind] in *; exact IHl. }
  destruct (node_mro h); [exact G|]. destruct (dispatch base ms h); [exact G|right; reflexivity].
Qed.

(** C135.  No mapper of pytential finds a method for a linear solve: they all define
    [map_inverse], while the class is called IterativeInverse. *)
Theorem no_method_for_solutions_refuted : forall ms op v ex d,
  In ms [identity_methods; tagger_methods; combine_methods; varying_methods; collector_methods;
         derivative_methods; rewriter_methods; matrix_methods; cluster_matrix_methods; evaluation_methods; stringify_methods;
         graphviz_methods] ->
  dispatch base ms (HInverse op v ex d) = None.
Proof.
  intros ms op v ex d H. apply dispatch_none_ms; [discriminate|]. cbn [In] in H.
  repeat (destruct H as [<-|H]; [vm_compute; reflexivity|]). destruct H.
Qed.

(** C135.  So the first mapper that binding runs fails exactly if there is a linear solve
    somewhere in the expression. *)
Theorem tagging_finds_methods_iff : forall e,
  (walk base tagger_methods e = Ok tt <-> ~ has_solution e) /\
  (walk base identity_methods e = Ok tt <-> ~ has_solution e).
Proof. intros e. destruct tables_complete as (A & B & _). split; apply walk_iff; assumption. Qed.
Theorem solutions_cannot_be_bound_refuted : forall e, has_solution e -> walk base tagger_methods e = Err ValueError.
Proof.
  intros e H. destruct (walk_err tagger_methods e) as [X|X]; [|exact X].
  exfalso. apply (proj1 (tagging_finds_methods_iff e)) in X. exact (X H).
Qed.

(** C135.  The evaluation mapper has a method for every other node that can be left in a
    compiled statement: all but layer potentials, which are statements of their own. *)
Theorem evaluation_finds_methods_iff : forall h, node_mro h <> [] ->
  (dispatch base evaluation_methods h <> None <->
   (forall op v ex d, h <> HInverse op v ex d) /\ (forall g, h <> HIntG g)).
Proof.
  intros h N. rewrite (dispatch_none_ms evaluation_methods h N).
  destruct h; try (exfalso; apply N; reflexivity); try (destruct k); vm_compute plain; split;
    try (intros _; split; intros; discriminate); try discriminate; try congruence.
  - intros (H & _). exfalso. eapply H. reflexivity.
  - intros (_ & H). exfalso. eapply H. reflexivity.
Qed.

(** C136.  An expression can be printed exactly if there is no linear solve in it. *)
Theorem printing_succeeds_iff : forall e, to_str base e = Ok tt <-> ~ has_solution e.
Proof. intros e. destruct tables_complete as (_ & _ & C). apply walk_iff. exact C. Qed.

Lemma draw_cons : forall h cs,
  draw base (Node h cs) =
  let rest := do _ <- mapM (draw base) cs; Ok tt in
  match node_mro h, dispatch base graphviz_methods h with
  | [], _ => rest
  | _ :: _, None => Err ValueError
  | _ :: _, Some m =>
      if existsb (String.eqb m) graphviz_leaves then to_str base (Node h cs)
      else match h with
           | HIntG g => match g_lim g with LInt _ => rest | _ => Err TypeError end
           | _ => rest
           end
  end.
Proof.
  intros h cs. cbn [draw].
  assert (G : forall l, (fix go (l : list sexpr) : result unit :=
               match l with [] => Ok tt | c :: l' => do _ <- draw base c; go l' end) l
            = do _ <- mapM (draw base) l; Ok tt).
  { induction l as [|c l IH]; [reflexivity|]. cbn [mapM]. rewrite IH. destruct (draw base c); [|reflexivity].
    cbn. destruct (mapM (draw base) l); reflexivity. }
  rewrite !G. reflexivity.
Qed.

Lemma dispatch_first : forall ms c r h, node_mro h = c :: r -> existsb (String.eqb (mapper_method c)) ms = true ->
  dispatch base ms h = Some (mapper_method c).
Proof. intros ms c r h E H. unfold dispatch. rewrite E. cbn [map find]. unfold has_method. rewrite H. reflexivity. Qed.

Lemma drawn_children : forall h cs, ~ is_box h ->
  Forall (fun e => draw base e = Ok tt <-> (forall n, shown n e -> drawn n)) cs ->
  drawn (Node h cs) ->
  ((do _ <- mapM (draw base) cs; Ok tt) = Ok tt <-> (forall n, shown n (Node h cs) -> drawn n)).
Proof.
  intros h cs Hh IH Hd. rewrite mapM_unit. rewrite Forall_forall in IH. split.
  - intros H n Hn. inversion Hn; subst; [exact Hd|]. apply (proj1 (IH c H3) (H c H3)). assumption.
  - intros H c Hc. apply (IH c Hc). intros n Hn. apply H. econstructor; eassumption.
Qed.

(** C136.  What can be drawn: the nodes that are shown are pymbolic's, or one of the five that
    the mapper knows, the layer potentials with an integer limit. *)
Theorem drawing_succeeds_iff : forall e, draw base e = Ok tt <-> (forall n, shown n e -> drawn n).
Proof.
  intros e. induction e as [h cs IH] using sexpr_ind'. rewrite draw_cons. cbv zeta.
  assert (Bad : forall x, drawn (Node h cs) = False ->
    (Err x = Ok tt <-> (forall n, shown n (Node h cs) -> drawn n))).
  { intros x F. split; [discriminate|]. intros H. exfalso. specialize (H _ (sh_self _)). rewrite F in H. exact H. }
  assert (Nope : node_mro h <> [] -> plain graphviz_methods h = false -> drawn (Node h cs) = False ->
    (match node_mro h, dispatch base graphviz_methods h with
     | [], _ => do _ <- mapM (draw base) cs; Ok tt
     | _ :: _, None => Err ValueError
     | _ :: _, Some m =>
      if existsb (String.eqb m) graphviz_leaves then to_str base (Node h cs)
      else match h with
           | HIntG g => match g_lim g with LInt _ => do _ <- mapM (draw base) cs; Ok tt | _ => Err TypeError end
           | _ => do _ <- mapM (draw base) cs; Ok tt
           end
     end = Ok tt <-> (forall n, shown n (Node h cs) -> drawn n))).
  { intros N P F. rewrite (proj2 (dispatch_none_ms graphviz_methods h N) P).
    destruct (node_mro h); [congruence|]. apply Bad. exact F. }
  assert (Box : forall m, dispatch base graphviz_methods h = Some m -> existsb (String.eqb m) graphviz_leaves = true ->
    is_box h -> drawn (Node h cs) = (~ has_solution (Node h cs)) ->
    (match node_mro h, dispatch base graphviz_methods h with
     | [], _ => do _ <- mapM (draw base) cs; Ok tt
     | _ :: _, None => Err ValueError
     | _ :: _, Some m =>
      if existsb (String.eqb m) graphviz_leaves then to_str base (Node h cs)
      else match h with
           | HIntG g => match g_lim g with LInt _ => do _ <- mapM (draw base) cs; Ok tt | _ => Err TypeError end
           | _ => do _ <- mapM (draw base) cs; Ok tt
           end
     end = Ok tt <-> (forall n, shown n (Node h cs) -> drawn n))).
  { intros m D L B F. rewrite D, L.
    assert (E : to_str base (Node h cs) = Ok tt <-> (forall n, shown n (Node h cs) -> drawn n)).
    { rewrite printing_succeeds_iff. split.
      - intros H n Hn. inversion Hn; subst; [rewrite F; exact H|contradiction].
      - intros H. specialize (H _ (sh_self _)). rewrite F in H. exact H. }
    destruct (node_mro h) eqn:N; [destruct h; try discriminate; contradiction|exact E]. }
  destruct h; try (apply Nope; [first [discriminate|destruct k; discriminate]|first [vm_compute; reflexivity|destruct k; vm_compute; reflexivity]|reflexivity]);
    try (eapply Box; [eapply dispatch_first; [reflexivity|vm_compute; reflexivity]|vm_compute; reflexivity|exact I|reflexivity]);
    try (cbn [node_mro]; apply drawn_children; [intros []|exact IH|exact I]).
  - (* SpatialConstant: drawn as a variable *)
    assert (D : exists m, dispatch base graphviz_methods (HSpatial n) = Some m /\ existsb (String.eqb m) graphviz_leaves = false).
    { exists "map_variable". unfold dispatch. cbn [node_mro map find]. unfold has_method at 1.
      rewrite (base_false "SpatialConstant") by reflexivity.
      change (existsb (String.eqb (mapper_method "SpatialConstant")) graphviz_methods) with false. cbn [orb].
      change (mapper_method "Variable") with "map_variable". unfold has_method.
      destruct HB as (-> & _). rewrite orb_true_r. split; reflexivity. }
    destruct D as (m & -> & ->). cbn [node_mro]. apply drawn_children; [intros []|exact IH|exact I].
  - rewrite (@dispatch_first graphviz_methods "IntG" ["ExpressionNode"] (HIntG g) eq_refl) by reflexivity. cbn [node_mro].
    change (existsb (String.eqb (mapper_method "IntG")) graphviz_leaves) with false. cbv iota.
    destruct (g_lim g) eqn:El; [| |apply drawn_children; [intros []|exact IH|cbn; eauto]];
      (split; [discriminate|]; intros H; exfalso; specialize (H _ (sh_self _)); cbn in H; destruct H as (z & H); congruence).
Qed.
End P.
Print Assumptions no_method_for_solutions_refuted.
Print Assumptions tagging_finds_methods_iff.
Print Assumptions solutions_cannot_be_bound_refuted.
Print Assumptions evaluation_finds_methods_iff.
Print Assumptions printing_succeeds_iff.
Print Assumptions drawing_succeeds_iff.

(** ** Cases *)
Definition some_base (m : string) : bool :=
  existsb (String.eqb m) ["map_constant"; "map_variable"; "map_sum"; "map_product"; "map_quotient"; "map_power";
    "map_call"; "map_common_subexpression"; "map_numpy_array"; "map_tuple"].
Example some_base_ok : pymbolic_base some_base.
Proof.
  split; [reflexivity|]. intros c H. cbn [pytential_classes In] in H.
  repeat (destruct H as [<-|H]; [vm_compute; reflexivity|]). destruct H.
Qed.
(** The names that the rule gives. *)
Example ex_names : map mapper_method ["IntG"; "QWeight"; "NodeCoordinateComponent"; "IsShapeClass"; "NumReferenceDerivative"; "IterativeInverse"; "ElementwiseMax"; "SpatialConstant"]
  = ["map_int_g"; "map_q_weight"; "map_node_coordinate_component"; "map_is_shape_class"; "map_num_reference_derivative"; "map_iterative_inverse"; "map_elementwise_max"; "map_spatial_constant"].
Proof. vm_compute. reflexivity. Qed.

Definition dd0 : dofdesc := DD (Some (GName "g")) None NODE.
Definition pot (l : limit) (c : sexpr) : sexpr := Node (HIntG (IntG (KBase 0) [KBase 0] 1 l dd0 dd0 [])) [c].
Definition sigma : sexpr := Node (HVar "sigma") [].
Definition solve : sexpr := Node (HInverse 0 "u" [] dd0) [sigma].
Definition deriv (c : sexpr) : sexpr := Node (HNumRefDer [(0, 1)] dd0) [c].
Example ex_bind : walk some_base tagger_methods (pot LAvg (Node HSum [sigma; deriv (Node (HNodeRed RSum) [sigma])])) = Ok tt
  /\ walk some_base tagger_methods (Node HSum [sigma; pot LNone solve]) = Err ValueError
  /\ walk some_base identity_methods solve = Err ValueError.
Proof. vm_compute. repeat split. Qed.
Example ex_has : has_solution (Node HSum [sigma; pot LNone solve]).
Proof. exists solve. split; [|repeat eexists]. econstructor; [right; left; reflexivity|]. econstructor; [left; reflexivity|]. constructor. Qed.
(** C136: a potential on one side, a reduction inside a derivative (one box): drawn. *)
Example ex_drawn : draw some_base (pot (LInt 1) (Node HSum [sigma; deriv (Node (HNodeRed RSum) [sigma]); Node (HQWeight dd0) []])) = Ok tt.
Proof. vm_compute. reflexivity. Qed.

(** C136.  What cannot be drawn: a potential away from its source or averaged, sums over
    nodes, interpolations, linear solves. *)
Theorem drawing_refuted : forall base, pymbolic_base base ->
  to_str base (pot LNone sigma) = Ok tt /\ draw base (pot LNone sigma) = Err TypeError /\
  draw base (pot LAvg sigma) = Err TypeError /\
  (forall k c, draw base (Node (HNodeRed k) [c]) = Err ValueError) /\
  (forall k d c, draw base (Node (HElwise k d) [c]) = Err ValueError) /\
  (forall f t c, draw base (Node (HInterp f t) [c]) = Err ValueError).
Proof.
  intros base HB.
  assert (N : forall h cs, node_mro h <> [] -> plain graphviz_methods h = false -> draw base (Node h cs) = Err ValueError).
  { intros h cs X Y. rewrite draw_cons. cbv zeta. rewrite (proj2 (dispatch_none_ms HB graphviz_methods h X) Y).
    destruct (node_mro h); [congruence|reflexivity]. }
  assert (A : forall l, l = LNone \/ l = LAvg -> draw base (pot l sigma) = Err TypeError).
  { intros l [->| ->]; reflexivity. }
  split; [|split; [|split; [|split; [|split]]]].
  - apply printing_succeeds_iff; [exact HB|]. intros (n & Hn & Hs).
    assert (In (sexpr_head n) [sexpr_head (pot LNone sigma); sexpr_head sigma]) as X.
    { inversion Hn as [|h' cs' c' Hc Hn']; [left; reflexivity|]. destruct Hc as [<-|[]].
      inversion Hn' as [|h'' cs'' c'' Hc' Hn'']; [right; left; reflexivity|destruct Hc']. }
    destruct Hs as (op & v & ex & d & cs & ->). destruct X as [X|[X|[]]]; discriminate.
  - apply A. left. reflexivity.
  - apply A. right. reflexivity.
  - intros k c. apply N; [destruct k; discriminate|destruct k; vm_compute; reflexivity].
  - intros k d c. apply N; [destruct k; discriminate|destruct k; vm_compute; reflexivity].
  - intros f t c. apply N; [discriminate|vm_compute; reflexivity].
Qed.
Print Assumptions drawing_refuted.
