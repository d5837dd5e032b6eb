(** C135: which nodes the other mappers have methods for. *)
From Verif Require Import Base DofModel SymModel DispModel DispProps.
Set Implicit Arguments.
Open Scope string_scope. Open Scope list_scope. Open Scope nat_scope.

(** ** Specification *)
(** What can be part of a matrix: by the dense builder with layer potentials, ... *)
Definition matrix_node (dense : bool) (h : head) : Prop :=
  match h with
  | HSpatial _ | HNodeCoord _ _ | HNumRefDer _ _ | HIntG _ => True
  | HInterp _ _ => dense = true
  | _ => node_mro h = []
  end.
(** Nodes whose dependence on the target point the derivative taker can decide. *)
Definition decided_node (h : head) : Prop :=
  match h with
  | HOnes _ | HQWeight _ | HNodeCoord _ _ | HIsShape _ _ | HError _ | HInverse _ _ _ _ => False
  | _ => True
  end.

Section P.
Variable base : string -> bool.
Hypothesis HB : pymbolic_base base.

Lemma complete_collector : complete collector_methods.
Proof.
  intros h N; destruct h; try (exfalso; apply N; reflexivity); try (destruct k); vm_compute; reflexivity.
Qed.

(** C135.  Once an expression has passed the tagger, every later traversal of it finds its
    methods: the preprocessors and the compiler (identity mappers), the collectors of operators
    and dependencies, and printing. *)
Theorem later_mappers_find_methods : forall e, walk base tagger_methods e = Ok tt ->
  walk base identity_methods e = Ok tt /\ walk base collector_methods e = Ok tt /\ to_str base e = Ok tt.
Proof.
  intros e H. apply (tagging_finds_methods_iff HB) in H. split; [|split].
  - apply (tagging_finds_methods_iff HB). exact H.
  - apply (walk_iff HB complete_collector). exact H.
  - apply (printing_succeeds_iff HB). exact H.
Qed.
Theorem collecting_finds_methods_iff : forall e, walk base collector_methods e = Ok tt <-> ~ has_solution e.
Proof. apply (walk_iff HB complete_collector). Qed.

(** C64.  The matrix builders have methods for coordinates, reference derivatives, layer
    potentials and (the dense builder) interpolations; not for ones, quadrature weights,
    reductions, shape predicates, error expressions, interleaves and linear solves, wherever
    they occur. *)
Theorem matrix_finds_methods_iff : forall h, node_mro h <> [] ->
  (dispatch base matrix_methods h <> None <-> matrix_node true h) /\
  (dispatch base cluster_matrix_methods h <> None <-> matrix_node false h).
Proof.
  intros h N. rewrite (dispatch_none_ms HB matrix_methods h N), (dispatch_none_ms HB cluster_matrix_methods h N).
  destruct h; try (exfalso; apply N; reflexivity); try (destruct k); vm_compute plain; cbn [matrix_node node_mro];
    split; split; (congruence || tauto || (intros; discriminate)).
Qed.
(** C64.  So there is no matrix of an operator with weights or the constant one as coefficient
    (w * S sigma, a density plus its mean), although it is linear and can be evaluated. *)
Theorem weighted_operators_refuted : forall d,
  dispatch base matrix_methods (HOnes d) = None /\ dispatch base matrix_methods (HQWeight d) = None /\
  dispatch base matrix_methods (HNodeRed RSum) = None /\
  dispatch base evaluation_methods (HOnes d) <> None /\ dispatch base evaluation_methods (HQWeight d) <> None /\
  dispatch base evaluation_methods (HNodeRed RSum) <> None.
Proof.
  intros d. repeat apply conj;
    try (apply (evaluation_finds_methods_iff HB); [discriminate|split; discriminate]);
    apply (dispatch_none_ms HB); try discriminate; vm_compute; reflexivity.
Qed.
(** C135.  Deciding whether a coefficient varies finds no method for ones, weights, coordinates,
    shape predicates, error expressions and linear solves. *)
Theorem deciding_finds_methods_iff : forall h, node_mro h <> [] ->
  (dispatch base varying_methods h <> None <-> decided_node h).
Proof.
  intros h N. rewrite (dispatch_none_ms HB varying_methods h N).
  destruct h; try (exfalso; apply N; reflexivity); try (destruct k); vm_compute plain; cbn [decided_node]; split; congruence || tauto.
Qed.
End P.
Print Assumptions later_mappers_find_methods.
Print Assumptions collecting_finds_methods_iff.
Print Assumptions matrix_finds_methods_iff.
Print Assumptions weighted_operators_refuted.
Print Assumptions deciding_finds_methods_iff.

Example ex_later : walk some_base collector_methods (pot LAvg (Node HSum [sigma; deriv (Node (HNodeRed RSum) [sigma])])) = Ok tt
  /\ walk some_base collector_methods (Node HSum [sigma; solve]) = Err ValueError
  /\ dispatch some_base matrix_methods (HElwise RMax dd0) = None
  /\ dispatch some_base matrix_methods (HNodeCoord 0 dd0) = Some "map_node_coordinate_component"
  /\ dispatch some_base varying_methods (HOnes dd0) = None.
Proof. vm_compute. repeat split. Qed.
