(** Model of how pytential's mappers find the method for a node:
    /repo/pytential/symbolic/primitives.py (the node classes), mappers.py, execution.py and
    matrix.py (the methods), and of drawing (mappers.py 1027-1073).

    Every node class is decorated with pymbolic's expr_dataclass() and none of them sets
    mapper_method (primitives.py has no such assignment), so that the name of the method is
    "map_" followed by the name of the class in snake case (primitives.py 1604 and 1690 take
    the name of a reduction from it).  Modelled of pymbolic (which is not in /repo):
    the conversion to snake case; that a mapper without the method tries the names of the
    superclasses, in order, and then raises UnsupportedExpressionError, a ValueError (the
    stringifier raises a ValueError); that a mapper handles pymbolic's own nodes by visiting
    all their children. *)
From Verif Require Import Base DofModel SymModel.
From Coq Require Import Ascii.
Set Implicit Arguments.
Open Scope string_scope. Open Scope list_scope. Open Scope nat_scope.

Definition between (lo hi : nat) (c : ascii) : bool := (lo <=? nat_of_ascii c) && (nat_of_ascii c <=? hi).
Definition is_upper : ascii -> bool := between 65 90.
Definition is_lower (c : ascii) : bool := between 97 122 c || between 48 57 c.
Definition lower (c : ascii) : ascii := if is_upper c then ascii_of_nat (nat_of_ascii c + 32) else c.

(** pymbolic's conversion: a capital letter begins a word if it follows a small letter (or a
    digit), or if a small letter follows it. *)
Fixpoint snake_from (prev : option ascii) (s : string) : string :=
  match s with
  | EmptyString => EmptyString
  | String c r =>
      let starts := match prev with
        | None => false
        | Some p => is_upper c && (is_lower p || match r with String n _ => is_lower n | EmptyString => false end)
        end in
      if starts then String "_" (String (lower c) (snake_from (Some c) r))
      else String (lower c) (snake_from (Some c) r)
  end.
Definition mapper_method (cls : string) : string := "map_" ++ snake_from None cls.

(** The class of a node and its superclasses, up to the two that stand above pytential's
    (primitives.py 444-456, 543-557, 635-760, 1454-1778, 1885); SpatialConstant is sumpy's.
    Nodes of pymbolic itself (and object arrays): the empty list. *)
Definition node_mro (h : head) : list string :=
  match h with
  | HSpatial _ => ["SpatialConstant"; "Variable"]
  | HOnes _ => ["Ones"; "ExpressionNode"]
  | HQWeight _ => ["QWeight"; "DiscretizationProperty"; "ExpressionNode"]
  | HNodeCoord _ _ => ["NodeCoordinateComponent"; "DiscretizationProperty"; "ExpressionNode"]
  | HIsShape _ _ => ["IsShapeClass"; "DiscretizationProperty"; "ExpressionNode"]
  | HError _ => ["ErrorExpression"; "ExpressionNode"]
  | HNumRefDer _ _ => ["NumReferenceDerivative"; "DiscretizationProperty"; "ExpressionNode"]
  | HElwise RSum _ => ["ElementwiseSum"; "SingleScalarOperandExpressionWithWhere"; "ExpressionNode"]
  | HElwise RMax _ => ["ElementwiseMax"; "SingleScalarOperandExpressionWithWhere"; "ExpressionNode"]
  | HElwise RMin _ => ["ElementwiseMin"; "SingleScalarOperandExpressionWithWhere"; "ExpressionNode"]
  | HNodeRed RSum => ["NodeSum"; "SingleScalarOperandExpression"; "ExpressionNode"]
  | HNodeRed RMax => ["NodeMax"; "SingleScalarOperandExpression"; "ExpressionNode"]
  | HNodeRed RMin => ["NodeMin"; "SingleScalarOperandExpression"; "ExpressionNode"]
  | HInterp _ _ => ["Interpolation"; "ExpressionNode"]
  | HInterleave _ => ["Interleave"; "ExpressionNode"]
  | HInverse _ _ _ _ => ["IterativeInverse"; "ExpressionNode"]
  | HIntG _ => ["IntG"; "ExpressionNode"]
  | _ => []
  end.

(** mappers.py 103-201 (IdentityMapper; CachedIdentityMapper, UnregularizedPreprocessor,
    InterpolationPreprocessor, QBXPreprocessor, DiscretizationStageTagger and the mappers of
    direct_solver_symbolic.py inherit these and add none with another name but map_sum and
    map_product; the compiler adds map_int_g_ds). *)
Definition identity_methods : list string :=
  ["map_node_sum"; "map_node_max"; "map_node_min"; "map_elementwise_sum"; "map_elementwise_min";
   "map_elementwise_max"; "map_num_reference_derivative"; "map_spatial_constant"; "map_ones";
   "map_q_weight"; "map_node_coordinate_component"; "map_is_shape_class"; "map_error_expression";
   "map_inverse"; "map_int_g"; "map_interpolation"; "map_interleave"].
(** mappers.py 391-557 (LocationTagger; ToTargetTagger and _LocationReplacer add nothing). *)
Definition tagger_methods : list string :=
  ["map_common_subexpression_uncached"; "map_ones"; "map_q_weight"; "map_node_coordinate_component";
   "map_num_reference_derivative"; "map_elementwise_sum"; "map_elementwise_min"; "map_elementwise_max";
   "map_int_g"; "map_inverse"; "map_interpolation"; "map_interleave"; "map_is_shape_class";
   "map_error_expression"] ++ identity_methods.
(** mappers.py 220-267. *)
Definition combine_methods : list string :=
  ["map_node_sum"; "map_node_max"; "map_node_min"; "map_num_reference_derivative"; "map_elementwise_sum";
   "map_elementwise_min"; "map_elementwise_max"; "map_interpolation"; "map_interleave";
   "map_spatial_constant"; "map_int_g"; "map_inverse"].
(** mappers.py 608-628. *)
Definition varying_methods : list string :=
  ["map_constant"; "map_spatial_constant"; "map_variable"; "map_int_g"] ++ combine_methods.
(** mappers.py 272-299 (Collector, OperatorCollector, DependencyMapper). *)
Definition collector_methods : list string :=
  ["map_ones"; "map_is_shape_class"; "map_error_expression"; "map_node_coordinate_component";
   "map_q_weight"; "map_spatial_constant"] ++ combine_methods.
(** mappers.py 634-711. *)
Definition derivative_methods : list string := ["map_constant"; "map_sum"; "map_product"; "map_int_g"].
(** mappers.py 305-374. *)
Definition rewriter_methods : list string :=
  ["map_variable"; "map_subscript"; "map_q_weight"; "map_ones"; "map_node_sum"; "map_node_max";
   "map_node_min"; "map_node_coordinate_component"; "map_num_reference_derivative"; "map_int_g";
   "map_common_subexpression"].
(** matrix.py 113-291, 628-end (the builders of clusters; their base class is pymbolic's
    EvaluationRewriter, lines 61-63, not pytential's). *)
Definition cluster_matrix_methods : list string :=
  ["map_variable"; "map_subscript"; "map_sum"; "map_product"; "map_num_reference_derivative";
   "map_node_coordinate_component"; "map_call"; "map_int_g"].
(** matrix.py 376-522 (MatrixBuilder). *)
Definition matrix_methods : list string := "map_interpolation" :: cluster_matrix_methods.
(** execution.py 111-420. *)
Definition evaluation_methods : list string :=
  ["map_max"; "map_min"; "map_node_sum"; "map_node_max"; "map_node_min"; "map_elementwise_sum";
   "map_elementwise_min"; "map_elementwise_max"; "map_ones"; "map_node_coordinate_component";
   "map_num_reference_derivative"; "map_q_weight"; "map_inverse"; "map_interpolation"; "map_interleave";
   "map_common_subexpression"; "map_error_expression"; "map_is_shape_class"; "map_call"].
(** mappers.py 892-1020 (StringifyMapper, PrettyStringifyMapper). *)
Definition stringify_methods : list string :=
  ["map_ones"; "map_inverse"; "map_elementwise_sum"; "map_elementwise_min"; "map_elementwise_max";
   "map_node_max"; "map_node_min"; "map_node_sum"; "map_node_coordinate_component";
   "map_num_reference_derivative"; "map_q_weight"; "map_int_g"; "map_interpolation"; "map_interleave";
   "map_error_expression"; "map_is_shape_class"].
(** mappers.py 1027-1073: the ones that are map_pytential_leaf, and all. *)
Definition graphviz_leaves : list string :=
  ["map_pytential_leaf"; "map_ones"; "map_node_coordinate_component"; "map_num_reference_derivative";
   "map_parametrization_derivative"; "map_q_weight"].
Definition graphviz_methods : list string := ["map_map_node_sum"; "map_int_g"] ++ graphviz_leaves.

Section Dispatch.
(** The methods that pymbolic's base class of the mapper has. *)
Variable base : string -> bool.

Definition has_method (ms : list string) (m : string) : bool := existsb (String.eqb m) ms || base m.

(** pymbolic's Mapper.rec and rec_fallback: the first method found along the superclasses. *)
Definition dispatch (ms : list string) (h : head) : option string :=
  find (has_method ms) (map mapper_method (node_mro h)).

(** A mapper whose methods visit all children: does it find a method for every node?
    (IdentityMapper and its descendants, and the stringifiers; what the methods do otherwise
    is the subject of SymModel.v and TagModel.v.) *)
Fixpoint walk (ms : list string) (e : sexpr) {struct e} : result unit :=
  let 'Node h cs := e in
  match node_mro h, dispatch ms h with
  | _ :: _, None => Err ValueError
  | _, _ => (fix go (l : list sexpr) : result unit :=
               match l with [] => Ok tt | c :: l' => do _ <- walk ms c; go l' end) cs
  end.

(** [str(expr)] (primitives.py 450-456: make_stringifier). *)
Definition to_str (e : sexpr) : result unit := walk stringify_methods e.

(** mappers.py 1027-1073 ([GraphvizMapper]), without the lines that are written.  Leaves are
    labelled with [str(expr)] and not descended into; 1057-1062: the limit of a layer
    potential is printed with %d, which raises TypeError for None and "avg".  A node that is
    reached again is not descended into again by pymbolic's visit(); a second visit would
    succeed if the first one did. *)
Fixpoint draw (e : sexpr) {struct e} : result unit :=
  let 'Node h cs := e in
  let rest := (fix go (l : list sexpr) : result unit :=
                 match l with [] => Ok tt | c :: l' => do _ <- draw c; go l' end) cs in
  match node_mro h, dispatch graphviz_methods h with
  | [], _ => rest
  | _ :: _, None => Err ValueError
  | _ :: _, Some m =>
      if existsb (String.eqb m) graphviz_leaves then to_str e
      else match h with
           | HIntG g => match g_lim g with LInt _ => rest | _ => Err TypeError end
           | _ => rest
           end
  end.
End Dispatch.
