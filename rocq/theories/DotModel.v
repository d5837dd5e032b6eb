(** Model of the dataflow-graph drawing.
    /repo/pytential/symbolic/compiler.py lines 327-384 ([dot_dataflow_graph]);
    multivector results are not modelled.
    The statements are those of SchedModel.v ([sid]: Python object identity;
    [sassignees], [sdeps]: the sets [get_assignees] and [get_dependencies]
    return), the result expression is one of CompModel.v. *)
From Verif Require Import Base SchedModel CompModel.
Set Implicit Arguments.

(** The node identifiers of the graph: "initial", "result", "node<num>"
    (lines 336-337, 341). *)
Inductive node := NInit | NResult | NStmt (num : nat).

(** What an arrow is labelled with (line 369): the dependency, or the (entry of
    the) result expression.  The text of the label is not modelled. *)
Inductive label := LDep (d : dep) | LExpr (e : expr).

(** One line of the output (lines 335-338, 354, 369); the texts of the node
    labels (lines 343-352) are not modelled. *)
Inductive line := LNode (n : node) | LArrow (src tgt : node) (l : label).

Definition dep_dec (a b : dep) : {a = b} + {a <> b}.
Proof. decide equality; [apply Bool.bool_dec|apply string_dec]. Defined.

(** A Python dict as an association list, last insertion first. *)
Fixpoint assoc {K A : Type} (eqb : K -> K -> bool) (k : K) (d : list (K * A)) : option A :=
  match d with
  | [] => None
  | (k', a) :: d' => if eqb k k' then Some a else assoc eqb k d'
  end.

(** Lines 340-357: the loop over [enumerate(code.statements)]; state:
    [node_names] (keyed by object identity), [origins], the lines. *)
Fixpoint number (num : nat) (stmts : list stmt) (names : list (nat * node))
    (origins : list (string * node)) (ls : list line)
    : list (nat * node) * list (string * node) * list line :=
  match stmts with
  | [] => (names, origins, ls)
  | s :: rest =>
      number (S num) rest ((sid s, NStmt num) :: names)
        (rev (map (fun a => (a, NStmt num)) (sassignees s)) ++ origins)
        (ls ++ [LNode (NStmt num)])
  end.

(** Lines 359-365 ([get_orig_node]) for a dependency, which always is a
    variable (lines 146-150, 261-265), ... *)
Definition orig_name (origins : list (string * node)) (n : string) : node :=
  match assoc String.eqb n origins with Some o => o | None => NInit end.
(** ... and for an expression: [isinstance(expr, Variable)]
    ([NamedIntermediateResult] is a subclass, primitives.py 538-540). *)
Definition orig_expr (origins : list (string * node)) (e : expr) : node :=
  match e with
  | Var n | NIR n => orig_name origins n
  | _ => NInit
  end.

(** Lines 371-373.  [node_names[insn]] cannot fail: every statement was
    entered above.  The dependencies form a set ([nodup]), iterated in an
    arbitrary order; here: in the order of the list. *)
Definition stmt_arrows (names : list (nat * node)) (origins : list (string * node)) (s : stmt)
    : list line :=
  match assoc Nat.eqb (sid s) names with
  | Some nd => map (fun d => LArrow (orig_name origins (dname d)) nd (LDep d))
                   (nodup dep_dec (sdeps s))
  | None => []
  end.

(** Lines 375-381: one arrow per entry of an object array, otherwise one. *)
Definition result_arrows (origins : list (string * node)) (r : expr) : list line :=
  match r with
  | Arr cs => map (fun e => LArrow (orig_expr origins e) NResult (LExpr e)) cs
  | e => [LArrow (orig_expr origins e) NResult (LExpr e)]
  end.

(** Lines 327-384. *)
Definition dot (stmts : list stmt) (r : expr) : list line :=
  match number 0 stmts [] [] [LNode NInit; LNode NResult] with
  | (names, origins, ls) =>
      ls ++ flat_map (stmt_arrows names origins) stmts ++ result_arrows origins r
  end.

(** Lines 412-415 ([Code.statements]) and 327: the graph of a scheduled code. *)
Definition code_statements (sched : list (stmt * list string)) : list stmt := map fst sched.
Definition dot_of_code (sched : list (stmt * list string)) (r : expr) : list line :=
  dot (code_statements sched) r.
