(** [bind] and calling what it returns, end to end: preparation (SymModel.v, TagModel.v), then
    compilation, scheduling and execution (CompModel.v, SchedModel.v), on one expression.
    /repo/pytential/symbolic/execution.py, compiler.py. *)
From Coq Require Import QArith_base.
From Verif Require Import Base DofModel SymModel TagModel SchedModel.
From Verif Require CompModel.
Set Implicit Arguments.

(** CompModel.v numbers kernels, descriptors and node types. Here the numbers are positions in
    the lists of those that occur in the expression. *)
Definition stage_dec (a b : stage) : {a = b} + {a <> b}. Proof. decide equality. Defined.
Definition gran_dec (a b : gran) : {a = b} + {a <> b}. Proof. decide equality. Defined.
Definition geom_dec (a b : geom) : {a = b} + {a <> b}. Proof. decide equality; try apply string_dec; try apply stage_dec; apply gran_dec. Defined.
Definition opt_dec (A : Type) (d : forall a b : A, {a = b} + {a <> b}) (a b : option A) : {a = b} + {a <> b}.
Proof. decide equality. Defined.
Definition dd_dec (a b : dofdesc) : {a = b} + {a <> b}.
Proof. decide equality; [apply gran_dec|apply opt_dec, stage_dec|apply opt_dec, geom_dec]. Defined.
Definition kern_dec (a b : kern) : {a = b} + {a <> b}.
Proof. decide equality; try apply Nat.eq_dec; apply string_dec. Defined.
Definition limit_dec (a b : limit) : {a = b} + {a <> b}.
Proof. decide equality; apply Z.eq_dec. Defined.
Definition intg_dec (a b : intg) : {a = b} + {a <> b}.
Proof.
  decide equality; try apply (list_eq_dec string_dec); try apply dd_dec; try apply limit_dec;
    try apply Nat.eq_dec; try apply kern_dec; apply (list_eq_dec kern_dec).
Defined.
Definition red_dec (a b : redkind) : {a = b} + {a <> b}. Proof. decide equality. Defined.
Definition pos_dec (a b : positive) : {a = b} + {a <> b}. Proof. decide equality. Defined.
Definition z_dec (a b : Z) : {a = b} + {a <> b}. Proof. decide equality; apply pos_dec. Defined.
Definition q_dec (a b : Q) : {a = b} + {a <> b}.
Proof. decide equality; [apply pos_dec|apply z_dec]. Defined.
Definition axes_dec (a b : list (nat * nat)) : {a = b} + {a <> b}.
Proof. apply list_eq_dec. decide equality; apply Nat.eq_dec. Defined.
Definition head_dec (a b : head) : {a = b} + {a <> b}.
Proof.
  decide equality; try apply q_dec; try apply string_dec; try apply dd_dec; try apply Nat.eq_dec;
    try apply intg_dec; try apply red_dec; try apply axes_dec; try apply (list_eq_dec string_dec);
    apply opt_dec, string_dec.
Defined.

Section Index.
Variable A : Type.
Variable dec : forall a b : A, {a = b} + {a <> b}.
Fixpoint position (x : A) (l : list A) : nat :=
  match l with [] => 0%nat | y :: l' => if dec y x then 0%nat else S (position x l') end.
End Index.

(** Everything that occurs in an expression, in prefix order. *)
Fixpoint heads (e : sexpr) : list head := let 'Node h cs := e in h :: flat_map heads cs.
Definition intgs_of (h : head) : list intg := match h with HIntG g => [g] | _ => [] end.
Definition kerns_in (l : list head) : list kern := flat_map (fun g => g_tk g :: g_sks g) (flat_map intgs_of l).
Definition dds_in (l : list head) : list dofdesc := flat_map (fun g => [g_src g; g_tgt g]) (flat_map intgs_of l).

Definition comp_limit (l : limit) : CompModel.limit :=
  match l with LNone => CompModel.LNone | LAvg => CompModel.LAvg | LInt z => CompModel.LInt z end.

(** The expression as CompModel.v represents it; scope 0 of a common subexpression is
    EVALUATION, other scopes live longer. *)
Fixpoint enc (tbl : list head) (e : sexpr) : CompModel.expr :=
  let 'Node h cs := e in
  match h with
  | HVar n => CompModel.Var n
  | HSum => CompModel.Sum (map (enc tbl) cs)
  | HArray => CompModel.Arr (map (enc tbl) cs)
  | HCse p s => match cs with
                | [c] => CompModel.CSE (enc tbl c) p (Nat.eqb s 0)
                | _ => CompModel.Op (position head_dec h tbl) (map (enc tbl) cs)
                end
  | HIntG g =>
      let k x := position kern_dec x (kerns_in tbl) in
      let d x := position dd_dec x (dds_in tbl) in
      let l := map (enc tbl) cs in
      CompModel.IntG (k (g_tk g)) (combine (map k (g_sks g)) (firstn (g_nd g) l)) (comp_limit (g_lim g))
                     (d (g_src g)) (d (g_tgt g)) (combine (g_kargs g) (skipn (g_nd g) l))
  | _ => match cs with
         | [] => CompModel.Lit (position head_dec h tbl)
         | _ => CompModel.Op (position head_dec h tbl) (map (enc tbl) cs)
         end
  end.

Section Call.
Variable V : Type.
(** What each node type computes from its operands' values (the methods of the evaluation
    mapper and of the layer potential sources), Python's [+] and 0, and object arrays. *)
Variable J : head -> list V -> result V.
Variable add : V -> V -> result V.
Variable zero : V.
Variable arr : list V -> V.

Definition lim_of (l : CompModel.limit) : limit :=
  match l with CompModel.LNone => LNone | CompModel.LAvg => LAvg | CompModel.LInt z => LInt z end.
(** The oracles of CompModel.v for the numbers of [enc]. *)
Definition head_at (tbl : list head) (k : nat) (vs : list V) : result V :=
  match nth_error tbl k with Some h => J h vs | None => Err OutOfFuel end.
Definition pot_at (tbl : list head) (tk : nat) (ps : list (nat * V)) (ks : list (string * V))
    (l : CompModel.limit) (s t : nat) : result V :=
  match nth_error (kerns_in tbl) tk,
        mapM (fun p => match nth_error (kerns_in tbl) (fst p) with Some k => Ok k | None => Err OutOfFuel end) ps,
        nth_error (dds_in tbl) s, nth_error (dds_in tbl) t with
  | Some k, Ok sks, Some sd, Some td =>
      J (HIntG (IntG k sks (length ps) (lim_of l) sd td (map fst ks))) (map snd ps ++ map snd ks)
  | _, _, _, _ => Err OutOfFuel
  end.

(** How the compiler groups and orders: sorting of source kernels, features of layer
    potentials, order of a set (compiler.py 587-600, 761-816). *)
Variable ple : nat * CompModel.expr -> nat * CompModel.expr -> bool.
Variable kfeat : nat -> nat -> nat.
Variable gorder : list CompModel.expr -> list CompModel.expr.

(** execution.py 855-893 ([eval]) on a prepared expression; the short cut for an outermost
    common subexpression that is cached already (876-890) is left out. *)
Definition run_prepared (e : sexpr) (c : ctx V) : result (V * ctx V) :=
  let tbl := heads e in
  CompModel.compile_and_run zero (fun k => head_at tbl k []) add (head_at tbl)
    (fun _ _ => Err TypeError) arr (pot_at tbl) ple kfeat gorder (enc tbl e) c.

(** execution.py 933-964 ([bind]) with a collection [ps] and default locations [ds], [dt],
    then 907-930 ([BoundExpression.__call__]) with the variables [c]; compilation happens
    when the expression is first called, the preparation when it is bound. *)
Definition bind_expression (ps : places) (ds dt : dofdesc) (e : sexpr) : result sexpr := prepare_expr_exact ps ds dt e.
Definition bind_and_call (ps : places) (ds dt : dofdesc) (e : sexpr) (c : ctx V) : result (V * ctx V) :=
  do b <- bind_expression ps ds dt e; run_prepared b c.
End Call.
