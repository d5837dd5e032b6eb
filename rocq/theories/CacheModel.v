(** Model of the long-lived common-subexpression caches.
    /repo/pytential/symbolic/execution.py lines 316-345 (map_common_subexpression),
    762-773 (per-expression caches), 855-893 (eval);
    /repo/pytential/collection.py lines 248-249 (per-collection caches). *)
From Verif Require Import Base.
Set Implicit Arguments.

(** pymbolic's [cse_scope.EVALUATION], [EXPRESSION]; primitives.py 489-490
    ([DISCRETIZATION]). *)
Inductive scope := ScEval | ScExpr | ScDiscr.

(** Expressions below a cached subexpression.  [Op k cs] stands for every
    composite node type, [Const k] for constants and childless nodes; layer
    potentials do not occur here (the evaluation mapper does not handle them). *)
Inductive cexpr :=
| CVar (n : string)
| Const (k : nat)
| COp (k : nat) (cs : list cexpr)
| Cse (child : cexpr) (prefix : option string) (sc : scope).

Definition opt_str_eqb (a b : option string) : bool :=
  match a, b with
  | None, None => true
  | Some x, Some y => String.eqb x y
  | _, _ => false
  end.
Definition scope_eqb (a b : scope) : bool :=
  match a, b with
  | ScEval, ScEval | ScExpr, ScExpr | ScDiscr, ScDiscr => true
  | _, _ => false
  end.

Section All2.
Variable A : Type.
Variable f : A -> A -> bool.
Fixpoint all2 (l l' : list A) : bool :=
  match l, l' with
  | [], [] => true
  | a :: l, b :: l' => f a b && all2 l l'
  | _, _ => false
  end.
End All2.

(** Structural equality (pymbolic). *)
Fixpoint ceqb (a b : cexpr) {struct a} : bool :=
  match a, b with
  | CVar x, CVar y => String.eqb x y
  | Const i, Const j => Nat.eqb i j
  | COp k l, COp k' l' => Nat.eqb k k' && all2 ceqb l l'
  | Cse c p s, Cse c' p' s' => ceqb c c' && opt_str_eqb p p' && scope_eqb s s'
  | _, _ => false
  end.

(** Cache keys are Python objects: the tuple (prefix, child) or an expression. *)
Inductive key := KPair (p : option string) (c : cexpr) | KExpr (c : cexpr).
Definition key_eqb (a b : key) : bool :=
  match a, b with
  | KPair p c, KPair p' c' => opt_str_eqb p p' && ceqb c c'
  | KExpr c, KExpr c' => ceqb c c'
  | _, _ => false
  end.

Section Eval.
Variable V : Type.
Variable vconst : nat -> result V.
Variable vop : nat -> list V -> result V.
(** [array_context.freeze] / [thaw] and [isinstance(_, Number)]. *)
Variables freeze thaw : V -> V.
Variable is_number : V -> bool.

Definition cache := list (key * V).
Fixpoint cfind (k : key) (d : cache) : option V :=
  match d with
  | [] => None
  | (k', v) :: d' => if key_eqb k' k then Some v else cfind k d'
  end.

(** The cache of this bound expression and the cache of the collection. *)
Record caches := Caches { ecache : cache; dcache : cache }.

Definition cenv := string -> option V.

(** execution.py 323-345: (what is returned on a hit; what is stored on a miss) *)
Definition on_hit (sc : scope) (v : V) : V :=
  match sc with ScDiscr => if is_number v then v else thaw v | _ => v end.
Definition to_store (sc : scope) (v : V) : V :=
  match sc with ScDiscr => if is_number v then v else freeze v | _ => v end.
Definition get_cache (sc : scope) (st : caches) : cache :=
  match sc with ScDiscr => dcache st | _ => ecache st end.
Definition put_cache (sc : scope) (st : caches) (k : key) (v : V) : caches :=
  match sc with
  | ScDiscr => Caches (ecache st) ((k, v) :: dcache st)
  | _ => Caches ((k, v) :: ecache st) (dcache st)
  end.

Section Args.
Variable f : cexpr -> caches -> result V * caches.
Fixpoint eval_args (cs : list cexpr) (st : caches) : result (list V) * caches :=
  match cs with
  | [] => (Ok [], st)
  | c :: cs' =>
      let (r, st1) := f c st in
      match r with
      | Err e => (Err e, st1)
      | Ok v => let (rs, st2) := eval_args cs' st1 in
                (match rs with Ok vs => Ok (v :: vs) | Err e => Err e end, st2)
      end
  end.
End Args.

(** Evaluation through the caches.  Cache entries made before an exception stay. *)
Fixpoint ceval (c : cenv) (e : cexpr) (st : caches) {struct e} : result V * caches :=
  match e with
  | CVar n => (match c n with Some v => Ok v | None => Err UnknownVariable end, st)
  | Const k => (vconst k, st)
  | COp k cs =>
      let (rs, st1) := eval_args (ceval c) cs st in
      (match rs with Ok vs => vop k vs | Err e => Err e end, st1)
  | Cse ch p sc =>
      match sc with
      | ScEval => ceval c ch st
      | _ =>
          match cfind (KPair p ch) (get_cache sc st) with
          | Some v => (Ok (on_hit sc v), st)
          | None =>
              let (r, st1) := ceval c ch st in
              match r with
              | Ok v => (Ok v, put_cache sc st1 (KPair p ch) (to_store sc v))
              | Err e => (Err e, st1)
              end
          end
      end
  end.

(** execution.py 876-890: the short cut of [eval] for a bound expression that is
    itself a cached subexpression. *)
Definition fast_path (e : cexpr) (st : caches) : option V :=
  match e with
  | Cse ch _ ScDiscr =>
      match cfind (KExpr ch) (dcache st) with
      | Some v => Some (if is_number v then v else thaw v)
      | None => None
      end
  | _ => None
  end.
Definition bound_eval (c : cenv) (e : cexpr) (st : caches) : result V * caches :=
  match fast_path e st with
  | Some v => (Ok v, st)
  | None => ceval c e st
  end.

(** A process evaluating bound expressions of one collection: [w_e b] is the
    cache of bound expression number [b], [w_d] the cache of the collection. *)
Record world := World { w_e : nat -> cache; w_d : cache }.
Definition world0 : world := World (fun _ => []) [].
(** One call: evaluate bound expression [b] = [exprs b] with arguments [c]. *)
Definition call (exprs : nat -> cexpr) (w : world) (bc : nat * cenv) : result V * world :=
  let (b, c) := bc in
  let (r, st) := bound_eval c (exprs b) (Caches (w_e w b) (w_d w)) in
  (r, World (fun b' => if Nat.eqb b' b then ecache st else w_e w b') (dcache st)).
Fixpoint calls (exprs : nat -> cexpr) (w : world) (h : list (nat * cenv)) : world :=
  match h with
  | [] => w
  | x :: h' => calls exprs (snd (call exprs w x)) h'
  end.
End Eval.

(** The same without any cache: what the expression means. *)
Section Den.
Variable V : Type.
Variable vconst : nat -> result V.
Variable vop : nat -> list V -> result V.
Fixpoint cden (c : string -> option V) (e : cexpr) {struct e} : result V :=
  match e with
  | CVar n => match c n with Some v => Ok v | None => Err UnknownVariable end
  | Const k => vconst k
  | COp k cs => do vs <- mapM (cden c) cs; vop k vs
  | Cse ch _ _ => cden c ch
  end.
End Den.
