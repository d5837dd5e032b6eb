(** What a bound expression should compute: the value of the expression, node by node. *)
From Verif Require Import Base DofModel SymModel SymSpec SchedModel.
From Coq Require Import Permutation.
From Coq Require DecimalString.
Set Implicit Arguments.

Section Value.
Variable V : Type.
Variable J : head -> list V -> result V.
(** The value of an expression: variables come from the caller, every other node is
    computed from the values of its operands. *)
Fixpoint seval (c : string -> option V) (e : sexpr) : result V :=
  let 'Node h cs := e in
  match h with
  | HVar n => match c n with Some v => Ok v | None => Err UnknownVariable end
  | _ => do vs <- mapM (seval c) cs; J h vs
  end.

(** What is assumed of the node types: common subexpressions are transparent, object arrays
    can always be formed, sums are repeated additions starting from 0 (which is neutral), and
    a layer potential is symmetric in its (source kernel, density) pairs. *)
Fixpoint add_up (add : V -> V -> result V) (acc : V) (vs : list V) : result V :=
  match vs with [] => Ok acc | v :: vs' => do a <- add acc v; add_up add a vs' end.
Record evaluator (add : V -> V -> result V) (zero : V) (arr : list V -> V) : Prop :=
  { ev_cse : forall p s v, J (HCse p s) [v] = Ok v;
    ev_array : forall vs, J HArray vs = Ok (arr vs);
    ev_sum : forall vs, J HSum vs = add_up add zero vs;
    ev_zero : forall v, add zero v = Ok v;
    ev_pairs : forall tk ps ps' n l s t names ws, Permutation ps ps' -> length names = length ws ->
       J (HIntG (IntG tk (map fst ps) n l s t names)) (map snd ps ++ ws)
       = J (HIntG (IntG tk (map fst ps') n l s t names)) (map snd ps' ++ ws) }.
End Value.

(** Nodes have the operands they should have. *)
Definition well_formed (e : sexpr) : Prop :=
  forall h cs, occurs e (Node h cs) ->
    match h with
    | HVar _ => cs = []
    | HCse _ _ | HInterp _ _ => exists c, cs = [c]
    | HSum => cs <> []
    | HIntG g => g_nd g = length (g_sks g) /\ length cs = (g_nd g + length (g_kargs g))%nat /\ g_nd g <> 0%nat
    | _ => True
    end.
(** Names of the compiler's own variables: _expr0, _expr1, ..., and for a prefix p of a common
    subexpression p, p_2, p_3, ... *)
Definition numbered (base : string) (i : nat) : string :=
  String.append base (DecimalString.NilEmpty.string_of_uint (Nat.to_uint i)).
Definition own_name (e : sexpr) (n : string) : Prop :=
  (exists i, n = numbered "_expr" i)
  \/ exists p s cs, occurs e (Node (HCse p s) cs) /\ s = 0%nat /\
       match p with
       | None => False
       | Some p => n = p \/ exists i, (2 <= i)%nat /\ n = numbered (String.append p "_") i
       end.
(** What the compiler needs (C04): no limit "avg" and no layer potential in a long-lived common
    subexpression, no variable with one of the compiler's names, and not both of the limits
    -1 and -2. *)
Definition compilable (e : sexpr) : Prop :=
  (forall g cs, occurs e (Node (HIntG g) cs) -> g_lim g <> LAvg)
  /\ (forall p s c, occurs e (Node (HCse p s) [c]) -> s <> 0%nat -> forall g cs, ~ occurs c (Node (HIntG g) cs))
  /\ (forall n cs, occurs e (Node (HVar n) cs) -> ~ own_name e n)
  /\ ~ (exists g g' cs cs', occurs e (Node (HIntG g) cs) /\ occurs e (Node (HIntG g') cs')
          /\ g_lim g = LInt (-1) /\ g_lim g' = LInt (-2)).

(** An expression that leaves nothing to binding: every geometry and the stages of layer
    potentials are explicit, interpolations are not trivial, limits fit (QBX: a side on the source itself,
    no side or a forced one elsewhere; no limit if there is an unregularized place), and
    reference derivatives are not on the oversampled stage. *)
Definition settled (ps : places) (e : sexpr) : Prop :=
  (forall h cs r d, occurs e (Node h cs) -> In (r, d) (locations h) -> explicit d)
  /\ (forall f t cs, occurs e (Node (HInterp f t) cs) -> f <> t)
  /\ (forall g cs, occurs e (Node (HIntG g) cs) ->
        discr_stage (g_src g) <> None /\ discr_stage (g_tgt g) <> None
        /\ (In PUnreg (map snd ps) -> g_lim g = LNone)
        /\ (forall name, In (name, PQbx) ps -> geometry (g_src g) = Some name ->
              ((geometry (g_tgt g) = Some name /\ discr_stage (g_tgt g) = discr_stage (g_src g))
                 /\ (g_lim g = LInt 1 \/ g_lim g = LInt (-1)))
              \/ (~ (geometry (g_tgt g) = Some name /\ discr_stage (g_tgt g) = discr_stage (g_src g))
                 /\ (g_lim g = LNone \/ g_lim g = LInt 2 \/ g_lim g = LInt (-2)))))
  /\ (forall a d cs, occurs e (Node (HNumRefDer a d) cs) -> discr_stage d <> Some QUAD_STAGE2).
