(** Specification for C40. *)
From Verif Require Import Base DofModel SymModel SymSpec ProxyModel.
From Coq Require Import QArith_base.
Set Implicit Arguments.

Definition operator_free (e : sexpr) : Prop := forall g cs, ~ occurs e (Node (HIntG g) cs).

(** The numbers among some factors. *)
Definition numbers (l : list sexpr) : list Q :=
  flat_map (fun e => match e with Node (HConst c) [] => [c] | _ => [] end) l.

(** [combination e ts]: [e] is a linear combination of the layer potentials in [ts],
    each weighted by the given numbers (and by further, non-constant factors that
    do not contain layer potentials), plus terms without layer potentials. *)
Inductive combination : sexpr -> list (list Q * sexpr) -> Prop :=
| cb_intg g cs : combination (Node (HIntG g) cs) [([], Node (HIntG g) cs)]
| cb_other e : operator_free e -> combination e []
| cb_sum cs tss : Forall2 combination cs tss -> combination (Node HSum cs) (concat tss)
| cb_prod l1 x l2 ts : combination x ts -> ~ operator_free x ->
    Forall operator_free (l1 ++ l2) -> Forall (fun c => ~ c == 0) (numbers (l1 ++ l2)) ->
    combination (Node HProd (l1 ++ x :: l2))
                (map (fun t => (numbers (l1 ++ l2) ++ fst t, snd t)) ts)
| cb_cse p s x ts : combination x ts -> ~ operator_free x ->
    combination (Node (HCse p s) [x]) ts.

(** A commutative ring. *)
Record cring := CR
  { cr : Type; cr0 : cr; cr1 : cr; cradd : cr -> cr -> cr; crmul : cr -> cr -> cr;
    crsub : cr -> cr -> cr; cropp : cr -> cr;
    cr_ring : ring_theory cr0 cr1 cradd crmul crsub cropp eq }.

Section Sound.
Variable R : cring.
Variable J : head -> list (cr R) -> cr R.
(** Sums, products, 0, 1 and common subexpressions mean what they say. *)
Definition arithmetic_interpretation : Prop :=
  (forall vs, J HSum vs = fold_right (cradd R) (cr0 R) vs)
  /\ (forall vs, J HProd vs = fold_right (crmul R) (cr1 R) vs)
  /\ (forall c, c == 0 -> J (HConst c) [] = cr0 R)
  /\ (forall c, c == (1#1) -> J (HConst c) [] = cr1 R)
  /\ (forall p s v, J (HCse p s) [v] = v).
(** The value of an expression, given the values of its outermost layer potentials. *)
Fixpoint leaf_value (phi : sexpr -> cr R) (e : sexpr) : cr R :=
  match e with
  | Node (HIntG _) _ => phi e
  | Node h cs => J h (map (leaf_value phi) cs)
  end.
(** The weighted sum of terms, given the values of the layer potentials. *)
Definition weight (cs : list Q) : cr R :=
  fold_right (fun c x => crmul R (J (HConst c) []) x) (cr1 R) cs.
Definition weighted_sum (phi : sexpr -> cr R) (ts : list (list Q * sexpr)) : cr R :=
  fold_right (fun t x => cradd R (crmul R (weight (fst t)) (phi (snd t))) x) (cr0 R) ts.
End Sound.

(** Kernels without source / target derivatives. *)
Fixpoint has_target_derivative (k : kern) : bool :=
  match k with
  | KBase _ => false
  | KAxisTgt _ _ | KDirTgt _ _ => true
  | KAxisSrc _ k' | KDirSrc _ k' => has_target_derivative k'
  end.
Fixpoint has_source_derivative (k : kern) : bool :=
  match k with
  | KBase _ => false
  | KAxisSrc _ _ | KDirSrc _ _ => true
  | KAxisTgt _ k' | KDirTgt _ k' => has_source_derivative k'
  end.
Fixpoint base_kernel (k : kern) : nat :=
  match k with
  | KBase b => b
  | KAxisTgt _ k' | KDirTgt _ k' | KAxisSrc _ k' | KDirSrc _ k' => base_kernel k'
  end.

(** Directional derivatives at the target. *)
Fixpoint has_dir_target (k : kern) : bool :=
  match k with
  | KBase _ => false | KDirTgt _ _ => true
  | KAxisTgt _ k' | KAxisSrc _ k' | KDirSrc _ k' => has_dir_target k'
  end.
(** A layer potential as users build them: it passed the constructor's check, source
    derivatives are on the source kernels and target derivatives on the target kernel,
    all have the same base kernel, and source vectors are not named like arguments of
    the base kernel. *)
Definition strippable (bargs : nat -> list string) (g : intg) : Prop :=
  check_kargs bargs g = true
  /\ has_source_derivative (g_tk g) = false
  /\ Forall (fun k => has_target_derivative k = false) (g_sks g)
  /\ (forall k, In k (g_sks g) -> base_kernel k = base_kernel (g_tk g))
  /\ (forall v, In v (flat_map source_args (g_sks g)) -> ~ In v (bargs (base_kernel (g_tk g)))).

(** Where things are after the preparation. *)
Definition replaced (ds dt : dofdesc) (h : head) (r : role) (d' : dofdesc) : Prop :=
  match h with
  | HIntG _ => match r with SourceSide => d' = ds | _ => d' = dt end
  | HInverse _ _ _ d => geometry d = None -> geometry d' = geometry dt
  | HInterp _ _ | HInterleave _ => True
  | _ => d' = dt
  end.
