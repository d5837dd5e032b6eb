(** Specification vocabulary for the compiler theorems. *)
From Verif Require Import Base SchedModel CompModel.
Set Implicit Arguments.

(** Immediate children and the subexpression relation. *)
Definition children (e : expr) : list expr :=
  match e with
  | Var _ | NIR _ | SubV _ _ | Lit _ => []
  | Sum cs | Op _ cs | Arr cs => cs
  | CSE c _ _ => [c]
  | IntG _ ps _ _ _ ks => map snd ps ++ map snd ks
  end.

Inductive sub (root : expr) : expr -> Prop :=
| sub_refl : sub root root
| sub_step : forall e c, sub root e -> In c (children e) -> sub root c.

(** Expressions the compiler accepts: as written by the user (no compiler
    temporaries), no empty sums, layer potentials with at least one density and
    without the limit "avg" (removed by preprocessing), and no layer potential
    below a long-lived common subexpression. *)
Definition accepted (root : expr) : Prop :=
  forall x, sub root x ->
    match x with
    | NIR _ => False
    | Sum cs => cs <> []
    | IntG _ ps l _ _ _ => ps <> [] /\ l <> LAvg
    | CSE c _ false => forall y, sub c y -> is_intg y = false
    | _ => True
    end.

(** Names the compiler may generate for this expression. *)
Definition may_generate (root : expr) (n : string) : Prop :=
  exists p i, n = cand p i /\
    (p = None \/ exists c, sub root (CSE c p true)).

(** No user variable has such a name. *)
Definition no_capture (root : expr) : Prop :=
  forall x, sub root x ->
    match x with Var n | SubV n _ => ~ may_generate root n | _ => True end.

(** The limits -1 and -2 do not both occur. *)
Definition limits_distinct (root : expr) : Prop :=
  forall tk ps s t ks tk' ps' s' t' ks',
    sub root (IntG tk ps (LInt (-1)) s t ks) -> ~ sub root (IntG tk' ps' (LInt (-2)) s' t' ks').

(** Renaming of the user variables of an expression. *)
Fixpoint rename (f : string -> string) (e : expr) : expr :=
  match e with
  | Var n => Var (f n)
  | SubV n k => SubV (f n) k
  | NIR _ | Lit _ => e
  | Sum cs => Sum (map (rename f) cs)
  | Op k cs => Op k (map (rename f) cs)
  | Arr cs => Arr (map (rename f) cs)
  | CSE c p s => CSE (rename f c) p s
  | IntG tk ps l s t ks =>
      IntG tk (map (fun p => match p with (k, d) => (k, rename f d) end) ps) l s t
           (map (fun p => match p with (k, d) => (k, rename f d) end) ks)
  end.

(** All fields of two layer potentials agree, except possibly the limit. *)
Definition same_but_limit (a b : intg) : Prop :=
  g_tk a = g_tk b /\ g_sks a = g_sks b /\ g_dens a = g_dens b /\
  g_src a = g_src b /\ g_tgt a = g_tgt b /\ g_kargs a = g_kargs b.
