(** Specification for the matrix builders: what it means to evaluate an expression at given
    densities, and which expressions are linear in the inputs.  Nothing here mentions matrices
    of expressions. *)
From Coq Require Import Ring.
From Verif Require Import Base MatModel.
Set Implicit Arguments.
Open Scope nat_scope.

(** The numbers are a commutative ring and equality of numbers is decided correctly. *)
Definition lawful (R : rops) : Prop :=
  ring_theory (r0 R) (r1 R) (radd R) (rmul R) (rsub R) (ropp R) eq /\
  forall a b : R, reqb R a b = true <-> a = b.

Section Spec.
Variable R : rops.

(** A number, or a nodal function with [n] entries. *)
Inductive rval := RNum (c : R) | RVec (n : nat) (f : nat -> R).

(** Pointwise operations; nodal functions have to live on equally many nodes. *)
Definition rbin (op : R -> R -> R) (a b : rval) : result rval :=
  match a, b with
  | RNum c, RNum d => Ok (RNum (op c d))
  | RNum c, RVec n g => Ok (RVec n (fun i => op c (g i)))
  | RVec n f, RNum d => Ok (RVec n (fun i => op (f i) d))
  | RVec n f, RVec n' g => if n =? n' then Ok (RVec n (fun i => op (f i) (g i))) else Err ValueError
  end.
Definition rmap (f : R -> R) (a : rval) : rval :=
  match a with RNum c => RNum (f c) | RVec n g => RVec n (fun i => f (g i)) end.

(** Contribution of one density to a layer potential at target [t]. *)
Definition lp_apply (fl : flavor) (ns : nat) (waa : nat -> R) (k : lpk R) (d : nat -> R) (t : nat) : R :=
  match fl with
  | FQbx true => rsum R ns (fun s => rmul R (lp_qbx k t s) (rmul R (waa s) (d s)))
  | FQbx false => rsum R ns (fun s => rmul R (lp_qbx k t s) (d s))
  | FP2P w ex =>
      rsum R ns (fun s => if ex && (t =? s) then r0 R
                        else rmul R (lp_p2p k t s) (if w then rmul R (waa s) (d s) else d s))
  end.

(** The value of a sum or product: left to right. *)
Section Loops.
Variable rec : bexpr R -> result rval.
Fixpoint fold_ref (op : R -> R -> R) (es : list (bexpr R)) (acc : rval) : result rval :=
  match es with
  | [] => Ok acc
  | e :: es' => do v <- rec e; do acc' <- rbin op acc v; fold_ref op es' acc'
  end.
(** The value of a layer potential: the sum over its kernels and densities, which are nodal
    functions on the source. *)
Fixpoint intg_ref (fl : flavor) (nt ns : nat) (waa : nat -> R) (ks : list (lpk R)) (ds : list (bexpr R)) (acc : nat -> R) {struct ds} : result rval :=
  match ks, ds with
  | [], [] => Ok (RVec nt acc)
  | k :: ks', d :: ds' =>
      do u <- rec d;
      match u with
      | RVec n f => if n =? ns
                    then intg_ref fl nt ns waa ks' ds' (fun t => radd R (acc t) (lp_apply fl ns waa k f t))
                    else Err ValueError
      | RNum _ => Err TypeError
      end
  | _, _ => Err ValueError
  end.
End Loops.

(** Evaluation of an expression: [env] gives the inputs and the context. *)
Fixpoint ref (fl : flavor) (env : string -> option rval) (e : bexpr R) : result rval :=
  let rec := ref fl env in
  match e with
  | ENum c => Ok (RNum c)
  | EVar x => match env x with Some v => Ok v | None => Err UnknownVariable end
  | ESum es => fold_ref rec (radd R) es (RNum (r0 R))
  | EProd es => fold_ref rec (rmul R) es (RNum (r1 R))
  | EQuot a b => do u <- rec a; do v <- rec b; rbin (@rdiv R) u v
  | EPow a k => do u <- rec a; Ok (rmap (fun c => rpow R c k) u)
  | ECall f a => do u <- rec a; Ok (rmap f u)
  | ENodes _ n f => Ok (RVec n f)
  | ERefDeriv n D a =>
      do u <- rec a;
      match u with
      | RVec k f => if k =? n then Ok (RVec n (fun i => rsum R n (fun j => rmul R (D i j) (f j)))) else Err ValueError
      | RNum _ => Err TypeError
      end
  | EInterp _ n m P a =>
      do u <- rec a;
      match u with
      | RNum c => Ok (RNum c)
      | RVec k f => if k =? m then Ok (RVec n (fun i => rsum R m (fun j => rmul R (P i j) (f j)))) else Err ValueError
      end
  | EIntG _ nt ns waa ks ds => intg_ref rec fl nt ns waa ks ds (fun _ => r0 R)
  end.

(** Context values as nodal functions, whatever container holds them. *)
Definition cval_val (c : cval R) : rval :=
  match c with CNum c => RNum c | CVec n f => RVec n f | CDof n f => RVec n f end.

(** Inputs [x] with [n] entries given by [f]; names that are no inputs come from the context. *)
Fixpoint in_env (ctx : string -> option (cval R)) (ins : list (string * (nat * (nat -> R)))) (x : string) : option rval :=
  match ins with
  | [] => match ctx x with Some c => Some (cval_val c) | None => None end
  | (y, (n, f)) :: ins' => if String.eqb x y then Some (RVec n f) else in_env ctx ins' x
  end.

(** No input occurs in the expression. *)
Fixpoint noinput (inputs : list string) (e : bexpr R) : bool :=
  match e with
  | ENum _ | ENodes _ _ _ => true
  | EVar x => negb (inb x inputs)
  | ESum es | EProd es => forallb (noinput inputs) es
  | EQuot a b => noinput inputs a && noinput inputs b
  | EPow a _ | ECall _ a | ERefDeriv _ _ a | EInterp _ _ _ _ a => noinput inputs a
  | EIntG _ _ _ _ _ ds => forallb (noinput inputs) ds
  end.

(** A number, computed from numbers. *)
Fixpoint scalar_expr (inputs : list string) (ctx : string -> option (cval R)) (e : bexpr R) : bool :=
  match e with
  | ENum _ => true
  | EVar x => negb (inb x inputs) && match ctx x with Some (CNum _) => true | _ => false end
  | ESum es | EProd es => forallb (scalar_expr inputs ctx) es
  | EQuot a b => scalar_expr inputs ctx a && scalar_expr inputs ctx b
  | EPow a _ | ECall _ a => scalar_expr inputs ctx a
  | _ => false
  end.

(** Linear expressions: inputs, their sums, multiples by expressions without inputs, quotients
    by numbers, interpolations, derivatives and layer potentials of linear expressions. *)
Fixpoint linear (inputs : list string) (ctx : string -> option (cval R)) (e : bexpr R) : bool :=
  match e with
  | EVar x => inb x inputs
  | ESum es => forallb (linear inputs ctx) es
  | EProd es => forallb (fun e => noinput inputs e || linear inputs ctx e) es
                && (length (filter (fun e => negb (noinput inputs e)) es) =? 1)
  | EQuot a b => linear inputs ctx a && scalar_expr inputs ctx b
  | ERefDeriv _ _ a | EInterp _ _ _ _ a => linear inputs ctx a
  | EIntG _ _ _ _ _ ds => forallb (linear inputs ctx) ds
  | _ => false
  end.

(** Position at which block number [i] starts. *)
Definition off (sizes : list nat) (i : nat) : nat := list_sum (firstn i sizes).

(** [blocks] is an array of [length rs] by [length cs] blocks: zeros and matrices, block (i, j)
    having [rs i] rows and [cs j] columns. *)
Definition block_shapes (blocks : list (list (mval R))) (rs cs : list nat) : Prop :=
  length blocks = length rs /\
  (forall row, In row blocks -> length row = length cs) /\
  forall i j, i < length rs -> j < length cs ->
    match nth j (nth i blocks []) MDof with
    | MNum c => c = r0 R
    | MMat n m _ => n = nth i rs 0 /\ m = nth j cs 0
    | _ => False
    end.
Definition block_entry (v : mval R) (k l : nat) : R :=
  match v with MMat _ _ f => f k l | _ => r0 R end.
(** [M] consists of these blocks. *)
Definition assembled (blocks : list (list (mval R))) (rs cs : list nat) (M : matrix R) : Prop :=
  nrows M = list_sum rs /\ ncols M = list_sum cs /\
  forall i j k l, i < length rs -> j < length cs -> k < nth i rs 0 -> l < nth j cs 0 ->
    entry M (off rs i + k) (off cs j + l) = block_entry (nth j (nth i blocks []) MDof) k l.

(** Applying [M] to the inputs [ins] (name, number of entries, entries; one after the other)
    gives the values of all expressions, one after the other: expression [i] has [ns i] values,
    value [k] of expression [i] is row [off ns i + k] of [M] times the inputs. *)
Definition applies_like (fl : flavor) (ctx : string -> option (cval R)) (ins : list (string * (nat * (nat -> R)))) (exprs : list (bexpr R)) (M : matrix R) : Prop :=
  let sizes := map (fun p => fst (snd p)) ins in
  let x j := snd (snd (nth j ins (EmptyString, (0, fun _ => r0 R)))) in
  exists ns, length ns = length exprs /\ nrows M = list_sum ns /\ ncols M = list_sum sizes /\
    forall i e, nth_error exprs i = Some e ->
      exists g, ref fl (in_env ctx ins) e = Ok (RVec (nth i ns 0) g) /\
        forall k, k < nth i ns 0 ->
          g k = rsum R (length ins) (fun j =>
                  rsum R (nth j sizes 0) (fun l => rmul R (entry M (off ns i + k) (off sizes j + l)) (x j l))).

(** Powers only of expressions without inputs; quotients only by numbers or among expressions
    without inputs; interpolation matrices reproduce constants. *)
Fixpoint tame (inputs : list string) (ctx : string -> option (cval R)) (e : bexpr R) : Prop :=
  match e with
  | ENum _ | ENodes _ _ _ => True
  | EVar x => inb x inputs = true \/ forall n f, ctx x <> Some (CDof n f)
  | ESum es | EProd es => (fix go es := match es with [] => True | e :: es' => tame inputs ctx e /\ go es' end) es
  | EQuot a b => tame inputs ctx a /\ tame inputs ctx b /\
                 (scalar_expr inputs ctx b = true \/ (noinput inputs a = true /\ noinput inputs b = true))
  | EPow a _ => tame inputs ctx a /\ noinput inputs a = true
  | ECall _ a | ERefDeriv _ _ a => tame inputs ctx a
  | EInterp _ n m P a => tame inputs ctx a /\ forall i, i < n -> rsum R m (fun j => P i j) = r1 R
  | EIntG _ _ _ _ _ ds => (fix go es := match es with [] => True | e :: es' => tame inputs ctx e /\ go es' end) ds
  end.

(** Linear combinations of layer potentials the builder is documented for: inputs, their sums,
    products with numbers, node coordinates and flat vectors from the context, interpolations to
    the upsampled discretization and layer potentials with a one-sided or averaged limit. *)
Definition coefficient (inputs : list string) (ctx : string -> option (cval R)) (e : bexpr R) : bool :=
  match e with
  | ENum _ | ENodes _ _ _ => true
  | EVar x => negb (inb x inputs) && match ctx x with Some (CNum _) | Some (CVec _ _) => true | _ => false end
  | _ => false
  end.
Fixpoint combination (inputs : list string) (ctx : string -> option (cval R)) (e : bexpr R) : bool :=
  match e with
  | EVar x => inb x inputs
  | ESum es => forallb (combination inputs ctx) es
  | EProd es => forallb (fun e => coefficient inputs ctx e || combination inputs ctx e) es
                && (length (filter (fun e => negb (coefficient inputs ctx e)) es) =? 1)
  | EInterp to_quad _ _ _ a => to_quad && combination inputs ctx a
  | EIntG (Some l) _ _ _ _ ds => negb (l =? 0)%Z && forallb (combination inputs ctx) ds
  | _ => false
  end.

End Spec.
Arguments RNum {R} c.
Arguments RVec {R} n f.
