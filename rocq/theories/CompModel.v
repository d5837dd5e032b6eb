(** Model of the operator compiler and of the evaluation of compiled code.
    /repo/pytential/symbolic/compiler.py lines 531-816,
    /repo/pytential/symbolic/execution.py lines 268-330, 381-386, 672-697. *)
From Verif Require Import Base SchedModel.
From Coq Require Import DecimalString Decimal DecimalNat.
Set Implicit Arguments.

(** [qbx_forced_limit]: None, "avg" or an integer (primitives.py 1923-1940). *)
Inductive limit := LNone | LAvg | LInt (z : Z).

(** Symbolic expressions.  Kernels, DOF descriptors, constants and node types
    are numbers.  [Lit] stands for constants and childless nodes (Ones, nodes,
    weights, ...), [Op k] for every other composite node type (product, quotient,
    power, call, reductions, interpolation, ...: [IdentityMapper] rebuilds them
    with mapped children, mappers.py 103-201), [Arr] for object arrays, [Sub] for
    a subscripted user variable, [NIR] for NamedIntermediateResult
    (primitives.py 538-540).  [CSE child prefix true] has scope EVALUATION,
    [CSE child prefix false] a longer-lived scope.  [IntG]: primitives.py 1886-2113,
    with [source_kernels] and [densities] zipped and [kernel_arguments] as the list
    [hashable_kernel_args] returns (1872-1882). *)
Inductive expr :=
| Var (n : string)
| NIR (n : string)
| SubV (n : string) (k : nat)
| Lit (k : nat)
| Sum (cs : list expr)
| Op (k : nat) (cs : list expr)
| Arr (cs : list expr)
| CSE (child : expr) (prefix : option string) (evalscope : bool)
| IntG (tk : nat) (pairs : list (nat * expr)) (lim : limit) (src tgt : nat)
       (kargs : list (string * expr)).

Definition is_intg (e : expr) : bool := match e with IntG _ _ _ _ _ _ => true | _ => false end.
Definition is_arr (e : expr) : bool := match e with Arr _ => true | _ => false end.
(** compiler.py 676: [isinstance(expr, prim.Variable | prim.Subscript)] *)
Definition is_var (e : expr) : bool :=
  match e with Var _ | NIR _ | SubV _ _ => true | _ => false end.

(** ** Python equality of expressions *)
(** Limits enter equality only through the hash (primitives.py 2084-2113):
    [hash(-1) == hash(-2)] in CPython; other limits are told apart. *)
Definition lim_pyeq (a b : limit) : bool :=
  match a, b with
  | LNone, LNone => true
  | LAvg, LAvg => true
  | LInt x, LInt y => (x =? y)%Z || ((x =? -1) && (y =? -2))%Z || ((x =? -2) && (y =? -1))%Z
  | _, _ => false
  end.

Section Forall2b.
Variables A B : Type.
Variable f : A -> B -> bool.
Fixpoint forall2b (l : list A) (l' : list B) : bool :=
  match l, l' with
  | [], [] => true
  | a :: l, b :: l' => f a b && forall2b l l'
  | _, _ => false
  end.
End Forall2b.

Definition opt_eqb (a b : option string) : bool :=
  match a, b with
  | None, None => true
  | Some x, Some y => String.eqb x y
  | _, _ => false
  end.

(** pymbolic's structural equality, with [IntG.__eq__] (primitives.py 2084-2102). *)
Fixpoint pyeq (a b : expr) {struct a} : bool :=
  match a, b with
  | Var x, Var y => String.eqb x y
  | NIR x, NIR y => String.eqb x y
  | SubV x i, SubV y j => String.eqb x y && Nat.eqb i j
  | Lit i, Lit j => Nat.eqb i j
  | Sum l, Sum l' => forall2b pyeq l l'
  | Op k l, Op k' l' => Nat.eqb k k' && forall2b pyeq l l'
  | Arr l, Arr l' => forall2b pyeq l l'
  | CSE c p s, CSE c' p' s' => pyeq c c' && opt_eqb p p' && Bool.eqb s s'
  | IntG tk ps l s t ks, IntG tk' ps' l' s' t' ks' =>
      Nat.eqb tk tk' && lim_pyeq l l' && Nat.eqb s s' && Nat.eqb t t'
      && forall2b (fun p q => match p, q with (k, d), (k', d') => Nat.eqb k k' && pyeq d d' end) ps ps'
      && forall2b (fun p q => match p, q with (k, d), (k', d') => String.eqb k k' && pyeq d d' end) ks ks'
  | _, _ => false
  end.

(** Dictionary lookup by Python equality; newest entry first. *)
Fixpoint lookup {A : Type} (e : expr) (d : list (expr * A)) : option A :=
  match d with
  | [] => None
  | (k, v) :: d' => if pyeq k e then Some v else lookup e d'
  end.

(** ** Statements and compiler state *)
(** compiler.py 114-188 ([Assign]) and 193-320 ([PotentialOutput],
    [ComputePotential]); an output is (name, (target kernel, target, limit)). *)
Inductive cstmt :=
| CAssign (name : string) (e : expr)
| CPot (outs : list (string * (nat * nat * limit))) (sks : list nat) (dens : list expr)
       (kargs : list (string * expr)) (src : nat).

(** compiler.py 546-585: [code], [expr_to_var], [assigned_names]; [memo] is the
    cache of [CachedIdentityMapper] (mappers.py 204-213). *)
Record cst := Cst
  { code : list cstmt; e2v : list (expr * expr); names : list string;
    memo : list (expr * expr) }.
Definition cst0 := Cst [] [] [] [].

Definition add_code (st : cst) (s : cstmt) : cst :=
  Cst (code st ++ [s]) (e2v st) (names st) (memo st).
Definition add_name (st : cst) (n : string) : cst :=
  Cst (code st) (e2v st) (n :: names st) (memo st).
Definition add_e2v (st : cst) (k v : expr) : cst :=
  Cst (code st) ((k, v) :: e2v st) (names st) (memo st).
Definition add_memo (st : cst) (k v : expr) : cst :=
  Cst (code st) (e2v st) (names st) ((k, v) :: memo st).

Definition str_of_nat (i : nat) : string := NilEmpty.string_of_uint (Nat.to_uint i).

(** compiler.py 637-648: the i-th candidate name ([self.prefix] is "_expr"). *)
Definition cand (prefix : option string) (i : nat) : string :=
  match prefix with
  | None => String.append "_expr" (str_of_nat i)
  | Some p => match i with
              | O => p
              | S _ => String.append p (String.append "_" (str_of_nat (S i)))
              end
  end.

(** compiler.py 650-664: first candidate not in [assigned_names]. *)
Fixpoint find_name (fuel i : nat) (prefix : option string) (used : list string)
    : result string :=
  match fuel with
  | O => Err OutOfFuel
  | S f => if inb (cand prefix i) used then find_name f (S i) prefix used
           else Ok (cand prefix i)
  end.

Definition get_var_name (prefix : option string) (st : cst) : result (string * cst) :=
  do n <- find_name (S (length (names st))) 0 prefix (names st);
  Ok (n, add_name st n).

(** compiler.py 672-691 ([assign_to_new_var]; no class of the code base defines a
    [priority] attribute, so all priorities are 0). *)
Definition assign_new (prefix : option string) (e : expr) (st : cst) : result (expr * cst) :=
  if is_var e then Ok (e, st)
  else do (n, st1) <- get_var_name prefix st;
       Ok (NIR n, add_code st1 (CAssign n e)).

(** Sequencing of recursive calls. *)
Definition comp_fun := cst -> result (expr * cst).
Fixpoint runs (fs : list comp_fun) (st : cst) : result (list expr * cst) :=
  match fs with
  | [] => Ok ([], st)
  | f :: fs' => do (v, st1) <- f st; do (vs, st2) <- runs fs' st1; Ok (v :: vs, st2)
  end.
(** compiler.py 720-723, 768-770: [[assign_to_new_var(rec(x)) for x in xs]]. *)
Fixpoint runs_assign (fs : list comp_fun) (st : cst) : result (list expr * cst) :=
  match fs with
  | [] => Ok ([], st)
  | f :: fs' => do (v, st1) <- f st; do (w, st2) <- assign_new None v st1;
                do (ws, st3) <- runs_assign fs' st2; Ok (w :: ws, st3)
  end.
(** compiler.py 700-707: the loop of [map_sum]. *)
Fixpoint sum_loop (fs : list comp_fun) (r : expr) (st : cst) : result (expr * cst) :=
  match fs with
  | [] => Ok (r, st)
  | f :: fs' => do (v, st1) <- f st; do (r', st2) <- assign_new None (Sum [r; v]) st1;
                sum_loop fs' r' st2
  end.
Fixpoint fresh_names (k : nat) (st : cst) : result (list string * cst) :=
  match k with
  | O => Ok ([], st)
  | S k' => do (n, st1) <- get_var_name None st; do (ns, st2) <- fresh_names k' st1;
            Ok (n :: ns, st2)
  end.
Fixpoint add_e2vs (st : cst) (ks : list expr) (ns : list string) : cst :=
  match ks, ns with
  | k :: ks', n :: ns' => add_e2vs (add_e2v st k (NIR n)) ks' ns'
  | _, _ => st
  end.

(** [sorted(..., key=...)]: stable insertion sort by a total preorder. *)
Section Sort.
Variable A : Type.
Variable le : A -> A -> bool.
Fixpoint insert (x : A) (l : list A) : list A :=
  match l with
  | [] => [x]
  | y :: l' => if le x y then x :: y :: l' else y :: insert x l'
  end.
Fixpoint isort (l : list A) : list A :=
  match l with [] => [] | x :: l' => insert x (isort l') end.
End Sort.

Section Compiler.
(** Order of (kernel, density) pairs by their string form (utils.py 47-57 with
    [key=str]); any relation will do. *)
Variable ple : nat * expr -> nat * expr -> bool.
(** The kernel feature that enters [op_group_features] (source.py 225-237,
    unregularized.py 139-145: base kernel; qbx/__init__.py 527-532: nothing). *)
Variable kfeat : nat -> nat -> nat.
(** Iteration order of a Python set. *)
Variable gorder : list expr -> list expr.

Definition psort (ps : list (nat * expr)) : list (nat * expr) := isort ple ps.

(** compiler.py 587-596 ([op_group_features] equality). *)
Definition feat_eqb (a b : expr) : bool :=
  match a, b with
  | IntG tk ps _ s _ ks, IntG tk' ps' _ s' _ ks' =>
      Nat.eqb s s' && Nat.eqb (kfeat s tk) (kfeat s' tk')
      && forall2b (fun p q => Nat.eqb (fst p) (fst q) && pyeq (snd p) (snd q)) (psort ps) (psort ps')
      && forall2b (fun p q => String.eqb (fst p) (fst q) && pyeq (snd p) (snd q)) ks ks'
  | _, _ => false
  end.

(** mappers.py 291-294 ([OperatorCollector]) as a list. *)
Fixpoint collect (e : expr) : list expr :=
  match e with
  | Var _ | NIR _ | SubV _ _ | Lit _ => []
  | Sum cs | Op _ cs | Arr cs => flat_map collect cs
  | CSE c _ _ => collect c
  | IntG _ ps _ _ _ ks =>
      e :: flat_map (fun p => match p with (_, d) => collect d end) ps
        ++ flat_map (fun p => match p with (_, d) => collect d end) ks
  end.

(** Insertion into a Python set. *)
Fixpoint dedup (l : list expr) : list expr :=
  match l with
  | [] => []
  | x :: l' => x :: filter (fun y => negb (pyeq x y)) (dedup l')
  end.

(** compiler.py 603-614 and 772: the operators evaluated together with [e]. *)
Definition group_of (root e : expr) : list expr :=
  gorder (dedup (filter (fun o => feat_eqb o e) (collect root))).

Definition out_of (g : expr) (n : string) : string * (nat * nat * limit) :=
  match g with
  | IntG tk _ l _ t _ => (n, (tk, t, l))
  | _ => (n, (0, 0, LNone))
  end.
Definition is_avg (g : expr) : bool :=
  match g with IntG _ _ LAvg _ _ _ => true | _ => false end.

(** The mapper.  [direct = true] is a call of [map_int_g] that by-passes the
    memo of the mapper (compiler.py 749). *)
Fixpoint comp (root : expr) (direct : bool) (e : expr) (st : cst) {struct e}
    : result (expr * cst) :=
  match (if direct then None else lookup e (memo st)) with
  | Some v => Ok (v, st)
  | None =>
    do (v, st') <-
      match e with
      | Var _ | NIR _ | SubV _ _ | Lit _ => Ok (e, st)
      | Sum cs =>                                   (* compiler.py 697-709 *)
          match map (comp root false) cs with
          | [] => Err IndexError
          | f :: fs =>
              do (v, st1) <- f st;
              do (r, st2) <- assign_new None v st1;
              sum_loop fs r st2
          end
      | Op k cs =>                                  (* mappers.py 103-201 *)
          do (vs, st1) <- runs (map (comp root false) cs) st; Ok (Op k vs, st1)
      | Arr cs =>                                   (* compiler.py 711-726 *)
          do (vs, st1) <- runs_assign (map (comp root false) cs) st; Ok (Arr vs, st1)
      | CSE c p sc =>                               (* compiler.py 728-759 *)
          if sc then
            match lookup c (e2v st) with
            | Some v => Ok (v, st)
            | None =>
                do (v, st1) <- comp root (is_intg c) c st;
                do (w, st2) <- assign_new p v st1;
                Ok (w, add_e2v st2 c w)
            end
          else Ok (e, st)
      | IntG tk ps l s t ks =>                      (* compiler.py 761-816 *)
          match lookup e (e2v st) with
          | Some v => Ok (v, st)
          | None =>
              match ps with
              | [] => Err ValueError
              | _ :: _ =>
                let sorted := isort (fun a b => ple (fst a) (fst b))
                    (map (fun p => (p, match p with (_, d) => comp root false d end)) ps) in
                do (dvars, st1) <- runs_assign (map snd sorted) st;
                let group := group_of root e in
                match group with
                | [] => Err KeyError
                | _ :: _ =>
                  do (ns, st2) <- fresh_names (length group) st1;
                  if existsb is_avg group then Err AssertionError else
                  do (kvs, st3) <-
                    runs (map (fun a => match a with (_, x) => comp root false x end) ks) st2;
                  let stmt := CPot (map (fun q => out_of (fst q) (snd q)) (combine group ns))
                                (map (fun a => fst (fst a)) sorted) dvars
                                (combine (map fst ks) kvs) s in
                  let st4 := add_e2vs (add_code st3 stmt) group ns in
                  match lookup e (e2v st4) with
                  | Some v => Ok (v, st4)
                  | None => Err KeyError
                  end
                end
              end
          end
      end;
    Ok (v, if direct || is_arr e then st' else add_memo st' e v)
  end.

(** compiler.py 601-620 ([__call__]) up to scheduling. *)
Definition compile (e : expr) : result (list cstmt * expr) :=
  do (v, st) <- comp e false e cst0; Ok (code st, v).
End Compiler.

(** ** Statements for the scheduler *)
(** Variables a dependency mapper finds (mappers.py 218-298). *)
Fixpoint fv (e : expr) : list dep :=
  match e with
  | Var n => [Dep n false]
  | NIR n => [Dep n true]
  | SubV n _ => [Dep n false]
  | Lit _ => []
  | Sum cs | Op _ cs | Arr cs => flat_map fv cs
  | CSE c _ _ => fv c
  | IntG _ ps _ _ _ ks =>
      flat_map (fun p => match p with (_, d) => fv d end) ps
        ++ flat_map (fun p => match p with (_, d) => fv d end) ks
  end.

(** compiler.py 139-152 and 255-267.  [i] stands for the object identity. *)
Definition to_stmt (i : nat) (s : cstmt) : stmt :=
  match s with
  | CAssign n e => Stmt i [n] (filter (fun d => negb (String.eqb (dname d) n)) (fv e)) 0%Z
  | CPot outs _ ds ks _ =>
      Stmt i (map fst outs) (flat_map fv ds ++ flat_map (fun a => fv (snd a)) ks) 0%Z
  end.
Definition to_stmts (c : list cstmt) : list stmt :=
  map (fun p => to_stmt (fst p) (snd p)) (combine (seq 0 (length c)) c).

(** ** Values *)
Section Eval.
Variable V : Type.
(** Oracles: constants, [0 + x + y] steps of Python's [sum], all other node
    types, subscripting, object arrays, and layer potentials (target kernel,
    (source kernel, density value) pairs, kernel arguments, limit, source, target). *)
Variable vzero : V.
Variable vlit : nat -> result V.
Variable vadd : V -> V -> result V.
Variable vop : nat -> list V -> result V.
Variable vsub : nat -> V -> result V.
Variable varr : list V -> V.
Variable vpot : nat -> list (nat * V) -> list (string * V) -> limit -> nat -> nat -> result V.

Fixpoint vsum (acc : V) (vs : list V) : result V :=
  match vs with
  | [] => Ok acc
  | v :: vs' => do a <- vadd acc v; vsum a vs'
  end.

Definition get (c : ctx V) (n : string) : result V :=
  match c n with Some v => Ok v | None => Err UnknownVariable end.

(** Evaluation of an expression.  [lp = false] is the evaluation mapper used
    during execution, which has no [map_int_g] (execution.py 112-386); [lp = true]
    is the mathematical meaning, with layer potentials evaluated one by one. *)
Fixpoint evalx (lp : bool) (c : ctx V) (e : expr) {struct e} : result V :=
  match e with
  | Var n | NIR n => get c n
  | SubV n k => do v <- get c n; vsub k v
  | Lit k => vlit k
  | Sum cs => do vs <- mapM (evalx lp c) cs; vsum vzero vs
  | Op k cs => do vs <- mapM (evalx lp c) cs; vop k vs
  | Arr cs => do vs <- mapM (evalx lp c) cs; Ok (varr vs)
  | CSE ch _ _ => evalx lp c ch
  | IntG tk ps l s t ks =>
      if lp then
        do vs <- mapM (fun p => match p with (k, d) => do v <- evalx lp c d; Ok (k, v) end) ps;
        do ws <- mapM (fun p => match p with (k, d) => do v <- evalx lp c d; Ok (k, v) end) ks;
        vpot tk vs ws l s t
      else Err NotImplementedError
  end.

(** execution.py 381-386 ([exec_assign]) and [exec_compute_potential_insn]: each
    output is the potential for its own target kernel, target and limit. *)
Definition cexec (s : cstmt) (c : ctx V) : result (list (string * V)) :=
  match s with
  | CAssign n e => do v <- evalx false c e; Ok [(n, v)]
  | CPot outs sks ds ks src =>
      do vs <- mapM (evalx false c) ds;
      do ws <- mapM (fun p => match p with (k, d) => do v <- evalx false c d; Ok (k, v) end) ks;
      mapM (fun o => match o with (n, (tk, t, l)) =>
              do v <- vpot tk (combine sks vs) ws l src t; Ok (n, v) end) outs
  end.

Definition csem (c : list cstmt) (s : stmt) : ctx V -> result (list (string * V)) :=
  match nth_error c (sid s) with
  | Some x => cexec x
  | None => fun _ => Err NoStatement
  end.

(** Compile, schedule, execute: what calling a bound expression does after
    preprocessing (compiler.py 601-620, execution.py 672-697, 893). *)
Definition compile_and_run ple kfeat gorder (e : expr) (c0 : ctx V) : result (V * ctx V) :=
  do (code, r) <- compile ple kfeat gorder e;
  match compute_schedule (to_stmts code) (map dname (fv r)) with
  | None => Err OutOfFuel
  | Some (inputs, sched) =>
      execute (csem code) (fun c => evalx false c r) inputs sched c0
  end.
End Eval.

(** ** Equality and hash of layer potential nodes *)
(** primitives.py 1886-2073: the fields of an [IntG]; kernels, densities, DOF
    descriptors and argument values are numbers (their own equality and hash are
    exact), kernel arguments the list [hashable_kernel_args] returns (1872-1882). *)
Record intg := MkIntG
  { g_tk : nat; g_sks : list nat; g_dens : list nat; g_lim : limit; g_src : nat; g_tgt : nat;
    g_kargs : list (string * nat) }.
Definition set_lim (g : intg) (l : limit) : intg :=
  MkIntG (g_tk g) (g_sks g) (g_dens g) l (g_src g) (g_tgt g) (g_kargs g).

Section IntGHash.
(** CPython's tuple hash, the hashes of the components, and of None and "avg". *)
Variable H : list Z -> Z.
Variables hk hd : nat -> Z.
Variables hnone havg : Z.
(** [hash] of an int of small absolute value is the int, except [hash(-1) == -2]. *)
Definition int_hash (z : Z) : Z := if (z =? -1)%Z then (-2)%Z else z.
Definition lim_hash (l : limit) : Z :=
  match l with LNone => hnone | LAvg => havg | LInt z => int_hash z end.
(** primitives.py 2104-2113; a string's hash is a fold over its characters here. *)
Fixpoint str_hash (s : string) : Z :=
  match s with
  | EmptyString => 0%Z
  | String c s' => (Z.of_nat (Ascii.nat_of_ascii c) + 256 * str_hash s')%Z
  end.
Definition intg_hash (g : intg) : Z :=
  H [hk (g_tk g); H (map hk (g_sks g)); H (map hd (g_dens g)); lim_hash (g_lim g);
     hd (g_src g); hd (g_tgt g); H (map (fun p => H [str_hash (fst p); hd (snd p)]) (g_kargs g))].
(** primitives.py 2084-2102. *)
Definition intg_eq (a b : intg) : bool :=
  (intg_hash a =? intg_hash b)%Z
  && Nat.eqb (g_tk a) (g_tk b)
  && forall2b Nat.eqb (g_sks a) (g_sks b)
  && forall2b Nat.eqb (g_dens a) (g_dens b)
  && Nat.eqb (g_src a) (g_src b) && Nat.eqb (g_tgt a) (g_tgt b)
  && forall2b (fun p q => String.eqb (fst p) (fst q) && Nat.eqb (snd p) (snd q)) (g_kargs a) (g_kargs b).
End IntGHash.
