(** Model of how a QBX source executes potential instructions over its lifetime:
    /repo/pytential/qbx/__init__.py 485-793 and 866-1068 (dispatch, memoized geometry data,
    FMM and direct executors, cost model driver) and the inputs of the tree builder and the
    traversal builder in /repo/pytential/qbx/geometry.py 563-641, 796-838.

    The state of the source is its memo dictionaries; a log records what was computed.  The
    numerical parts (association, FMM, direct evaluation) are those of FmmModel.

    Simplifications: target objects, geometry collections, geometry names and kernels are
    numbers; evaluating the densities and the kernel arguments either raises or not (strengths
    are labels, as in FmmModel); kernels of sumpy, pyfmmlib and loopy are not modelled; the
    geometry data inspector is an arbitrary sequence of answers. *)
From Coq Require Import QArith.
From Verif Require Import Base RefineModel AssocModel FmmModel.
Set Implicit Arguments.
Open Scope nat_scope.

(** [places], the source's name, and (target object, side) pairs: the arguments of
    qbx_fmm_geometry_data (qbx/__init__.py 485-516). *)
Record gkey := GK { k_places : nat; k_name : nat; k_tgts : list (nat * Z) }.
Definition pair_eqb (a b : nat * Z) : bool := (fst a =? fst b) && (snd a =? snd b)%Z.
Fixpoint tgts_eqb (a b : list (nat * Z)) : bool :=
  match a, b with
  | [], [] => true
  | x :: a', y :: b' => pair_eqb x y && tgts_eqb a' b'
  | _, _ => false
  end.
Definition gkey_eqb (a b : gkey) : bool :=
  (k_places a =? k_places b) && (k_name a =? k_name b) && tgts_eqb (k_tgts a) (k_tgts b).
Fixpoint nats_eqb (a b : list nat) : bool :=
  match a, b with
  | [], [] => true
  | x :: a', y :: b' => (x =? y) && nats_eqb a' b'
  | _, _ => false
  end.

(** What is handed to the tree builder (geometry.py 613-626): number of sources, targets, refine
    weights of all particles, target radii. *)
Record tree_args := TA {
  ta_nsrc : nat; ta_targets : list pt; ta_weights : list Z; ta_radii : option (list Q) }.

(** The outside world: sources as refined within a collection, the points of a target object,
    the tree and traversal builders, sumpy's facts on kernels and pyfmmlib's verdict on
    source kernels, target kernels and _use_target_specific_qbx. *)
Record world := World {
  w_q : nat -> nat -> qsource;
  w_pts : nat -> list pt;
  w_build : tree_args -> ftree;
  w_trav : ftree -> bool -> ftrav;
  w_base : nat -> nat;
  w_invariant : nat -> bool;
  w_fmmlib : list nat -> list nat -> option bool -> option exn }.

(** The source's settings (qbx/__init__.py 171-390). *)
Record settings := Settings {
  c_direct : bool;                       (* fmm_level_to_order is False *)
  c_norefine : bool;                     (* refinement_mode is NO_REFINEMENT *)
  c_backend : string;
  c_tsqbx : option bool;
  c_inspector : option (nat -> bool);    (* truth of its n-th answer *)
  c_extent : bool }.                     (* _expansions_in_tree_have_extent *)

(** A ComputePotential statement and the bound expression it is executed for. *)
Record insn := Insn {
  i_src : nat; i_skn : list nat; i_tkn : list nat; i_outs : list output;
  i_strengths : option exn; i_args : option exn }.
Record bexpr := BExpr {
  b_places : nat;
  b_obj : nat -> result nat;             (* target name to object *)
  b_self : nat -> bool }.                (* the object is the source's discretization *)

Inductive failure := Std (e : exn) | UnboundLocal.
Inductive outcome (A : Type) := Val (a : A) | Exc (e : failure).
Arguments Exc {A} _.
Inductive event :=
| EWarn
| EGeo (k : gkey)
| EAssoc (k : gkey) (ok : bool)
| ETree (k : gkey) (a : tree_args)
| ETrav (k : gkey) (merged : bool)
| EIndep (sk tk : list nat)
| EInspect (k : gkey)
| EDrive (k : gkey)
| ECost (k : gkey).

Record geo := Geo { g_ttc : option (list Z); g_tree : option ftree; g_trav : option ftrav }.
Record state := St {
  s_geo : list (gkey * geo);
  s_indep : list (list nat * list nat);
  s_calls : nat;
  s_log : list event }.
Definition fresh : state := St [] [] 0 [].

Definition M (A : Type) := state -> state * outcome A.
Definition ret A (a : A) : M A := fun s => (s, Val a).
Definition fail A (e : failure) : M A := fun s => (s, Exc e).
Definition bind A B (m : M A) (f : A -> M B) : M B :=
  fun s => match m s with (s', Val a) => f a s' | (s', Exc e) => (s', Exc e) end.
Notation "'mdo' x <- m ; f" := (bind m (fun x => f)) (at level 200, x pattern, m at level 100, f at level 200).
Definition lift A (r : result A) : M A := match r with Ok a => ret a | Err e => fail A (Std e) end.
Definition say (e : event) : M unit := fun s => (St (s_geo s) (s_indep s) (s_calls s) (s_log s ++ [e]), Val tt).
Definition raise_if (o : option exn) : M unit := match o with None => ret tt | Some e => fail unit (Std e) end.
Fixpoint mmap A B (f : A -> M B) (l : list A) : M (list B) :=
  match l with
  | [] => ret []
  | x :: l' => mdo y <- f x; mdo ys <- mmap f l'; ret (y :: ys)
  end.

Definition find_geo (s : state) (k : gkey) : option geo :=
  match find (fun e => gkey_eqb (fst e) k) (s_geo s) with Some e => Some (snd e) | None => None end.
Fixpoint put_geo (l : list (gkey * geo)) (k : gkey) (g : geo) : list (gkey * geo) :=
  match l with
  | [] => [(k, g)]
  | (k', g') :: l' => if gkey_eqb k' k then (k', g) :: l' else (k', g') :: put_geo l' k g
  end.
Definition set_geo (k : gkey) (g : geo) : M unit :=
  fun s => (St (put_geo (s_geo s) k g) (s_indep s) (s_calls s) (s_log s), Val tt).
Definition get_geo (k : gkey) : M geo :=
  fun s => (s, Val (match find_geo s k with Some g => g | None => Geo None None None end)).

Inductive value := Zero | Pot (v : list (list contr)).
Inductive mode := Exec | Cost.

Section Source.
Variable W : world.
Variable C : settings.

(** qbx/__init__.py 485-516: memoized on the source. *)
Definition geometry_data (k : gkey) : M unit := fun s =>
  match find_geo s k with
  | Some _ => (s, Val tt)
  | None => (mdo _ <- say (EGeo k); set_geo k (Geo None None None)) s
  end.

Definition source_of (k : gkey) : qsource := w_q W (k_places k) (k_name k).
Definition points_of (k : gkey) : list (list pt * Z) := map (fun e => (w_pts W (fst e), snd e)) (k_tgts k).

(** geometry.py 796-838: memoized on the geometry data; exceptions are not remembered. *)
Definition user_target_to_center (k : gkey) : M (list Z) :=
  mdo g <- get_geo k;
  match g_ttc g with
  | Some t => ret t
  | None =>
    match associate_all (source_of k) (points_of k) with
    | Raised e => mdo _ <- say (EAssoc k false); fail _ (Std e)
    | Failed _ _ => mdo _ <- say (EAssoc k false); fail _ (Std TargetAssociationFailed)
    | Associated a =>
      let t := user_ttc (length (q_ctr (source_of k))) a in
      mdo _ <- say (EAssoc k true);
      mdo _ <- set_geo k (Geo (Some t) (g_tree g) (g_trav g));
      ret t
    end
  end.

(** geometry.py 592-609: the array of refine weights; [split] is what the slices [:-n] and [-n:]
    make of n, also for n = 0. *)
Definition refine_weights (nsrc ntgt : nat) (ttc : list Z) : result (list Z) :=
  let n := nsrc + ntgt in
  let split := if ntgt =? 0 then 0 else n - ntgt in
  let a := write_slice (repeat 0%Z n) 0 (repeat 1%Z split) in
  if length ttc =? n - split
  then Ok (write_slice a split (map (fun c => if (c =? -1)%Z then 1%Z else 0%Z) ttc))
  else Err ValueError.
(** geometry.py 586-590. *)
Definition target_radii (q : qsource) (ntgt : nat) : option (list Q) :=
  if c_extent C
  then Some (write_slice (repeat 0%Q ntgt) 0 (map (q_radius q) (seq 0 (length (q_ctr q)))))
  else None.
(** geometry.py 563-633: memoized. *)
Definition tree (k : gkey) : M ftree :=
  mdo g <- get_geo k;
  match g_tree g with
  | Some t => ret t
  | None =>
    let q := source_of k in
    let P := target_points (q_ctr q) (points_of k) in
    let r := target_radii q (length P) in
    mdo ttc <- user_target_to_center k;
    mdo ws <- lift (refine_weights (q_nquad q) (length P) ttc);
    let a := TA (q_nquad q) P ws r in
    mdo _ <- say (ETree k a);
    let t := w_build W a in
    mdo g <- get_geo k;
    mdo _ <- set_geo k (Geo (g_ttc g) (Some t) (g_trav g));
    ret t
  end.
(** geometry.py 635-658: memoized; called with merge_close_lists=True only. *)
Definition traversal (k : gkey) : M ftrav :=
  mdo g <- get_geo k;
  match g_trav g with
  | Some v => ret v
  | None =>
    mdo t <- tree k;
    mdo _ <- say (ETrav k (c_extent C));
    let v := w_trav W t (c_extent C) in
    mdo g <- get_geo k;
    mdo _ <- set_geo k (Geo (g_ttc g) (g_tree g) (Some v));
    ret v
  end.

(** pytools.single_valued on the base kernels of the source kernels (qbx/__init__.py 618-619,
    728-729). *)
Definition base_kernel (sk : list nat) : result nat :=
  match sk with
  | [] => Err ValueError
  | x :: l => if forallb (fun y => w_base W y =? w_base W x) l then Ok (w_base W x) else Err ValueError
  end.
Definition indep_known (s : state) (sk tk : list nat) : bool :=
  existsb (fun e => nats_eqb (fst e) sk && nats_eqb (snd e) tk) (s_indep s).
(** qbx/__init__.py 616-659: memoized on the source.  Line 648: `source_kernel, = source_kernels`. *)
Definition tree_indep (sk tk : list nat) : M unit := fun s =>
  if indep_known s sk tk then (s, Val tt) else
  (mdo _ <- lift (base_kernel sk);
   mdo _ <- (if String.eqb (c_backend C) "sumpy" then ret tt
             else if String.eqb (c_backend C) "fmmlib" then
               match sk with
               | [_] => raise_if (w_fmmlib W sk tk (c_tsqbx C))
               | _ => fail unit (Std ValueError)
               end
             else fail unit (Std ValueError));
   mdo _ <- say (EIndep sk tk);
   fun s => (St (s_geo s) (s_indep s ++ [(sk, tk)]) (s_calls s) (s_log s), Val tt)) s.

(** The wrangler's constructor: fmm.py 141-170 and fmmlib.py 158-201.  The name `traversal` is
    unbound at line 165 unless the branch of 155-162 was taken. *)
Definition wrangler (k : gkey) (base : nat) : M ftrav :=
  if String.eqb (c_backend C) "sumpy" then
    if match c_tsqbx C with Some true => true | _ => false end then fail _ (Std ValueError) else
    if w_invariant W base then traversal k else fail _ UnboundLocal
  else traversal k.

(** qbx/__init__.py 661-692. *)
Fixpoint gather (obj : nat -> result nat) (outs : list output)
    (d : list ((nat * option Z) * nat)) (ts : list (nat * Z))
    : result (list ((nat * option Z) * nat) * list (nat * Z)) :=
  match outs with
  | [] => Ok (d, ts)
  | o :: outs' =>
    match lookup_key d (o_tgt o, o_limit o) with
    | Some _ => gather obj outs' d ts
    | None =>
      do x <- obj (o_tgt o);
      gather obj outs' (d ++ [((o_tgt o, o_limit o), length ts)])
        (ts ++ [(x, match o_limit o with None => 0%Z | Some z => z end)])
    end
  end.

(** qbx/__init__.py 520-548 (the drivers): the FMM, or zeros for the cost model. *)
Definition driver (m : mode) (T : ftree) (V : ftrav) (nc : nat) (ttc : list Z) (nq nknl : nat) : list (list (list contr)) :=
  match m with
  | Exec => drive_fmm T V nc ttc (seq 0 nq) nknl
  | Cost => repeat (repeat [] (ft_ntgt T)) nknl
  end.
(** 775-791. *)
Definition pick_output (numbers : list ((nat * option Z) * nat)) (starts : list nat)
    (pots : list (list (list contr))) (o : output) : result (string * value) :=
  match lookup_key numbers (o_tgt o, o_limit o) with
  | None => Err KeyError
  | Some n =>
    match nth_error pots (o_knl o) with
    | None => Err IndexError
    | Some p => Ok (o_name o, Pot (slice p (nth n starts 0) (nth (n + 1) starts 0)))
    end
  end.
(** 760-766: the inspector's answer. *)
Definition inspect (k : gkey) : M bool :=
  match c_inspector C with
  | None => ret true
  | Some f =>
    mdo _ <- say (EInspect k);
    fun s => (St (s_geo s) (s_indep s) (S (s_calls s)) (s_log s), Val (f (s_calls s)))
  end.
(** 694-793 (exec_compute_potential_insn_fmm). *)
Definition exec_insn_fmm (m : mode) (i : insn) (b : bexpr) : M (list (string * value)) :=
  mdo r <- lift (gather (b_obj b) (i_outs i) [] []);
  let numbers := fst r in
  let k := GK (b_places b) (i_src i) (snd r) in
  mdo _ <- geometry_data k;
  mdo _ <- raise_if (i_strengths i);
  mdo base <- lift (base_kernel (i_skn i));
  mdo T <- tree k;
  mdo _ <- raise_if (i_args i);
  mdo _ <- tree_indep (i_skn i) (i_tkn i);
  mdo V <- wrangler k base;
  mdo ttc <- user_target_to_center k;
  if existsb (fun c => (c =? -2)%Z) ttc then fail _ (Std RuntimeError) else
  mdo go <- inspect k;
  if negb go then ret (map (fun o => (o_name o, Zero)) (i_outs i)) else
  mdo _ <- say (match m with Exec => EDrive k | Cost => ECost k end);
  let nc := length (q_ctr (source_of k)) in
  let pots := driver m T V nc ttc (q_nquad (source_of k)) (length (i_tkn i)) in
  lift (mapM (pick_output numbers (discr_starts nc (points_of k)) pots) (i_outs i)).

(** 914-945: the partition asks the collection for every output's target first. *)
Fixpoint resolve_all (obj : nat -> result nat) (outs : list output) : result unit :=
  match outs with [] => Ok tt | o :: outs' => do x <- obj (o_tgt o); resolve_all obj outs' end.
(** 994-1066: one group of targets away from the source. *)
Definition exec_other_insn (i : insn) (b : bexpr) (g : (nat * option Z) * list (nat * output))
    : M (list (nat * (string * list (list contr)))) :=
  let '((t, l), os) := g in
  let lim := match l with Some z => z | None => 0%Z end in
  mdo x <- lift (b_obj b t);
  let k := GK (b_places b) (i_src i) [(x, lim)] in
  let q := source_of k in
  mdo _ <- geometry_data k;
  mdo ttc <- user_target_to_center k;
  let tt' := skipn (length (q_ctr q)) ttc in
  if (Z.abs lim =? 1)%Z && (length (qbx_tgt_numbers tt') <? length (w_pts W x)) then fail _ (Std RuntimeError) else
  lift (mapM (named (length (i_tkn i)) (fun k => apply_on_subset (q_nquad q) tt' k (p2p (q_nquad q) (w_pts W x) k))) os).
(** 866-1068 (exec_compute_potential_insn_direct). *)
Definition target_nodes (b : bexpr) (t : nat) : result (list pt) := do x <- b_obj b t; Ok (w_pts W x).
Definition exec_insn_direct (i : insn) (b : bexpr) : M (list (option (string * value))) :=
  let nq := q_nquad (w_q W (b_places b) (i_src i)) in
  let nknl := length (i_tkn i) in
  mdo _ <- raise_if (i_args i);
  mdo _ <- raise_if (i_strengths i);
  mdo _ <- lift (resolve_all (b_obj b) (i_outs i));
  mdo gs <- lift (partition_outputs (b_self b) (combine (seq 0 (length (i_outs i))) (i_outs i)) [] []);
  mdo _ <- lift (base_kernel (i_skn i));
  mdo r1 <- lift (mapM (exec_self nq nknl (target_nodes b)) (fst gs));
  mdo r2 <- mmap (exec_other_insn i b) (snd gs);
  ret (map (option_map (fun e : string * list (list contr) => (fst e, Pot (snd e))))
        (put_results (put_results (repeat None (length (i_outs i))) (concat r1)) (concat r2))).

(** 602-613 *)
Definition dispatch A (f : M A) : M A :=
  mdo _ <- (if c_norefine C then say EWarn else ret tt); f.
(** 520-541 (exec_compute_potential_insn) and 543-600 (cost_model_compute_potential_insn). *)
Definition compute (m : mode) (i : insn) (b : bexpr) : M (list (option (string * value))) :=
  match m with
  | Exec =>
    if c_direct C then dispatch (exec_insn_direct i b)
    else dispatch (mdo r <- exec_insn_fmm Exec i b; ret (map Some r))
  | Cost =>
    if c_direct C then fail _ (Std NotImplementedError)
    else dispatch (mdo r <- exec_insn_fmm Cost i b; ret (map Some r))
  end.

(** A program using one source: the statements executed with it, in order; exceptions are caught
    by the caller. *)
Fixpoint session (l : list (mode * insn * bexpr)) (s : state) : state * list (outcome (list (option (string * value)))) :=
  match l with
  | [] => (s, [])
  | (m, i, b) :: l' =>
    let '(s1, r) := compute m i b s in
    let '(s2, rs) := session l' s1 in (s2, r :: rs)
  end.
End Source.
