(** Model of /repo/pytential/source.py: the point-to-point evaluator memoized in the array
    context, the number types chosen for the FMM, and the arguments handed to kernels; with
    the parts of qbx/__init__.py, unregularized.py and symbolic/matrix.py that use them. *)
From Verif Require Import Base.
Set Implicit Arguments.
Open Scope string_scope.
Open Scope list_scope.
Open Scope nat_scope.

(** numpy number types: real and complex ones of either precision, and others (half precision,
    integers, ...), of which only the kind matters. *)
Inductive prec := Single | Double.
Inductive dtype := RealT (p : prec) | CplxT (p : prec) | OtherT (n : nat).
Definition prec_eqb (a b : prec) : bool :=
  match a, b with Single, Single | Double, Double => true | _, _ => false end.
Definition dtype_eqb (a b : dtype) : bool :=
  match a, b with
  | RealT p, RealT q | CplxT p, CplxT q => prec_eqb p q
  | OtherT m, OtherT n => m =? n
  | _, _ => false
  end.
(** [dtype.kind == "c"]. *)
Definition kind_c (t : dtype) : bool := match t with CplxT _ => true | _ => false end.

(** A sumpy kernel (external): its base kernel and the derivatives wrapped around it, on the
    source and on the target side; its arguments, by name.  A wrapper is complex-valued iff its
    base is. *)
Record base := Base { b_id : nat; b_complex : bool }.
Record kern := Kern { k_base : base; k_src : list nat; k_tgt : list nat;
                      k_args : list string; k_sargs : list string }.
Definition is_complex_valued (k : kern) : bool := b_complex (k_base k).
Section ListEqb.
Variable A : Type.
Variable f : A -> A -> bool.
Fixpoint list_eqb (l l' : list A) : bool :=
  match l, l' with
  | [], [] => true
  | a :: l, b :: l' => f a b && list_eqb l l'
  | _, _ => false
  end.
End ListEqb.
Definition base_eqb (a b : base) : bool := (b_id a =? b_id b) && Bool.eqb (b_complex a) (b_complex b).
Definition kern_eqb (a b : kern) : bool :=
  base_eqb (k_base a) (k_base b) && list_eqb Nat.eqb (k_src a) (k_src b)
  && list_eqb Nat.eqb (k_tgt a) (k_tgt b)
  && list_eqb String.eqb (k_args a) (k_args b) && list_eqb String.eqb (k_sargs a) (k_sargs b).

(** * source.py 104-125: [get_p2p] *)

(** A potential source, by its [real_dtype] (source.py 85-93). *)
Record psource := PSource { real_dtype : dtype }.
(** source.py 207-214 ([complex_dtype]; meshmode's discretizations have the same table). *)
Definition complex_dtype (s : psource) : result dtype :=
  match real_dtype s with
  | RealT Single => Ok (CplxT Single)
  | RealT Double => Ok (CplxT Double)
  | _ => Err KeyError
  end.

(** A [sumpy.p2p.P2P] object; [p_oid] is its identity. *)
Record p2p := P2P { p_tgt : list kern; p_src : option (list kern); p_exclude_self : bool;
                    p_dtype : dtype; p_oid : nat }.

(** The memoization dictionary of the array context (pytools' [memoize_in]), keyed by the
    arguments of the inner function, and a counter handing out object identities. *)
Notation p2p_key := (list kern * option (list kern))%type.
Record actx := Actx { memo : list (p2p_key * p2p); next_oid : nat }.
Definition opt_eqb (A : Type) (f : A -> A -> bool) (a b : option A) : bool :=
  match a, b with None, None => true | Some x, Some y => f x y | _, _ => false end.
Definition p2p_key_eqb (a b : p2p_key) : bool :=
  list_eqb kern_eqb (fst a) (fst b) && opt_eqb (list_eqb kern_eqb) (snd a) (snd b).
Definition empty_actx : actx := Actx [] 0.

(** 116-123: the inner function. *)
Definition make_p2p (s : psource) (tks : list kern) (sks : option (list kern)) (oid : nat) : result p2p :=
  do value_dtype <- (if existsb is_complex_valued tks then complex_dtype s else Ok (real_dtype s));
  Ok (P2P tks sks false value_dtype oid).
(** 104-125. *)
Definition get_p2p (s : psource) (tks : list kern) (sks : option (list kern)) (a : actx) : result p2p * actx :=
  match find (fun e => p2p_key_eqb (fst e) (tks, sks)) (memo a) with
  | Some e => (Ok (snd e), a)
  | None =>
    match make_p2p s tks sks (next_oid a) with
    | Ok p => (Ok p, Actx (((tks, sks), p) :: memo a) (S (next_oid a)))
    | Err e => (Err e, a)
    end
  end.
(** A history of calls on one array context. *)
Notation p2p_call := (psource * p2p_key)%type.
Fixpoint p2p_calls (cs : list p2p_call) (a : actx) : list (result p2p) :=
  match cs with
  | [] => []
  | c :: cs' =>
    let '(r, a') := get_p2p (fst c) (fst (snd c)) (snd (snd c)) a in
    r :: p2p_calls cs' a'
  end.

(** * source.py 293-311 and 381-390: the number type of the FMM *)

(** What an evaluated density can be: a DOF array, a numpy array of numbers or of objects, a
    device array or anything else. *)
Inductive tyval := TDof (t : dtype) | TNumpy (t : dtype) | TObj (l : list tyval) | TDev (t : dtype) | TOther.
(** pytools' [single_valued] (external). *)
Definition single_valued (l : list dtype) : result dtype :=
  match l with
  | [] => Err ValueError
  | t :: ts => if forallb (dtype_eqb t) ts then Ok t else Err AssertionError
  end.
(** 293-311 ([_entry_dtype]). *)
Fixpoint entry_dtype (v : tyval) : result dtype :=
  match v with
  | TDof t => Ok t
  | TNumpy t => Ok t
  | TDev t => Ok t
  | TObj l =>
    do ts <- (fix go (l : list tyval) : result (list dtype) :=
                match l with
                | [] => Ok []
                | v :: l' => do t <- entry_dtype v; do ts <- go l'; Ok (t :: ts)
                end) l;
    single_valued ts
  | TOther => Err TypeError
  end.
(** 381-390. *)
Definition fmm_dtype (s : psource) (ks : list kern) (strengths : tyval) : result dtype :=
  if existsb is_complex_valued ks then complex_dtype s
  else do t <- entry_dtype strengths; if kind_c t then complex_dtype s else Ok (real_dtype s).

(** numpy's promotion in a product of a real and any other array (external). *)
Definition prec_max (a b : prec) : prec := match a, b with Single, Single => Single | _, _ => Double end.
Definition times_real (p : prec) (t : dtype) : dtype :=
  match t with RealT q => RealT (prec_max p q) | CplxT q => CplxT (prec_max p q) | OtherT _ => RealT p end.
(** An FMM instruction: source and target kernels and the number types of the densities. *)
Record finsn := FInsn { f_src : list kern; f_tgt : list kern; f_dens : list dtype }.
(** qbx/__init__.py 725-734: strengths are flattened (device arrays); the first one and the
    source kernels decide. *)
Definition qbx_fmm_dtype (s : psource) (wp : prec) (i : finsn) : result dtype :=
  match map (times_real wp) (f_dens i) with
  | [] => Err IndexError
  | t :: _ => fmm_dtype s (f_src i) (TDev t)
  end.
(** unregularized.py 258-269: unflattened strengths; the target kernels decide. *)
Definition unreg_fmm_dtype (s : psource) (wp : prec) (i : finsn) : result dtype :=
  match map (times_real wp) (f_dens i) with
  | [] => Err IndexError
  | t :: _ => fmm_dtype s (f_tgt i) (TDof t)
  end.

(** source.py 366-379 ([get_fmm_kernel]); sumpy's [TargetTransformationRemover] drops the
    target-side derivatives. *)
Definition tx_remove (k : kern) : kern := Kern (k_base k) (k_src k) [] (k_args k) (k_sargs k).
Fixpoint get_fmm_kernel_from (fmm : option kern) (ks : list kern) : result (option kern) :=
  match ks with
  | [] => Ok fmm
  | k :: ks' =>
    match fmm with
    | None => get_fmm_kernel_from (Some (tx_remove k)) ks'
    | Some f => if kern_eqb f (tx_remove k) then get_fmm_kernel_from fmm ks' else Err AssertionError
    end
  end.
Definition get_fmm_kernel (ks : list kern) : result (option kern) := get_fmm_kernel_from None ks.

(** * Kernel arguments *)
Section Args.
Variable E : Type.    (* array entries and scalars *)

(** Evaluated arguments: scalars, flat device arrays, DOF arrays (a flat array per element
    group) and object arrays of such. *)
Inductive value := VScalar (x : E) | VArr (x : list E) | VDof (gs : list (list E)) | VObj (l : list value).

(** arraycontext's [flatten(_, leaf_class=DOFArray)] (external). *)
Fixpoint flatten_leaves (v : value) : value :=
  match v with
  | VDof gs => VArr (concat gs)
  | VObj l => VObj (map flatten_leaves l)
  | v => v
  end.
Definition is_scalar_like (v : value) : bool := match v with VScalar _ => true | _ => false end.

(** Dictionaries with string keys. *)
Notation dict A := (list (string * A)).
Definition get {A : Type} (d : dict A) (n : string) : option A :=
  option_map snd (find (fun e => String.eqb (fst e) n) d).
Definition put {A : Type} (d : dict A) (n : string) (x : A) : dict A :=
  (n, x) :: filter (fun e => negb (String.eqb (fst e) n)) d.

Section Eval.
Variable X : Type.                       (* argument expressions *)
Variable evaluate : X -> result value.

(** source.py 141-161 ([evaluate_kernel_arguments]). *)
Fixpoint evaluate_args_into (flat : bool) (args : dict X) (d : dict value) : result (dict value) :=
  match args with
  | [] => Ok d
  | (n, e) :: args' =>
    do v <- evaluate e;
    let v' := if flat && negb (is_scalar_like v) then flatten_leaves v else v in
    evaluate_args_into flat args' (put d n v')
  end.
Definition evaluate_kernel_arguments (flat : bool) (args : dict X) : result (dict value) :=
  evaluate_args_into flat args [].

(** symbolic/matrix.py 85-107 ([_get_layer_potential_args]). *)
Definition layer_potential_args (include : option (list string)) (args : dict X) : result (dict value) :=
  evaluate_kernel_arguments true
    (match include with Some ns => filter (fun e => inb (fst e) ns) args | None => args end).

(** [ary[ids]] on a device array. *)
Definition take (ids : list nat) (x : list E) : result (list E) :=
  mapM (fun i => match nth_error x i with Some y => Ok y | None => Err IndexError end) ids.
(** source.py 404-415 ([flatten_and_reorder_sources]), on what [rec_map_array_container] hands
    to it. *)
Definition flatten_and_reorder (ids : list nat) (v : value) : result value :=
  match v with
  | VDof gs => do y <- take ids (concat gs); Ok (VArr y)
  | VArr x => do y <- take ids x; Ok (VArr y)
  | v => Ok v
  end.
(** arraycontext's [rec_map_array_container(f, _, leaf_class=DOFArray)] (external) with that [f]. *)
Fixpoint rec_reorder (ids : list nat) (v : value) : result value :=
  match v with
  | VObj l =>
    do l' <- (fix go (l : list value) : result (list value) :=
                match l with
                | [] => Ok []
                | v :: l' => do y <- rec_reorder ids v; do ys <- go l'; Ok (y :: ys)
                end) l;
    Ok (VObj l')
  | v => flatten_and_reorder ids v
  end.
(** sumpy's [gather_arguments], [gather_source_arguments] (external): the arguments of all
    kernels, once each (sumpy sorts them by name; the order only decides which of several
    failing arguments is reported). *)
Definition gather (f : kern -> list string) (ks : list kern) : list string :=
  fold_left (fun acc k => union acc (f k)) ks [].
(** source.py 425-431: the loop over one of the two gather functions. *)
Fixpoint extra_into (ids : list nat) (args : dict X) (names : list string) (d : dict value) : result (dict value) :=
  match names with
  | [] => Ok d
  | n :: names' =>
    match get args n with
    | None => Err KeyError
    | Some e =>
      do v <- evaluate e;
      do v' <- rec_reorder ids v;
      extra_into ids args names' (put d n v')
    end
  end.
(** source.py 392-433. *)
Definition extra_kwargs (ids : list nat) (ks : list kern) (args : dict X) : result (dict value * dict value) :=
  do kd <- extra_into ids args (gather k_args ks) [];
  do sd <- extra_into ids args (gather k_sargs ks) [];
  Ok (kd, sd).

(** qbx/__init__.py 1075-1098 ([get_flat_strengths_from_densities]); [mul] multiplies entries,
    and a product of DOF arrays of different shape fails. *)
Variable mul : E -> E -> E.
Definition zip_mul (xs ys : list E) : list E := map (fun p => mul (fst p) (snd p)) (combine xs ys).
Definition as_dof (v : value) : result (list (list E)) :=
  match v with VDof gs => Ok gs | _ => Err TypeError end.
Definition dof_mul (a b : list (list E)) : result (list (list E)) :=
  if list_eqb Nat.eqb (map (@length E) a) (map (@length E) b)
  then Ok (map (fun p => zip_mul (fst p) (snd p)) (combine a b)) else Err ValueError.
Definition flat_strengths (waa : list (list E)) (densities : list X) : result (list (list E)) :=
  do vs <- mapM evaluate densities;
  do ds <- mapM as_dof vs;
  mapM (fun d => do y <- dof_mul waa d; Ok (concat y)) ds.

End Eval.

(** * source.py 250-288: the point source's executor *)
Section PointExec.
Variable X : Type.
Variable evaluate : X -> result value.
(** Geometries: their flat node coordinates, and for a discretization the sizes of its element
    groups. *)
Record tgt := Tgt { t_nodes : list (list E); t_groups : option (list nat) }.
Record out := Out { o_name : string; o_tgt : nat; o_knl : nat }.
Record pinsn := PInsn { pi_outs : list out; pi_args : dict X; pi_dens : list X;
                        pi_src : list kern; pi_tgt : list kern }.
(** Calling a P2P object (external): targets, sources, strengths, arguments; a list per kernel. *)
Variable call_p2p : p2p -> list (list E) -> list (list E) -> list value -> dict value -> result (list (list E)).
Variable places : nat -> result tgt.

(** arraycontext's [unflatten]. *)
Fixpoint split (ns : list nat) (x : list E) : list (list E) :=
  match ns with [] => [] | n :: ns' => firstn n x :: split ns' (skipn n x) end.
Definition shape_as (t : tgt) (r : list E) : value :=
  match t_groups t with Some ns => VDof (split ns r) | None => VArr r end.

Fixpoint point_outputs (s : psource) (nodes : list (list E)) (i : pinsn) (args : dict value) (strengths : list value)
    (outs : list out) (cur : option p2p) (a : actx) (results : list (string * value))
    : result (list (string * value)) * actx :=
  match outs with
  | [] => (Ok results, a)
  | o :: outs' =>
    match places (o_tgt o) with
    | Err e => (Err e, a)
    | Ok t =>
      let '(rp, a') := match cur with
                       | Some p => (Ok p, a)
                       | None => get_p2p s (pi_tgt i) (Some (pi_src i)) a
                       end in
      match (do p <- rp;
             do each <- call_p2p p (t_nodes t) nodes strengths args;
             match nth_error each (o_knl o) with
             | Some r => Ok (p, shape_as t r)
             | None => Err IndexError
             end) with
      | Err e => (Err e, a')
      | Ok (p, r) => point_outputs s nodes i args strengths outs' (Some p) a' (results ++ [(o_name o, r)])
      end
    end
  end.
Definition point_exec (s : psource) (nodes : list (list E)) (i : pinsn) (a : actx)
    : result (list (string * value)) * actx :=
  match (do args <- evaluate_kernel_arguments evaluate false (pi_args i);
         do strengths <- mapM evaluate (pi_dens i); Ok (args, strengths)) with
  | Err e => (Err e, a)
  | Ok (args, strengths) => point_outputs s nodes i args strengths (pi_outs i) None a []
  end.
End PointExec.
End Args.
Arguments VScalar {E} x.
Arguments VArr {E} x.
Arguments VDof {E} gs.
Arguments VObj {E} l.
Arguments Tgt {E} t_nodes t_groups.
