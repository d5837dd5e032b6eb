(** Model of the symbolic layer potentials and vector calculus of
    /repo/pytential/symbolic/primitives.py (lines 1779-1866, 2113-2463, 2561-2582) and
    of the resolution of their derivative operators (mappers.py 604-710): [sym.S],
    [sym.D], [sym.Sp], [sym.Dp], [sym.Spp], [int_g_vec], [int_g_dsource], [dd_axis],
    [grad], [div], [curl], [laplace], [normal_derivative], [normal_second_derivative],
    [tangential_derivative].  pymbolic's multivectors, coefficient collector and
    derivative binder and sumpy's kernel wrappers (external packages) are modelled as
    far as they are used here. *)
From Verif Require Import Base DofModel GeoModel CtorModel.
Set Implicit Arguments.
Open Scope string_scope.
Open Scope list_scope.
Open Scope nat_scope.

(** sumpy kernels: a base kernel (with its dimension and argument names) inside
    wrappers, outermost first: derivatives along target or source axes, multiplication
    with a target coordinate, and source derivatives along a named vector argument. *)
Inductive wrap := WTgt (axis : nat) | WPoint (axis : nat) | WSrc (axis : nat) | WDir (name : string).
Record base := Bs { b_id : nat; b_dim : nat; b_args : list string }.
Record kern := Kn { kb : base; kw : list wrap }.

Fixpoint strs_eqb (a b : list string) : bool :=
  match a, b with
  | [], [] => true
  | x :: a', y :: b' => String.eqb x y && strs_eqb a' b'
  | _, _ => false
  end.
Definition base_eqb (a b : base) : bool :=
  Nat.eqb (b_id a) (b_id b) && Nat.eqb (b_dim a) (b_dim b) && strs_eqb (b_args a) (b_args b).
Definition is_src (w : wrap) : bool := match w with WSrc _ | WDir _ => true | _ => false end.
(** sumpy's [SourceTransformationRemover] and [TargetTransformationRemover]. *)
Definition sxr (k : kern) : kern := Kn (kb k) (filter (fun w => negb (is_src w)) (kw k)).
Definition txr (k : kern) : kern := Kn (kb k) (filter is_src (kw k)).
(** [get_args] and [get_source_args]. *)
Definition arg_names (k : kern) : list string :=
  b_args (kb k) ++ flat_map (fun w => match w with WDir n => [n] | _ => [] end) (kw k).

(** Symbolic expressions.  Numbers are integers; [EGeo] is a geometric quantity of
    GeoModel.v; a kernel argument is a list (one entry: a scalar).  [ENab]:
    [NablaComponent]; [EDsrc]: [DerivativeSource]; [EPot]: [IntG]. *)
Inductive ex :=
| EQ (z : Z) | EGeo (g : ge) | EVar (s : string) | ESpat (s : string)
| ECse (a : ex) | EQuot (a b : ex) | ESum (l : list ex) | EProd (l : list ex)
| ENab (id : option nat) (axis : nat) | EDsrc (id : nat) (a : ex)
| EPot (tk : kern) (sks : list kern) (dens : list ex) (lim : limarg) (src tgt : dofdesc)
       (args : list (string * list ex)).

(** pymbolic's operators: numbers are folded, 0 and 1 are dropped, nested sums and
    products are flattened. *)
Definition is_num (z : Z) (e : ex) : bool := match e with EQ y => Z.eqb y z | _ => false end.
Definition terms (e : ex) : list ex := match e with ESum l => l | _ => [e] end.
Definition factors (e : ex) : list ex := match e with EProd l => l | _ => [e] end.
Definition eadd (a b : ex) : ex :=
  match a, b with
  | EQ x, EQ y => EQ (x + y)
  | _, _ => if is_num 0 a then b else if is_num 0 b then a else ESum (terms a ++ terms b)
  end.
Definition emul (a b : ex) : ex :=
  match a, b with
  | EQ x, EQ y => EQ (x * y)
  | _, _ => if is_num 0 a || is_num 0 b then EQ 0 else
            if is_num 1 a then b else if is_num 1 b then a else EProd (factors a ++ factors b)
  end.
(** [flattened_sum], [flattened_product], Python's [sum]. *)
Definition fsum (l : list ex) : ex := fold_left eadd l (EQ 0).
Definition fprod (l : list ex) : ex := fold_left emul l (EQ 1).

(** Geometric quantities as operands; plain integers stay numbers. *)
Definition lift (g : ge) : ex := match g with GQ z 1 => EQ z | _ => EGeo g end.

(** ** Multivectors over a Euclidean space (pymbolic.geometric_algebra) *)
Definition emv := list (nat * ex).
Fixpoint mget (m : emv) (b : nat) : ex :=
  match m with [] => EQ 0 | (b', c) :: r => if Nat.eqb b' b then c else mget r b end.
Fixpoint mset (m : emv) (b : nat) (c : ex) : emv :=
  match m with
  | [] => [(b, c)]
  | (b', c') :: r => if Nat.eqb b' b then (b', c) :: r else (b', c') :: mset r b c
  end.
Definition mdel (m : emv) (b : nat) : emv := filter (fun t => negb (Nat.eqb (fst t) b)) m.
(** [new_coeff = new_data.setdefault(b, 0) + c]; zero entries are deleted. *)
Definition madd1 (m : emv) (b : nat) (c : ex) : emv :=
  let n := eadd (mget m b) c in if is_num 0 n then mdel m b else mset m b n.
(** [_generic_product]: [keep] is the product's blade weight (0 or 1). *)
Definition mprod (keep : nat -> nat -> bool) (dims : nat) (x y : emv) : emv :=
  fold_left (fun acc xb => fold_left (fun acc yb =>
     if keep (fst xb) (fst yb)
     then madd1 acc (Nat.lxor (fst xb) (fst yb))
            (emul (emul (EQ (rsign dims (fst xb) (fst yb))) (snd xb)) (snd yb))
     else acc) y acc) x [].
Definition mgeo := mprod (fun _ _ => true).
Definition mscal := mprod Nat.eqb.
Definition minner := mprod (fun a b => Nat.eqb (Nat.land a b) a || Nat.eqb (Nat.land a b) b).
(** Right contraction [>>]: the right blade is contained in the left one. *)
Definition mrc := mprod (fun a b => Nat.eqb (Nat.land a b) b).
Definition mvec (v : list ex) : emv := combine (map (fun i => 2 ^ i) (seq 0 (length v))) v.
Definition mscalar (e : ex) : emv := [(0, e)].
Definition mmap (f : ex -> ex) (m : emv) : emv := map (fun t => (fst t, f (snd t))) m.
Definition mmapM (f : ex -> result ex) (m : emv) : result emv :=
  mapM (fun t => do c <- f (snd t); Ok (fst t, c)) m.
(** [as_vector] and [as_scalar]: any other component is a ValueError. *)
Definition as_vector (dims : nat) (m : emv) : result (list ex) :=
  if forallb (fun t => Nat.eqb (grade dims (fst t)) 1) m
  then Ok (map (fun i => mget m (2 ^ i)) (seq 0 dims)) else Err ValueError.
Definition as_scalar (m : emv) : result ex :=
  if forallb (fun t => Nat.eqb (fst t) 0) m then Ok (mget m 0) else Err ValueError.
(** [Derivative.dnabla]; with [None] it is the one of [int_g_dsource]. *)
Definition dnabla (id : option nat) (adim : nat) : emv :=
  mvec (map (ENab id) (seq 0 adim)).

(** ** Taking derivatives *)
(** mappers.py 608-628 ([_IsSptiallyVaryingMapper]); geometric quantities other than
    numbers contain nodes it has no method for. *)
Fixpoint varying (e : ex) : result bool :=
  match e with
  | EQ _ | ESpat _ => Ok false
  | EVar _ | EPot _ _ _ _ _ _ _ => Ok true
  | EGeo (GQ _ _) => Ok false
  | EGeo _ | ENab _ _ => Err NotImplementedError
  | ECse a | EDsrc _ a => varying a
  | EQuot a b => do x <- varying a; do y <- varying b; Ok (x || y)
  | ESum l | EProd l => do bs <- mapM varying l; Ok (existsb (fun b => b) bs)
  end.
(** mappers.py 654-660: splitting the factors. *)
Fixpoint split_factors (cs : list ex) : result (list ex * list ex) :=
  match cs with
  | [] => Ok ([], [])
  | c :: r => do v <- varying c; do (const, nonconst) <- split_factors r;
              Ok (if v then (const, c :: nonconst) else (c :: const, nonconst))
  end.
(** mappers.py 634-683 ([DerivativeTaker]); its exception for products of several
    varying factors is rendered as [TypeError]; nodes without a method are
    unsupported. *)
Fixpoint take (axis : nat) (e : ex) : result ex :=
  match e with
  | EQ _ => Ok (EQ 0)
  | EGeo (GQ _ _) => Ok (EQ 0)
  | ESum l => do l' <- mapM (take axis) l; Ok (fsum l')
  | EProd cs =>
      do (const, nonconst) <- split_factors cs;
      match nonconst with
      | [] => Ok (emul (fprod const) (EQ 0))
      | [_] =>
          (fix go (l : list ex) : result ex :=
             match l with
             | [] => Err AssertionError
             | c :: l' => match varying c with
                          | Ok true => do d <- take axis c; Ok (emul (fprod const) d)
                          | _ => go l'
                          end
             end) cs
      | _ => Err TypeError
      end
  | EPot tk sks dens lim src tgt args =>
      Ok (EPot (Kn (kb tk) (WTgt axis :: kw tk)) sks dens lim src tgt args)
  | _ => Err NotImplementedError
  end.

(** ** The derivative binder (pymbolic.geometric_algebra.mapper, used by mappers.py
    685-710) *)
(** The nabla components and derivative sources of an expression. *)
Fixpoint nabs (e : ex) : list (option nat * nat) :=
  match e with
  | ENab id ax => [(id, ax)]
  | ECse a => nabs a
  | EQuot a b => nabs a ++ nabs b
  | ESum l | EProd l => flat_map nabs l
  | EPot _ _ dens _ _ _ args => flat_map nabs dens ++ flat_map (fun p => flat_map nabs (snd p)) args
  | _ => []
  end.
Fixpoint dsrcs (e : ex) : list nat :=
  match e with
  | EDsrc id _ => [id]
  | ECse a => dsrcs a
  | EQuot a b => dsrcs a ++ dsrcs b
  | ESum l | EProd l => flat_map dsrcs l
  | EPot _ _ dens _ _ _ args => flat_map dsrcs dens ++ flat_map (fun p => flat_map dsrcs (snd p)) args
  | _ => []
  end.
Definition onat_eqb (a b : option nat) : bool :=
  match a, b with Some x, Some y => Nat.eqb x y | None, None => true | _, _ => false end.
(** [NablaComponentToUnitVector]. *)
Fixpoint nab_unit (id : nat) (axis : nat) (e : ex) : ex :=
  match e with
  | ENab id' ax => if onat_eqb id' (Some id) then EQ (if Nat.eqb ax axis then 1 else 0) else e
  | ECse a => ECse (nab_unit id axis a)
  | EQuot a b => EQuot (nab_unit id axis a) (nab_unit id axis b)
  | ESum l => fsum (map (nab_unit id axis) l)
  | EProd l => fprod (map (nab_unit id axis) l)
  | EDsrc i a => EDsrc i (nab_unit id axis a)
  | EPot tk sks dens lim src tgt args =>
      EPot tk sks (map (nab_unit id axis) dens) lim src tgt
           (map (fun p => (fst p, map (nab_unit id axis) (snd p))) args)
  | _ => e
  end.
(** [DerivativeSourceFinder]. *)
Fixpoint ds_find (id : nat) (axis : nat) (e : ex) : result ex :=
  match e with
  | EDsrc i a => if Nat.eqb i id then take axis a else Ok e
  | ECse a => do a' <- ds_find id axis a; Ok (ECse a')
  | EQuot a b => do a' <- ds_find id axis a; do b' <- ds_find id axis b; Ok (EQuot a' b')
  | ESum l => do l' <- mapM (ds_find id axis) l; Ok (fsum l')
  | EProd l => do l' <- mapM (ds_find id axis) l; Ok (fprod l')
  | EPot tk sks dens lim src tgt args =>
      do dens' <- mapM (ds_find id axis) dens;
      do args' <- mapM (fun p => do v <- mapM (ds_find id axis) (snd p); Ok (fst p, v)) args;
      Ok (EPot tk sks dens' lim src tgt args')
  | _ => Ok e
  end.
Fixpoint set_nth (A : Type) (i : nat) (x : A) (l : list A) : list A :=
  match l, i with
  | [], _ => []
  | _ :: r, 0 => x :: r
  | y :: r, Datatypes.S i' => y :: set_nth i' x r
  end.
Definition same_all (l : list nat) : bool :=
  match l with [] => true | x :: r => forallb (Nat.eqb x) r end.
(** One child of a product that contains derivative sources: the product becomes a
    sum over the axes of its nabla. *)
Definition bind_child (cs : list ex) (idx : nat) (ts : list (list ex)) : result (list (list ex)) :=
  match dsrcs (nth idx cs (EQ 0)) with
  | [] => Ok ts
  | (id :: _) as ids =>
      if negb (same_all ids) then Err NotImplementedError else
      match map snd (filter (fun n => onat_eqb (fst n) (Some id)) (flat_map nabs cs)) with
      | [] => Ok ts
      | axes =>
          do tss <- mapM (fun t => mapM (fun ax =>
                       do c <- ds_find id ax (nth idx t (EQ 0));
                       Ok (map (nab_unit id ax) (set_nth idx c t)))
                     (seq 0 (Datatypes.S (fold_left Nat.max axes 0)))) ts;
          Ok (concat tss)
      end
  end.
Fixpoint bind_children (cs : list ex) (idxs : list nat) (ts : list (list ex)) : result (list (list ex)) :=
  match idxs with
  | [] => Ok ts
  | i :: r => do ts' <- bind_child cs i ts; bind_children cs r ts'
  end.
Definition clash (c : ex) : bool :=
  existsb (fun n => existsb (fun i => onat_eqb (fst n) (Some i)) (dsrcs c)) (nabs c).
Definition bind_prod (cs : list ex) : result ex :=
  if existsb clash cs then Err RuntimeError else
  do ts <- bind_children cs (seq 0 (length cs)) [cs];
  Ok (fsum (map fprod ts)).
(** [DerivativeBinder] on top of [IdentityMapper]. *)
Fixpoint resolve (e : ex) : result ex :=
  match e with
  | ECse a => do a' <- resolve a; Ok (ECse a')
  | EQuot a b => do a' <- resolve a; do b' <- resolve b; Ok (EQuot a' b')
  | ESum l => do l' <- mapM resolve l; Ok (fsum l')
  | EProd l => do l' <- mapM resolve l; bind_prod l'
  | EDsrc i a => do a' <- resolve a; Ok (EDsrc i a')
  | EPot tk sks dens lim src tgt args =>
      do dens' <- mapM resolve dens;
      do args' <- mapM (fun p => do v <- mapM resolve (snd p); Ok (fst p, v)) args;
      Ok (EPot tk sks dens' lim src tgt args')
  | _ => Ok e
  end.

(** ** Vector calculus; [id] is the derivative's unique identifier *)
(** primitives.py 1808-1830 ([dd_axis]) on one expression; an axis beyond the dimension
    is an IndexError. *)
Definition dd_axis (id axis adim : nat) (e : ex) : result ex :=
  if axis <? adim then
    let unit := mvec (map (fun i => EQ (if Nat.eqb i axis then 1 else 0)) (seq 0 adim)) in
    resolve (emul (mget (mscal adim unit (dnabla (Some id) adim)) 0) (EDsrc id e))
  else Err IndexError.
(** primitives.py 1838-1847. *)
Definition grad_mv (id adim : nat) (e : ex) : result emv :=
  mmapM resolve (mgeo adim (dnabla (Some id) adim) (mscalar (EDsrc id e))).
(** primitives.py 1850-1855. *)
Definition grad (id adim : nat) (e : ex) : result (list ex) :=
  do m <- grad_mv id adim e; as_vector adim m.
(** primitives.py 1858-1865. *)
Definition laplace (id adim : nat) (e : ex) : result ex :=
  do g <- mmapM resolve (mgeo adim (dnabla (Some id) adim) (mscalar (EDsrc id e)));
  do m <- mmapM resolve (minner adim (dnabla (Some id) adim) (mmap (EDsrc id) g));
  as_scalar m.
(** primitives.py 2561-2566 ([div]). *)
Definition div (id : nat) (v : list ex) : result ex :=
  do l <- mapM (fun i => dd_axis id i (length v) (nth i v (EQ 0))) (seq 0 (length v));
  Ok (fsum l).
(** pytools.levi_civita on three indices. *)
Definition levi_civita (i j k : nat) : Z :=
  match i, j, k with
  | 0, 1, 2 | 1, 2, 0 | 2, 0, 1 => 1
  | 0, 2, 1 | 2, 1, 0 | 1, 0, 2 => -1
  | _, _, _ => 0
  end.
(** primitives.py 2569-2578 ([curl]); an index beyond the vector is an IndexError. *)
Definition curl (id : nat) (v : list ex) : result (list ex) :=
  mapM (fun l =>
    do ts <- mapM (fun mn =>
       match nth_error v (snd mn) with
       | None => Err IndexError
       | Some c => do d <- dd_axis id (fst mn) 3 c;
                   Ok (emul (EQ (levi_civita l (fst mn) (snd mn))) d)
       end) (list_prod (seq 0 3) (seq 0 3));
    Ok (fsum ts)) (seq 0 3).

Definition lift_mv (m : mv) : emv := map (fun t => (fst t, lift (snd t))) m.
(** primitives.py 918-936 ([normal]); GeoModel.normal gives its vector components. *)
Definition normal_mv (adim : nat) (dim : option nat) (dd : dd_like) : result emv :=
  do d <- as_dofdesc dd;
  do p <- pseudoscalar adim dim (LDesc d);
  do a <- area_element adim dim (LDesc d);
  Ok (lift_mv (cse_mv "normal" (mv_lc adim (mv_div p a) (mv_Iinv adim)))).
(** primitives.py 2307-2316. *)
Definition normal_derivative (id adim : nat) (e : ex) (dim : option nat) (dd : dd_like) : result ex :=
  do n <- normal_mv adim dim dd;
  resolve (emul (mget (mscal adim n (dnabla (Some id) adim)) 0) (EDsrc id e)).
(** primitives.py 2319-2331. *)
Definition normal_second_derivative (id adim : nat) (e : ex) (dim : option nat) (dd : dd_like)
    : result ex :=
  do n <- normal_mv adim dim dd;
  let nabla := dnabla (Some id) adim in
  do g <- mmapM resolve (mgeo adim nabla (mscalar (EDsrc id e)));
  resolve (mget (mscal adim n
    (mgeo adim (mscalar (mget (mscal adim n nabla) 0)) (mmap (EDsrc id) g))) 0).
(** primitives.py 2291-2304. *)
Definition tangential_derivative (id adim : nat) (e : ex) (dim : option nat) (dd : dd_like)
    : result emv :=
  do p <- pseudoscalar adim dim dd;
  do a <- area_element adim dim dd;
  mmapM resolve (mrc adim (mgeo adim (dnabla (Some id) adim) (mscalar (EDsrc id e)))
                     (lift_mv (mv_div p a))).

(** ** Layer potentials *)
(** Operands: an expression, an object array, a multivector. *)
Inductive operand := OS (e : ex) | OA (l : list ex) | OM (m : emv).
Definition componentwise (f : ex -> result ex) (o : operand) : result operand :=
  match o with
  | OS e => do e' <- f e; Ok (OS e')
  | OA l => do l' <- mapM f l; Ok (OA l')
  | OM m => do m' <- mmapM f m; Ok (OM m')
  end.
Definition kargs := kargs_like (list ex).
Definition kdict (ka : kargs) : list (string * list ex) :=
  match ka with KNone => [] | KTuple l => dict_of l | KMap l => l end.

(** primitives.py 2012-2073 ([IntG.__post_init__]; see also CtorModel.v). *)
Definition mk_intg (tk : kern) (sks : list kern) (dens : list ex) (lim : limarg)
    (src tgt : dofdesc) (args : list (string * list ex)) : result ex :=
  if negb (limit_allowed lim) then Err ValueError else
  let kernels := sks ++ [tk] in
  if negb (forallb (fun k => base_eqb (kb (hd tk sks)) (kb k)) kernels) then Err ValueError else
  let names := flat_map arg_names kernels in
  let provided := dkeys args in
  if negb (subset names provided) then Err ValueError else
  if negb (subset provided names) then Err ValueError else
  Ok (EPot tk sks dens lim src tgt args).

(** primitives.py 2216-2268 ([int_g_vec]); keyword arguments replace entries of
    [kernel_arguments]. *)
Definition int_g_vec (k : kern) (dens : operand) (lim : limarg) (src tgt : dd_like)
    (ka : kargs) (kwargs : list (string * list ex)) : result operand :=
  let args := fold_left (fun d p => dset d (fst p) (snd p)) kwargs (kdict ka) in
  componentwise (fun e =>
    do s <- as_dofdesc src; do t <- as_dofdesc tgt;
    mk_intg (sxr k) [txr k] [e] lim s t args) dens.

Definition dir_vec_name : string := "dsource_vec".
(** primitives.py 2119-2128 ([_insert_source_derivative_into_kernel]). *)
Fixpoint insert_ws (ws : list wrap) : list wrap :=
  match ws with [] => [WDir dir_vec_name] | w :: r => w :: insert_ws r end.
Definition insert_source_derivative (k : kern) : kern := Kn (kb k) (insert_ws (kw k)).

(** The keys of coefficient dictionaries: 1 and nabla components. *)
Inductive ckey := K1 | KN (id : option nat) (axis : nat).
Definition ckey_eqb (a b : ckey) : bool :=
  match a, b with
  | K1, K1 => true
  | KN i x, KN j y => onat_eqb i j && Nat.eqb x y
  | _, _ => false
  end.
Definition coeffs := list (ckey * ex).
Fixpoint cadd (d : coeffs) (k : ckey) (c : ex) : coeffs :=
  match d with
  | [] => [(k, c)]
  | (k', c') :: r => if ckey_eqb k' k then (k', eadd c' c) :: r else (k', c') :: cadd r k c
  end.
Definition has_vars (d : coeffs) : bool := existsb (fun t => negb (ckey_eqb (fst t) K1)) d.
Definition const_coeff (d : coeffs) : ex := match d with [] => EQ 1 | t :: _ => snd t end.
(** [CoefficientCollector.map_product]. *)
Definition cmul (ds : list coeffs) : result coeffs :=
  let other := fprod (map const_coeff (filter (fun d => negb (has_vars d)) ds)) in
  match filter has_vars ds with
  | [] => Ok [(K1, other)]
  | [d] => Ok (map (fun t => (fst t, emul other (snd t))) d)
  | _ => Err RuntimeError
  end.
(** primitives.py 2140-2153 ([_DSourceCoefficientFinder] on top of pymbolic's
    [CoefficientCollector]); nodes without a method are unsupported. *)
Fixpoint collect (e : ex) : result coeffs :=
  match e with
  | EQ _ | EVar _ | ESpat _ | ECse _ | EQuot _ _ => Ok [(K1, e)]
  | EGeo (GQ _ _) | EGeo (GVar _) | EGeo (GCse _ _ _) | EGeo (GDiv _ _) => Ok [(K1, e)]
  | ENab id ax => Ok [(KN id ax, EQ 1)]
  | ESum l =>
      do ds <- mapM collect l;
      Ok (fold_left (fun r d => fold_left (fun r t => cadd r (fst t) (snd t)) d r) ds [])
  | EProd l => do ds <- mapM collect l; cmul ds
  | EGeo _ | EDsrc _ _ | EPot _ _ _ _ _ _ _ => Err NotImplementedError
  end.
Fixpoint cget (d : coeffs) (k : ckey) : ex :=
  match d with [] => EQ 0 | (k', c) :: r => if ckey_eqb k' k then c else cget r k end.
Definition cpop (d : coeffs) (k : ckey) : coeffs := filter (fun t => negb (ckey_eqb (fst t) k)) d.
(** primitives.py 2131-2164 ([_get_dir_vec]). *)
Definition get_dir_vec (e : ex) (adim : nat) : result (list ex) :=
  do d <- collect e;
  let keys := map (KN None) (seq 0 adim) in
  match fold_left cpop keys d with
  | [] => Ok (map (cget d) keys)
  | _ => Err RuntimeError
  end.

(** [cse]: numbers and common subexpressions are not wrapped. *)
Definition make_cse (e : ex) : ex := match e with EQ _ | ECse _ => e | _ => ECse e end.

(** primitives.py 2167-2209 ([int_g_dsource]). *)
Definition int_g_dsource (adim : nat) (dsource : emv) (k : kern) (dens : operand) (lim : limarg)
    (src tgt : dd_like) (ka : kargs) (kwargs : list (string * list ex))
    : result (list (nat * operand)) :=
  let args := kdict ka in
  let k' := insert_source_derivative k in
  do dens' <- componentwise (fun e => Ok (make_cse e)) dens;
  mapM (fun t =>
    do v <- get_dir_vec (snd t) adim;
    do o <- int_g_vec k' dens' lim src tgt (KMap (dset args dir_vec_name v)) kwargs;
    Ok (fst t, o)) (mgeo adim dsource (dnabla None adim)).

(** [qbx_forced_limit]: [None] is "not given". *)
Definition default_limit (l : option limarg) (d : limarg) : limarg :=
  match l with None => d | Some l => l end.
(** [ambient_dim], defaulting to the kernel's dimension. *)
Definition ambient (a : option nat) (k : kern) : nat :=
  match a with None => b_dim (kb k) | Some a => a end.

(** primitives.py 2271-2288. *)
Definition S (k : kern) (dens : operand) (lim : option limarg) (src tgt : dd_like) (ka : kargs)
    (kwargs : list (string * list ex)) : result operand :=
  int_g_vec k dens (default_limit lim (LimInt 1)) src tgt ka kwargs.

(** primitives.py 2394-2424; [xproject(0)] of a multivector without scalar part is 0. *)
Definition D (k : kern) (dens : operand) (lim : option limarg) (src tgt : dd_like) (ka : kargs)
    (adim dim : option nat) (kwargs : list (string * list ex)) : result operand :=
  let a := ambient adim k in
  do n <- normal_mv a dim src;
  do m <- int_g_dsource a n k dens (default_limit lim (LimStr "avg")) src tgt ka kwargs;
  Ok (match find (fun t => Nat.eqb (fst t) 0) m with Some t => snd t | None => OS (EQ 0) end).

(** primitives.py 2334-2360 ([Sp]), 2363-2391 ([Spp]), 2427-2458 ([Dp]), for a scalar
    density. *)
Definition Sp (id : nat) (k : kern) (dens : ex) (lim : option limarg) (src tgt : dd_like)
    (ka : kargs) (adim dim : option nat) (kwargs : list (string * list ex)) : result ex :=
  do o <- S k (OS dens) (Some (default_limit lim (LimStr "avg"))) src tgt ka kwargs;
  match o with OS e => normal_derivative id (ambient adim k) e dim tgt | _ => Err TypeError end.
Definition Spp (id : nat) (k : kern) (dens : ex) (lim : option limarg) (src tgt : dd_like)
    (ka : kargs) (adim dim : option nat) (kwargs : list (string * list ex)) : result ex :=
  do o <- S k (OS dens) (Some (default_limit lim (LimInt 1))) src tgt ka kwargs;
  match o with OS e => normal_second_derivative id (ambient adim k) e dim tgt | _ => Err TypeError end.
Definition Dp (id : nat) (k : kern) (dens : ex) (lim : option limarg) (src tgt : dd_like)
    (ka : kargs) (adim dim : option nat) (kwargs : list (string * list ex)) : result ex :=
  do o <- D k (OS dens) (Some (default_limit lim (LimInt 1))) src tgt ka
            (Some (ambient adim k)) dim kwargs;
  match o with OS e => normal_derivative id (ambient adim k) e dim tgt | _ => Err TypeError end.
