(** Model of symbolic expressions and of the mappers that prepare them for binding.
    /repo/pytential/symbolic/mappers.py, primitives.py, execution.py,
    linalg/direct_solver_symbolic.py. *)
From Verif Require Import Base DofModel.
From Coq Require Import QArith_base.
Set Implicit Arguments.

(** sumpy kernels with derivatives attached (sumpy is external; [KBase] stands for a
    kernel without derivatives, the directional ones carry their vector's name). *)
Inductive kern :=
| KBase (id : nat)
| KAxisTgt (axis : nat) (k : kern) | KDirTgt (vec : string) (k : kern)
| KAxisSrc (axis : nat) (k : kern) | KDirSrc (vec : string) (k : kern).

(** primitives.py 1923-1940: [qbx_forced_limit]. *)
Inductive limit := LNone | LAvg | LInt (z : Z).

(** The attributes of an [IntG] node other than densities and kernel argument values
    (primitives.py 1886-1958): kernels, number of densities, limit, source, target and
    the names of the kernel arguments. *)
Record intg := IntG
  { g_tk : kern; g_sks : list kern; g_nd : nat; g_lim : limit;
    g_src : dofdesc; g_tgt : dofdesc; g_kargs : list string }.

Inductive redkind := RSum | RMax | RMin.

(** Node types with their non-recursive attributes (primitives.py, pymbolic):
    numbers, Variable, SpatialConstant, Sum, Product, Quotient, Power, Call,
    CommonSubexpression, object arrays, Ones, QWeight, NodeCoordinateComponent,
    IsShapeClass, ErrorExpression, NumReferenceDerivative, Elementwise reductions,
    Node reductions, Interpolation, Interleave, IterativeInverse (children: the
    right-hand side and the extra variables; its operator expression is opaque) and
    IntG (children: the densities, then the kernel argument values). *)
Inductive head :=
| HConst (c : Q) | HVar (n : string) | HSpatial (n : string)
| HSum | HProd | HQuot | HPow | HCall (f : string)
| HCse (prefix : option string) (scope : nat) | HArray
| HOnes (dd : dofdesc) | HQWeight (dd : dofdesc) | HNodeCoord (axis : nat) (dd : dofdesc)
| HIsShape (shape : nat) (dd : dofdesc) | HError (msg : nat)
| HNumRefDer (axes : list (nat * nat)) (dd : dofdesc)
| HElwise (k : redkind) (dd : dofdesc) | HNodeRed (k : redkind)
| HInterp (from_dd to_dd : dofdesc) | HInterleave (from_dd : dofdesc)
| HInverse (op : nat) (v : string) (extra : list string) (dd : dofdesc)
| HIntG (g : intg).

Inductive sexpr := Node (h : head) (cs : list sexpr).
Definition sexpr_head (e : sexpr) : head := let 'Node h _ := e in h.
Definition sexpr_children (e : sexpr) : list sexpr := let 'Node _ cs := e in cs.

(** Induction with hypotheses for all children. *)
Fixpoint sexpr_ind' (P : sexpr -> Prop)
    (f : forall h cs, Forall P cs -> P (Node h cs)) (e : sexpr) : P e :=
  match e with
  | Node h cs =>
      f h cs ((fix go (l : list sexpr) : Forall P l :=
                 match l with
                 | [] => Forall_nil P
                 | c :: l' => Forall_cons c (sexpr_ind' f c) (go l')
                 end) cs)
  end.

(** [dd.copy(geometry=<descriptor>)] and [dd.copy(discr_stage=...)]
    (dof_desc.py 188-204) for well-formed descriptors; see [copy_geometry_ok],
    [set_stage_ok] in SymProofs.v for the relation to [dd_copy]. *)
Definition copy_geometry (d o : dofdesc) : dofdesc :=
  DD (match geometry o with None => geometry d | Some g => Some g end)
     (discr_stage o) (granularity d).
Definition set_stage (d : dofdesc) (s : stage) : dofdesc := DD (geometry d) (Some s) (granularity d).

(** ** LocationTagger *)
Definition is_none {A : Type} (o : option A) : bool := match o with None => true | _ => false end.

(** mappers.py 407-424 ([_default_dofdesc]); [ds], [dt]: default source, target. *)
Definition default_dofdesc (ds dt d : dofdesc) : dofdesc :=
  match geometry d with
  | None =>
      if is_none (discr_stage d) && gran_eqb (granularity d) NODE
      then copy_geometry d dt else copy_geometry d ds
  | Some DEFAULT_SOURCE => copy_geometry d ds
  | Some DEFAULT_TARGET => copy_geometry d dt
  | Some _ => d
  end.

(** [if dd.geometry is None: dd = dd.copy(geometry=...)] (mappers.py 464-470, 486-488,
    502-508, 514-516). *)
Definition fill (d dflt : dofdesc) : dofdesc :=
  match geometry d with None => copy_geometry d dflt | Some _ => d end.

(** mappers.py 426-529: the head that each [map_*] method rebuilds the node with. *)
Definition tag_head (ds dt : dofdesc) (h : head) : head :=
  match h with
  | HOnes d => HOnes (default_dofdesc ds dt d)
  | HQWeight d => HQWeight (default_dofdesc ds dt d)
  | HNodeCoord ax d => HNodeCoord ax (default_dofdesc ds dt d)
  | HNumRefDer axes d => HNumRefDer axes (default_dofdesc ds dt d)
  | HElwise k d => HElwise k (default_dofdesc ds dt d)
  | HIsShape s d => HIsShape s (default_dofdesc ds dt d)
  | HIntG g => HIntG (IntG (g_tk g) (g_sks g) (g_nd g) (g_lim g)
                        (fill (g_src g) ds) (fill (g_tgt g) dt) (g_kargs g))
  | HInverse op v ex d => HInverse op v ex (fill d dt)
  | HInterp f t => HInterp (fill f ds) (fill t ds)
  | HInterleave f => HInterleave (fill f ds)
  | _ => h
  end.

(** mappers.py 391-529 ([LocationTagger]). Rebuilding re-runs the validation of
    [IntG.__post_init__] on unchanged kernels and names, which cannot fail; the CSE
    cache is transparent for a pure mapper.  Simplification: an interpolation whose two
    descriptors become equal is kept here, where the constructor returns its operand (or
    corrupts it, if that is an interpolation); TagModel.v has the exact taggers and
    TagProps.v says how the two are related. *)
Fixpoint loc_tag (ds dt : dofdesc) (e : sexpr) : sexpr :=
  let 'Node h cs := e in Node (tag_head ds dt h) (map (loc_tag ds dt) cs).

(** mappers.py 532-557 ([ToTargetTagger]): the arguments of a layer potential are
    tagged with the source as both defaults. *)
Fixpoint to_target_tag (ds dt : dofdesc) (e : sexpr) : sexpr :=
  match e with
  | Node (HIntG g) cs => Node (tag_head ds dt (HIntG g)) (map (loc_tag ds ds) cs)
  | Node h cs => Node (tag_head ds dt h) (map (to_target_tag ds dt) cs)
  end.

(** ** DiscretizationStageTagger, mappers.py 562-601. *)
Definition has_stage (d : dofdesc) (s : stage) : bool := opt_eqb stage_eqb (discr_stage d) (Some s).
Fixpoint stage_tag (s : stage) (e : sexpr) : sexpr :=
  match e with
  | Node (HNodeCoord ax d) cs =>
      if has_stage d s then e else Node (HNodeCoord ax (set_stage d s)) cs
  | Node (HNumRefDer axes d) cs =>
      if has_stage d s then e
      else Node (HNumRefDer axes (set_stage d s)) (map (stage_tag s) cs)
  | Node h cs => Node h (map (stage_tag s) cs)
  end.

(** ** DerivativeTaker *)
(** mappers.py 608-628 ([_IsSptiallyVaryingMapper]) on top of [CombineMapper]
    (220-265): nodes for which neither has a method are unsupported. *)
Fixpoint varying (e : sexpr) : result bool :=
  let 'Node h cs := e in
  match h with
  | HConst _ | HSpatial _ => Ok false
  | HVar _ | HIntG _ => Ok true
  | HCall _ => do bs <- mapM varying cs; Ok (existsb (fun b => b) (true :: bs))
  | HOnes _ | HQWeight _ | HNodeCoord _ _ | HIsShape _ _ | HError _ => Err NotImplementedError
  | _ => do bs <- mapM varying cs; Ok (existsb (fun b => b) bs)
  end.

(** mappers.py 654-660: splitting the factors. *)
Fixpoint split_factors (cs : list sexpr) : result (list sexpr * list sexpr) :=
  match cs with
  | [] => Ok ([], [])
  | c :: cs' =>
      do v <- varying c;
      do (const, nonconst) <- split_factors cs';
      Ok (if v then (const, c :: nonconst) else (c :: const, nonconst))
  end.

Definition num (c : Q) : sexpr := Node (HConst c) [].
Definition q0 : Q := 0%Z # 1.
Definition q1 : Q := 1%Z # 1.
Definition qhalf : Q := 1%Z # 2.

Definition with_tk (g : intg) (k : kern) : intg :=
  IntG k (g_sks g) (g_nd g) (g_lim g) (g_src g) (g_tgt g) (g_kargs g).

(** mappers.py 634-683 ([DerivativeTaker]); sums and products are built without
    pymbolic's simplifications. The dedicated exception class of products with several
    varying factors is rendered as [TypeError]. The recursion on the varying factor is
    on the tree below the product. *)
Fixpoint take_derivative (axis : nat) (e : sexpr) : result sexpr :=
  let 'Node h cs := e in
  match h with
  | HConst _ => Ok (num q0)
  | HSum => do cs' <- mapM (take_derivative axis) cs; Ok (Node HSum cs')
  | HProd =>
      do (const, nonconst) <- split_factors cs;
      match nonconst with
      | [] => Ok (Node HProd [Node HProd const; num q0])
      | [_] =>
          (fix go (l : list sexpr) : result sexpr :=
             match l with
             | [] => Err AssertionError
             | c :: l' =>
                 match varying c with
                 | Ok true => do d <- take_derivative axis c; Ok (Node HProd [Node HProd const; d])
                 | _ => go l'
                 end
             end) cs
      | _ => Err TypeError
      end
  | HIntG g => Ok (Node (HIntG (with_tk g (KAxisTgt axis (g_tk g)))) cs)
  | _ => Err NotImplementedError
  end.

(** ** UnregularizedPreprocessor, mappers.py 717-736; its [geometry] is not used. *)
Definition with_lim (g : intg) (l : limit) : intg :=
  IntG (g_tk g) (g_sks g) (g_nd g) l (g_src g) (g_tgt g) (g_kargs g).
Definition one_sided (l : limit) : bool :=
  match l with LInt z => (z =? 1)%Z || (z =? -1)%Z | _ => false end.
Definition two_sided (l : limit) : bool :=
  match l with LInt z => (z =? 2)%Z || (z =? -2)%Z | _ => false end.
Definition is_avg (l : limit) : bool := match l with LAvg => true | _ => false end.
Fixpoint unreg_pre (name : geom) (e : sexpr) : result sexpr :=
  let 'Node h cs := e in
  match h with
  | HIntG g =>
      if one_sided (g_lim g) then Err ValueError else
      do cs' <- mapM (unreg_pre name) cs;
      Ok (Node (HIntG (with_lim g LNone)) cs')
  | _ => do cs' <- mapM (unreg_pre name) cs; Ok (Node h cs')
  end.

(** ** QBXPreprocessor, mappers.py 828-885. *)
Definition is_self (g : intg) : bool :=
  opt_eqb geom_eqb (geometry (g_src g)) (geometry (g_tgt g))
  && opt_eqb stage_eqb (discr_stage (g_src g)) (discr_stage (g_tgt g)).
Fixpoint qbx_pre (name : geom) (e : sexpr) : result sexpr :=
  let 'Node h cs := e in
  match h with
  | HIntG g =>
      if negb (opt_eqb geom_eqb (geometry (g_src g)) (Some name)) then Ok e else
      match g_lim g with
      | LInt 0%Z => Err ValueError
      | _ =>
        do cs' <- mapM (qbx_pre name) cs;
        if negb (is_self g) then
          if is_avg (g_lim g) || one_sided (g_lim g) then Err ValueError
          else Ok (Node (HIntG g) cs')
        else
          match g_lim g with
          | LNone => Err ValueError
          | LAvg => Ok (Node HProd [num qhalf; Node HSum
                          [Node (HIntG (with_lim g (LInt 1))) cs';
                           Node (HIntG (with_lim g (LInt (-1)))) cs']])
          | l => if two_sided l then Err ValueError else Ok (Node (HIntG g) cs')
          end
      end
  | _ => do cs' <- mapM (qbx_pre name) cs; Ok (Node h cs')
  end.

(** ** InterpolationPreprocessor *)
(** What a geometry identifier refers to in the collection (collection.py 67):
    a QBX source, an unregularized source, a point source, or something else. *)
Inductive place := PQbx | PUnreg | PPoint | PTarget.
Definition places := list (geom * place).
(** collection.py 409-417 ([get_geometry]): KeyError when absent. *)
Fixpoint get_place (ps : places) (g : geom) : option place :=
  match ps with
  | [] => None
  | (n, p) :: ps' => if geom_eqb n g then Some p else get_place ps' g
  end.
Definition get_geometry (ps : places) (g : option geom) : result place :=
  match g with
  | None => Err KeyError
  | Some g => match get_place ps g with None => Err KeyError | Some p => Ok p end
  end.

(** primitives.py 1515-1527 ([interpolate]). *)
Definition interpolate (e : sexpr) (f t : dofdesc) : result sexpr :=
  if dd_eqb f t then Ok e
  else if gran_eqb (granularity t) CENTER then Err ValueError
  else Ok (Node (HInterp f t) [e]).

(** [componentwise(f, e)]: to each component of an object array, or to [e]. *)
Definition componentwise (f : sexpr -> result sexpr) (e : sexpr) : result sexpr :=
  match e with
  | Node HArray cs => do cs' <- mapM f cs; Ok (Node HArray cs')
  | _ => f e
  end.

Definition with_tgt (g : intg) (d : dofdesc) : intg :=
  IntG (g_tk g) (g_sks g) (g_nd g) (g_lim g) (g_src g) d (g_kargs g).
Definition with_src (g : intg) (d : dofdesc) : intg :=
  IntG (g_tk g) (g_sks g) (g_nd g) (g_lim g) d (g_tgt g) (g_kargs g).

(** mappers.py 743-822 ([InterpolationPreprocessor] with [from_discr_stage] = [fs]);
    [fuel] bounds the recursion, running out of it is Python's RecursionError. *)
Fixpoint interp_pre (fuel : nat) (ps : places) (fs : stage) (e : sexpr) : result sexpr :=
  match fuel with
  | O => Err OutOfFuel
  | S n =>
    let 'Node h cs := e in
    match h with
    | HNumRefDer axes d =>
        if negb (has_stage d QUAD_STAGE2) then Ok e else
        do p <- get_geometry ps (geometry d);
        match p with
        | PQbx =>
            do e' <- interp_pre n ps fs (stage_tag fs e);
            interpolate e' (set_stage d fs) d
        | _ => Ok e
        end
    | HIntG g0 =>
        let g := match discr_stage (g_tgt g0) with
                 | None => with_tgt g0 (set_stage (g_tgt g0) STAGE1)
                 | Some _ => g0
                 end in
        match discr_stage (g_src g) with
        | Some _ => Ok (Node (HIntG g) cs)
        | None =>
          do p <- get_geometry ps (geometry (g_src g));
          match p with
          | PQbx =>
            let from_dd := set_stage (g_src g) STAGE1 in
            let to_dd := set_stage from_dd QUAD_STAGE2 in
            do ds <- mapM (fun c => do c' <- interp_pre n ps fs c; interpolate c' from_dd to_dd)
                          (firstn (g_nd g) cs);
            let from_dd' := set_stage from_dd fs in
            do ks <- mapM (componentwise (fun c =>
                             do c' <- interp_pre n ps fs (stage_tag fs c);
                             interpolate c' from_dd' to_dd))
                          (skipn (g_nd g) cs);
            Ok (Node (HIntG (with_src g to_dd)) (ds ++ ks))
          | _ => Ok (Node (HIntG g) cs)
          end
        end
    | _ => do cs' <- mapM (interp_pre n ps fs) cs; Ok (Node h cs')
    end
  end.

(** A fuel that suffices, see [interp_fuel_enough]: twice the number of nodes. *)
Fixpoint size (e : sexpr) : nat :=
  let 'Node _ cs := e in S (fold_right (fun c n => (size c + n)%nat) 0%nat cs).
Definition interp (ps : places) (fs : stage) (e : sexpr) : result sexpr :=
  interp_pre (2 * size e + 1) ps fs e.

(** ** _prepare_expr, execution.py 626-663 (after flattening, and for expressions
    without derivative operators, on which [DerivativeBinder] is the identity):
    tagging, the preprocessors of the layer potential sources in the order of the
    collection (qbx/__init__.py 518-524, unregularized.py 147-153, source.py 127-136),
    then upsampling with the default [from_discr_stage], stage 2. *)
Definition preprocess_place (np : geom * place) (e : sexpr) : result sexpr :=
  match snd np with
  | PQbx => qbx_pre (fst np) e
  | PUnreg => unreg_pre (fst np) e
  | _ => Ok e
  end.
Fixpoint preprocess_all (ps : places) (e : sexpr) : result sexpr :=
  match ps with
  | [] => Ok e
  | np :: ps' => do e' <- preprocess_place np e; preprocess_all ps' e'
  end.
Definition prepare_expr (ps : places) (ds dt : dofdesc) (e : sexpr) : result sexpr :=
  do e' <- preprocess_all ps (to_target_tag ds dt e);
  interp ps STAGE2 e'.
