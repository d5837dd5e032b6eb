(** Model of the constructors and copy methods of layer potential sources
    (/repo/pytential/qbx/__init__.py lines 173-480 and /repo/pytential/unregularized.py
    lines 80-121).  Python values are modelled as far as these functions look at them: identity
    with None, False and NOT_PROVIDED, truthiness, isinstance checks for int, bool, float, str and
    callables, and the dimensions of discretizations.  Warnings are not modelled. *)
From Verif Require Import Base.
Open Scope Z_scope.

Inductive pyval :=
| VNone
| VNotProvided                                  (* the sentinel *)
| VBool (b : bool)
| VInt (z : Z)
| VFloat (m : Z)                                (* a multiple of the smallest float *)
| VTol (discr : nat)                            (* 1e3 eps of the discretization's dtype *)
| VStr (s : string)
| VDiscr (id : nat) (dim ambient : Z)
| VConstOrder (order : pyval)                   (* lambda kernel, kernel_args, tree, level: order *)
| VCallable (id : nat)
| VMode (no_refinement : bool)                  (* QBXRefinementMode.REFINE / NO_REFINEMENT *)
| VObj (id : nat)
| VDefaultFactory | VDefaultCostModel.

Definition truthy (v : pyval) : bool :=
  match v with
  | VNone => false
  | VBool b => b
  | VInt z | VFloat z => negb (z =? 0)
  | VStr s => negb (String.eqb s EmptyString)
  | _ => true
  end.
Definition is_none (v : pyval) : bool := match v with VNone => true | _ => false end.
Definition is_not_provided (v : pyval) : bool := match v with VNotProvided => true | _ => false end.
Definition is_false (v : pyval) : bool := match v with VBool false => true | _ => false end.
(** isinstance(v, int): bool is a subclass of int. *)
Definition is_int (v : pyval) : bool := match v with VInt _ | VBool _ => true | _ => false end.
Definition is_bool (v : pyval) : bool := match v with VBool _ => true | _ => false end.
Definition is_float (v : pyval) : bool := match v with VFloat _ | VTol _ => true | _ => false end.
Definition is_str (v : pyval) : bool := match v with VStr _ => true | _ => false end.
Definition is_callable (v : pyval) : bool := match v with VConstOrder _ | VCallable _ => true | _ => false end.
Definition py_or (a b : pyval) : pyval := if truthy a then a else b.

(** Parameters of a QBX source that have attributes, and the two arguments that have none. *)
Inductive param :=
| PDiscr | PFineOrder | PQbxOrder | PLevelToOrder | PFactory | PTolerance | PDebug | PMode
| PExtent | PStickOut | PMaxLeaf | PNorm | PTree | PWellSep | PSepCrit | PMinNsources
| PTargetSpecific | PInspector | PCostModel | PBackend
| AFmmOrder | ADisableRefinement.

Definition src := param -> pyval.
Definition assertb (b : bool) : result unit := if b then Ok tt else Err AssertionError.
Definition dflt_none (v d : pyval) : pyval := if is_none v then d else v.

(** QBXLayerPotentialSource.__init__ (lines 173-370); [a] gives the value of every argument, after
    filling in the defaults of the signature. *)
Definition qbx_init (a : src) : result src :=
  if is_none (a PFineOrder) then Err ValueError else
  do _ <- assertb (is_int (a PFineOrder));
  if is_none (a PQbxOrder) then Err ValueError else
  do _ <- assertb (is_int (a PQbxOrder));
  match a PDiscr with
  | VDiscr did dim ambient =>
      let tol := if is_not_provided (a PTolerance) then VTol did else a PTolerance in
      do _ <- assertb (is_float tol);
      if Bool.eqb (is_none (a AFmmOrder)) (is_none (a PLevelToOrder)) then Err TypeError else
      let norm := dflt_none (a PNorm) (VStr "l2"%string) in
      do _ <- assertb (is_str norm);
      let crit := dflt_none (a PSepCrit) (VStr "precise_linf"%string) in
      do _ <- assertb (is_str crit);
      do lto <- (if is_none (a PLevelToOrder)
                 then if is_false (a AFmmOrder) then Ok (VBool false)
                      else do _ <- assertb (is_int (a AFmmOrder) && negb (is_bool (a AFmmOrder)));
                           Ok (VConstOrder (a AFmmOrder))
                 else Ok (a PLevelToOrder));
      do _ <- assertb (is_bool lto || is_callable lto);
      let maxleaf := dflt_none (a PMaxLeaf) (VInt (if ambient =? 2 then 64 else if ambient =? 3 then 512 else 64)) in
      do _ <- assertb (is_int maxleaf);
      let minns := dflt_none (a PMinNsources) (VInt (if dim =? 1 then 15 else 30)) in
      do _ <- assertb (is_int minns);
      let factory := dflt_none (a PFactory) VDefaultFactory in
      let cost := dflt_none (a PCostModel) VDefaultCostModel in
      let mode := if is_none (a ADisableRefinement) then a PMode
                  else if is_none (a PMode) then VMode (truthy (a ADisableRefinement)) else a PMode in
      let mode := dflt_none mode (VMode false) in
      if negb (dim =? ambient - 1) then Err RuntimeError else
      Ok (fun p => match p with
                   | PTolerance => tol | PNorm => norm | PSepCrit => crit | PLevelToOrder => lto
                   | PMaxLeaf => maxleaf | PMinNsources => minns | PFactory => factory
                   | PCostModel => cost | PMode => mode
                   | AFmmOrder | ADisableRefinement => VNone      (* not attributes *)
                   | p => a p
                   end)
  | _ => Err AttributeError
  end.

(** Defaults of the constructor's signature (lines 175-206); the first two have none, which is
    modelled by a value the constructor refuses. *)
Definition init_defaults : src := fun p =>
  match p with
  | PTolerance => VNotProvided | PDebug => VBool true | PExtent => VBool true
  | PStickOut => VFloat 1 (* 0.5, in units of 0.5 *) | PTree => VStr "adaptive"%string | PWellSep => VInt 2
  | PBackend => VStr "sumpy"%string
  | _ => VNone
  end.

(** Defaults of copy's signature (lines 377-404).  [_well_sep_is_n_away] and
    [_from_sep_smaller_min_nsources_cumul] cannot be overridden; passing them is a TypeError,
    so calls have [VNone] there. *)
Definition copy_default (p : param) : pyval :=
  match p with
  | AFmmOrder | PLevelToOrder | PTolerance | PExtent | PStickOut | PTargetSpecific | PCostModel
  | PDebug | PMode | ADisableRefinement => VNotProvided
  | _ => VNone
  end.

(** QBXLayerPotentialSource.copy (lines 405-480) *)
Definition qbx_copy (self call : src) : result src :=
  let np p := if is_not_provided (call p) then self p else call p in
  do fmm <- (if negb (is_not_provided (call AFmmOrder)) && negb (is_not_provided (call PLevelToOrder)) then Err TypeError
             else if negb (is_not_provided (call AFmmOrder)) then Ok (call AFmmOrder, VNone)
             else if negb (is_not_provided (call PLevelToOrder)) then Ok (VNone, call PLevelToOrder)
             else Ok (VNone, self PLevelToOrder));
  let mode := if negb (is_not_provided (call ADisableRefinement)) && is_not_provided (call PMode)
              then VMode (truthy (call ADisableRefinement)) else np PMode in
  qbx_init (fun p =>
    match p with
    | PDiscr | PFactory | PMaxLeaf | PNorm | PSepCrit | PTree | PInspector | PBackend => py_or (call p) (self p)
    | PFineOrder | PQbxOrder => if is_none (call p) then self p else call p
    | PTolerance | PDebug | PExtent | PStickOut | PTargetSpecific | PCostModel => np p
    | PMode => mode
    | PWellSep | PMinNsources => self p
    | AFmmOrder => fst fmm
    | PLevelToOrder => snd fmm
    | ADisableRefinement => VNone
    end).

(** UnregularizedLayerPotentialSource: parameters and constructor (unregularized.py lines 80-110) *)
Record usrc := mk_usrc { u_discr : pyval; u_lto : pyval; u_factory : pyval; u_debug : pyval }.
Definition unreg_init (discr fmm_order lto factory debug : pyval) : result usrc :=
  if negb (is_false fmm_order) && negb (is_none lto) then Err TypeError else
  Ok (mk_usrc discr
        (if is_none lto then if is_false fmm_order then VBool false else VConstOrder fmm_order else lto)
        (dflt_none factory VDefaultFactory) debug).
(** copy (lines 112-121); defaults are None. *)
Definition unreg_copy (self : usrc) (discr lto debug : pyval) : result usrc :=
  unreg_init (py_or discr (u_discr self)) (VBool false) (py_or lto (u_lto self)) VNone
             (if is_none debug then u_debug self else debug).
