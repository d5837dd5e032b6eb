(** Independent specifications for the mapper properties C17-C21. *)
From Verif Require Import Base DofModel SymModel.
From Coq Require Import QArith_base.
Set Implicit Arguments.

(** ** Occurrences *)
Definition path := list nat.
Fixpoint at_path (e : sexpr) (p : path) : option sexpr :=
  match p with
  | [] => Some e
  | i :: p' => match nth_error (sexpr_children e) i with
               | None => None
               | Some c => at_path c p'
               end
  end.
(** Is the occurrence at [p] strictly inside a layer potential? *)
Definition is_intg (h : head) : bool := match h with HIntG _ => true | _ => false end.
Fixpoint inside_intg (e : sexpr) (p : path) : bool :=
  match p with
  | [] => false
  | i :: p' => is_intg (sexpr_head e) ||
               match nth_error (sexpr_children e) i with
               | None => false
               | Some c => inside_intg c p'
               end
  end.

(** ** C17: locations *)
(** The descriptors of a node, each with the role it plays: the place of a quantity,
    the source side or the target side of an operation. *)
Inductive role := Quantity | SourceSide | TargetSide.
Definition locations (h : head) : list (role * dofdesc) :=
  match h with
  | HOnes d | HQWeight d | HNodeCoord _ d | HIsShape _ d | HNumRefDer _ d | HElwise _ d =>
      [(Quantity, d)]
  | HIntG g => [(SourceSide, g_src g); (TargetSide, g_tgt g)]
  | HInverse _ _ _ d => [(TargetSide, d)]
  | HInterp f t => [(SourceSide, f); (SourceSide, t)]
  | HInterleave f => [(SourceSide, f)]
  | _ => []
  end.
(** The node without its descriptors. *)
Definition no_dd : dofdesc := DD None None NODE.
Definition blank (h : head) : head :=
  match h with
  | HOnes _ => HOnes no_dd
  | HQWeight _ => HQWeight no_dd
  | HNodeCoord a _ => HNodeCoord a no_dd
  | HIsShape s _ => HIsShape s no_dd
  | HNumRefDer a _ => HNumRefDer a no_dd
  | HElwise k _ => HElwise k no_dd
  | HIntG g => HIntG (IntG (g_tk g) (g_sks g) (g_nd g) (g_lim g) no_dd no_dd (g_kargs g))
  | HInverse o v ex _ => HInverse o v ex no_dd
  | HInterp _ _ => HInterp no_dd no_dd
  | HInterleave _ => HInterleave no_dd
  | _ => h
  end.

(** A geometry given explicitly: not missing and not a DEFAULT marker. *)
Definition explicit (d : dofdesc) : Prop :=
  exists g, geometry d = Some g /\ g <> DEFAULT_SOURCE /\ g <> DEFAULT_TARGET.

(** Which default applies to an unspecified geometry: sources for the source side
    and for anything that only makes sense on a layer potential source (a stage or a
    granularity other than nodes is given); otherwise the targets, which inside a
    layer potential are that potential's sources. *)
Definition applicable_default (ds dt : dofdesc) (inside : bool) (r : role) (d : dofdesc) : dofdesc :=
  let here := if inside then ds else dt in
  match r with
  | SourceSide => ds
  | TargetSide => here
  | Quantity =>
      match discr_stage d, granularity d with
      | None, NODE => here
      | _, _ => ds
      end
  end.

(** [d] resolves to [d']. *)
Definition resolved (ds dt : dofdesc) (inside : bool) (r : role) (d d' : dofdesc) : Prop :=
  granularity d' = granularity d
  /\ (explicit d -> d' = d)
  /\ (geometry d = None ->
        geometry d' = geometry (applicable_default ds dt inside r d)
        /\ discr_stage d' = discr_stage (applicable_default ds dt inside r d))
  /\ (geometry d = Some DEFAULT_SOURCE -> r = Quantity ->
        geometry d' = geometry ds /\ discr_stage d' = discr_stage ds)
  /\ (geometry d = Some DEFAULT_TARGET -> r = Quantity -> inside = false ->
        geometry d' = geometry dt /\ discr_stage d' = discr_stage dt).

(** ** Subterms *)
Inductive occurs : sexpr -> sexpr -> Prop :=
| occ_here e : occurs e e
| occ_child h cs c e : In c cs -> occurs c e -> occurs (Node h cs) e.

Definition all_intg (P : intg -> Prop) (e : sexpr) : Prop :=
  forall g cs, occurs e (Node (HIntG g) cs) -> P g.

(** ** C18: limits *)
(** Layer potentials with source [name] all of whose enclosing layer potentials also
    have source [name]. *)
Inductive exposed (name : geom) : sexpr -> intg -> Prop :=
| exp_here g cs : geometry (g_src g) = Some name -> exposed name (Node (HIntG g) cs) g
| exp_op h cs c g : (forall g', h <> HIntG g') -> In c cs -> exposed name c g ->
    exposed name (Node h cs) g
| exp_intg g0 cs c g : geometry (g_src g0) = Some name -> In c cs -> exposed name c g ->
    exposed name (Node (HIntG g0) cs) g.

(** The values the constructor accepts (primitives.py 2010). *)
Definition valid_limit (l : limit) : Prop :=
  l = LNone \/ l = LAvg \/ l = LInt 1 \/ l = LInt (-1) \/ l = LInt 2 \/ l = LInt (-2).

(** On-surface evaluation: source and target are the same geometry and stage. *)
Definition on_surface (g : intg) : Prop :=
  geometry (g_src g) = geometry (g_tgt g) /\ discr_stage (g_src g) = discr_stage (g_tgt g).
Definition legal_limit (g : intg) : Prop :=
  (on_surface g -> g_lim g = LAvg \/ g_lim g = LInt 1 \/ g_lim g = LInt (-1))
  /\ (~ on_surface g -> g_lim g = LNone \/ g_lim g = LInt 2 \/ g_lim g = LInt (-2)).
Definition legal_after (g : intg) : Prop :=
  (on_surface g -> g_lim g = LInt 1 \/ g_lim g = LInt (-1))
  /\ (~ on_surface g -> g_lim g = LNone \/ g_lim g = LInt 2 \/ g_lim g = LInt (-2)).

(** Values of expressions under an arbitrary interpretation of the node types. *)
Section Value.
Variable V : Type.
Variable I : head -> list V -> V.
Fixpoint value (e : sexpr) : V := let 'Node h cs := e in I h (map value cs).
(** "avg" means half of the sum of the +1 and the -1 value. *)
Definition avg_is_average : Prop :=
  forall g vs, g_lim g = LAvg ->
    I (HIntG g) vs =
    I HProd [I (HConst (1#2)) []; I HSum [I (HIntG (with_lim g (LInt 1))) vs;
                                          I (HIntG (with_lim g (LInt (-1)))) vs]].
End Value.

(** ** C19: forgetting limits *)
Fixpoint forget_limits (e : sexpr) : sexpr :=
  let 'Node h cs := e in
  Node (match h with HIntG g => HIntG (with_lim g LNone) | _ => h end) (map forget_limits cs).

(** ** C20: upsampling *)
(** Forgetting stages and interpolations. *)
Definition unstage_dd (d : dofdesc) : dofdesc := DD (geometry d) None (granularity d).
Definition unstage_head (h : head) : head :=
  match h with
  | HNodeCoord a d => HNodeCoord a (unstage_dd d)
  | HNumRefDer a d => HNumRefDer a (unstage_dd d)
  | HIntG g => HIntG (IntG (g_tk g) (g_sks g) (g_nd g) (g_lim g)
                        (unstage_dd (g_src g)) (unstage_dd (g_tgt g)) (g_kargs g))
  | _ => h
  end.
Fixpoint unstage (e : sexpr) : sexpr :=
  match e with
  | Node (HInterp _ _) [c] => unstage c
  | Node h cs => Node (unstage_head h) (map unstage cs)
  end.

(** Where the values of an expression live: geometry, stage, granularity.  A missing
    stage means stage 1. *)
Definition spot : Type := geom * stage * gran.
Definition spot_of (d : dofdesc) : option spot :=
  match geometry d with
  | None => None
  | Some g => Some (g, match discr_stage d with None => STAGE1 | Some s => s end, granularity d)
  end.

(** [lives env p e]: with input variables given at [env], every operation in [e] gets
    operands on the discretization it expects, and [e]'s values are at [p].
    Numbers, spatial constants and node reductions are valid everywhere. *)
Inductive lives (env : string -> spot -> Prop) : spot -> sexpr -> Prop :=
| lv_const p c cs : lives env p (Node (HConst c) cs)
| lv_spatial p n cs : lives env p (Node (HSpatial n) cs)
| lv_var p n cs : env n p -> lives env p (Node (HVar n) cs)
| lv_op p h cs :
    (h = HSum \/ h = HProd \/ h = HQuot \/ h = HPow \/ (exists f, h = HCall f)
     \/ (exists x s, h = HCse x s) \/ h = HArray) ->
    Forall (lives env p) cs -> lives env p (Node h cs)
| lv_ones p d cs : spot_of d = Some p -> lives env p (Node (HOnes d) cs)
| lv_qweight p d cs : spot_of d = Some p -> lives env p (Node (HQWeight d) cs)
| lv_node p a d cs : spot_of d = Some p -> lives env p (Node (HNodeCoord a d) cs)
| lv_der p a d cs : spot_of d = Some p -> Forall (lives env p) cs ->
    lives env p (Node (HNumRefDer a d) cs)
| lv_shape p a d cs : spot_of d = Some p -> lives env p (Node (HIsShape a d) cs)
| lv_error p m cs : lives env p (Node (HError m) cs)
| lv_elwise p q k d cs : spot_of d = Some p -> fst q = fst p -> Forall (lives env q) cs ->
    lives env p (Node (HElwise k d) cs)
| lv_interleave p q f cs : spot_of f = Some q -> p = (fst q, CENTER) -> Forall (lives env q) cs ->
    lives env p (Node (HInterleave f) cs)
| lv_inverse p op v ex d c cs : spot_of d = Some p -> lives env p c ->
    Forall (fun c' => exists q, lives env q c') cs ->
    lives env p (Node (HInverse op v ex d) (c :: cs))
| lv_nodered p q k cs : Forall (lives env q) cs -> lives env p (Node (HNodeRed k) cs)
| lv_interp p q f t cs : spot_of t = Some p -> spot_of f = Some q -> Forall (lives env q) cs ->
    lives env p (Node (HInterp f t) cs)
| lv_intg p q g cs : spot_of (g_tgt g) = Some p -> spot_of (g_src g) = Some q ->
    Forall (lives env q) cs -> lives env p (Node (HIntG g) cs).

(** Expressions built from node coordinates, their derivatives, constants, arithmetic
    and reductions (normals, area elements, ...). *)
Inductive geometric : sexpr -> Prop :=
| geo_node h cs :
    ((exists c, h = HConst c) \/ (exists n, h = HSpatial n) \/ h = HSum \/ h = HProd \/ h = HQuot
     \/ h = HPow \/ (exists f, h = HCall f) \/ (exists x s, h = HCse x s) \/ h = HArray
     \/ (exists a d, h = HNodeCoord a d) \/ (exists a d, h = HNumRefDer a d)
     \/ (exists k, h = HNodeRed k)) ->
    Forall geometric cs -> geometric (Node h cs).

(** Kernel arguments and differentiated quantities are geometric. *)
Definition geometric_arguments (e : sexpr) : Prop :=
  (forall g cs, occurs e (Node (HIntG g) cs) -> Forall geometric (skipn (g_nd g) cs))
  /\ (forall a d cs, occurs e (Node (HNumRefDer a d) cs) -> Forall geometric cs).

(** A layer potential on a QBX source whose source stage is not set. *)
Definition unstaged_qbx (ps : places) (g : intg) : Prop :=
  discr_stage (g_src g) = None /\ exists n, geometry (g_src g) = Some n /\ get_place ps n = Some PQbx.

(** No layer potential sits inside a layer potential that is not itself upsampled. *)
Definition no_hidden_intg (ps : places) (e : sexpr) : Prop :=
  forall g cs c g' cs', occurs e (Node (HIntG g) cs) -> ~ unstaged_qbx ps g ->
    In c cs -> ~ occurs c (Node (HIntG g') cs').

(** ** C21: differentiation *)
(** A commutative ring with a derivation, in which expressions are interpreted. *)
Record diff_ring := DR
  { dr_car : Type; dr_0 : dr_car; dr_1 : dr_car;
    dr_add : dr_car -> dr_car -> dr_car; dr_mul : dr_car -> dr_car -> dr_car;
    dr_opp : dr_car -> dr_car; dr_sub : dr_car -> dr_car -> dr_car;
    dr_d : nat -> dr_car -> dr_car;
    dr_ring : ring_theory dr_0 dr_1 dr_add dr_mul dr_sub dr_opp eq;
    dr_d_add : forall i x y, dr_d i (dr_add x y) = dr_add (dr_d i x) (dr_d i y);
    dr_d_mul : forall i x y,
      dr_d i (dr_mul x y) = dr_add (dr_mul (dr_d i x) y) (dr_mul x (dr_d i y)) }.

Section Diff.
Variable R : diff_ring.
Variable J : head -> list (dr_car R) -> dr_car R.
(** Sums and products mean sums and products, 0 means 0; numbers and spatial
    constants have zero derivative; operations applied to constants (values with zero
    derivative) give constants; the axis derivative of a kernel gives the derivative. *)
Definition sound_interpretation : Prop :=
  (forall vs, J HSum vs = fold_right (dr_add R) (dr_0 R) vs)
  /\ (forall vs, J HProd vs = fold_right (dr_mul R) (dr_1 R) vs)
  /\ (forall vs, J (HConst 0) vs = dr_0 R)
  /\ (forall i c vs, dr_d R i (J (HConst c) vs) = dr_0 R)
  /\ (forall i n vs, dr_d R i (J (HSpatial n) vs) = dr_0 R)
  /\ (forall i h vs,
        (h = HQuot \/ h = HPow \/ (exists x s, h = HCse x s) \/ h = HArray
         \/ (exists k, h = HNodeRed k) \/ (exists a d, h = HNumRefDer a d)
         \/ (exists k d, h = HElwise k d) \/ (exists f t, h = HInterp f t)
         \/ (exists f, h = HInterleave f)) ->
        Forall (fun v => dr_d R i v = dr_0 R) vs -> dr_d R i (J h vs) = dr_0 R)
  /\ (forall i g vs, J (HIntG (with_tk g (KAxisTgt i (g_tk g)))) vs = dr_d R i (J (HIntG g) vs)).
End Diff.

(** What the differentiation has to tell apart: nodes that vary in space (variables,
    layer potentials, calls of named functions), and nodes it does not classify. *)
Definition varying_node (h : head) : Prop :=
  (exists n, h = HVar n) \/ (exists g, h = HIntG g) \/ (exists f, h = HCall f).
Definition unclassified_node (h : head) : Prop :=
  (exists d, h = HOnes d) \/ (exists d, h = HQWeight d) \/ (exists a d, h = HNodeCoord a d)
  \/ (exists a d, h = HIsShape a d) \/ (exists m, h = HError m).
Definition mentions (P : head -> Prop) (e : sexpr) : Prop := exists h cs, occurs e (Node h cs) /\ P h.

(** Numbers and spatial constants have no operands. *)
Definition proper (e : sexpr) : Prop :=
  (forall c cs, occurs e (Node (HConst c) cs) -> cs = [])
  /\ (forall n cs, occurs e (Node (HSpatial n) cs) -> cs = []).

(** Linear combinations: constants, layer potentials, sums of such, and products of
    spatially constant factors with at most one such. *)
Inductive linear_in_potentials : sexpr -> Prop :=
| lin_const c cs : linear_in_potentials (Node (HConst c) cs)
| lin_intg g cs : linear_in_potentials (Node (HIntG g) cs)
| lin_sum cs : Forall linear_in_potentials cs -> linear_in_potentials (Node HSum cs)
| lin_prod l1 x l2 : linear_in_potentials x ->
    Forall (fun c => ~ mentions varying_node c /\ ~ mentions unclassified_node c) (l1 ++ l2) ->
    ~ mentions unclassified_node x ->
    linear_in_potentials (Node HProd (l1 ++ x :: l2)).

(** No solution operators (solving an integral equation). *)
Definition no_inverse (e : sexpr) : Prop :=
  forall op v ex d cs, ~ occurs e (Node (HInverse op v ex d) cs).
