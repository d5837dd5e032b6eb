(** Specification vocabulary for symbolic layer potentials: a calculus is a commutative
    ring of functions with the derivatives along the axes of the target point, an
    interpretation of the atoms, and the potentials of the derivatives of the base
    kernels with respect to the source point.  [val] is the value of an expression. *)
From Coq Require Import Setoid Ring InitialRing.
From Verif Require Import Base DofModel GeoModel CtorModel SymSpec LpModel.
Set Implicit Arguments.

Record calculus := Calc
  { cr : diff_ring;
    c_geo : ge -> dr_car cr;                    (* geometric quantities *)
    c_var : string -> dr_car cr;
    c_spat : string -> dr_car cr;               (* spatial constants *)
    c_div : dr_car cr -> dr_car cr -> dr_car cr;
    c_coord : nat -> dr_car cr;                 (* coordinates of the target point *)
    (* base kernel, limit, source, target, kernel parameters, axes of the source
       derivatives, density: the potential *)
    c_pot : base -> limarg -> dofdesc -> dofdesc -> list (list (dr_car cr)) -> list nat ->
            dr_car cr -> dr_car cr;
    c_int : Z -> dr_car cr := gen_phiZ (dr_0 cr) (dr_1 cr) (dr_add cr) (dr_mul cr) (dr_opp cr);
    c_geo_num : forall z, c_geo (GQ z 1) = c_int z;
    c_geo_const : forall i n d, dr_d cr i (c_geo (GQ n d)) = dr_0 cr;
    c_spat_const : forall i s, dr_d cr i (c_spat s) = dr_0 cr;
    c_div_const : forall i x y, dr_d cr i x = dr_0 cr -> dr_d cr i y = dr_0 cr ->
                                dr_d cr i (c_div x y) = dr_0 cr }.

Section Val.
Variable C : calculus.
Notation R := (dr_car (cr C)).
Notation "0" := (dr_0 (cr C)).
Notation "1" := (dr_1 (cr C)).
Notation "x + y" := (dr_add (cr C) x y).
Notation "x * y" := (dr_mul (cr C) x y).
Notation "- x" := (dr_opp (cr C) x).
Notation d := (dr_d (cr C)).

Definition rsum (l : list R) : R := fold_right (dr_add (cr C)) 0 l.
Definition rprod (l : list R) : R := fold_right (dr_mul (cr C)) 1 l.
(** The sum of [f i] over the axes [i < n]. *)
Definition sum_axes (n : nat) (f : nat -> R) : R := rsum (map f (seq 0 n)).

(** The value of a named argument. *)
Fixpoint alookup (av : list (string * list R)) (n : string) : list R :=
  match av with [] => [] | (m, v) :: r => if String.eqb m n then v else alookup r n end.
Definition vnth (i : nat) (v : list R) : R := nth i v 0.

(** The potential of a kernel's source derivatives (outermost first; [axes] are the
    derivatives already taken): an axis derivative, or the derivative along a vector
    field given at the source points. *)
Fixpoint source_pot (b : base) (lim : limarg) (src tgt : dofdesc) (av : list (string * list R))
    (ws : list wrap) (axes : list nat) (sigma : R) : R :=
  match ws with
  | [] => c_pot C b lim src tgt (map (alookup av) (b_args b)) axes sigma
  | WSrc i :: r => source_pot b lim src tgt av r (i :: axes) sigma
  | WDir n :: r =>
      sum_axes (b_dim b) (fun i =>
        source_pot b lim src tgt av r (i :: axes) (vnth i (alookup av n) * sigma))
  | _ :: r => source_pot b lim src tgt av r axes sigma
  end.
(** Target derivatives and multiplications with target coordinates, outermost first. *)
Fixpoint target_op (ws : list wrap) (u : R) : R :=
  match ws with
  | [] => u
  | WTgt i :: r => d i (target_op r u)
  | WPoint i :: r => c_coord C i * target_op r u
  | _ :: r => target_op r u
  end.
(** The layer potential of a wrapped kernel. *)
Definition layer (k : kern) (lim : limarg) (src tgt : dofdesc) (av : list (string * list R))
    (sigma : R) : R :=
  target_op (kw k) (source_pot (kb k) lim src tgt av (kw k) [] sigma).
(** The kernel [dG/dy_i]: one more source derivative, taken first. *)
Definition d_source (i : nat) (k : kern) : kern := Kn (kb k) (kw k ++ [WSrc i]).

(** One density for each source kernel. *)
Fixpoint pots (b : base) (lim : limarg) (src tgt : dofdesc) (av : list (string * list R))
    (ks : list kern) (vs : list R) : list R :=
  match ks, vs with
  | k :: ks', v :: vs' => source_pot b lim src tgt av (kw k) [] v :: pots b lim src tgt av ks' vs'
  | _, _ => []
  end.

(** The value of an expression; [nu] gives values to the symbolic nabla components. *)
Section Nu.
Variable nu : option nat -> nat -> R.
Fixpoint val (e : ex) : R :=
  match e with
  | EQ z => c_int C z
  | EGeo g => c_geo C g
  | EVar s => c_var C s
  | ESpat s => c_spat C s
  | ECse a => val a
  | EQuot a b => c_div C (val a) (val b)
  | ESum l => rsum (map val l)
  | EProd l => rprod (map val l)
  | ENab id ax => nu id ax
  | EDsrc _ a => val a
  | EPot tk sks dens lim src tgt args =>
      let av := map (fun p => (fst p, map val (snd p))) args in
      target_op (kw tk)
        (rsum (pots (kb tk) lim src tgt av sks (map val dens)))
  end.
End Nu.

(** Expressions without derivative operators: their value needs no [nu]. *)
Fixpoint pure (e : ex) : Prop :=
  match e with
  | ENab _ _ | EDsrc _ _ => False
  | ECse a => pure a
  | EQuot a b => pure a /\ pure b
  | ESum l | EProd l => fold_right (fun a P => pure a /\ P) True l
  | EPot _ _ dens _ _ _ args =>
      fold_right (fun a P => pure a /\ P) True dens
      /\ fold_right (fun p P => fold_right (fun a P => pure a /\ P) True (snd p) /\ P) True args
  | _ => True
  end.
Definition value (e : ex) : R := val (fun _ _ => 0) e.
End Val.

(** The value a caller gives to a kernel argument: the last one of
    [kernel_arguments] and the keyword arguments. *)
Definition arg_items (ka : kargs) : list (string * list ex) :=
  match ka with KNone => [] | KTuple l | KMap l => l end.
Definition given (ka : kargs) (kwargs : list (string * list ex)) (n : string) : option (list ex) :=
  option_map snd (find (fun p => String.eqb (fst p) n) (rev (arg_items ka ++ kwargs))).
Definition given_names (ka : kargs) (kwargs : list (string * list ex)) : list string :=
  map fst (arg_items ka ++ kwargs).
(** The caller's arguments for a kernel, evaluated. *)
Definition arg_values (C : calculus) (ka : kargs) (kwargs : list (string * list ex)) (k : kern)
    : list (string * list (dr_car (cr C))) :=
  map (fun n => (n, map (value C) (match given ka kwargs n with Some v => v | None => [] end)))
      (arg_names k).

(** The sign of reordering the blade [b] followed by the axis [i]: one transposition for
    every axis of [b] beyond [i]. *)
Definition blade_sign (adim b i : nat) : Z :=
  if Nat.even (length (filter (fun j => Nat.testbit b j && (i <? j)) (seq 0 adim))) then 1 else -1.

(** A mapping passed as [kernel_arguments] has each name once. *)
Definition valid_kargs (ka : kargs) : Prop :=
  match ka with KMap l => NoDup (map fst l) | _ => True end.
(** The names given are exactly the kernel's arguments. *)
Definition matching_arguments (k : kern) (ka : kargs) (kwargs : list (string * list ex)) : Prop :=
  forall n, In n (given_names ka kwargs) <-> In n (arg_names k).
(** No derivative operators in the arguments. *)
Definition pure_arguments (ka : kargs) (kwargs : list (string * list ex)) : Prop :=
  forall n v, In (n, v) (arg_items ka ++ kwargs) -> Forall pure v.
Definition pure_operand (o : operand) : Prop :=
  match o with OS e => pure e | OA l => Forall pure l | OM m => Forall (fun t => pure (snd t)) m end.
(** [o'] has the structure of [o]; every component's value is [f] of the value of the
    corresponding one. *)
Definition componentwise_value (C : calculus) (f : dr_car (cr C) -> dr_car (cr C)) (o o' : operand)
    : Prop :=
  match o, o' with
  | OS e, OS e' => value C e' = f (value C e)
  | OA l, OA l' => Forall2 (fun e e' => value C e' = f (value C e)) l l'
  | OM m, OM m' => Forall2 (fun t t' => fst t' = fst t /\ value C (snd t') = f (value C (snd t))) m m'
  | _, _ => False
  end.

(** Coefficients of a source derivative: numbers, variables, common subexpressions,
    quotients and sums and products of them. *)
Fixpoint coefficient (e : ex) : Prop :=
  match e with
  | EQ _ | EVar _ | ESpat _ => True
  | EGeo (GQ _ _) | EGeo (GVar _) | EGeo (GCse _ _ _) | EGeo (GDiv _ _) => True
  | ECse a => pure a
  | EQuot a b => pure a /\ pure b
  | ESum l => l <> [] /\ fold_right (fun a P => coefficient a /\ P) True l
  | EProd l => fold_right (fun a P => coefficient a /\ P) True l
  | _ => False
  end.
(** The [i]-th component of the direction of the blade [B] of the geometric product of a
    multivector with nabla: every blade [A] with [A e_i = +-B] contributes. *)
Definition direction (C : calculus) (adim : nat) (dsource : emv) (B i : nat) : dr_car (cr C) :=
  rsum C (map (fun t => dr_mul (cr C) (c_int C (blade_sign adim (fst t) i)) (value C (snd t)))
              (filter (fun t => Nat.eqb (Nat.lxor (fst t) (2 ^ i)) B) dsource)).

(** Layer potentials and their linear combinations with constant coefficients. *)
Definition is_potential (e : ex) : Prop := match e with EPot _ _ _ _ _ _ _ => pure e | _ => False end.
Definition combination_term (e : ex) : Prop :=
  is_potential e
  \/ exists c p, e = EProd [c; p] /\ is_potential p
       /\ (match c with EQ z => z <> 0%Z /\ z <> 1%Z | ESpat _ => True | _ => False end).
Definition combination (e : ex) : Prop :=
  combination_term e \/ exists l, e = ESum l /\ 2 <= length l /\ Forall combination_term l.
