(** Specification vocabulary for potential sources, independent of the code's loops and caches. *)
From Verif Require Import Base SrcModel.
Set Implicit Arguments.
Open Scope list_scope.
Open Scope nat_scope.

(** A P2P evaluator fits a request [(target kernels, source kernels)] in precision [p]. *)
Definition suits (p : prec) (key : list kern * option (list kern)) (P : p2p) : Prop :=
  p_tgt P = fst key /\ p_src P = snd key /\ p_exclude_self P = false /\
  ((exists k, In k (fst key) /\ is_complex_valued k = true) -> p_dtype P = CplxT p) /\
  ((forall k, In k (fst key) -> is_complex_valued k = false) -> p_dtype P = RealT p).

(** Call number [j] is the one whose evaluator call number [i] is given: the first successful
    one with the same kernels. *)
Definition first_success (cs : list (psource * (list kern * option (list kern)))) (i j : nat) : Prop :=
  exists ci cj, nth_error cs i = Some ci /\ nth_error cs j = Some cj /\ snd ci = snd cj /\ j <= i /\
    (exists P, make_p2p (fst cj) (fst (snd cj)) (snd (snd cj)) 0 = Ok P) /\
    forall h ch, h < j -> nth_error cs h = Some ch -> snd ch = snd ci ->
      exists e, make_p2p (fst ch) (fst (snd ch)) (snd (snd ch)) 0 = Err e.

(** An FMM instruction involves complex numbers: some kernel or some density is complex. *)
Definition involves_complex (i : finsn) : Prop :=
  (exists k, In k (f_src i ++ f_tgt i) /\ is_complex_valued k = true) \/
  (exists t, In t (f_dens i) /\ kind_c t = true).
(** The number type is just big enough. *)
Definition fits (p : prec) (i : finsn) (t : dtype) : Prop :=
  (involves_complex i -> t = CplxT p) /\ (~ involves_complex i -> t = RealT p).
(** A well-formed instruction: some source and target kernels over one base kernel, some
    densities (what operator grouping hands over: op_group_features). *)
Definition grouped (i : finsn) : Prop :=
  f_src i <> [] /\ f_tgt i <> [] /\ f_dens i <> [] /\
  exists b, forall k, In k (f_src i ++ f_tgt i) -> k_base k = b.
Definition same_kind (i : finsn) : Prop :=
  forall t u, In t (f_dens i) -> In u (f_dens i) -> kind_c t = kind_c u.

Section Args.
Variable E : Type.

(** [w] is [v] with its per-source arrays in the order [ids] (entry j of [w] is entry ids[j] of
    [v], flattened); scalars and the structure are kept. *)
Inductive reordered (ids : list nat) : value E -> value E -> Prop :=
| re_scalar x : reordered ids (VScalar x) (VScalar x)
| re_arr x y : Forall2 (fun i e => nth_error x i = Some e) ids y -> reordered ids (VArr x) (VArr y)
| re_dof gs y : Forall2 (fun i e => nth_error (concat gs) i = Some e) ids y -> reordered ids (VDof gs) (VArr y)
| re_obj l l' : Forall2 (reordered ids) l l' -> reordered ids (VObj l) (VObj l').
(** Every array in [v] has [n] entries. *)
Inductive per_source (n : nat) : value E -> Prop :=
| ps_scalar x : per_source n (VScalar x)
| ps_arr x : length x = n -> per_source n (VArr x)
| ps_dof gs : length (concat gs) = n -> per_source n (VDof gs)
| ps_obj l : Forall (per_source n) l -> per_source n (VObj l).
(** [w] is [v] with the element groups of DOF arrays concatenated. *)
Inductive flattened : value E -> value E -> Prop :=
| fl_scalar x : flattened (VScalar x) (VScalar x)
| fl_arr x : flattened (VArr x) (VArr x)
| fl_dof gs : flattened (VDof gs) (VArr (concat gs))
| fl_obj l l' : Forall2 flattened l l' -> flattened (VObj l) (VObj l').

(** Some kernel needs the argument [n]. *)
Definition needed (f : kern -> list string) (ks : list kern) (n : string) : Prop :=
  exists k, In k ks /\ In n (f k).
(** The dictionary [d] maps exactly the names satisfying [N] to what [R] relates to the value of
    their expression. *)
Definition dict_of (X : Type) (evaluate : X -> result (value E)) (args : list (string * X))
    (N : string -> Prop) (R : value E -> value E -> Prop) (d : list (string * value E)) : Prop :=
  (forall n, (exists w, get d n = Some w) <-> N n) /\
  forall n w, get d n = Some w ->
    exists x v, In (n, x) args /\ evaluate x = Ok v /\ R v w.
End Args.
