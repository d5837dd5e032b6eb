(** What the FMMLIB backend has to deliver. *)
From Coq Require Import QArith Permutation.
From Verif Require Import Base RefineModel AssocModel FmmModel FmmSpec FmlModel.
Set Implicit Arguments.
Open Scope nat_scope.

(** ** Kernels *)

(** The derivative with respect to the target, and the kernel without it. *)
Definition target_axis (k : knl) : option nat := match k with AxisTarget a _ => Some a | _ => None end.
Definition without_target (k : knl) : knl := match k with AxisTarget _ i => i | _ => k end.
(** The kernels that FMMLIB knows: Laplace or Helmholtz, in two or three dimensions, with at most
    one target derivative outside of at most one directional source derivative. *)
Inductive known_base : base -> Prop := KnownL : known_base Laplace | KnownH n : known_base (Helmholtz n).
Inductive no_target : knl -> nat -> Prop :=
| Plain b d : known_base b -> d = 2 \/ d = 3 -> no_target (BaseKnl b d) d
| Dipole v b d : known_base b -> d = 2 \/ d = 3 -> no_target (DirSource v (BaseKnl b d)) d.
Definition acceptable (k : knl) : Prop := exists d, no_target (without_target k) d.
(** Number of derivatives. *)
Fixpoint derivatives (k : knl) : nat :=
  match k with BaseKnl _ _ => 0 | AxisTarget _ i | DirSource _ i | OtherWrap i => S (derivatives i) end.
Definition dim_of (k : knl) : nat := snd (base_kernel k).
Definition source_vector (k : knl) : option string := match without_target k with DirSource v _ => Some v | _ => None end.
Definition wave_number (k : knl) : option string := match fst (base_kernel k) with Helmholtz n => Some n | _ => None end.
(** The kernels to which target-specific expansions apply. *)
Definition ts_applies (k : knl) : Prop := derivatives k <= 1 /\ dim_of k = 3.

(** ** Levels *)

(** boxtree's contract, in addition to [fmm_ok]: the boxes of a level lie in the tree, and the
    list 3 of source level [l] consists of boxes of level [l]. *)
Definition on_level (T : ftree) (l b : nat) : Prop :=
  exists s n, nth_error (ft_levels T) l = Some (s, n) /\ s <= b /\ b < s + n.
Record levels_ok (T : ftree) (V : ftrav) : Prop := {
  lo_range : forall l b, on_level T l b -> b < ft_nboxes T;
  lo_smaller : forall l lev m b, nth_error (tr_smaller V) l = Some lev -> m < length (fst lev) -> In b (snd lev m) -> on_level T l b }.

(** The number under which FmmModel's contributions record the derivative: 0 for none, [S axis]. *)
Definition knl_label (k : knl) : nat := match target_axis k with None => 0 | Some a => S a end.

(** Equality of centers, scaling factors, orders. *)
Definition place_dec (a b : place) : {a = b} + {a <> b}. Proof. decide equality; apply Nat.eq_dec. Defined.
Definition scale_dec (a b : scale) : {a = b} + {a <> b}. Proof. decide equality; apply Nat.eq_dec. Defined.
Definition order_dec (a b : order) : {a = b} + {a <> b}. Proof. decide equality; apply Nat.eq_dec. Defined.
Definition frame_dec (a b : frame) : {a = b} + {a <> b}. Proof. decide equality; [apply order_dec|apply scale_dec|apply place_dec]. Defined.
