(** Vocabulary for C110, C111. *)
From Coq Require Import Reals.
From Coquelicot Require Import Coquelicot.
From Verif Require Import Base DofModel RedModel.
Set Implicit Arguments.
Open Scope string_scope. Open Scope list_scope. Open Scope nat_scope.

(** Number of entries of each element of each group. *)
Definition shape (a : arr) : list (list nat) := map (map (@length C)) (groups a).
Definition size (s : list (list nat)) : nat := list_sum (map list_sum s).
(** The values at all nodes. *)
Definition entries (a : arr) : list C := concat (map (@concat C) (groups a)).
(** Arrays of a real type have no imaginary parts. *)
Definition proper (a : arr) : Prop := cplx a = false -> forall x, In x (entries a) -> snd x = 0%R.

(** [m] is the sum, the least or the greatest of the given values. *)
Definition reduces (r : red) (l : list C) (m : C) : Prop :=
  match r with
  | RSum => m = fold_right Cplus (RtoC 0) l
  | RMin => In m l /\ forall x, In x l -> (fst m <= fst x)%R
  | RMax => In m l /\ forall x, In x l -> (fst x <= fst m)%R
  end.

(** Sums over nodes. *)
Definition rsum (n : nat) (f : nat -> R) : R := fold_right (fun i acc => (f i + acc)%R) 0%R (seq 0 n).
Definition csum_n (n : nat) (f : nat -> C) : C := fold_right (fun i acc => Cplus (f i) acc) (RtoC 0) (seq 0 n).
(** Value, area element and weight at the node with flat number [i]. *)
Definition value_at (a : arr) (i : nat) : C := nth i (entries a) (RtoC 0).
Definition measure_at (d : discr) (i : nat) : R := (fst (value_at (d_area d) i) * fst (value_at (d_weights d) i))%R.

Definition val_at (v : val) (i : nat) : C := match v with VNum _ c => c | VArr a => value_at a i | VObj _ => RtoC 0 end.
(** Real numbers and real arrays of shape [s]. *)
Definition real_valued (s : list (list nat)) (v : val) : Prop :=
  match v with
  | VNum b c => b = false /\ snd c = 0%R
  | VArr a => shape a = s /\ cplx a = false /\ proper a
  | VObj _ => False
  end.

(** A discretization of shape [s]: real weights and area elements of that shape. *)
Definition discretization (d : discr) (s : list (list nat)) : Prop :=
  shape (d_weights d) = s /\ shape (d_area d) = s /\ cplx (d_weights d) = false /\ cplx (d_area d) = false /\
  proper (d_weights d) /\ proper (d_area d).
Definition nonneg_measure (d : discr) (s : list (list nat)) : Prop := forall i, i < size s -> (0 <= measure_at d i)%R.
Definition positive_measure (d : discr) (s : list (list nat)) : Prop := forall i, i < size s -> (0 < measure_at d i)%R.
(** Every group has a node, and there is a group. *)
Definition no_empty_group (s : list (list nat)) : Prop := s <> [] /\ forall g, In g s -> list_sum g <> 0.

(** A function on the surface, as given to [norm]: one array, or an object array of components. *)
Inductive field (s : list (list nat)) : val -> list arr -> Prop :=
| Scalar a : shape a = s -> field s (VArr a) [a]
| Vector l : l <> [] -> Forall (fun a => shape a = s) l -> field s (VObj (map VArr l)) l.
(** Squared magnitude at node [i]: the sum over the components. *)
Definition sq (xs : list arr) (i : nat) : R := fold_right (fun x acc => (Cmod (value_at x i) ^ 2 + acc)%R) 0%R xs.
(** [m] is the greatest magnitude of a component at a node. *)
Definition is_maxnorm (s : list (list nat)) (xs : list arr) (m : R) : Prop :=
  (exists a i, In a xs /\ i < size s /\ m = Cmod (value_at a i)) /\ forall a i, In a xs -> i < size s -> (Cmod (value_at a i) <= m)%R.
(** [z] has the values [f (x i) (y i)], component by component and node by node. *)
Definition pointwise (s : list (list nat)) (f : C -> C -> C) (xs ys zs : list arr) : Prop :=
  length xs = length zs /\ length ys = length zs /\
  forall c x y z, nth_error xs c = Some x -> nth_error ys c = Some y -> nth_error zs c = Some z ->
  forall i, i < size s -> value_at z i = f (value_at x i) (value_at y i).
Definition vanishes (s : list (list nat)) (xs : list arr) : Prop :=
  forall x, In x xs -> forall i, i < size s -> value_at x i = RtoC 0.
