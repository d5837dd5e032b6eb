(** Specification vocabulary for the default inner product. *)
From Coq Require Import Reals.
From Coquelicot Require Import Complex.
From Verif Require Import Base VdotModel.
Set Implicit Arguments.

(** All numbers in a value, in order. *)
Fixpoint entries (v : value) : list C :=
  match v with
  | VNum _ z => [z]
  | VHost zs | VDev zs => zs
  | VObj es | VCont _ es => flat_map entries es
  end.
(** The sum of conj(x_i) y_i. *)
Definition csum (l : list C) : C := fold_right Cplus (RtoC 0) l.
Definition sum_conj_prod (xs ys : list C) : C :=
  csum (map (fun p => Cmult (Cconj (fst p)) (snd p)) (combine xs ys)).

(** Layouts: a value without its numbers. *)
Inductive layout :=
| LNum (ty : nat) | LHost (n : nat) | LDev (n : nat)
| LObj (ls : list layout) | LCont (cls : nat) (ls : list layout).
Fixpoint layout_of (v : value) : layout :=
  match v with
  | VNum t _ => LNum t
  | VHost zs => LHost (length zs)
  | VDev zs => LDev (length zs)
  | VObj es => LObj (map layout_of es)
  | VCont c es => LCont c (map layout_of es)
  end.
(** Made of arrays of the array context only. *)
Fixpoint on_device (l : layout) : Prop :=
  match l with
  | LNum _ | LHost _ => False
  | LDev _ => True
  | LObj ls | LCont _ ls => (fix all ls := match ls with [] => True | l :: r => on_device l /\ all r end) ls
  end.
(** What gmres can work with. *)
Definition supported (actx : bool) (l : layout) : Prop :=
  match l with
  | LNum _ | LHost _ => True
  | _ => actx = true /\ on_device l
  end.
(** Number of numbers. *)
Fixpoint size (l : layout) : nat :=
  match l with
  | LNum _ => 1
  | LHost n | LDev n => n
  | LObj ls | LCont _ ls => fold_right (fun l s => size l + s) 0 ls
  end.
