(** Vocabulary for C125: complex numbers as a world, and the root the transverse wave number has
    to be. *)
From Coq Require Import Reals.
From Coquelicot Require Import Complex.
From Verif Require Import Base MatModel PdeModel PdeSpec WgModel WgSpec.
Unset Implicit Arguments.
Open Scope string_scope.
Open Scope list_scope.
Open Scope nat_scope.

Definition CR : rops := mk_rops (RtoC 0) (RtoC 1) Cplus Cmult Cminus Copp Cinv (fun _ _ => false).

(** Python's [z**0.5]: the root in the right half plane, on the upper half of the imaginary axis
    for negative numbers. *)
Definition principal_root (root : C -> C) : Prop := forall z,
  (root z * root z = z)%C /\ (0 < Re (root z) \/ Re (root z) = 0 /\ 0 <= Im (root z))%R.

(** The numbers. *)
Definition c_num (c : num) : C :=
  match c with
  | NInt z => RtoC (IZR z)
  | NRat a b => RtoC (IZR a / IZR (Zpos b))
  | NI => Ci
  | NPi => RtoC PI
  | NUser _ => RtoC 0
  end.
Definition c_ifneg (c a b : C) : C := if Rlt_dec (Im c) 0 then a else b.

(** A world of complex numbers, with any meaning of the names and potentials. *)
Definition complex_world (root : C -> C) (var : string -> C) (unk : string -> nat -> C)
    (tan nor : dofd -> nat -> C) (jac sqw : nat -> C)
    (lp : option (C * C) -> list nat -> lim -> C -> C -> C) : wworld :=
  mk_wworld CR var unk c_num root c_ifneg tan nor jac sqw lp.

(** [K] is the square root of [x] that makes exp(i K r) decay: in the closed upper half plane,
    and the nonnegative one if it is real. *)
Definition decaying_root (x K : C) : Prop :=
  (K * K = x)%C /\ (0 <= Im K)%R /\ (Im K = 0 -> 0 <= Re K)%R.
