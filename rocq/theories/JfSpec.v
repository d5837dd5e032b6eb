(** Spherical Bessel functions as solutions of the three-term recurrence. *)
From Coq Require Import Reals List.
From Coquelicot Require Import Coquelicot.
From Verif Require Import Base TsModel TsSpec JfModel.
Set Implicit Arguments.
Open Scope R_scope.

(** u_{n+2} = (2n+3)/z u_{n+1} - u_n  (Abramowitz and Stegun 10.1.19). *)
Definition bessel_rec (z : C) (u : nat -> C) : Prop :=
  forall n, u (S (S n)) = (RtoC (2 * INR n + 3) / z * u (S n) - u n)%C.
(** The solution with the given values at 0 and 1. *)
Fixpoint rec_from (z u0 u1 : C) (n : nat) : C * C :=
  match n with
  | O => (u0, u1)
  | S n' => let '(a, b) := rec_from z u0 u1 n' in (b, (RtoC (2 * INR n' + 3) / z * b - a)%C)
  end.
Definition solution_from (z u0 u1 : C) (n : nat) : C := fst (rec_from z u0 u1 n).
(** The two solutions that are polynomials in 1/z: 0, 1, 3/z, 15/z^2 - 1, ... and
    1, 0, -1, -5/z, ... *)
Definition lommel (z : C) : nat -> C := solution_from z (RtoC 0) (RtoC 1).
Definition lommel' (z : C) : nat -> C := solution_from z (RtoC 1) (RtoC 0).
(** The spherical Bessel functions of the first kind at [z]. *)
Definition bessel_at (z : C) (j : nat -> C) : Prop :=
  bessel_rec z j /\ j 0%nat = (csin z / z)%C /\ j 1%nat = (csin z / (z * z) - ccos z / z)%C.
(** The derivative of such a function (10.1.20). *)
Definition rec_derivative (u : nat -> C) (n : nat) : C :=
  match n with
  | O => (- u 1%nat)%C
  | S m => ((RtoC (INR n) * u m - RtoC (INR n + 1) * u (S n)) / RtoC (2 * INR n + 1))%C
  end.
(** The solution with the values 0 and 1 at T - 1 and T: its values at T + m - 1 and T + m. *)
Fixpoint upward (z : C) (T m : nat) : C * C :=
  match m with
  | O => (RtoC 0, RtoC 1)
  | S m' => let '(a, b) := upward z T m' in (b, (RtoC (2 * INR (T + m') + 1) / z * b - a)%C)
  end.
(** It exceeds 10^20 at N, for the first time above T. *)
Definition exceeds (z : C) (T N : nat) : Prop := (T < N)%nat /\ 10 ^ 20 < Cmod (snd (upward z T (N - T))).
Definition first_exceeds (z : C) (T N : nat) : Prop :=
  exceeds z T N /\ forall N', (N' < N)%nat -> ~ exceeds z T N'.
(** The solution that is added so that the value at N becomes 0, chosen so that the value of the
    larger one of j_0 and j_1 is kept. *)
Definition companion (z : C) (j : nat -> C) : nat -> C :=
  if Rlt_dec (Cmod (j 0%nat)) (Cmod (j 1%nat)) then lommel' z else lommel z.
Definition truncated (z : C) (j : nat -> C) (N n : nat) : C :=
  (j n - j N * companion z j n / companion z j N)%C.
