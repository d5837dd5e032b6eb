(** Specification vocabulary for the direct solver. *)
From Coq Require Import Reals.
From Coquelicot Require Import Complex.
From Verif Require Import Base LuModel.
Set Implicit Arguments.

Definition vadd (x y : vec) : vec := map (fun p => Cplus (fst p) (snd p)) (combine x y).
Definition vscale (a : C) (x : vec) : vec := map (Cmult a) x.
Definition vzero (n : nat) : vec := repeat (RtoC 0) n.

(** The operator is linear: it maps vectors of length [op_cols] to vectors of
    length [op_rows] and respects sums and multiples. *)
Definition linear (op : linop) : Prop :=
  (forall x, length x = op_cols op -> exists y, op_matvec op x = Ok y /\ length y = op_rows op) /\
  (forall x x' y y', length x = op_cols op -> length x' = op_cols op ->
     op_matvec op x = Ok y -> op_matvec op x' = Ok y' -> op_matvec op (vadd x x') = Ok (vadd y y')) /\
  (forall a x y, length x = op_cols op -> op_matvec op x = Ok y -> op_matvec op (vscale a x) = Ok (vscale a y)).

(** It is nonsingular: only zero is mapped to zero. *)
Definition nonsingular (op : linop) : Prop :=
  forall x, length x = op_cols op -> op_matvec op x = Ok (vzero (op_rows op)) -> x = vzero (op_cols op).

(** Entry [i] of a vector; the entry [i] of matrix times vector, the matrix given by columns. *)
Definition at_ (x : vec) (i : nat) : C := nth i x (RtoC 0).
Definition row_times (mat : list vec) (x : vec) (i : nat) : C :=
  fold_right Cplus (RtoC 0) (map (fun p => Cmult (at_ (fst p) i) (snd p)) (combine mat x)).

(** numpy.linalg.solve, in exact arithmetic: it raises LinAlgError (a ValueError) for a
    matrix that is not square or has a null vector, ValueError for a right-hand side of
    another length, and otherwise returns a solution. *)
Definition null_vector (n : nat) (mat : list vec) (x : vec) : Prop :=
  length x = n /\ x <> vzero n /\ forall i, i < n -> row_times mat x i = RtoC 0.
Definition solve_contract (solve : solver) : Prop := forall rows cols mat b,
  length mat = cols -> Forall (fun c => length c = rows) mat ->
  (rows <> cols -> solve rows cols mat b = Err ValueError) /\
  (length b <> rows -> solve rows cols mat b = Err ValueError) /\
  (rows = cols -> (exists x, null_vector cols mat x) -> solve rows cols mat b = Err ValueError) /\
  (rows = cols -> length b = rows -> (forall x, ~ null_vector cols mat x) ->
     exists x, solve rows cols mat b = Ok x /\ length x = cols /\
       forall i, i < rows -> row_times mat x i = at_ b i).
