(** Model of the direct solver next to gmres.
    /repo/pytential/linalg/gmres.py lines 416-429 ([lu]), which builds the matrix with
    sumpy.tools.build_matrix (sumpy is external: one application of the operator per
    column, to the unit vector, assigned to [mat[:, i]]) and solves with numpy.
    Simplifications: exact complex arithmetic, right-hand sides that are vectors;
    the printed condition number and the plot of the spectrum are not modelled,
    but that their computation can fail is. *)
From Coq Require Import Reals.
From Coquelicot Require Import Complex.
From Verif Require Import Base.
Set Implicit Arguments.

Definition vec := list C.

(** An operator with numpy's shape (rows, columns) and matvec (or __call__). *)
Record linop := LinOp { op_rows : nat; op_cols : nat; op_matvec : vec -> result vec }.

(** sumpy.tools.build_matrix: [unit_vec = np.zeros(cols); unit_vec[i] = 1]. *)
Definition unit_vec (n i : nat) : vec := map (fun j => if j =? i then RtoC 1 else RtoC 0) (seq 0 n).
(** [mat[:, i] = y]: an array of length one is broadcast, other lengths do not fit. *)
Definition as_column (rows : nat) (y : vec) : result vec :=
  if length y =? rows then Ok y
  else match y with [z] => Ok (repeat z rows) | _ => Err ValueError end.
(** The columns of the matrix. *)
Definition build_matrix (op : linop) : result (list vec) :=
  mapM (fun i => do y <- op_matvec op (unit_vec (op_cols op) i); as_column (op_rows op) y)
       (seq 0 (op_cols op)).

(** numpy.linalg.solve as a parameter: rows, columns, matrix (by columns) and right-hand side. *)
Definition solver := nat -> nat -> list vec -> vec -> result vec.

(** gmres.py 416-429.  [la.cond] raises LinAlgError (a ValueError) for a matrix with
    no entries, [la.eigvals] for one that is not square (an empty one does not get there). *)
Definition lu (solve : solver) (op : linop) (rhs : vec) (show_spectrum : bool) : result vec :=
  do mat <- build_matrix op;
  if (op_rows op =? 0) || (op_cols op =? 0) then Err ValueError else
  if show_spectrum && negb (op_rows op =? op_cols op) then Err ValueError else
  solve (op_rows op) (op_cols op) mat rhs.
