(** Model of pytential/muller.py (36-140).  Numbers are an abstract type with the
    operations the code uses; floating point comparisons are boolean functions, so NaN is
    covered (all comparisons with it are false, see MullerSpec).  The function [f] is pure. *)
From Verif Require Import Base.
Set Implicit Arguments.

(** Complex arithmetic and magnitudes ([np.abs], [<], [>]). *)
Record cops (C M : Type) := COps {
  c0 : C; c1 : C; cadd : C -> C -> C; csub : C -> C -> C; cmul : C -> C -> C;
  cdiv : C -> C -> C; copp : C -> C; csqrt : C -> C;
  cabs : C -> M; mlt : M -> M -> bool;     (* a < b *)
  m14 : M;                                   (* 1e-14 *)
  cnan : C -> bool }.                        (* np.isnan *)

Section Muller.
Variables C M : Type.
Variable o : cops C M.
Notation "a + b" := (cadd o a b).
Notation "a - b" := (csub o a b).
Notation "a * b" := (cmul o a b).
Notation "a / b" := (cdiv o a b).
Definition c2 : C := c1 o + c1 o.
Definition c4 : C := c2 * c2.

(** muller.py:110-127: the next iterate from three points and their values. *)
Definition muller_next (z1 z2 z3 w1 w2 w3 : C) : C :=
  let h1 := z2 - z1 in
  let h2 := z3 - z2 in
  let lam := h2 / h1 in
  let d := c1 o + lam in
  let g := w1 * lam * lam - w2 * d * d + w3 * (c1 o + c2 * lam) in
  let det := g * g - c4 * w3 * d * lam * (w1 * lam - w2 * d + w3) in
  let p1 := g + csqrt o det in
  let p2 := g - csqrt o det in
  let lam' := if mlt o (cabs o p2) (cabs o p1)
              then copp o c2 * w3 * d / p1
              else copp o c2 * w3 * d / p2 in
  z3 + lam' * (z3 - z2).

(** muller.py:131-137: the stopping test on the old and new iterate. *)
Definition stop_test (tol : M) (z2 z3 : C) : bool :=
  if mlt o (cabs o z3) (m14 o) then mlt o (cabs o (z3 - z2)) tol
  else mlt o (cabs o ((z3 - z2) / z3)) tol.

(** muller.py:104-138: the loop; [niter] is the value before the increment.  Returns the
    result and the points at which [f] was evaluated, oldest first. *)
Fixpoint muller_loop (f : C -> C) (maxiter : nat) (tol : M) (fuel niter : nat)
    (z1 z2 z3 w1 w2 w3 : C) (evals : list C) : result (C * nat) * list C :=
  match fuel with
  | O => (Err OutOfFuel, evals)
  | S fuel' =>
      let niter := S niter in
      if Nat.leb maxiter niter then (Err RuntimeError, evals)
      else
        let z := muller_next z1 z2 z3 w1 w2 w3 in
        let w := f z in
        let evals := evals ++ [z] in
        if stop_test tol z3 z then (Ok (z, niter), evals)
        else muller_loop f maxiter tol fuel' niter z2 z3 z w2 w3 w evals
  end.

(** muller.py:77-138.  [z_start] is the supplied or randomly drawn triple (95-99). *)
Definition muller (f : C -> C) (maxiter : nat) (tol : M) (z_start : C * C * C)
    : result (C * nat) * list C :=
  let '(z1, z2, z3) := z_start in
  muller_loop f maxiter tol (S maxiter) 0 z1 z2 z3 (f z1) (f z2) (f z3) [z1; z2; z3].

(** muller.py:55-60: the deflated function for the roots found so far. *)
Definition f_deflated (f : C -> C) (roots : list C) (z : C) : C :=
  fold_left (fun y r => y / (z - r)) roots (f z).

(** muller.py:71-76: the retry loop for root number [i]; [zs] supplies the starting triples
    of the successive calls of [muller], [used] counts them.  [roots] includes the entry i. *)
Fixpoint retry (f : C -> C) (maxiter : nat) (eps : M) (zs : nat -> C * C * C) (left used : nat)
    (prev : list C) (root : C) (nit : nat) : result (C * nat * nat) :=
  match left with
  | O => Ok (root, nit, used)
  | S left' =>
      if cnan o root || Nat.eqb nit maxiter then
        do (r', n') <- fst (muller (f_deflated f (prev ++ [root])) maxiter eps (zs used));
        retry f maxiter eps zs left' (S used) prev r' n'
      else Ok (root, nit, used)
  end.

(** muller.py:36-78.  [used] counts the calls of [muller]. *)
Fixpoint deflate (f : C -> C) (maxiter : nat) (eps : M) (zs : nat -> C * C * C) (n used : nat)
    (roots : list C) (niter : list nat) : result (list C * list nat * nat) :=
  match n with
  | O => Ok (roots, niter, used)
  | S n' =>
      do (r, k) <- fst (muller (f_deflated f roots) maxiter eps (zs used));
      do (r', k', used') <- retry f maxiter eps zs 50 (S used) roots r k;
      deflate f maxiter eps zs n' used' (roots ++ [r']) (niter ++ [k'])
  end.
Definition muller_deflate f n maxiter eps zs := deflate f maxiter eps zs n 0 [] [].
End Muller.
