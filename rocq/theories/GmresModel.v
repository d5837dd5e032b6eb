(** Model of pytential/linalg/gmres.py, lines 141-303 ([_gmres], the solver behind
    [gmres], 340-404) in exact arithmetic.
    Parameters: vectors [V] and scalars [K] with their operations, norm values [N]
    with the comparisons the loop performs, the operator [opA], the inner product
    [dot], the norm ([np.sqrt(abs(dot(x, x)))], 190-191) and its reciprocal.
    Simplifications: restart, maxiter and stall_iterations are natural numbers;
    the callback is pure, and its arguments are recorded together with the iterate
    they belong to ([g_seen]); the number of operator applications is recorded
    ([g_calls]); the progress printer and warning texts are not modelled (the number
    of warnings is). *)
From Verif Require Import Base.
Set Implicit Arguments.

(** The states a result can carry (lines 231, 239, 262, 293). *)
Inductive gstate := GSuccess | GNonMonotonic | GStalled | GMaxIter.

(** gmres.py:124-138, class GMRESResult. *)
Record gresult (V N : Type) := GResult {
  solution : V; residual_norms : list N; iteration_count : nat;
  success : bool; state : gstate }.
Arguments GResult {V N}.

(** How a call ends: a result, a GMRESError with its state, another exception. *)
Inductive goutcome (V N : Type) :=
| GReturn (res : gresult V N)
| GMRESError (s : gstate)
| GCrash (e : exn).
Arguments GReturn {V N}. Arguments GMRESError {V N}. Arguments GCrash {V N}.

(** Vector arithmetic: the operators [+], [-], [*] and the literal 0. *)
Record vops (V K : Type) := VOps {
  vadd : V -> V -> V; vsub : V -> V -> V; vscale : K -> V -> V; kzero : K }.

(** Norm arithmetic: [<], [== 0], [*], [/] and the constant 1.25. *)
Record nops (N : Type) := NOps {
  nltb : N -> N -> bool; niszero : N -> bool; nmul : N -> N -> N; ndiv : N -> N -> N;
  n125 : N }.

(** The arguments of [_gmres] after input processing (157-188). *)
Record gargs (N : Type) := GArgs {
  a_restart : nat; a_tol : N; a_maxiter : nat; a_hard : bool; a_mono : bool;
  a_npf : N; a_stall : nat }.

(** gmres.py:157-188, input processing: [n] is the operator's size, the options are
    the optional arguments; [dflt_tol] and [dflt_npf] are 1e-5 and 1.25. *)
Definition process {N : Type} (dflt_tol dflt_npf : N) (n : nat)
    (restart : option nat) (tol : option N) (maxiter : option nat) (hard : option bool)
    (mono : bool) (npf : option N) (stall : option nat) : gargs N :=
  let dflt {A : Type} (d : A) (o : option A) := match o with Some v => v | None => d end in
  GArgs (dflt (Nat.min n 20) restart) (dflt dflt_tol tol) (dflt (2 * n) maxiter)
        (dflt true hard) mono (dflt dflt_npf npf) (dflt 10 stall).

Section Gmres.
Variables V K N : Type.
Variable vo : vops V K.
Variable no : nops N.
Variable opA : V -> V.
Variable dot : V -> V -> K.
Variable norm : V -> N.
Variable inv : N -> K.          (* 1/norm(w) *)

(** The local variables of the loop (193-209). *)
Record gst := GSt {
  g_x : V; g_r : V; g_recalc : bool;
  g_Ae : list (option V); g_e : list (option V); g_k : nat;
  g_last : option N; g_norms : list N;
  g_seen : list (V * V);       (* (x, r) at each residual check, oldest first *)
  g_calls : nat; g_warn : nat }.

(** gmres.py:193-209. *)
Definition ginit (a : gargs N) (b : V) (x0 : option V) : gst :=
  let blank := repeat None (a_restart a) in
  match x0 with
  | None => GSt (vscale vo (kzero vo) b) b false blank blank 0 None [] [] 0 0
  | Some x => GSt x b true blank blank 0 None [] [] 0 0
  end.

(** Reading slot [j] of a list that was filled with None (201-202). *)
Definition rd (l : list (option V)) (j : nat) : result V :=
  match nth_error l j with
  | None => Err IndexError
  | Some None => Err TypeError
  | Some (Some v) => Ok v
  end.
(** Assignment to slot [j]. *)
Fixpoint wr (l : list (option V)) (j : nat) (v : V) : result (list (option V)) :=
  match l, j with
  | [], _ => Err IndexError
  | _ :: l', O => Ok (Some v :: l')
  | o :: l', S j' => do l'' <- wr l' j' v; Ok (o :: l'')
  end.

(** gmres.py:263-267: orthogonalise (w, rp) against the slots [js]. *)
Fixpoint orth (Ae e : list (option V)) (js : list nat) (w rp : V) : result (V * V) :=
  match js with
  | [] => Ok (w, rp)
  | j :: js' =>
      do aj <- rd Ae j;
      do ej <- rd e j;
      let d := dot aj w in
      orth Ae e js' (vsub vo w (vscale vo d aj)) (vsub vo rp (vscale vo d ej))
  end.

(** gmres.py:262-272: one trip: orthogonalise, then normalise. *)
Definition trip (Ae e : list (option V)) (oc : nat) (w rp : V) : result (V * V) :=
  do (w', rp') <- orth Ae e (seq 0 oc) w rp;
  let d := inv (norm w') in
  Ok (vscale vo d w', vscale vo d rp').

(** gmres.py:256-289: new direction and update of residual and solution;
    [recalc'] is the new value of recalc_r (282). *)
Definition update (st : gst) (oc : nat) (last : N) (recalc' : bool) : result gst :=
  let w := opA (g_r st) in
  do (w1, rp1) <- trip (g_Ae st) (g_e st) oc w (g_r st);
  do (w2, rp2) <- trip (g_Ae st) (g_e st) oc w1 rp1;
  do Ae' <- wr (g_Ae st) (g_k st) w2;
  do e' <- wr (g_e st) (g_k st) rp2;
  let d := dot w2 (g_r st) in
  Ok (GSt (vadd vo (g_x st) (vscale vo d rp2))
          (if recalc' then g_r st else vsub vo (g_r st) (vscale vo d w2))
          recalc' Ae' e' (S (g_k st)) (Some last) (g_norms st) (g_seen st)
          (S (g_calls st)) (g_warn st)).

(** gmres.py:212-226: restart if required, recompute the residual if asked to, and
    record its norm.  Returns orth_count and the new variables. *)
Definition check (a : gargs N) (b : V) (st : gst) : nat * gst :=
  let '(k, oc) := if Nat.eqb (g_k st) (a_restart a) then (0, a_restart a)
                  else (g_k st, g_k st) in
  let '(r, c) := if g_recalc st then (vsub vo b (opA (g_x st)), S (g_calls st))
                 else (g_r st, g_calls st) in
  (oc, GSt (g_x st) r (g_recalc st) (g_Ae st) (g_e st) k (g_last st)
           (g_norms st ++ [norm r]) (g_seen st ++ [(g_x st, r)]) c (g_warn st)).

(** gmres.py:294-303 and the two early failures (236-248, 250-268): raise or return. *)
Definition fail (a : gargs N) (st : gst) (it : nat) (s : gstate) : goutcome V N :=
  if a_hard a then GMRESError s
  else GReturn (GResult (g_x st) (g_norms st) it false s).

(** gmres.py:250-254: the stall test; [residual_norms[-stall_iterations]] is the entry
    number [len - stall_iterations]. *)
Definition stall_test (a : gargs N) (norms : list N) (nr : N) : bool :=
  negb (Nat.eqb (a_stall a) 0) && Nat.ltb (a_stall a) (length norms) &&
  match nth_error norms (length norms - a_stall a) with
  | Some old => nltb no (ndiv no old (a_npf a)) nr
  | None => false
  end.

(** gmres.py:211-303: the loop with [fuel] iterations left, and what follows it.
    [it] is the value the loop variable takes next.  Returns the outcome and the final
    variables. *)
Fixpoint loop (a : gargs N) (b : V) (nb : N) (fuel it : nat) (st : gst)
    : goutcome V N * gst :=
  match fuel with
  | O => (fail a st (it - 1) GMaxIter, st)
  | S fuel' =>
      let '(oc, st1) := check a b st in
      let nr := norm (g_r st1) in
      if nltb no nr (nmul no (a_tol a) nb) || niszero no nr then
        (GReturn (GResult (g_x st1) (g_norms st1) it true GSuccess), st1)
      else
        let grew := match g_last st1 with
                    | None => false
                    | Some l => nltb no (nmul no (n125 no) l) nr end in
        let stalled := match g_last st1 with
                       | None => false
                       | Some _ => stall_test a (g_norms st1) nr end in
        if grew && a_mono a then (fail a st1 it GNonMonotonic, st1)
        else if stalled then (fail a st1 it GStalled, st1)
        else
          let st2 := GSt (g_x st1) (g_r st1) (g_recalc st1) (g_Ae st1) (g_e st1) (g_k st1)
                         (g_last st1) (g_norms st1) (g_seen st1) (g_calls st1)
                         (g_warn st1 + if grew then 1 else 0) in
          match update st2 oc nr (Nat.eqb (S it mod 10) 0) with
          | Err x => (GCrash x, st2)
          | Ok st3 => loop a b nb fuel' (S it) st3
          end
  end.

(** gmres.py:141-303. *)
Definition gmres_run (a : gargs N) (b : V) (x0 : option V) : goutcome V N * gst :=
  loop a b (norm b) (a_maxiter a) 0 (ginit a b x0).

End Gmres.
