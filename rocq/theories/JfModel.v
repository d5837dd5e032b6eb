(** Model of /repo/pytential/qbx/target_specific/helmholtz_utils.c 70-285 (jfuns3d_: spherical
    Bessel functions by downward recurrence) and of its two callers in impl.pyx.

    Numbers and arrays are as in TsModel.v: doubles are real numbers (no rounding, no overflow),
    an access outside of an array is [Fault], a division by zero [NotFinite].  [nterms] is a
    natural number (the callers make it positive). *)
From Coq Require Import Reals List.
From Coquelicot Require Import Coquelicot.
From Verif Require Import Base TsModel TsSpec.
Import ListNotations.
Set Implicit Arguments.
Open Scope R_scope.

(** helmholtz_utils.c 76-78: upbound2, upbound2inv, tiny *)
Definition upbound2 : R := 10 ^ 40.
Definition upbound2inv : R := / 10 ^ 40.
Definition tiny : R := / 10 ^ 200.
(** 177-181: the square of the modulus *)
Definition nrm2 (z : C) : R := fst z * fst z + snd z * snd z.
(** ccos *)
Definition ccos (z : C) : C := ((cexp (Ci * z) + cexp (- (Ci * z))) / 2)%C.
Definition cdiv (a b : C) : fr C := if Ceq_dec b (RtoC 0) then NotFinite else Fin (a / b)%C.

(** Assignment of [v] to the [fuel] entries from [i] on. *)
Fixpoint fill (A : Type) (v : A) (fuel i : nat) (a : list A) : fr (list A) :=
  match fuel with
  | O => Fin a
  | S fuel' => dof a <- wr a i v; fill v fuel' (S i) a
  end.
(** 169-187 (step 1): [fuel] iterations from [i] on; ntop if the loop ended early. *)
Fixpoint find_top (zinv : C) (fuel i : nat) (fjs : list C) : fr (list C * option nat) :=
  match fuel with
  | O => Fin (fjs, None)
  | S fuel' =>
    dof a <- rd fjs i;
    dof b <- rd fjs (i - 1);
    let ztmp := (RtoC (2 * INR i + 1) * zinv * a - b)%C in
    dof fjs <- wr fjs (i + 1) ztmp;
    if Rlt_dec upbound2 (nrm2 ztmp) then Fin (fjs, Some (i + 1)%nat) else find_top zinv fuel' (S i) fjs
  end.
(** 203-220 (step 2): the iterations [i], [i - 1], ..., 1 of the downward loop. *)
Fixpoint down (zinv : C) (i : nat) (fjs : list C) (iscale : list Z) : fr (list C * list Z) :=
  match i with
  | O => Fin (fjs, iscale)
  | S i' =>
    dof a <- rd fjs i;
    dof b <- rd fjs (i + 1);
    let ztmp := (RtoC (2 * INR i + 1) * zinv * a - b)%C in
    dof fjs <- wr fjs (i - 1) ztmp;
    if Rlt_dec upbound2 (nrm2 ztmp) then
      dof x <- rd fjs i;
      dof fjs <- wr fjs i (x * RtoC upbound2inv)%C;
      dof y <- rd fjs (i - 1);
      dof fjs <- wr fjs (i - 1) (y * RtoC upbound2inv)%C;
      dof iscale <- wr iscale i 1%Z;
      down zinv i' fjs iscale
    else down zinv i' fjs iscale
  end.
(** 229-237 (step 3): [fuel] iterations from [i] on. *)
Fixpoint back_up (scalinv : R) (fuel i : nat) (sctot : R) (fjs : list C) (iscale : list Z) : fr (list C) :=
  match fuel with
  | O => Fin fjs
  | S fuel' =>
    dof s <- rd iscale (i - 1);
    let sctot := if Z.eqb s 1 then sctot * scalinv * upbound2inv else sctot * scalinv in
    dof x <- rd fjs i;
    dof fjs <- wr fjs i (x * RtoC sctot)%C;
    back_up scalinv fuel' (S i) sctot fjs iscale
  end.
(** 255-259 *)
Fixpoint scale_by (c : C) (fuel i : nat) (fjs : list C) : fr (list C) :=
  match fuel with
  | O => Fin fjs
  | S fuel' => dof x <- rd fjs i; dof fjs <- wr fjs i (x * c)%C; scale_by c fuel' (S i) fjs
  end.
(** 268-275 *)
Fixpoint ders (scale scalinv : R) (fuel i : nat) (fjs fjder : list C) : fr (list C) :=
  match fuel with
  | O => Fin fjder
  | S fuel' =>
    let dc1 := INR i / (2 * INR i + 1) in
    let dc2 := 1 - dc1 in
    dof a <- rd fjs (i - 1);
    dof b <- rd fjs (i + 1);
    dof fjder <- wr fjder i (RtoC (dc1 * scalinv) * a - RtoC (dc2 * scale) * b)%C;
    ders scale scalinv fuel' (S i) fjs fjder
  end.

(** 70-285: ier, and what is left in fjs and fjder. *)
Definition jfuns3d (nterms : nat) (z : C) (scale : R) (fjs : list C) (ifder : bool) (fjder : list C)
    (lwfjs : nat) (iscale : list Z) : fr (nat * list C * list C) :=
  if Rlt_dec (Cmod z) tiny then
    (* 143-158 *)
    dof fjs <- wr fjs 0 (RtoC 1);
    dof fjs <- fill (RtoC 0) nterms 1 fjs;
    if ifder then
      dof fjder <- fill (RtoC 0) (nterms + 1) 0 fjder;
      dof d <- fdiv 1 (scale * 3);
      dof fjder <- wr fjder 1 (RtoC d);
      Fin (0%nat, fjs, fjder)
    else Fin (0%nat, fjs, fjder)
  else
    let zinv := (1 / z)%C in
    dof fjs <- wr fjs nterms (RtoC 1);
    dof fjs <- match nterms with O => Fault | S t => wr fjs t (RtoC 0) end;
    dof (fjs, top) <- find_top zinv (lwfjs + 1 - nterms) nterms fjs;
    match top with
    | None => Fin (8%nat, fjs, fjder)
    | Some ntop =>
      (* 196-202 *)
      dof iscale <- fill 0%Z (ntop + 1) 0 iscale;
      dof fjs <- wr fjs ntop (RtoC 0);
      dof fjs <- wr fjs (ntop - 1) (RtoC 1);
      dof (fjs, iscale) <- down zinv (ntop - 1) fjs iscale;
      dof scalinv <- fdiv 1 scale;
      dof fjs <- back_up scalinv ntop 1 1 fjs iscale;
      (* 241-252 *)
      let fj0 := (csin z * zinv)%C in
      let fj1 := (fj0 * zinv - ccos z * zinv)%C in
      dof zscale <- (if Rlt_dec (Cmod fj0) (Cmod fj1)
                     then dof x <- rd fjs 1; cdiv fj1 (x * RtoC scale)%C
                     else dof x <- rd fjs 0; cdiv fj0 x);
      dof fjs <- scale_by zscale (nterms + 1) 0 fjs;
      if ifder then
        dof x <- rd fjs (nterms + 1);
        dof fjs <- wr fjs (nterms + 1) (x * zscale)%C;
        dof y <- rd fjs 1;
        dof fjder <- wr fjder 0 (- y * RtoC scale)%C;
        dof fjder <- ders scale scalinv nterms 1 fjs fjder;
        Fin (0%nat, fjs, fjder)
      else Fin (0%nat, fjs, fjder)
    end.

(** impl.pyx 56-92 (jfuns3d_wrapper): the first 1 + nterms entries of the local arrays, whose
    initial contents are arbitrary, or a ValueError.  (That they fit into the caller's arrays is
    not modelled; fjder is None without derivatives.) *)
Definition jfuns3d_wrapper (cjunk : nat -> C) (ijunk : nat -> Z) (nterms : Z) (z : C) (scale : R) (ifder : bool)
    : fr (result (list C * option (list C))) :=
  if (nterms <=? 0)%Z then Fin (Err ValueError) else
  let n := Z.to_nat nterms in
  dof (ier, fjs, fjder) <- jfuns3d n z scale (map cjunk (seq 0 BUFSIZE)) ifder (map cjunk (seq 0 BUFSIZE))
    BUFSIZE (map ijunk (seq 0 BUFSIZE));
  if Nat.eqb ier 0 then Fin (Ok (firstn (1 + n) fjs, if ifder then Some (firstn (1 + n) fjder) else None))
  else Fin (Err ValueError).

(** impl.h 29: PADDING *)
Definition PADDING : nat := 65.
(** impl.pyx 184-215 (ts_helmholtz_precompute), with the rows of 681-682: the scale and what is
    left in the rows of jvals and jderivs. *)
Definition precompute (ijunk : nat -> Z) (center target : tri R) (order : nat) (ifder : bool) (k : C)
    (jvals jderivs : list C) : fr (list C * list C * R) :=
  let tc_d := dist target center in
  let jscale := if Rlt_dec (Cmod (k * RtoC tc_d)%C) 1 then Cmod (k * RtoC tc_d)%C else 1 in
  let z := (k * RtoC tc_d)%C in
  dof (ier, js, jd) <- jfuns3d (Nat.max 1 order) z jscale jvals ifder jderivs BUFSIZE (map ijunk (seq 0 BUFSIZE));
  if Nat.eqb ier 0 then Fin (js, jd, jscale) else Abort.
