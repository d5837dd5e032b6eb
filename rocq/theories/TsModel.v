(** Model of /repo/pytential/qbx/target_specific/impl.pyx (target-specific QBX) and of the
    functions of helmholtz_utils.c that it calls.

    double is modelled by the real numbers (no rounding, no overflow) and double complex by
    pairs of reals; a division by zero gives [NotFinite] (inf or nan).  C arrays are lists: an
    access outside of them, or through NULL, is [Fault] (undefined behaviour: the module is
    compiled with boundscheck=False). *)
From Coq Require Import Reals List.
From Coquelicot Require Import Coquelicot.
From Verif Require Import Base.
Import ListNotations.
Set Implicit Arguments.
Open Scope R_scope.

Inductive fr (A : Type) := Fin (a : A) | NotFinite | Fault | Abort.
Arguments Fin {A} _.
Arguments NotFinite {A}.
Arguments Fault {A}.
Arguments Abort {A}.
Definition fbind (A B : Type) (x : fr A) (f : A -> fr B) : fr B :=
  match x with Fin a => f a | NotFinite => NotFinite | Fault => Fault | Abort => Abort end.
Notation "'dof' x <- a ; b" := (fbind a (fun x => b))
  (at level 200, x pattern, a at level 100, b at level 200, right associativity).

(** Division of doubles. *)
Definition fdiv (a b : R) : fr R := if Req_EM_T b 0 then NotFinite else Fin (a / b).

(** Arrays: [a[i] = v], [a[i]]; the array may be NULL. *)
Fixpoint upd (A : Type) (a : list A) (i : nat) (v : A) : list A :=
  match a, i with
  | [], _ => []
  | _ :: a', O => v :: a'
  | x :: a', S i' => x :: upd a' i' v
  end.
Definition wr (A : Type) (a : list A) (i : nat) (v : A) : fr (list A) :=
  if (i <? length a)%nat then Fin (upd a i v) else Fault.
Definition rd (A : Type) (a : list A) (i : nat) : fr A :=
  match nth_error a i with Some v => Fin v | None => Fault end.
(** Writes guarded by [if derivs != NULL]. *)
Definition wr_opt (A : Type) (a : option (list A)) (i : nat) (v : A) : fr (option (list A)) :=
  match a with None => Fin None | Some a => dof a <- wr a i v; Fin (Some a) end.
(** Unguarded writes through a pointer. *)
Definition wr_ptr (A : Type) (a : option (list A)) (i : nat) (v : A) : fr (option (list A)) :=
  match a with None => Fault | Some a => dof a <- wr a i v; Fin (Some a) end.

(** impl.h 26: BUFSIZE *)
Definition BUFSIZE : nat := 64.

(** double[3] and double complex[3] *)
Record tri (A : Type) := T3 { co0 : A; co1 : A; co2 : A }.
Definition co (A : Type) (m : nat) (p : tri A) : A :=
  match m with O => co0 p | S O => co1 p | _ => co2 p end.
(** for m in range(3): p[m] = f(m) *)
Definition tab (A : Type) (f : nat -> A) : tri A := T3 (f 0%nat) (f 1%nat) (f 2%nat).
Notation pt := (tri R) (only parsing).

(** ** Legendre polynomials *)

(** impl.pyx 161-173: the loop of [legvals] from [j] on, [fuel] times. *)
Fixpoint leg_loop (x : R) (fuel j : nat) (pjm2 pjm1 derjm2 derjm1 : R) (vals : list R)
    (derivs : option (list R)) : fr (list R * option (list R)) :=
  match fuel with
  | O => Fin (vals, derivs)
  | S fuel' =>
    let jr := INR j in
    let pj := ((2 * jr - 1) * x * pjm1 - (jr - 1) * pjm2) / jr in
    dof vals <- wr vals j pj;
    let derj := ((2 * jr - 1) * (pjm1 + x * derjm1) - (jr - 1) * derjm2) / jr in
    dof derivs <- wr_opt derivs j derj;
    leg_loop x fuel' (S j) pjm1 pj derjm1 derj vals derivs
  end.
(** impl.pyx 132-173: legvals(x, n, vals, derivs) *)
Definition legvals (x : R) (n : nat) (vals : list R) (derivs : option (list R))
    : fr (list R * option (list R)) :=
  let pjm2 := 1 in
  let pjm1 := x in
  dof vals <- wr vals 0 1;
  dof derivs <- wr_opt derivs 0 0;
  if (n =? 0)%nat then Fin (vals, derivs) else
  dof vals <- wr vals 1 x;
  dof derivs <- wr_opt derivs 1 1;
  if (n =? 1)%nat then Fin (vals, derivs) else
  leg_loop x (n - 1) 2 pjm2 pjm1 0 1 vals derivs.

(** impl.pyx 176-181: dist(a, b) *)
Definition dist (a b : pt) : R :=
  sqrt ((co0 a - co0 b) * (co0 a - co0 b) + (co1 a - co1 b) * (co1 a - co1 b)
        + (co2 a - co2 b) * (co2 a - co2 b)).

Section Ts.
(** What the uninitialised buffers on the stack contain. *)
Variable junk : nat -> R.
Variable cjunk : nat -> C.
Definition rbuf : list R := map junk (seq 0 BUFSIZE).
Definition cbuf : list C := map cjunk (seq 0 BUFSIZE).

(** ** Laplace *)

(** impl.pyx 259-266: the loop of ts_laplace_s; [j] is the double that follows the counter. *)
Fixpoint s_loop (cos_angle ratio : R) (fuel : nat) (j pjm2 pjm1 r result : R) : R :=
  match fuel with
  | O => result
  | S fuel' =>
    let pj := ((2 * j - 1) * cos_angle * pjm1 - (j - 1) * pjm2) / j in
    s_loop cos_angle ratio fuel' (j + 1) pjm1 pj (r * ratio) (result + pj * r)
  end.
(** impl.pyx 222-268: ts_laplace_s.  With order 0, the (possibly infinite) cos_angle is not
    used. *)
Definition ts_laplace_s (source center target : pt) (charge : C) (order : nat) : fr C :=
  let tc_d := dist target center in
  let sc_d := dist source center in
  let cos_angle := fdiv ((co0 target - co0 center) * (co0 source - co0 center)
                         + (co1 target - co1 center) * (co1 source - co1 center)
                         + (co2 target - co2 center) * (co2 source - co2 center)) (tc_d * sc_d) in
  if (order =? 0)%nat then dof i <- fdiv 1 sc_d; Fin (charge * RtoC i)%C else
  dof cos_angle <- cos_angle;
  (* tc_d and sc_d are nonzero from here on *)
  let result := 1 / sc_d + (cos_angle * tc_d) / (sc_d * sc_d) in
  let r := (tc_d * tc_d) / (sc_d * sc_d * sc_d) in
  Fin (charge * RtoC (s_loop cos_angle (tc_d / sc_d) (order - 1) 2 1 cos_angle r result))%C.

(** impl.pyx 306-311: the loop of ts_laplace_sp. *)
Fixpoint sp_loop (cos_angle sc_d tc_d : R) (smc tmc : pt) (lvals lderivs : list R) (fuel n : nat)
    (Rn : R) (grad : pt) : fr pt :=
  match fuel with
  | O => Fin grad
  | S fuel' =>
    dof v <- rd lvals n;
    dof d <- rd lderivs n;
    let grad := tab (fun m => co m grad + Rn * (INR n * (co m tmc / tc_d) * v
                    + (co m smc / sc_d - cos_angle * co m tmc / tc_d) * d)) in
    sp_loop cos_angle sc_d tc_d smc tmc lvals lderivs fuel' (S n) (Rn * (tc_d / sc_d)) grad
  end.
(** What [legvals] left in the buffers; lderivs is never NULL here. *)
Definition legendre_buffers (cos_angle : R) (order : nat) : fr (list R * list R) :=
  dof r <- legvals cos_angle order rbuf (Some rbuf);
  match r with (l, Some d) => Fin (l, d) | (_, None) => Fault end.
(** impl.pyx 275-314: ts_laplace_sp adds onto [grad]. *)
Definition ts_laplace_sp (grad : tri C) (source center target : pt) (charge : C) (order : nat) : fr (tri C) :=
  let smc := tab (fun m => co m source - co m center) in
  let tmc := tab (fun m => co m target - co m center) in
  let grad_tmp := tab (fun _ => 0) in
  let tc_d := dist target center in
  let sc_d := dist source center in
  dof cos_angle <- fdiv (co0 tmc * co0 smc + co1 tmc * co1 smc + co2 tmc * co2 smc) (tc_d * sc_d);
  dof l <- legendre_buffers cos_angle order;
  let '(lvals, lderivs) := l in
  let Rn := 1 / (sc_d * sc_d) in
  dof grad_tmp <- sp_loop cos_angle sc_d tc_d smc tmc lvals lderivs order 1 Rn grad_tmp;
  Fin (tab (fun m => (co m grad + charge * RtoC (co m grad_tmp))%C)).

(** impl.pyx 350-355: the loop of ts_laplace_d. *)
Fixpoint d_loop (cos_angle sc_d tc_d : R) (smc tmc : pt) (lvals lderivs : list R) (fuel n : nat)
    (Rn : R) (grad : pt) : fr pt :=
  match fuel with
  | O => Fin grad
  | S fuel' =>
    dof v <- rd lvals n;
    dof d <- rd lderivs n;
    let grad := tab (fun m => co m grad + Rn * (- (INR n + 1) * (co m smc / sc_d) * v
                    + (co m tmc / tc_d - cos_angle * co m smc / sc_d) * d)) in
    d_loop cos_angle sc_d tc_d smc tmc lvals lderivs fuel' (S n) (Rn * (tc_d / sc_d)) grad
  end.
(** impl.pyx 321-358: ts_laplace_d *)
Definition ts_laplace_d (source center target : pt) (dipole : pt) (dipstr : C) (order : nat) : fr C :=
  let smc := tab (fun m => co m source - co m center) in
  let tmc := tab (fun m => co m target - co m center) in
  let grad := tab (fun _ => 0) in
  let tc_d := dist target center in
  let sc_d := dist source center in
  dof cos_angle <- fdiv (co0 tmc * co0 smc + co1 tmc * co1 smc + co2 tmc * co2 smc) (tc_d * sc_d);
  dof l <- legendre_buffers cos_angle order;
  let '(lvals, lderivs) := l in
  let Rn := 1 / (sc_d * sc_d) in
  dof grad <- d_loop cos_angle sc_d tc_d smc tmc lvals lderivs (order + 1) 0 Rn grad;
  Fin (dipstr * RtoC (co0 dipole * co0 grad + co1 dipole * co1 grad + co2 dipole * co2 grad))%C.

(** ** Spherical Hankel functions *)

(** cexp *)
Definition cexp (z : C) : C := (exp (fst z) * cos (snd z), exp (fst z) * sin (snd z)).
(** helmholtz_utils.c 344-394 (h3d01_) *)
Definition h3d01 (z : C) : C * C :=
  if Rlt_dec (Cmod z) (1 / 1000000000000000) then (RtoC 0, RtoC 0) else
  let cd := (Ci * z)%C in
  let h0 := (cexp cd / cd)%C in
  (h0, (h0 * (1 / z - Ci))%C).
(** helmholtz_utils.c 484-491 *)
Fixpoint h_up (scal2 : R) (zinv : C) (fuel i : nat) (hvec : list C) : fr (list C) :=
  match fuel with
  | O => Fin hvec
  | S fuel' =>
    dof a <- rd hvec i;
    dof b <- rd hvec (i - 1);
    let ztmp := (zinv * RtoC (2 * INR i + 1))%C in
    dof hvec <- wr hvec (i + 1) (ztmp * a - RtoC scal2 * b)%C;
    h_up scal2 zinv fuel' (S i) hvec
  end.
(** helmholtz_utils.c 505-511 *)
Fixpoint h_der (scale : R) (zinv : C) (fuel i : nat) (hvec : list C) (hder : option (list C)) : fr (option (list C)) :=
  match fuel with
  | O => Fin hder
  | S fuel' =>
    dof a <- rd hvec (i - 1);
    dof b <- rd hvec i;
    let ztmp := (zinv * RtoC (INR i + 1))%C in
    dof hder <- wr_ptr hder i (RtoC scale * a - ztmp * b)%C;
    h_der scale zinv fuel' (S i) hvec hder
  end.
(** helmholtz_utils.c 460-467: zeros, written through both pointers *)
Fixpoint h_zero (fuel i : nat) (hvec : list C) (hder : option (list C)) : fr (list C * option (list C)) :=
  match fuel with
  | O => Fin (hvec, hder)
  | S fuel' =>
    dof hvec <- wr hvec i (RtoC 0);
    dof hder <- wr_ptr hder i (RtoC 0);
    h_zero fuel' (S i) hvec hder
  end.
(** helmholtz_utils.c 400-515 (h3dall_); hder may be NULL.  scale is not zero where it is
    called with |z| above the threshold. *)
Definition h3dall (nterms : nat) (z : C) (scale : R) (hvec : list C) (ifder : bool) (hder : option (list C))
    : fr (list C * option (list C)) :=
  if Rlt_dec (Cmod z) (1 / 1000000000000000) then h_zero (nterms + 1) 0 hvec hder else
  let '(h0, h1) := h3d01 z in
  dof hvec <- wr hvec 0 h0;
  dof hvec <- wr hvec 1 h1;
  dof hvec <- wr hvec 1 (h1 * RtoC scale)%C;
  dof hvec <- h_up (scale * scale) (RtoC scale / z)%C (nterms - 1) 1 hvec;
  if ifder then
    dof h1s <- rd hvec 1;
    dof hder <- wr_ptr hder 0 (- h1s / RtoC scale)%C;
    dof hder <- h_der scale (1 / z)%C nterms 1 hvec hder;
    Fin (hvec, hder)
  else Fin (hvec, hder).

(** ** Helmholtz *)

(** helmholtz_utils.c 70-285 (jfuns3d_), called with a workspace of BUFSIZE entries: None when
    it reports an error, else what it leaves in fjs and fjder.  A parameter here (see TsSpec for
    what is assumed of it, and JfModel.v for the routine itself). *)
Variable jfuns : nat -> C -> R -> bool -> option (list C * list C).

(** impl.pyx 184-215: ts_helmholtz_precompute: jvals, jderivs, jscale *)
Definition ts_helmholtz_precompute (center target : pt) (order : nat) (ifder : bool) (k : C)
    : fr (list C * list C * R) :=
  let tc_d := dist target center in
  let jscale := if Rlt_dec (Cmod (k * RtoC tc_d)%C) 1 then Cmod (k * RtoC tc_d)%C else 1 in
  let z := (k * RtoC tc_d)%C in
  match jfuns (Nat.max 1 order) z jscale ifder with
  | None => Abort
  | Some (js, jd) => Fin (js, jd, jscale)
  end.

(** impl.pyx 411-413 *)
Fixpoint hs_loop (q : R) (jvals hvals : list C) (lvals : list R) (fuel n : nat) (unscale : R) (result : C) : fr C :=
  match fuel with
  | O => Fin result
  | S fuel' =>
    dof j <- rd jvals n;
    dof h <- rd hvals n;
    dof l <- rd lvals n;
    hs_loop q jvals hvals lvals fuel' (S n) (unscale * q)
      (result + RtoC ((2 * INR n + 1) * unscale) * (j * h * RtoC l))%C
  end.
(** impl.pyx 365-415: ts_helmholtz_s *)
Definition ts_helmholtz_s (source center target : pt) (charge : C) (order : nat) (k : C)
    (jvals : list C) (jscale : R) : fr C :=
  let tc_d := dist target center in
  let sc_d := dist source center in
  dof cos_angle <- fdiv ((co0 target - co0 center) * (co0 source - co0 center)
                         + (co1 target - co1 center) * (co1 source - co1 center)
                         + (co2 target - co2 center) * (co2 source - co2 center)) (tc_d * sc_d);
  dof l <- legvals cos_angle order rbuf None;
  let lvals := fst l in
  let hscale := if Rlt_dec (Cmod (k * RtoC sc_d)%C) 1 then Cmod (k * RtoC sc_d)%C else 1 in
  let z := (k * RtoC sc_d)%C in
  dof h <- h3dall order z hscale cbuf false None;
  let hvals := fst h in
  dof q <- fdiv jscale hscale;
  dof result <- hs_loop q jvals hvals lvals (order + 1) 0 1 (RtoC 0);
  Fin (Ci * k * charge * result)%C.

(** impl.pyx 479-485 *)
Fixpoint hsp_loop (q cos_angle sc_d tc_d : R) (k : C) (smc tmc : pt) (jvals jderivs hvals : list C)
    (lvals lderivs : list R) (fuel n : nat) (unscale : R) (grad : tri C) : fr (tri C) :=
  match fuel with
  | O => Fin grad
  | S fuel' =>
    dof j <- rd jvals n;
    dof jd <- rd jderivs n;
    dof h <- rd hvals n;
    dof v <- rd lvals n;
    dof d <- rd lderivs n;
    let grad := tab (fun m =>
      (co m grad + RtoC ((2 * INR n + 1) * unscale) * h / RtoC tc_d
         * (k * jd * RtoC v * RtoC (co m tmc)
            + RtoC (co m smc / sc_d - cos_angle * co m tmc / tc_d) * j * RtoC d))%C) in
    hsp_loop q cos_angle sc_d tc_d k smc tmc jvals jderivs hvals lvals lderivs fuel' (S n) (unscale * q) grad
  end.
(** impl.pyx 422-488: ts_helmholtz_sp adds onto [grad]. *)
Definition ts_helmholtz_sp (grad : tri C) (source center target : pt) (charge : C) (order : nat) (k : C)
    (jvals jderivs : list C) (jscale : R) : fr (tri C) :=
  let smc := tab (fun m => co m source - co m center) in
  let tmc := tab (fun m => co m target - co m center) in
  let grad_tmp := tab (fun _ => RtoC 0) in
  let tc_d := dist target center in
  let sc_d := dist source center in
  dof cos_angle <- fdiv (co0 tmc * co0 smc + co1 tmc * co1 smc + co2 tmc * co2 smc) (tc_d * sc_d);
  dof l <- legendre_buffers cos_angle order;
  let '(lvals, lderivs) := l in
  let hscale := if Rlt_dec (Cmod (k * RtoC sc_d)%C) 1 then Cmod (k * RtoC sc_d)%C else 1 in
  let z := (k * RtoC sc_d)%C in
  dof h <- h3dall order z hscale cbuf false None;
  let hvals := fst h in
  dof q <- fdiv jscale hscale;
  dof grad_tmp <- hsp_loop q cos_angle sc_d tc_d k smc tmc jvals jderivs hvals lvals lderivs (order + 1) 0 1 grad_tmp;
  Fin (tab (fun m => (co m grad + Ci * k * charge * co m grad_tmp)%C)).

(** impl.pyx 552-558 *)
Fixpoint hd_loop (q cos_angle sc_d tc_d : R) (k : C) (smc tmc : pt) (jvals hvals hderivs : list C)
    (lvals lderivs : list R) (fuel n : nat) (unscale : R) (grad : tri C) : fr (tri C) :=
  match fuel with
  | O => Fin grad
  | S fuel' =>
    dof j <- rd jvals n;
    dof h <- rd hvals n;
    dof hd <- rd hderivs n;
    dof v <- rd lvals n;
    dof d <- rd lderivs n;
    let grad := tab (fun m =>
      (co m grad + RtoC ((2 * INR n + 1) * unscale) * j / RtoC sc_d
         * (k * RtoC (co m smc) * hd * RtoC v
            + RtoC (co m tmc / tc_d - cos_angle * co m smc / sc_d) * h * RtoC d))%C) in
    hd_loop q cos_angle sc_d tc_d k smc tmc jvals hvals hderivs lvals lderivs fuel' (S n) (unscale * q) grad
  end.
(** impl.pyx 495-561: ts_helmholtz_d *)
Definition ts_helmholtz_d (source center target : pt) (dipole : pt) (dipstr : C) (order : nat) (k : C)
    (jvals : list C) (jscale : R) : fr C :=
  let smc := tab (fun m => co m source - co m center) in
  let tmc := tab (fun m => co m target - co m center) in
  let grad := tab (fun _ => RtoC 0) in
  let tc_d := dist target center in
  let sc_d := dist source center in
  dof cos_angle <- fdiv (co0 tmc * co0 smc + co1 tmc * co1 smc + co2 tmc * co2 smc) (tc_d * sc_d);
  dof l <- legendre_buffers cos_angle order;
  let '(lvals, lderivs) := l in
  let hscale := if Rlt_dec (Cmod (k * RtoC sc_d)%C) 1 then Cmod (k * RtoC sc_d)%C else 1 in
  let z := (k * RtoC sc_d)%C in
  dof h <- h3dall order z hscale cbuf true (Some cbuf);
  let '(hvals, hder) := h in
  match hder with
  | None => Fault
  | Some hderivs =>
    dof q <- fdiv jscale hscale;
    dof grad <- hd_loop q cos_angle sc_d tc_d k smc tmc jvals hvals hderivs lvals lderivs (order + 1) 0 1 grad;
    Fin (Ci * k * dipstr * (co0 grad * RtoC (co0 dipole) + co1 grad * RtoC (co1 dipole)
                            + co2 grad * RtoC (co2 dipole)))%C
  end.
End Ts.
