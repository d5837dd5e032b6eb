(** Model of the symbolic layer potentials and of the integral-equation operators built from
    them: /repo/pytential/symbolic/primitives.py lines 890-937, 1657-1672, 1758-1776, 2116-2462,
    /repo/pytential/symbolic/pde/scalar.py, pde/beltrami.py, pde/cahn_hilliard.py and
    /repo/pytential/symbolic/stokes.py.

    The functions of those files build symbolic expressions; the model builds the same
    expressions over a small syntax of its own.  Constant folding done by pymbolic's operators
    (for instance [0*x] becoming [0]) is not modelled: it does not change what an expression
    evaluates to. *)
From Verif Require Import Base.
Set Implicit Arguments.
Open Scope string_scope.
Open Scope list_scope.
Open Scope nat_scope.

(** Numbers appearing in the expressions: integers, decimal fractions, the imaginary unit, pi
    and numbers chosen by the user. *)
Inductive num := NInt (z : Z) | NRat (n : Z) (d : positive) | NI | NPi | NUser (s : string).

(** DOF descriptors: unspecified, unspecified geometry with a source stage
    (stokes.py lines 639-642), or a named geometry. *)
Inductive dofd := DNone | DStage1 | DGeo (g : nat).

(** [qbx_forced_limit] (primitives.py 1923-1940). *)
Inductive lim := LNone | LAvg | LSide (s : Z).

(** The base kernels of sumpy that are used, with the names of their arguments
    ([KOther]: any other scalar kernel). *)
Inductive bkernel :=
| KLaplace (d : nat)
| KHelmholtz (d : nat) (kname : string)
| KYukawa (d : nat) (lname : string)
| KStokeslet (d i j : nat)
| KStresslet (d i j k : nat)
| KOther (d : nat) (name : string) (args : list string).

(** A kernel: a base kernel under directional source derivatives (outermost first, by the name
    of the direction argument). *)
Record kernel := mk_kernel { kbase : bkernel; kdirs : list string }.
Definition plain (b : bkernel) : kernel := mk_kernel b [].

Definition kdim (k : kernel) : nat :=
  match kbase k with
  | KLaplace d | KHelmholtz d _ | KYukawa d _ | KStokeslet d _ _ | KStresslet d _ _ _ | KOther d _ _ => d
  end.

(** [isinstance(kernel, LaplaceKernel)], [isinstance(kernel, HelmholtzKernel)]: wrapped kernels
    are not instances. *)
Definition is_laplace (k : kernel) : bool :=
  match kbase k, kdirs k with KLaplace _, [] => true | _, _ => false end.
Definition is_helmholtz (k : kernel) : bool :=
  match kbase k, kdirs k with KHelmholtz _ _, [] => true | _, _ => false end.

(** Names from [kernel.get_args()] and [kernel.get_source_args()]. *)
Definition bkernel_args (b : bkernel) : list string :=
  match b with
  | KLaplace _ => []
  | KHelmholtz _ k => [k]
  | KYukawa _ l => [l]
  | KStokeslet _ _ _ | KStresslet _ _ _ _ => ["mu"]
  | KOther _ _ a => a
  end.
Definition kernel_args (k : kernel) : list string := kdirs k ++ bkernel_args (kbase k).

(** Values of kernel arguments: an expression of the user (kept as a token), or the normal or
    tangent vector on a discretization. *)
Inductive kval := KVUser (s : string) | KVNormal (d : dofd) | KVTangent (d : dofd).

(** Expressions.  [PLp]: an IntG node with one source kernel; [tds] are the axes of the target
    derivatives, outermost first. *)
Inductive pe :=
| PVar (x : string)
| PNum (c : num)
| PAdd (a b : pe) | PSub (a b : pe) | PMul (a b : pe) | PDiv (a b : pe) | PNeg (a : pe)
| PCse (a : pe)
| PJacW (adim : nat) (d : dofd)            (* area_element * QWeight *)
| PSqrtW (adim : nat) (d : dofd)           (* sqrt_jac_q_weight *)
| POnes (d : dofd)
| PInt (adim dim : nat) (d : dofd) (a : pe)
| PCurv (adim dim : nat) (d : dofd)        (* mean_curvature *)
| PNormal (adim i : nat) (d : dofd)        (* component i of the normal *)
| PLp (k : kernel) (tds : list nat) (l : lim) (src tgt : dofd) (kargs : list (string * kval)) (a : pe).

Definition pint (z : Z) : pe := PNum (NInt z).
Definition prat (n : Z) (d : positive) : pe := PNum (NRat n d).

(** ** Layer potentials *)

(** Python dictionaries with string keys: assignment and the merge [{**a, **b}]. *)
Fixpoint dset (a : list (string * kval)) (x : string) (v : kval) : list (string * kval) :=
  match a with
  | [] => [(x, v)]
  | (y, w) :: a' => if (x =? y)%string then (y, v) :: a' else (y, w) :: dset a' x v
  end.
Definition dmerge (a b : list (string * kval)) : list (string * kval) :=
  fold_left (fun m p => dset m (fst p) (snd p)) b a.

Definition subset (a b : list string) : bool := forallb (fun x => existsb (String.eqb x) b) a.

(** primitives.py 2216-2268 (int_g_vec) with the validation in IntG (2055-2075).  The density is
    a scalar expression. *)
Definition int_g_vec (k : kernel) (density : pe) (l : lim) (src tgt : dofd)
    (kargs : list (string * kval)) : result pe :=
  if negb (subset (kernel_args k) (map fst kargs)) then Err ValueError
  else if negb (subset (map fst kargs) (kernel_args k)) then Err ValueError
  else Ok (PLp k [] l src tgt kargs density).

(** primitives.py 2271-2288: S *)
Definition symS (k : kernel) (density : pe) (l : lim) (src tgt : dofd)
    (kargs : list (string * kval)) : result pe := int_g_vec k density l src tgt kargs.

(** primitives.py 2119-2128, 2167-2209, 2394-2425: D, a source derivative in the direction of
    the normal of the source, inserted at the innermost level. *)
Definition symD (k : kernel) (density : pe) (l : lim) (src tgt : dofd)
    (kargs : list (string * kval)) : result pe :=
  int_g_vec (mk_kernel (kbase k) (kdirs k ++ ["dsource_vec"])) (PCse density) l src tgt
            (dset kargs "dsource_vec" (KVNormal src)).

(** mappers.py, DerivativeTaker, on the expressions it is applied to here: sums, differences,
    multiples of a number and layer potentials (the general mapper is modelled in SymModel.v). *)
Fixpoint dtake (i : nat) (e : pe) : result pe :=
  match e with
  | PLp k tds l s t ka a => Ok (PLp k (i :: tds) l s t ka a)
  | PAdd a b => do a' <- dtake i a; do b' <- dtake i b; Ok (PAdd a' b')
  | PSub a b => do a' <- dtake i a; do b' <- dtake i b; Ok (PSub a' b')
  | PMul (PNum c) b => do b' <- dtake i b; Ok (PMul (PNum c) b')
  | _ => Err NotImplementedError
  end.

(** [sum(f(i) for i in range(n))] as it arises from products of multivectors. *)
Fixpoint psumM (n : nat) (f : nat -> result pe) : result pe :=
  match n with
  | 0 => Ok (pint 0)
  | S n' => do a <- psumM n' f; do b <- f n'; Ok (PAdd a b)
  end.

(** primitives.py 2307-2316 (normal_derivative) and 2319-2331 (normal_second_derivative) *)
Definition normal_derivative (adim : nat) (e : pe) (dd : dofd) : result pe :=
  psumM adim (fun i => do d <- dtake i e; Ok (PMul (PNormal adim i dd) d)).
Definition normal_second_derivative (adim : nat) (e : pe) (dd : dofd) : result pe :=
  psumM adim (fun i => psumM adim (fun j =>
    do d <- dtake j e; do d2 <- dtake i d;
    Ok (PMul (PMul (PNormal adim i dd) (PNormal adim j dd)) d2))).

(** primitives.py 2334-2361 (Sp), 2364-2391 (Spp), 2428-2462 (Dp) *)
Definition symSp k density l src tgt kargs : result pe :=
  do s <- symS k density l src tgt kargs; normal_derivative (kdim k) s tgt.
Definition symSpp k density l src tgt kargs : result pe :=
  do s <- symS k density l src tgt kargs; normal_second_derivative (kdim k) s tgt.
Definition symDp k density l src tgt kargs : result pe :=
  do d <- symD k density l src tgt kargs; normal_derivative (kdim k) d tgt.

(** primitives.py 1758-1776: mean *)
Definition pmean (adim dim : nat) (e : pe) (dd : dofd) : pe :=
  PDiv (PInt adim dim dd e) (PCse (PInt adim dim dd (POnes dd))).

(** ** pde/scalar.py *)

(** scalar.py 119-132, 134-142: get_weight, get_sqrt_weight *)
Definition get_weight (use_l2 : bool) (dim : nat) (dd : dofd) : pe :=
  if use_l2 then PCse (PJacW dim dd) else pint 1.
Definition get_sqrt_weight (use_l2 : bool) (dim : nat) (dd : dofd) : pe :=
  if use_l2 then PSqrtW dim dd else pint 1.

(** The attributes of DirichletOperator and NeumannOperator ([o_improved] only of the second). *)
Record bvp_op := mk_bvp { o_kernel : kernel; o_sign : Z; o_alpha : num; o_improved : bool;
                          o_l2 : bool; o_kargs : list (string * kval) }.

(** scalar.py 238-271 and 400-426: the two constructors.  (The assertion that the kernel is a
    ScalarKernel is part of the typing here.) *)
Definition make_bvp (k : kernel) (loc_sign : Z) (alpha : option num) (improved l2 : bool)
    (kargs : option (list (string * kval))) : result bvp_op :=
  if negb ((loc_sign =? -1)%Z || (loc_sign =? 1)%Z) then Err AssertionError
  else Ok (mk_bvp k loc_sign
             (match alpha with Some a => a | None => if is_helmholtz k then NI else NInt 0 end)
             improved l2 (match kargs with Some a => a | None => [] end)).

(** scalar.py 144-148: prepare_rhs *)
Definition bvp_prepare_rhs (o : bvp_op) (b : pe) : pe :=
  PMul (get_sqrt_weight (o_l2 o) (kdim (o_kernel o)) DNone) b.

Definition merged (o : bvp_op) (kw : list (string * kval)) : list (string * kval) :=
  match kw with [] => o_kargs o | _ => dmerge (o_kargs o) kw end.

(** scalar.py 273-276: is_unique_only_up_to_constant *)
Definition dir_unique_up_to_constant (o : bvp_op) : bool := is_laplace (o_kernel o) && (0 <? o_sign o)%Z.

(** scalar.py 279-309: DirichletOperator.representation; [mp] is [map_potentials]. *)
Definition dirichlet_representation (o : bvp_op) (u : pe) (mp : pe -> result pe) (l : lim)
    (src tgt : dofd) (kw : list (string * kval)) : result pe :=
  let sqrt_w := get_sqrt_weight (o_l2 o) (kdim (o_kernel o)) src in
  let v := PCse (PDiv u sqrt_w) in
  do s <- symS (o_kernel o) v l src tgt (merged o kw);
  do d <- symD (o_kernel o) v l src tgt (merged o kw);
  do ms <- mp s;
  do md <- mp d;
  Ok (PSub (PMul (PNum (o_alpha o)) ms) md).

(** scalar.py 312-357: DirichletOperator.operator.  The merged kernel arguments of lines 316-318
    are computed and not used. *)
Definition dirichlet_operator (o : bvp_op) (u : pe) (dd : dofd) (kw : list (string * kval)) : result pe :=
  let k := o_kernel o in
  let sqrt_w := get_sqrt_weight (o_l2 o) (kdim k) dd in
  let v := PCse (PDiv u sqrt_w) in
  let ones := if dir_unique_up_to_constant o
              then PMul (POnes dd) (pmean (kdim k) (kdim k - 1) v dd) else pint 0 in
  do s <- symS k v (LSide 1) dd dd (o_kargs o);
  do d <- symD k v LAvg dd dd (o_kargs o);
  Ok (PAdd (PMul (PMul (prat (-1) 2) (pint (o_sign o))) u)
           (PMul sqrt_w (PAdd (PSub (PMul (PNum (o_alpha o)) s) d) ones))).

(** scalar.py 428-430: is_unique_only_up_to_constant *)
Definition neu_unique_up_to_constant (o : bvp_op) : bool := is_laplace (o_kernel o) && (o_sign o <? 0)%Z.

(** scalar.py 433-471: NeumannOperator.representation *)
Definition neumann_representation (o : bvp_op) (u : pe) (mp : pe -> result pe) (l : lim)
    (src tgt : dofd) (kw : list (string * kval)) : result pe :=
  let k := o_kernel o in
  let lap := plain (KLaplace (kdim k)) in
  let sqrt_w := get_sqrt_weight (o_l2 o) (kdim k) src in
  let v := PCse (PDiv u sqrt_w) in
  do s0 <- symS lap v (LSide 1) src tgt [];
  do s <- symS k v l src tgt (merged o kw);
  do d <- symD k (PCse s0) l src tgt (merged o kw);
  do ms <- mp s;
  do md <- mp d;
  Ok (PSub ms (PMul (PNum (o_alpha o)) md)).

(** scalar.py 501-531: the operator applied to the single layer potential of the density *)
Definition neumann_DpS0 (o : bvp_op) (u v s0 : pe) (dd : dofd) (ka : list (string * kval)) : result pe :=
  let k := o_kernel o in
  let lap := plain (KLaplace (kdim k)) in
  if o_improved o then
    do sp <- symSp lap v LAvg dd dd [];
    do spsp <- symSp lap sp LAvg dd dd [];
    let dp0s0u := PAdd (PMul (prat (-1) 4) u) spsp in
    if is_helmholtz k then
      do dp0 <- symDp k s0 (LSide 1) dd dd ka;
      do dp1 <- symDp lap s0 (LSide 1) dd dd [];
      Ok (PAdd (PSub dp0 dp1) dp0s0u)
    else if is_laplace k then Ok dp0s0u
    else Err ValueError
  else symDp k s0 (LSide 1) dd dd ka.

(** scalar.py 474-553: NeumannOperator.operator *)
Definition neumann_operator (o : bvp_op) (u : pe) (dd : dofd) (kw : list (string * kval)) : result pe :=
  let k := o_kernel o in
  let lap := plain (KLaplace (kdim k)) in
  let ka := merged o kw in
  let sqrt_w := get_sqrt_weight (o_l2 o) (kdim k) dd in
  let v := PCse (PDiv u sqrt_w) in
  do s0 <- symS lap v (LSide 1) dd dd [];
  do dps0u <- neumann_DpS0 o u v (PCse s0) dd ka;
  let ones := if neu_unique_up_to_constant o
              then PMul (POnes dd) (pmean (kdim k) (kdim k - 1) v dd) else pint 0 in
  do sp0 <- symSp k v LAvg dd dd ka;
  Ok (PAdd (PMul (PMul (prat (-1) 2) (pint (o_sign o))) u)
           (PMul sqrt_w (PAdd (PSub sp0 (PMul (PNum (o_alpha o)) dps0u)) ones))).

(** ** BiharmonicClampedPlateOperator (scalar.py 556-711) *)

(** scalar.py 596-607: __init__ *)
Definition make_plate (k : kernel) (loc_sign : Z) : result kernel :=
  if negb (loc_sign =? -1)%Z then Err ValueError
  else if negb (kdim k =? 2) then Err ValueError
  else Ok k.

Definition dnk (k : kernel) : kernel := mk_kernel (kbase k) ("normal_dir" :: kdirs k).
Definition dtk (k : kernel) : kernel := mk_kernel (kbase k) ("tangent_dir" :: kdirs k).

(** scalar.py 622-683: representation (the density is a pair).  The directions are taken from
    [sym.normal(self.dim)], without a descriptor. *)
Definition plate_representation (k : kernel) (sg : pe * pe) (mp : pe -> result pe) (l : lim)
    (src tgt : dofd) (kw : list (string * kval)) : result pe :=
  let nd := ("normal_dir", KVNormal DNone) in
  let td := ("tangent_dir", KVTangent DNone) in
  do snnn <- symS (dnk (dnk (dnk k))) (fst sg) l src tgt (dmerge kw [nd]);
  do sntt <- symS (dnk (dtk (dtk k))) (fst sg) l src tgt (dmerge kw [nd; td]);
  do snn <- symS (dnk (dnk k)) (snd sg) l src tgt (dmerge kw [nd]);
  do stt <- symS (dtk (dtk k)) (snd sg) l src tgt (dmerge kw [td]);
  do a <- mp snnn; do b <- mp sntt; do c <- mp snn; do d <- mp stt;
  Ok (PAdd (PSub (PAdd a (PMul (pint 3) b)) c) d).

(** scalar.py 685-711: operator *)
Definition plate_operator (k : kernel) (sg : pe * pe) (dd : dofd) (kw : list (string * kval)) : result (pe * pe) :=
  do r <- plate_representation k sg (fun x => Ok x) LAvg dd dd kw;
  do dr <- normal_derivative (kdim k) r dd;
  let kappa := PCurv (kdim k) (kdim k - 1) dd in
  Ok (PAdd (PDiv (fst sg) (pint 2)) r,
      PAdd (PSub (PDiv (snd sg) (pint 2)) (PMul kappa (fst sg))) dr).

(** ** pde/beltrami.py *)

Inductive precond := PcLeft | PcRight.
Record beltrami := mk_bel { b_kernel : kernel; b_dim : nat; b_pre : precond;
                            b_kargs : list (string * kval) }.

(** beltrami.py 88-105: __init__; [precond] is any string. *)
Definition make_beltrami (k : kernel) (dim : option nat) (pre : string)
    (kargs : list (string * kval)) : result beltrami :=
  let d := match dim with Some d => d | None => kdim k - 1 end in
  if (pre =? "left")%string then Ok (mk_bel k d PcLeft kargs)
  else if (pre =? "right")%string then Ok (mk_bel k d PcRight kargs)
  else Err ValueError.

(** beltrami.py 232-239, 314-324, 343-353: the three subclasses' constructors *)
Definition make_laplace_beltrami (adim : nat) (dim : option nat) (pre : string) : result beltrami :=
  make_beltrami (plain (KLaplace adim)) dim pre [].
Definition make_yukawa_beltrami (adim : nat) (dim : option nat) (pre kname : string) : result beltrami :=
  make_beltrami (plain (KYukawa adim kname)) dim pre [(kname, KVUser kname)].
Definition make_helmholtz_beltrami (adim : nat) (dim : option nat) (pre kname : string) : result beltrami :=
  make_beltrami (plain (KHelmholtz adim kname)) dim pre [(kname, KVUser kname)].

(** All of these use default sources and targets. *)
Notation oS := (fun k l ka x => symS k x l DNone DNone ka).
Notation oD := (fun k l ka x => symD k x l DNone DNone ka).
Notation oSp := (fun k l ka x => symSp k x l DNone DNone ka).
Notation oSpp := (fun k l ka x => symSpp k x l DNone DNone ka).
Notation oDp := (fun k l ka x => symDp k x l DNone DNone ka).

(** beltrami.py 123-136: prepare_solution *)
Definition bel_prepare_solution (b : beltrami) (sg : pe) : result pe :=
  let S := oS (b_kernel b) (LSide 1) (b_kargs b) in
  match b_pre b with PcLeft => S sg | PcRight => do x <- S sg; S x end.

(** beltrami.py 138-150: prepare_rhs *)
Definition bel_prepare_rhs (b : beltrami) (rhs : pe) : result pe :=
  let S := oS (b_kernel b) (LSide 1) (b_kargs b) in
  match b_pre b with PcLeft => S rhs | PcRight => Ok rhs end.

(** primitives.py 939-966: mean_curvature exists for curves in the plane and surfaces in space *)
Definition mean_curvature (adim dim : nat) (dd : dofd) : result pe :=
  if (adim =? 2) && (dim =? 1) || (adim =? 3) && (dim =? 2) then Ok (PCurv adim dim dd)
  else Err NotImplementedError.

(** beltrami.py 168-171 and 251-254: the factor kappa *)
Definition bel_kappa (b : beltrami) (curv : option pe) : result pe :=
  do h <- match curv with Some h => Ok h | None => mean_curvature (kdim (b_kernel b)) (b_dim b) DNone end;
  Ok (PMul (pint (Z.of_nat (b_dim b))) h).

(** beltrami.py 152-213: BeltramiOperator.operator *)
Definition bel_operator (b : beltrami) (sg : pe) (curv : option pe) (kw : list (string * kval)) : result pe :=
  if is_laplace (b_kernel b) then Err TypeError else
  do kappa <- bel_kappa b curv;
  let ctx := dmerge (b_kargs b) kw in
  let lap := plain (KLaplace (kdim (b_kernel b))) in
  let S0 := oS lap (LSide 1) kw in
  let D0 := oD lap LAvg kw in
  let Sp0 := oSp lap LAvg kw in
  let Dp0 := oDp lap LAvg kw in
  let S := oS (b_kernel b) (LSide 1) ctx in
  let Sp := oSp (b_kernel b) LAvg ctx in
  let Spp := oSpp (b_kernel b) LAvg ctx in
  match b_pre b with
  | PcLeft =>
      do d <- D0 sg; do dd <- D0 d;
      do sp <- Sp sg; do t1 <- S (PMul kappa sp);
      do spp <- Spp sg; do dp <- Dp0 sg; do t2 <- S (PAdd spp dp);
      do t3 <- S dp;
      do t4 <- S0 dp;
      Ok (PAdd (PSub (PAdd (PAdd (PSub (PDiv sg (pint 4)) dd) t1) t2) t3) t4)
  | PcRight =>
      do sp0 <- Sp0 sg; do spsp <- Sp0 sp0;
      do s <- S sg; do s0 <- S0 sg;
      do spp <- Spp s; do dp <- Dp0 s;
      do dpd <- Dp0 (PSub s s0);
      do sp <- Sp s;
      Ok (PAdd (PSub (PAdd (PSub (PDiv sg (pint 4)) spsp) (PAdd spp dp)) dpd) (PMul kappa sp))
  end.

(** beltrami.py 241-295: LaplaceBeltramiOperator.operator *)
Definition lap_bel_operator (b : beltrami) (sg : pe) (curv : option pe) (kw : list (string * kval)) : result pe :=
  do kappa <- bel_kappa b curv;
  let ctx := dmerge (b_kargs b) kw in
  let S := oS (b_kernel b) (LSide 1) ctx in
  let Sp := oSp (b_kernel b) LAvg ctx in
  let Spp := oSpp (b_kernel b) LAvg ctx in
  let D := oD (b_kernel b) LAvg ctx in
  let Dp := oDp (b_kernel b) LAvg ctx in
  let W := fun x => PMul (POnes DNone) (PInt (kdim (b_kernel b)) (b_dim b) DNone x) in
  match b_pre b with
  | PcLeft =>
      do d <- D sg; do dd <- D d;
      do spp <- Spp sg; do dp <- Dp sg; do t1 <- S (PAdd spp dp);
      do sp <- Sp sg; do t2 <- S (PMul kappa sp);
      do s <- S sg; do t3 <- S (W s);
      Ok (PSub (PAdd (PAdd (PSub (PDiv sg (pint 4)) dd) t1) t2) t3)
  | PcRight =>
      do sp <- Sp sg; do spsp <- Sp sp;
      do s <- S sg; do spp <- Spp s; do dp <- Dp s;
      do sps <- Sp s;
      do ss <- S s;
      Ok (PAdd (PAdd (PAdd (PSub (PDiv sg (pint 4)) spsp) (PAdd spp dp)) (PMul kappa sps)) (W ss))
  end.

(** ** pde/cahn_hilliard.py *)

(** cahn_hilliard.py 47-71: S_G.  [i] is 0, 1 or 2; [op] is [op_map].  The kernel argument
    k=1j*lam is a name, "1j*" and the name of lam. *)
Definition ch_S_G (lam1 lam2 : string) (i : nat) (density : pe) (l : lim) (op : pe -> result pe) : result pe :=
  let hhk := plain (KHelmholtz 2 "k") in
  let scal := PDiv (PNum NI) (pint 4) in
  let sq x := PMul (PNum (NUser x)) (PNum (NUser x)) in
  let S lam := symS hhk density l DNone DNone [("k", KVUser (String.append "1j*" lam))] in
  match i with
  | 0 =>
      do a <- S lam1; do a' <- op a; do b <- S lam2; do b' <- op b;
      Ok (PMul (PDiv (PDiv (pint (-1)) (PMul (PMul (pint 2) (PNum NPi)) (PSub (sq lam1) (sq lam2)))) scal)
               (PSub a' b'))
  | _ =>
      do a <- S (if i =? 1 then lam1 else lam2); do a' <- op a;
      Ok (PMul (PDiv (PDiv (pint (-1)) (PMul (pint 2) (PNum NPi))) scal) a')
  end.

(** cahn_hilliard.py 73-77: representation *)
Definition ch_representation (lam1 lam2 : string) (sg : pe * pe) : result pe :=
  do a <- ch_S_G lam1 lam2 1 (fst sg) LNone (fun x => Ok x);
  do b <- ch_S_G lam1 lam2 0 (snd sg) LNone (fun x => Ok x);
  Ok (PAdd a b).

(** cahn_hilliard.py 79-109: operator *)
Definition ch_operator (lam1 lam2 c : string) (sg : pe * pe) : result (pe * pe) :=
  let S_G := fun i d => ch_S_G lam1 lam2 i d (LSide 1) (fun x => Ok x) in
  let Sn_G := fun i d => ch_S_G lam1 lam2 i d LAvg (fun x => normal_derivative 2 x DNone) in
  let sq x := PMul (PNum (NUser x)) (PNum (NUser x)) in
  let cc := PNum (NUser c) in
  do n11 <- Sn_G 1 (fst sg); do s11 <- S_G 1 (fst sg);
  do n02 <- Sn_G 0 (snd sg); do s02 <- S_G 0 (snd sg);
  do n12 <- Sn_G 1 (snd sg);
  Ok (PAdd (PMul (prat 1 2) (fst sg))
           (PAdd (PAdd (PAdd n11 (PMul cc s11)) n02) (PMul cc s02)),
      PAdd (PSub (PMul (PMul (prat 1 2) (sq lam2)) (fst sg)) (PMul (prat 1 2) (snd sg)))
           (PAdd (PSub (PMul (sq lam2) n11) n12) (PMul (sq lam1) n02))).

(** The methods inherited from L2WeightedPDEOperator that read [self.kernel] or
    [self.use_l2_weighting] (scalar.py 115-148): CahnHilliardOperator.__init__
    (cahn_hilliard.py 40-42) sets neither. *)
Definition ch_prepare_rhs (b : pe) : result pe := Err AttributeError.
Definition ch_dim : result nat := Err AttributeError.

(** ** stokes.py *)

(** A vector of indices counted (stokes.py 124-132): how often each axis occurs. *)
Definition counts (dim : nat) (ix : list nat) : list nat :=
  map (fun a => length (filter (Nat.eqb a) ix)) (seq 0 dim).

Definition keyb (a b : list nat) : bool := if list_eq_dec Nat.eq_dec a b then true else false.
Fixpoint klookup {A : Type} (d : list (list nat * A)) (key : list nat) : result A :=
  match d with
  | [] => Err KeyError
  | (k, v) :: d' => if keyb k key then Ok v else klookup d' key
  end.

(** stokes.py 86-105: StokesletWrapper.__init__ *)
Definition stokeslet_dict (dim : nat) : result (list (list nat * kernel)) :=
  match dim with
  | 2 => Ok [([2;0], plain (KStokeslet 2 0 0)); ([1;1], plain (KStokeslet 2 0 1));
             ([0;2], plain (KStokeslet 2 1 1))]
  | 3 => Ok [([2;0;0], plain (KStokeslet 3 0 0)); ([1;1;0], plain (KStokeslet 3 0 1));
             ([1;0;1], plain (KStokeslet 3 0 2)); ([0;2;0], plain (KStokeslet 3 1 1));
             ([0;1;1], plain (KStokeslet 3 1 2)); ([0;0;2], plain (KStokeslet 3 2 2))]
  | _ => Err ValueError
  end.

(** stokes.py 313-337: StressletWrapper.__init__ *)
Definition stresslet_dict (dim : nat) : result (list (list nat * kernel)) :=
  match dim with
  | 2 => Ok [([3;0], plain (KStresslet 2 0 0 0)); ([2;1], plain (KStresslet 2 0 0 1));
             ([1;2], plain (KStresslet 2 0 1 1)); ([0;3], plain (KStresslet 2 1 1 1))]
  | 3 => Ok [([3;0;0], plain (KStresslet 3 0 0 0)); ([2;1;0], plain (KStresslet 3 0 0 1));
             ([2;0;1], plain (KStresslet 3 0 0 2)); ([1;2;0], plain (KStresslet 3 0 1 1));
             ([1;1;1], plain (KStresslet 3 0 1 2)); ([1;0;2], plain (KStresslet 3 0 2 2));
             ([0;3;0], plain (KStresslet 3 1 1 1)); ([0;2;1], plain (KStresslet 3 1 1 2));
             ([0;1;2], plain (KStresslet 3 1 2 2)); ([0;0;3], plain (KStresslet 3 2 2 2))]
  | _ => Err ValueError
  end.

(** Python's indexing of an object array. *)
Definition vget (v : list pe) (i : nat) : result pe :=
  match nth_error v i with Some e => Ok e | None => Err IndexError end.

(** The accumulation [first, or accumulated + next] over a nonempty list of terms. *)
Fixpoint accM (ts : list (result pe)) (acc : option pe) : result (option pe) :=
  match ts with
  | [] => Ok acc
  | t :: ts' => do e <- t; accM ts' (Some (match acc with None => e | Some a => PAdd a e end))
  end.
Definition acc_sum (ts : list (result pe)) : result pe :=
  do r <- accM ts None; match r with Some e => Ok e | None => Err NoStatement end.

Definition pairs (dim : nat) : list (nat * nat) :=
  flat_map (fun i => map (fun j => (i, j)) (seq 0 dim)) (seq 0 dim).

Definition mu_args (mu : string) : list (string * kval) := [("mu", KVUser mu)].

(** stokes.py 107-144 (apply) and 165-211 (apply_derivative): [tk] is the identity or the
    DerivativeTaker. *)
Definition stokeslet_terms (tk : pe -> result pe) (dim : nat) (sg : list pe) (mu : string) (l : lim)
    : result (list pe) :=
  do dict <- stokeslet_dict dim;
  mapM (fun comp => acc_sum (map (fun i =>
    do k <- klookup dict (counts dim [comp; i]);
    do s <- vget sg i;
    do e <- int_g_vec k s l DNone DNone (mu_args mu); tk e) (seq 0 dim))) (seq 0 dim).
Definition stokeslet_apply := stokeslet_terms (fun e => Ok e).
Definition stokeslet_derivative (dir : nat) := stokeslet_terms (dtake dir).

(** stokes.py 146-163: StokesletWrapper.apply_pressure *)
Definition stokeslet_pressure (dim : nat) (sg : list pe) (l : lim) : result pe :=
  do _ <- stokeslet_dict dim;
  acc_sum (map (fun i => do s <- vget sg i;
    do e <- int_g_vec (plain (KLaplace dim)) s l DNone DNone []; dtake i e) (seq 0 dim)).

(** stokes.py 213-270: StokesletWrapper.apply_stress *)
Definition stokeslet_stress (dim : nat) (sg dir : list pe) (mu : string) (l : lim) : result (list pe) :=
  do _ <- stokeslet_dict dim;
  do dict <- stresslet_dict dim;
  mapM (fun comp => acc_sum (map (fun ij =>
    do k <- klookup dict (counts dim [comp; fst ij; snd ij]);
    do d <- vget dir (fst ij);
    do s <- vget sg (snd ij);
    do e <- int_g_vec k s l DNone DNone (mu_args mu);
    Ok (PMul d e)) (pairs dim))) (seq 0 dim).

(** stokes.py 339-383 (apply) and 413-464 (apply_derivative) *)
Definition stresslet_terms (tk : pe -> result pe) (dim : nat) (sg dir : list pe) (mu : string) (l : lim)
    : result (list pe) :=
  do dict <- stresslet_dict dim;
  mapM (fun comp => acc_sum (map (fun ij =>
    do k <- klookup dict (counts dim [comp; fst ij; snd ij]);
    do d <- vget dir (fst ij);
    do s <- vget sg (snd ij);
    do e <- int_g_vec k (PMul d s) l DNone DNone (mu_args mu); tk e) (pairs dim))) (seq 0 dim).
Definition stresslet_apply := stresslet_terms (fun e => Ok e).
Definition stresslet_derivative (dd : nat) := stresslet_terms (dtake dd).

(** stokes.py 385-411: StressletWrapper.apply_pressure *)
Definition stresslet_pressure (dim : nat) (sg dir : list pe) (mu : string) (l : lim) : result pe :=
  do _ <- stresslet_dict dim;
  acc_sum (map (fun ij =>
    do s <- vget sg (fst ij);
    do d <- vget dir (snd ij);
    do e <- int_g_vec (plain (KLaplace dim)) (PMul s d) l DNone DNone [];
    do e1 <- dtake (snd ij) e; do e2 <- dtake (fst ij) e1;
    Ok (PMul (PMul (prat 2 1) (PVar mu)) e2)) (pairs dim)).

(** stokes.py 466-511: StressletWrapper.apply_stress *)
Definition stresslet_stress (dim : nat) (sg nrm dir : list pe) (mu : string) (l : lim) : result (list pe) :=
  do grads <- mapM (fun i => stresslet_derivative i dim sg nrm mu l) (seq 0 dim);
  let grad := fun c i => match nth_error grads i with Some v => vget v c | None => Err IndexError end in
  mapM (fun comp =>
    do dc <- vget dir comp;
    do p <- stresslet_pressure dim sg nrm mu l;
    fold_left (fun acc j =>
      do a <- acc; do dj <- vget dir j;
      do g1 <- grad comp j; do g2 <- grad j comp;
      Ok (PAdd a (PMul (PMul dj (PVar mu)) (PAdd g1 g2))))
      (seq 0 dim) (Ok (PMul (PNeg dc) p))) (seq 0 dim).

(** Object-array arithmetic. *)
Definition vmap (f : pe -> pe) (a : list pe) : list pe := map f a.
Fixpoint vzip (f : pe -> pe -> pe) (a b : list pe) : result (list pe) :=
  match a, b with
  | [], [] => Ok []
  | x :: a', y :: b' => do r <- vzip f a' b'; Ok (f x y :: r)
  | _, _ => Err ValueError
  end.

(** stokes.py 532-545: StokesOperator.__init__ *)
Record stokes_op := mk_st { st_adim : nat; st_side : Z }.
Definition make_stokes (adim : nat) (side : Z) : result stokes_op :=
  if negb ((side =? 1)%Z || (side =? -1)%Z) then Err ValueError
  else do _ <- stresslet_dict adim; do _ <- stokeslet_dict adim; Ok (mk_st adim side).

(** stokes.py 601-625: HsiaoKressExteriorStokesOperator *)
Record hk_op := mk_hk { hk_base : stokes_op; hk_omega : list pe; hk_alpha : num; hk_eta : num }.
Definition make_hk (omega : list pe) (alpha eta : option num) : result hk_op :=
  do b <- make_stokes 2 1;
  Ok (mk_hk b omega (match alpha with Some a => a | None => NInt 1 end)
                    (match eta with Some e => e | None => NInt 1 end)).

(** stokes.py 627-632: _farfield *)
Definition hk_farfield (h : hk_op) (mu : string) (l : lim) : result (list pe) :=
  let ad := st_adim (hk_base h) in
  let length := PInt ad (ad - 1) DNone (pint 1) in
  stokeslet_apply ad (map (fun w => PDiv (PNeg w) length) (hk_omega h)) mu l.

(** [slp_qbx_forced_limit]: stokes.py 635-637, 705-707 *)
Definition slp_lim (l : lim) (side : Z) : lim := match l with LAvg => LSide side | _ => l end.

(** stokes.py 634-655: _operator *)
Definition hk_inner (h : hk_op) (sg nrm : list pe) (mu : string) (l : lim) : result (list pe) :=
  let ad := st_adim (hk_base h) in
  let int_sg := map (PInt ad (ad - 1) DStage1) sg in
  let meanless := map (fun s => PCse (PSub s (pmean ad (ad - 1) s DNone))) sg in
  do op_k <- stresslet_apply ad sg nrm mu l;
  do op_st <- stokeslet_apply ad meanless mu (slp_lim l 1);
  do op_s <- vzip PSub (map (PMul (PDiv (PNum (hk_alpha h)) (PMul (prat 2 1) (PNum NPi)))) int_sg) op_st;
  vzip PAdd op_k (map (PMul (PNum (hk_eta h))) op_s).

(** stokes.py 657-669: prepare_rhs, operator, velocity *)
Definition hk_prepare_rhs (h : hk_op) (b : list pe) (mu : string) : result (list pe) :=
  do f <- hk_farfield h mu (LSide 1); vzip PAdd b f.
Definition hk_operator (h : hk_op) (sg nrm : list pe) (mu : string) : result (list pe) :=
  do o <- hk_inner h sg nrm mu LAvg;
  vzip PSub (map (PMul (PMul (prat (-1) 2) (pint (st_side (hk_base h))))) sg) o.
Definition hk_velocity (h : hk_op) (sg nrm : list pe) (mu : string) (l : lim) : result (list pe) :=
  do f <- hk_farfield h mu l; do o <- hk_inner h sg nrm mu l; vzip PSub (map PNeg f) o.

(** stokes.py 689-722: HebekerExteriorStokesOperator *)
Record heb_op := mk_heb { hb_base : stokes_op; hb_eta : num }.
Definition make_heb (eta : option num) : result heb_op :=
  do b <- make_stokes 3 1; Ok (mk_heb b (match eta with Some e => e | None => NRat 3 4 end)).
Definition heb_inner (h : heb_op) (sg nrm : list pe) (mu : string) (l : lim) : result (list pe) :=
  let ad := st_adim (hb_base h) in
  do op_w <- stresslet_apply ad sg nrm mu l;
  do op_v <- stokeslet_apply ad sg mu (slp_lim l (st_side (hb_base h)));
  vzip PAdd op_w (map (PMul (PNum (hb_eta h))) op_v).
Definition heb_operator (h : heb_op) (sg nrm : list pe) (mu : string) : result (list pe) :=
  do o <- heb_inner h sg nrm mu LAvg;
  vzip PSub (map (PMul (PMul (prat (-1) 2) (pint (st_side (hb_base h))))) sg) o.
Definition heb_velocity (h : heb_op) (sg nrm : list pe) (mu : string) (l : lim) : result (list pe) :=
  do o <- heb_inner h sg nrm mu l; Ok (map PNeg o).

(** stokes.py 571-581, 671-673, 724-727: what is not implemented *)
Definition stokes_pressure (sg nrm : list pe) (mu : string) : result pe := Err NotImplementedError.
