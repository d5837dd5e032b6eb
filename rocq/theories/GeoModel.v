(** Model of the geometry primitives of /repo/pytential/symbolic/primitives.py
    (lines 488-530, 636-1450, 1511-1552, 1592-1775, 2466-2582): the symbolic
    expressions that [pytential.sym] builds for Jacobians, area elements, normals,
    curvatures, stretch factors, expansion radii, tangential bases and surface
    integrals.  The expressions are a datatype; their values are in GeoSpec.v.
    pymbolic's geometric algebra (an external package) is modelled as far as it is
    used here.  [cse] of an array or multivector wraps every component
    (pymbolic.primitives.make_common_subexpression). *)
From Verif Require Import Base DofModel.
Set Implicit Arguments.

(** modepy's reference element shapes (primitives.py 664, 1247-1251). *)
Inductive shape := Simplex | Hypercube | OtherShape.

(** The symbolic expressions. [GQ] is a rational literal; [GPow32] is [**(3/2)];
    [GMax] is [pymbolic.primitives.Max]; [GIfShape] is [If(IsShapeClass(..), ..)];
    [GErr] is [ErrorExpression]. *)
Inductive ge :=
| GQ (n : Z) (d : positive)
| GVar (s : string)
| GCoord (axis : nat) (d : dofdesc)
| GDer (axes : list (Z * Z)) (e : ge) (d : dofdesc)
| GQw (d : dofdesc) | GOnes (d : dofdesc)
| GAdd (a b : ge) | GSub (a b : ge) | GMul (a b : ge) | GDiv (a b : ge)
| GPow (a : ge) (n : nat) | GPow32 (a : ge)
| GSqrt (a : ge) | GAbs (a : ge) | GMax (l : list ge)
| GNodeSum (a : ge) | GNodeMax (a : ge) | GNodeMin (a : ge)
| GElSum (a : ge) (d : dofdesc)
| GInterp (from to : dofdesc) (a : ge)
| GIntl (from : dofdesc) (a b : ge)
| GIfShape (s : shape) (d : dofdesc) (a b : ge)
| GErr
| GCse (prefix : string) (discr : bool) (a : ge).

Definition gz (z : Z) : ge := GQ z 1.
Definition cse (p : string) (a : ge) : ge := GCse p true a.
Definition cse_eval (p : string) (a : ge) : ge := GCse p false a.
Definition cse_v (p : string) : list ge -> list ge := map (cse p).
Definition cse_m (p : string) : list (list ge) -> list (list ge) := map (cse_v p).
Definition cse_ev (p : string) : list ge -> list ge := map (cse_eval p).
Definition cse_em (p : string) : list (list ge) -> list (list ge) := map (cse_ev p).

(** Python's [sum] and numpy's object-array dot product: left to right. *)
Definition gsum (l : list ge) : ge :=
  match l with [] => gz 0 | x :: r => fold_left GAdd r x end.
Fixpoint gzip (f : ge -> ge -> ge) (a b : list ge) : list ge :=
  match a, b with x :: a', y :: b' => f x y :: gzip f a' b' | _, _ => [] end.
Definition gdot (a b : list ge) : ge := gsum (gzip GMul a b).

(** Matrices are lists of rows. *)
Definition gat (m : list (list ge)) (i j : nat) : ge := nth j (nth i m []) (gz 0).
Definition gcol (m : list (list ge)) (j : nat) : list ge := map (fun r => nth j r (gz 0)) m.
Definition gshape (m : list (list ge)) : nat * nat :=
  (length m, match m with [] => 0 | r :: _ => length r end).
Definition gtrans (m : list (list ge)) : list (list ge) := map (gcol m) (seq 0 (snd (gshape m))).
Definition gmatmul (a b : list (list ge)) : list (list ge) :=
  map (fun r => map (fun j => gdot r (gcol b j)) (seq 0 (snd (gshape b)))) a.
Definition gscale (c : ge) (m : list (list ge)) : list (list ge) := map (map (GMul c)) m.

(** *** Reference derivatives *)

(** What may be passed as [ref_axes]. *)
Inductive pyaxes := AxInt (z : Z) | AxTuple (l : list (Z * Z)) | AxOther.

Definition pair_ltb (a b : Z * Z) : bool :=
  (fst a <? fst b)%Z || ((fst a =? fst b)%Z && (snd a <? snd b)%Z).
(** Python's [sorted] on pairs: stable insertion sort, lexicographic. *)
Fixpoint ins (x : Z * Z) (l : list (Z * Z)) : list (Z * Z) :=
  match l with
  | [] => [x]
  | y :: r => if pair_ltb y x then y :: ins x r else x :: l
  end.
Fixpoint sorted (l : list (Z * Z)) : list (Z * Z) :=
  match l with [] => [] | x :: r => ins x (sorted r) end.
(** [len(dict(l))]. *)
Fixpoint dict_keys (l : list (Z * Z)) (ks : list Z) : list Z :=
  match l with
  | [] => ks
  | (k, _) :: r => dict_keys r (if existsb (Z.eqb k) ks then ks else k :: ks)
  end.
Fixpoint axes_eqb (a b : list (Z * Z)) : bool :=
  match a, b with
  | [], [] => true
  | (i, j) :: a', (k, l) :: b' => (i =? k)%Z && (j =? l)%Z && axes_eqb a' b'
  | _, _ => false
  end.

(** primitives.py 773-799 ([NumReferenceDerivative.__init__]). *)
Definition make_der (ax : pyaxes) (e : ge) (dd : dd_like) : result ge :=
  do axes <- match ax with
             | AxInt z => Ok [(z, 1%Z)]
             | AxTuple l => Ok l
             | AxOther => Err TypeError
             end;
  if negb (axes_eqb (sorted axes) axes) then Err ValueError
  else if negb (Nat.eqb (length (dict_keys axes [])) (length axes)) then Err ValueError
  else do d <- as_dofdesc dd; Ok (GDer axes e d).

(** primitives.py 802-816 ([num_reference_derivative]) on one expression. *)
Definition num_reference_derivative (e : ge) (ax : pyaxes) (dd : dd_like) : result ge :=
  let ax' := match ax with AxInt z => AxTuple [(z, 1%Z)] | _ => ax end in
  do d <- as_dofdesc dd; make_der ax' e (LDesc d).

(** primitives.py 819-837 ([reference_jacobian]); an index beyond [func] is an
    IndexError. *)
Definition reference_jacobian (func : list ge) (output_dim dim : nat) (dd : dd_like)
    : result (list (list ge)) :=
  do d <- as_dofdesc dd;
  mapM (fun i =>
    match nth_error func i with
    | None => Err IndexError
    | Some f => mapM (fun j => num_reference_derivative f (AxInt (Z.of_nat j)) (LDesc d)) (seq 0 dim)
    end) (seq 0 output_dim).

(** primitives.py 840-855. *)
Definition parametrization_derivative_matrix (adim dim : nat) (dd : dd_like)
    : result (list (list ge)) :=
  do d <- as_dofdesc dd;
  do j <- reference_jacobian (map (fun i => GCoord i d) (seq 0 adim)) adim dim (LDesc d);
  Ok (cse_m "pd_matrix" j).

(** *** pymbolic.geometric_algebra over a Euclidean space: basis blades are bit
    sets, a multivector maps bit sets to coefficients. *)
Definition mv := list (nat * ge).
Definition bitlist (dims b : nat) : list nat := filter (Nat.testbit b) (seq 0 dims).
Definition grade (dims b : nat) : nat := length (bitlist dims b).
(** Number of transpositions that sort the concatenation of two blades, i.e. pairs
    (i in a, j in b) with i > j. *)
Definition swaps (dims a b : nat) : nat :=
  fold_left Nat.add (map (fun i => length (filter (fun j => j <? i) (bitlist dims b))) (bitlist dims a)) 0.
Definition rsign (dims a b : nat) : Z := if Nat.even (swaps dims a b) then 1%Z else (-1)%Z.
Fixpoint mv_add1 (m : mv) (b : nat) (c : ge) : mv :=
  match m with
  | [] => [(b, c)]
  | (b', c') :: r => if Nat.eqb b' b then (b', GAdd c' c) :: r else (b', c') :: mv_add1 r b c
  end.
(** [_generic_product]: [keep] is the product's blade weight (0 or 1). *)
Definition mv_prod (keep : nat -> nat -> bool) (dims : nat) (x y : mv) : mv :=
  fold_left (fun acc xb => fold_left (fun acc yb =>
     if keep (fst xb) (fst yb)
     then mv_add1 acc (Nat.lxor (fst xb) (fst yb))
            (GMul (GMul (gz (rsign dims (fst xb) (fst yb))) (snd xb)) (snd yb))
     else acc) y acc) x [].
(** Geometric product: every pair of blades (Euclidean metric). *)
Definition mv_geo := mv_prod (fun _ _ => true).
(** Left contraction [<<]: the left blade is contained in the right one. *)
Definition mv_lc := mv_prod (fun a b => Nat.eqb (Nat.land a b) a).
(** [MultiVector(vec)]. *)
Definition mv_vec (v : list ge) : mv := combine (map (fun i => 2 ^ i) (seq 0 (length v))) v.
Definition mv_maxgrade (dims : nat) (x : mv) : mv :=
  let g := fold_left Nat.max (map (fun t => grade dims (fst t)) x) 0 in
  filter (fun t => Nat.eqb (grade dims (fst t)) g) x.
(** [norm_squared]: the sum of the squared coefficients. *)
Definition mv_norm2 (x : mv) : ge := gsum (map (fun t => GMul (snd t) (snd t)) x).
(** Division by a scalar expression; pymbolic multiplies with the scalar's inverse. *)
Definition mv_div (x : mv) (s : ge) : mv := map (fun t => (fst t, GDiv (snd t) s)) x.
(** [I.inv()]: the pseudoscalar's inverse is plus or minus itself. *)
Definition mv_Iinv (dims : nat) : mv :=
  [(2 ^ dims - 1, gz (if Nat.even (dims * (dims - 1) / 2) then 1 else -1))].
(** [as_vector]: a component that is not a vector's is a ValueError. *)
Definition mv_as_vector (dims : nat) (x : mv) : result (list ge) :=
  if forallb (fun t => Nat.eqb (grade dims (fst t)) 1) x
  then Ok (map (fun i => match find (fun t => Nat.eqb (fst t) (2 ^ i)) x with
                         | Some t => snd t | None => gz 0 end) (seq 0 dims))
  else Err ValueError.
Definition cse_mv (p : string) (x : mv) : mv := map (fun t => (fst t, cse p (snd t))) x.

Definition odim (adim : nat) (dim : option nat) : nat :=
  match dim with None => adim - 1 | Some d => d end.

(** primitives.py 858-871; [pytools.product] of no factors is the number 1. *)
Definition parametrization_derivative (adim dim : nat) (dd : dd_like) : result mv :=
  do m <- parametrization_derivative_matrix adim dim dd;
  match map (fun j => mv_vec (gcol m j)) (seq 0 dim) with
  | [] => Err AttributeError
  | v :: vs => Ok (fold_left (mv_geo adim) vs v)
  end.

(** primitives.py 874-888. *)
Definition pseudoscalar (adim : nat) (dim : option nat) (dd : dd_like) : result mv :=
  do p <- parametrization_derivative adim (odim adim dim) dd;
  Ok (cse_mv "pseudoscalar" (mv_maxgrade adim p)).

(** primitives.py 891-899. *)
Definition area_element (adim : nat) (dim : option nat) (dd : dd_like) : result ge :=
  do p <- pseudoscalar adim dim dd;
  Ok (cse "area_element" (GSqrt (mv_norm2 p))).

(** primitives.py 902-915. *)
Definition sqrt_jac_q_weight (adim : nat) (dim : option nat) (dd : dd_like) : result ge :=
  do d <- as_dofdesc dd;
  do a <- area_element adim dim (LDesc d);
  Ok (cse "sqrt_jac_q_weight" (GSqrt (GMul a (GQw d)))).

(** primitives.py 918-936 ([normal], then [as_vector]). *)
Definition normal (adim : nat) (dim : option nat) (dd : dd_like) : result (list ge) :=
  do d <- as_dofdesc dd;
  do p <- pseudoscalar adim dim (LDesc d);
  do a <- area_element adim dim (LDesc d);
  mv_as_vector adim (cse_mv "normal" (mv_lc adim (mv_div p a) (mv_Iinv adim))).

(** primitives.py 969-979. *)
Definition first_fundamental_form (adim : nat) (dim : option nat) (dd : dd_like)
    : result (list (list ge)) :=
  do m <- parametrization_derivative_matrix adim (odim adim dim) dd;
  Ok (cse_em "fundform1" (gmatmul (gtrans m) m)).

(** primitives.py 982-1024; [r] and its derivatives are vectors. *)
Definition second_fundamental_form (adim : nat) (dim : option nat) (dd : dd_like)
    : result (list (list ge)) :=
  if negb (Nat.eqb adim 3 && Nat.eqb (odim adim dim) 2) then Err NotImplementedError
  else
  do d <- as_dofdesc dd;
  let r := map (fun i => GCoord i d) (seq 0 adim) in
  do ruu <- mapM (fun e => num_reference_derivative e (AxTuple [(0, 2)]%Z) (LDesc d)) r;
  do ruv <- mapM (fun e => num_reference_derivative e (AxTuple [(0, 1); (1, 1)]%Z) (LDesc d)) r;
  do rvv <- mapM (fun e => num_reference_derivative e (AxTuple [(1, 2)]%Z) (LDesc d)) r;
  do n <- normal adim (Some (odim adim dim)) (LDesc d);
  let l := cse_eval "fundform2_L" (gdot ruu n) in
  let m := cse_eval "fundform2_M" (gdot ruv n) in
  let nn := cse_eval "fundform2_N" (gdot rvv n) in
  Ok [[l; m]; [m; nn]].

(** primitives.py 1027-1050. *)
Definition shape_operator (adim : nat) (dim : option nat) (dd : dd_like)
    : result (list (list ge)) :=
  if negb (Nat.eqb adim 3 && Nat.eqb (odim adim dim) 2) then Err NotImplementedError
  else
  do i1 <- first_fundamental_form adim (Some (odim adim dim)) dd;
  do i2 <- second_fundamental_form adim (Some (odim adim dim)) dd;
  let E := gat i1 0 0 in let F := gat i1 0 1 in let G := gat i1 1 1 in
  let e := gat i2 0 0 in let f := gat i2 0 1 in let g := gat i2 1 1 in
  let r00 := GSub (GMul e G) (GMul f F) in
  let r01 := GSub (GMul f G) (GMul g F) in
  let r10 := GSub (GMul f E) (GMul e F) in
  let r11 := GSub (GMul g E) (GMul f F) in
  Ok (cse_em "shape_operator"
        (gscale (GDiv (gz 1) (GSub (GMul E G) (GMul F F))) [[r00; r01]; [r10; r11]])).

(** primitives.py 939-966. *)
Definition mean_curvature (adim : nat) (dim : option nat) (dd : dd_like) : result ge :=
  let dim' := odim adim dim in
  if Nat.eqb adim 2 && Nat.eqb dim' 1 then
    do m <- parametrization_derivative_matrix adim dim' dd;
    let xp := gat m 0 0 in let yp := gat m 1 0 in
    do j2 <- reference_jacobian [xp; yp] adim dim' dd;
    let m2 := cse_m "p2d_matrix" j2 in
    let xpp := gat m2 0 0 in let ypp := gat m2 1 0 in
    Ok (GDiv (GSub (GMul xp ypp) (GMul yp xpp)) (GPow32 (GAdd (GPow xp 2) (GPow yp 2))))
  else if Nat.eqb adim 3 && Nat.eqb dim' 2 then
    do s <- shape_operator adim (Some dim') dd;
    Ok (GMul (GQ (-1) 2) (gsum (map (fun i => gat s i i) (seq 0 (fst (gshape s))))))
  else Err NotImplementedError.

(** *** Small matrices *)

(** primitives.py 1073-1093. *)
Definition small_mat_inverse (m : list (list ge)) : result (list (list ge)) :=
  let '(r, c) := gshape m in
  if negb (Nat.eqb r c) then Err ValueError
  else match r with
  | 1 => Ok [[GDiv (gz 1) (gat m 0 0)]]
  | 2 =>
    let a := gat m 0 0 in let b := gat m 0 1 in let c := gat m 1 0 in let d := gat m 1 1 in
    Ok (gscale (GDiv (gz 1) (GSub (GMul a d) (GMul b c)))
          [[d; GMul (gz (-1)) b]; [GMul (gz (-1)) c; a]])
  | _ => Err NotImplementedError
  end.

Definition eig2 (tr sd : ge) : list ge :=
  [GDiv (GSub tr sd) (gz 2); GDiv (GAdd tr sd) (gz 2)].

(** primitives.py 1096-1120. *)
Definition small_mat_eigenvalues (m : list (list ge)) : result (list ge) :=
  let '(r, c) := gshape m in
  if negb (Nat.eqb r c) then Err ValueError
  else match r with
  | 1 => Ok [gat m 0 0]
  | 2 =>
    let a := gat m 0 0 in let b := gat m 0 1 in let c := gat m 1 0 in let d := gat m 1 1 in
    Ok (eig2 (cse_eval "" (GAdd a d))
             (cse_eval "" (GSqrt (GAdd (GMul (GMul (gz 4) b) c) (GPow (GSub a d) 2)))))
  | _ => Err NotImplementedError
  end.

(** primitives.py 1123-1149. *)
Definition small_sym_mat_eigenvalues (m : list (list ge)) : result (list ge) :=
  let '(r, c) := gshape m in
  if negb (Nat.eqb r c) then Err ValueError
  else match r with
  | 1 => Ok [gat m 0 0]
  | 2 =>
    let a := gat m 0 0 in let b := gat m 0 1 in let d := gat m 1 1 in
    Ok (eig2 (cse_eval "" (GAdd a d))
             (cse_eval "" (GSqrt (GAdd (GMul (gz 4) (GPow b 2)) (GPow (GSub a d) 2)))))
  | _ => Err NotImplementedError
  end.

(** *** Stretch factors, curvature and radii *)

(** modepy.tools.EQUILATERAL_TO_UNIT_MAP[dim].a, an external table: dimension 1 is
    [[1]], dimension 2 is [[1, -1/sqrt 3], [0, 2/sqrt 3]]. A missing key is a
    KeyError. Dimension 3 is not modelled: its consumer raises
    NotImplementedError for it. *)
Definition equilateral_to_unit (dim : nat) : result (list (list ge)) :=
  match dim with
  | 1 => Ok [[gz 1]]
  | 2 => Ok [[gz 1; GDiv (gz (-1)) (GSqrt (gz 3))]; [gz 0; GDiv (gz 2) (GSqrt (gz 3))]]
  | 3 => Ok (repeat (repeat (gz 0) 3) 3)
  | _ => Err KeyError
  end.

(** primitives.py 1152-1170. *)
Definition equilateral_pder_mat (adim : nat) (dim : option nat) (dd : dd_like)
    : result (list (list ge)) :=
  do m <- parametrization_derivative_matrix adim (odim adim dim) dd;
  do e <- equilateral_to_unit (odim adim dim);
  Ok (cse_em "equilateral_pder_mat" (gmatmul m e)).

(** primitives.py 1173-1211. *)
Definition simplex_stretch (adim : nat) (dim : option nat) (dd : dd_like) : result ge :=
  do m <- equilateral_pder_mat adim (Some (odim adim dim)) dd;
  let jtj := cse_em "pd_mat_jtj" (gmatmul (gtrans m) m) in
  do ev <- small_sym_mat_eigenvalues (gscale (gz 4) jtj);
  Ok (GMax (map (fun s => cse_eval "simplex_mapping_singval" (GSqrt s)) ev)).

(** primitives.py 1214-1233. *)
Definition hypercube_stretch (adim : nat) (dim : option nat) (dd : dd_like) : result ge :=
  do m <- first_fundamental_form adim (Some (odim adim dim)) dd;
  do ev <- small_sym_mat_eigenvalues (gscale (gz 4) m);
  Ok (GMax (map (fun s => cse_eval "hypercube_mapping_singval" (GSqrt s)) ev)).

(** primitives.py 1236-1257. *)
Definition mapping_max_stretch (adim : nat) (dim : option nat) (dd : dd_like) : result ge :=
  do s <- simplex_stretch adim dim dd;
  do h <- hypercube_stretch adim dim dd;
  do d <- as_dofdesc dd;
  Ok (cse "mapping_stretch_factor" (GIfShape Simplex d s (GIfShape Hypercube d h GErr))).

(** primitives.py 1260-1281. *)
Definition max_curvature (adim : nat) (dim : option nat) (dd : dd_like) : result ge :=
  let dim' := Some (odim adim dim) in
  if Nat.eqb adim 2 then do k <- mean_curvature adim dim' dd; Ok (GAbs k)
  else if Nat.eqb adim 3 then
    do s <- shape_operator adim dim' dd;
    do ev <- small_sym_mat_eigenvalues s;
    Ok (cse_eval "" (GMax (map GAbs ev)))
  else Err NotImplementedError.

(** primitives.py 1284-1298. *)
Definition scaled_max_curvature (adim : nat) (dim : option nat) (dd : dd_like) : result ge :=
  do d <- as_dofdesc dd;
  do k <- max_curvature adim dim (LDesc d);
  do s <- mapping_max_stretch adim dim (LDesc d);
  Ok (GMul k s).

(** primitives.py 1301-1306. *)
Definition expansion_radii_factor (adim : nat) (dim : option nat) : ge :=
  GQ 1 (if Nat.eqb (odim adim dim) 2 then 4 else 2).

(** primitives.py 1511-1526 ([interpolate]; line 1466's identity is included). *)
Definition interpolate (e : ge) (from to : dd_like) : result ge :=
  do f <- as_dofdesc from;
  do t <- as_dofdesc to;
  if dd_eqb f t then Ok e
  else match granularity t with
       | CENTER => Err ValueError
       | _ => Ok (GInterp f t e)
       end.

(** primitives.py 1542-1550 ([interleave]). *)
Definition interleave (a b : ge) (from : dd_like) : result ge :=
  do d <- as_dofdesc from;
  match granularity d with NODE => Ok (GIntl d a b) | _ => Err ValueError end.

Definition ogran (g : option gran) : pyobj := match g with None => ONone | Some g => OGran g end.

(** primitives.py 1309-1335. *)
Definition quad_resolution (adim : nat) (dim : option nat) (gr : option gran) (dd : dd_like) : result ge :=
  do from <- as_dofdesc dd;
  do to <- dd_copy from GANone OSentinel (ogran gr);
  do s <- mapping_max_stretch adim dim (LDesc from);
  match gr with
  | Some CENTER =>
    do mid <- dd_copy from GANone OSentinel (OGran NODE);
    do n <- interpolate s (LDesc from) (LDesc mid);
    let nodal := cse_eval "" n in
    interleave nodal nodal (LDesc mid)
  | _ => interpolate s (LDesc from) (LDesc to)
  end.

(** primitives.py 1369-1379. *)
Definition expansion_radii (adim : nat) (dim : option nat) (gr : option gran) (dd : dd_like) : result ge :=
  do q <- quad_resolution adim dim gr dd;
  Ok (cse "expansion_radii" (GMul (expansion_radii_factor adim dim) q)).

(** primitives.py 1338-1356. *)
Definition source_danger_zone_radii (adim : nat) (dim : option nat) (gr : option gran) (dd : dd_like) : result ge :=
  do r <- expansion_radii adim dim gr dd; Ok (GMul (GQ 3 4) r).

(** primitives.py 1359-1366. *)
Definition close_target_tunnel_radii (adim : nat) (dim : option nat) (gr : option gran) (dd : dd_like) : result ge :=
  do r <- expansion_radii adim dim gr dd; Ok (GMul (GQ 1 2) r).

(** primitives.py 1382-1396. *)
Definition expansion_centers (adim : nat) (side : Z) (dim : option nat) (dd : dd_like) : result (list ge) :=
  do d <- as_dofdesc dd;
  do n <- normal adim dim dd;
  do r <- expansion_radii adim dim (Some NODE) dd;
  Ok (cse_v "expansion_centers"
        (gzip GAdd (map (fun i => GCoord i d) (seq 0 adim))
                   (map (GMul (GMul (gz side) r)) n))).

(** primitives.py 1410-1433. *)
Definition h_max (adim : nat) (dim : option nat) (dd : dd_like) : result ge :=
  do r <- quad_resolution adim dim None dd; Ok (cse "h_max" (GNodeMax r)).
Definition h_min (adim : nat) (dim : option nat) (dd : dd_like) : result ge :=
  do r <- quad_resolution adim dim None dd; Ok (cse "h_min" (GNodeMin r)).

(** primitives.py 1436-1447. *)
Definition weights_and_area_elements (adim : nat) (dim : option nat) (dd : dd_like) : result ge :=
  do d <- as_dofdesc dd;
  do a <- area_element adim dim (LDesc d);
  Ok (cse "weights_area_elements" (GMul a (GQw d))).

(** primitives.py 1657-1669. *)
Definition integral (adim dim : nat) (e : ge) (dd : dd_like) : result ge :=
  do d <- as_dofdesc dd;
  do a <- area_element adim (Some dim) (LDesc d);
  Ok (GNodeSum (GMul (GMul a (GQw d)) e)).

(** primitives.py 1758-1764. *)
Definition area (adim dim : nat) (dd : dd_like) : result ge :=
  do d <- as_dofdesc dd;
  do i <- integral adim dim (GOnes d) (LDesc d);
  Ok (cse "area" i).

(** primitives.py 1767-1773. *)
Definition mean (adim dim : nat) (e : ge) (dd : dd_like) : result ge :=
  do i <- integral adim dim e dd;
  do a <- area adim dim dd;
  Ok (GDiv i a).

(** *** Tangential bases and vector operations *)

(** primitives.py 2480-2491: Gram-Schmidt on the columns; [prev] are the columns
    already done. *)
Definition gs_step (prev : list (list ge)) (k : nat) (avec : list ge) : list ge :=
  let q := fold_left (fun q bvec => gzip GSub q (map (GMul (gdot avec bvec)) bvec)) prev avec in
  let q := cse_ev "q" q in
  cse_ev "orth_pd_vec" (map (fun x => GDiv x (GSqrt (gsum (map (fun y => GPow y 2) q)))) q).
Fixpoint gram_schmidt (prev : list (list ge)) (cols : list (list ge)) : list (list ge) :=
  match cols with
  | [] => prev
  | c :: r => gram_schmidt (prev ++ [gs_step prev (length prev) c]) r
  end.

(** primitives.py 2466-2495; the result is the list of columns. *)
Definition tangential_onb (adim : nat) (dim : option nat) (dd : dd_like) : result (list (list ge)) :=
  do m <- parametrization_derivative_matrix adim (odim adim dim) dd;
  Ok (gram_schmidt [] (gtrans m)).

(** primitives.py 2498-2507. *)
Definition xyz_to_tangential (v : list ge) (dd : dd_like) : result (list ge) :=
  do t <- tangential_onb (length v) None dd;
  Ok (map (fun i => gdot (nth i t []) v) (seq 0 (length v - 1))).

(** primitives.py 2510-2518; [sum] starts from the integer 0. *)
Definition tangential_to_xyz (tv : list ge) (dd : dd_like) : result (list ge) :=
  do t <- tangential_onb (length tv + 1) None dd;
  Ok (match map (fun i => map (fun x => GMul x (nth i tv (gz 0))) (nth i t [])) (seq 0 (length tv)) with
      | [] => []
      | c :: cs => fold_left (gzip GAdd) cs c
      end).

(** primitives.py 2521-2528. *)
Definition project_to_tangential (v : list ge) (dd : dd_like) : result (list ge) :=
  do t <- xyz_to_tangential v dd;
  tangential_to_xyz (cse_ev "" t) dd.

(** primitives.py 2531-2538. *)
Definition n_dot (v : list ge) (dd : dd_like) : result ge :=
  do n <- normal (length v) None dd; Ok (gdot n v).

(** pytools.levi_civita on three indices. *)
Definition levi_civita (i j k : nat) : Z :=
  let i := Z.of_nat i in let j := Z.of_nat j in let k := Z.of_nat k in
  ((j - i) * (k - i) * (k - j) / 2)%Z.

(** primitives.py 2541-2553. *)
Definition cross (a b : list ge) : result (list ge) :=
  if Nat.eqb (length a) 3 && Nat.eqb (length b) 3 then
    Ok (map (fun i => gsum (flat_map (fun j => map (fun k =>
          GMul (GMul (gz (levi_civita i j k)) (nth j a (gz 0))) (nth k b (gz 0)))
          (seq 0 3)) (seq 0 3))) (seq 0 3))
  else Err AssertionError.

(** primitives.py 2556-2561. *)
Definition n_cross (v : list ge) (dd : dd_like) : result (list ge) :=
  do n <- normal 3 None dd; cross n v.
