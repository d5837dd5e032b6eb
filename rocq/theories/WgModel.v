(** Model of /repo/pytential/symbolic/pde/maxwell/waveguide.py (whole file: the class
    SecondKindInfZMuellerOperator) with the layer potentials of
    /repo/pytential/symbolic/primitives.py it uses (lines 2167-2316, 2394-2425).

    As in PdeModel.v and MaxModel.v the functions build expressions over a small syntax; constant
    folding by pymbolic's operators is not modelled.  The kernel is always the two-dimensional
    Helmholtz kernel with its only argument [k] supplied, so the checks of [int_g_vec] never
    fail.  No source or target is ever passed to a potential, so all of them live on the default
    geometry ([DNone]).  The tangent and normal of a discretization (GeoModel.v, C80) are opaque
    here; multivectors are modelled by their components. *)
From Verif Require Import Base PdeModel.
Set Implicit Arguments.
Open Scope string_scope.
Open Scope list_scope.
Open Scope nat_scope.

Inductive wx :=
| WVar (x : string)
| WUnk (x : string) (i : nat)                     (* variable subscripted by an integer *)
| WNum (c : num)
| WAdd (a b : wx) | WSub (a b : wx) | WMul (a b : wx) | WDiv (a b : wx) | WNeg (a : wx)
| WCse (a : wx)
| WHalfPow (a : wx)                               (* a**0.5 *)
| WIfImagNeg (c a b : wx)                         (* If(c.imag < 0, a, b) *)
| WTan (d : dofd) (i : nat)                       (* component i of the unit tangent *)
| WNor (d : dofd) (i : nat)                       (* component i of the unit normal *)
| WJacW (adim : nat) | WSqrtW (adim : nat)       (* area_element * QWeight, sqrt_jac_q_weight *)
| WLp (dir : option (wx * wx)) (tds : list nat) (l : lim) (k a : wx).
    (* layer potential with direction of the source derivative, if any; target derivatives,
       outermost first; limit; wave number; density *)

Definition wint (z : Z) : wx := WNum (NInt z).
Definition wi : wx := WNum NI.
Definition wsq (a : wx) : wx := WMul a a.         (* a**2 *)

(** waveguide.py 86-91. [(x**0.5).a.imag] is the attribute lookup on the root. *)
Definition upper_half_square_root (x : wx) : wx :=
  WIfImagNeg (WHalfPow x) (WMul wi (WHalfPow (WNeg x))) (WHalfPow x).

(** The attributes set by [__init__] (waveguide.py 50-98). [use_l2_weighting] is accepted and
    dropped, and the base class's constructor is not called, so neither the attribute
    [use_l2_weighting] nor [k_vacuum] exists; [op_k_vacuum] and [op_use_l2_weighting] are what a
    user may have assigned to these attributes afterwards. *)
Record wop := mk_wop {
  op_interfaces : list (nat * nat * nat);          (* outer domain, inner domain, geometry *)
  op_ne : wx;
  op_n : list wx;                                  (* domain_n_exprs *)
  op_K : list wx;                                  (* domain_K_exprs *)
  op_k_vacuum : option wx;
  op_use_l2_weighting : option bool }.

Definition wg_init (domain_n_exprs : list string) (ne : string) (interfaces : list (nat * nat * nat))
    (use_l2_weighting : option bool) : wop :=
  let ne' := WCse (WVar ne) in
  let ns := map WVar domain_n_exprs in
  (* line 94 uses the local name [ne], which line 77 has rebound to the bare variable's
     common subexpression only on [self]; the value is the same *)
  mk_wop interfaces ne' ns
    (map (fun n => WCse (upper_half_square_root (WSub (wsq n) (wsq (WVar ne))))) ns) None None.

(** waveguide.py 103-112 ([unknown_index]): a dictionary in insertion order; the key is the name
    of the current followed by its direction, and the number of the interface. *)
Definition unknown_index (op : wop) : list ((string * nat) * nat) :=
  fold_left (fun result key => result ++ [(key, length result)])
    (flat_map (fun i => flat_map (fun current => map (fun cur_dir => (current ++ cur_dir, i)%string)
       ["z"; "t"]) ["j"; "m"]) (seq 0 (length (op_interfaces op)))) [].

Definition key_eqb (a b : string * nat) : bool := (fst a =? fst b)%string && Nat.eqb (snd a) (snd b).
Fixpoint lookup (d : list ((string * nat) * nat)) (key : string * nat) : result nat :=
  match d with
  | [] => Err KeyError
  | (k, v) :: d' => if key_eqb k key then Ok v else lookup d' key
  end.

(** waveguide.py 100-101 and pymbolic's [make_sym_vector]. *)
Definition make_unknown (op : wop) (name : string) : list wx :=
  map (WUnk name) (seq 0 (length (unknown_index op))).

Definition get (l : list wx) (i : nat) : result wx :=
  match nth_error l i with Some x => Ok x | None => Err IndexError end.

(** waveguide.py 114-118: the tangent of the curve, by its two components. *)
Definition tangent (d : dofd) : list wx := [WCse (WTan d 0); WCse (WTan d 1)].
Definition normal (d : dofd) : list wx := [WCse (WNor d 0); WCse (WNor d 1)].
(** Scalar product of two multivectors of grade one. *)
Definition scalar_product (a b : list wx) : wx :=
  match a, b with
  | [a0; a1], [b0; b1] => WAdd (WMul a0 b0) (WMul a1 b1)
  | _, _ => wint 0
  end.

(** waveguide.py 120-139: [S], [D], [T]; the direction of [D] is the normal of its source
    (primitives.py 2419-2425), the default geometry, and only the scalar part of the geometric
    product survives [xproject(0)]. *)
Definition symS (op : wop) (dom : nat) (density : wx) (l : lim) : result wx :=
  do k <- get (op_K op) dom; Ok (WLp None [] l k density).
Definition symD (op : wop) (dom : nat) (density : wx) : result wx :=
  do k <- get (op_K op) dom;
  Ok (WLp (Some (WNor DNone 0, WNor DNone 1)) [] LAvg k (WCse density)).
Definition symT (op : wop) (wh dom : nat) (density : wx) : result wx :=
  do k <- get (op_K op) dom;
  Ok (WLp (Some (WCse (WTan (DGeo wh) 0), WCse (WTan (DGeo wh) 1))) [] (LSide 1) k (WCse density)).

(** The derivative taker applied to a layer potential. *)
Definition dax (m : nat) (e : wx) : result wx :=
  match e with
  | WLp dir tds l k a => Ok (WLp dir (m :: tds) l k a)
  | _ => Err NotImplementedError
  end.
(** primitives.py 2291-2304 (its scalar part) and 2307-2316, both at the default geometry. *)
Definition tangential_derivative (e : wx) : result wx :=
  do d0 <- dax 0 e; do d1 <- dax 1 e;
  Ok (WAdd (WMul d0 (WTan DNone 0)) (WMul d1 (WTan DNone 1))).
Definition normal_derivative (e : wx) : result wx :=
  do d0 <- dax 0 e; do d1 <- dax 1 e;
  Ok (WAdd (WMul (WNor DNone 0) d0) (WMul (WNor DNone 1) d1)).

(** waveguide.py 257-267: the local functions [Tt], [Sn], [St]. *)
Definition opTt (op : wop) (wh dom : nat) (density : wx) : result wx :=
  do t <- symT op wh dom density; tangential_derivative t.
Definition opSn (op : wop) (dom : nat) (density : wx) : result wx :=
  do s <- symS op dom density LAvg; normal_derivative s.
Definition opSt (op : wop) (dom : nat) (density : wx) : result wx :=
  do s <- symS op dom density (LSide 1); tangential_derivative s.
(** [tangent.scalar_product(S(dom, v * phi))] for the tangent or the normal [v]. *)
Definition opSv (op : wop) (t v : list wx) (dom : nat) (phi : wx) : result wx :=
  do s <- mapM (fun c => symS op dom (WMul c phi) (LSide 1)) v;
  Ok (scalar_product t s).

(** [a23_expr], waveguide.py 310-319. *)
Definition a23_expr (op : wop) (wh dom0 dom1 : nat) (t : list wx) (phi : wx) : result wx :=
  do tt0 <- opTt op wh dom0 phi; do tt1 <- opTt op wh dom1 phi;
  do n0 <- get (op_n op) dom0; do n1 <- get (op_n op) dom1;
  do s0 <- opSv op t t dom0 phi; do s1 <- opSv op t t dom1 phi;
  Ok (WSub (WMul wi (WSub tt0 tt1)) (WMul wi (WSub (WMul (wsq n0) s0) (WMul (wsq n1) s1)))).

(** [result[i] += e]. *)
Fixpoint addto (l : list wx) (i : nat) (e : wx) : result (list wx) :=
  match l, i with
  | [], _ => Err IndexError
  | x :: l', 0 => Ok (WAdd x e :: l')
  | x :: l', S i' => do r <- addto l' i' e; Ok (x :: r)
  end.

(** The body of the loop of [operator] (waveguide.py 233-341) up to its return statement. *)
Definition operator_body (op : wop) (unknown result0 : list wx) (i : nat) (itf : nat * nat * nat) : result (list wx) :=
  let unk_idx := unknown_index op in
  do idx_jt <- lookup unk_idx ("jz", i);
  do idx_jz <- lookup unk_idx ("jt", i);
  do idx_mt <- lookup unk_idx ("mz", i);
  do idx_mz <- lookup unk_idx ("mt", i);
  do phi1 <- get unknown idx_jt;
  do phi2 <- get unknown idx_jz;
  do phi3 <- get unknown idx_mt;
  do phi4 <- get unknown idx_mz;
  let ne := op_ne op in
  let '(dom0i, dom1i, wh) := itf in
  let t := tangent (DGeo wh) in
  let nrm := map WCse (normal (DGeo wh)) in
  do n0 <- get (op_n op) dom0i;
  do n1 <- get (op_n op) dom1i;
  (* 272-275 *)
  do d01 <- symD op dom0i phi1; do d11 <- symD op dom1i phi1;
  let a11 := WCse (WSub (WMul (wsq n0) d01) (WMul (wsq n1) d11)) in
  do sn02 <- opSn op dom0i phi2; do sn12 <- opSn op dom1i phi2;
  let a22 := WCse (WAdd (WMul (WNeg (wsq n0)) sn02) (WMul (wsq n1) sn12)) in
  do d03 <- symD op dom0i phi3; do d13 <- symD op dom1i phi3;
  let a33 := WCse (WSub d03 d13) in
  do sn04 <- opSn op dom0i phi4; do sn14 <- opSn op dom1i phi4;
  let a44 := WCse (WAdd (WNeg sn04) sn14) in
  (* 277-287 *)
  do s01 <- opSv op t nrm dom0i phi1; do s11 <- opSv op t nrm dom1i phi1;
  let a21 := WCse (WMul (WMul (WNeg wi) ne) (WSub (WMul (wsq n0) s01) (WMul (wsq n1) s11))) in
  do s03 <- opSv op t nrm dom0i phi3; do s13 <- opSv op t nrm dom1i phi3;
  let a43 := WCse (WMul (WMul (WNeg wi) ne) (WSub s03 s13)) in
  (* 289-292 *)
  do t03 <- symT op wh dom0i phi3; do t13 <- symT op wh dom1i phi3;
  let a13 := WMul (wint 1) (WCse (WMul ne (WSub t03 t13))) in
  do t01 <- symT op wh dom0i phi1; do t11 <- symT op wh dom1i phi1;
  let a31 := WMul (wint (-1)) (WCse (WMul ne (WSub t01 t11))) in
  (* 294-295 *)
  do st04 <- opSt op dom0i phi4; do st14 <- opSt op dom1i phi4;
  let a24 := WMul (wint 1) (WCse (WMul ne (WSub st04 st14))) in
  do st02 <- opSt op dom0i phi2; do st12 <- opSt op dom1i phi2;
  let a42 := WMul (wint (-1)) (WCse (WMul ne (WSub st02 st12))) in
  (* 297-304 *)
  do s04 <- symS op dom0i phi4 (LSide 1); do s14 <- symS op dom1i phi4 (LSide 1);
  let a14 := WCse (WMul wi (WSub (WMul (WSub (wsq n0) (wsq ne)) s04) (WMul (WSub (wsq n1) (wsq ne)) s14))) in
  do s02 <- symS op dom0i phi2 (LSide 1); do s12 <- symS op dom1i phi2 (LSide 1);
  let a32 := WNeg (WCse (WMul wi (WSub (WMul (WSub (wsq n0) (wsq ne)) s02) (WMul (WSub (wsq n1) (wsq ne)) s12)))) in
  (* 321-322 *)
  do x23 <- a23_expr op wh dom0i dom1i t phi3;
  let a23 := WMul (wint 1) (WCse x23) in
  do x41 <- a23_expr op wh dom0i dom1i t phi1;
  let a41 := WMul (wint (-1)) (WCse x41) in
  (* 324-332 *)
  let d1 := WMul (WDiv (WAdd (wsq n0) (wsq n1)) (wint 2)) phi1 in
  let d2 := WMul (WDiv (WAdd (wsq n0) (wsq n1)) (wint 2)) phi2 in
  do r1 <- addto result0 idx_jt (WAdd (WAdd (WAdd (WAdd d1 a11) (wint 0)) a13) a14);
  do r2 <- addto r1 idx_jz (WAdd (WAdd (WAdd (WAdd d2 a21) a22) a23) a24);
  do r3 <- addto r2 idx_mt (WAdd (WAdd (WAdd (WAdd phi3 a31) a32) a33) (wint 0));
  addto r3 idx_mz (WAdd (WAdd (WAdd (WAdd phi4 a41) a42) a43) a44).

(** waveguide.py 228-341 ([operator]). The return statement stands inside the loop; without
    interfaces the function returns Python's None. *)
Definition operator (op : wop) (unknown : list wx) : result (option (list wx)) :=
  let result0 := repeat (wint 0) (4 * length (op_interfaces op)) in
  match op_interfaces op with
  | [] => Ok None
  | itf :: _ => do r <- operator_body op unknown result0 0 itf; Ok (Some r)
  end.

(** waveguide.py 141-226 ([representation]). Reading [self.k_vacuum] fails unless somebody has
    assigned it.  Then the loop reaches the potentials of a bordering interface; the first
    component calls [dx], and [diff_axis] (176-181) assigns to an element of
    [np.array(2, dtype=float)], an array of dimension zero.  Everything evaluated before that
    ([T] of line 195) succeeds or raises IndexError itself, as here. *)
Definition diff_axis (iaxis : nat) (operand : wx) : result wx := Err IndexError.
Fixpoint representation_loop (op : wop) (domain_idx : nat) (unknown result0 : list wx)
    (i : nat) (itfs : list (nat * nat * nat)) : result (list wx) :=
  match itfs with
  | [] => Ok result0
  | (dom0i, dom1i, wh) :: rest =>
      if Nat.eqb domain_idx dom0i || Nat.eqb domain_idx dom1i then
        let domi := if Nat.eqb domain_idx dom0i then dom0i else dom1i in
        do n <- get (op_n op) domi;
        do ijt <- lookup (unknown_index op) ("jz", i); do jt <- get unknown ijt;
        do ijz <- lookup (unknown_index op) ("jt", i); do jz <- get unknown ijz;
        do imt <- lookup (unknown_index op) ("mz", i); do mt <- get unknown imt;
        do imz <- lookup (unknown_index op) ("mt", i); do mz <- get unknown imz;
        do tj <- symT op wh domi jt;
        do e <- diff_axis 1 tj;
        do r <- addto result0 0 e;
        representation_loop op domain_idx unknown r (S i) rest
      else representation_loop op domain_idx unknown result0 (S i) rest
  end.
Definition representation (op : wop) (domain_idx : nat) (unknown : list wx) : result (list wx) :=
  match op_k_vacuum op with
  | None => Err AttributeError
  | Some _ => representation_loop op domain_idx unknown (repeat (wint 0) 4) 0 (op_interfaces op)
  end.

(** scalar.py 119-147 ([get_weight], [get_sqrt_weight], [prepare_rhs]), inherited; [dim] is the
    dimension of the kernel. *)
Definition weighting (op : wop) : result bool :=
  match op_use_l2_weighting op with Some b => Ok b | None => Err AttributeError end.
Definition get_weight (op : wop) : result wx :=
  do b <- weighting op; Ok (if b then WCse (WJacW 2) else wint 1).
Definition get_sqrt_weight (op : wop) : result wx :=
  do b <- weighting op; Ok (if b then WSqrtW 2 else wint 1).
Definition prepare_rhs (op : wop) (b : wx) : result wx := do w <- get_sqrt_weight op; Ok (WMul w b).
