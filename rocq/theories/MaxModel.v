(** Model of /repo/pytential/symbolic/pde/maxwell/__init__.py (whole file) with the vector
    operations of /repo/pytential/symbolic/primitives.py it uses (lines 1808-1860, 2498-2582).

    As in PdeModel.v the functions build expressions over a small syntax; constant folding by
    pymbolic's operators is not modelled. The kernel is always the three-dimensional Helmholtz
    kernel with its parameter [k] supplied, so the checks of [int_g_vec] never fail and a layer
    potential only records target derivatives, limit, [k] and density. Object arrays are lists;
    the normal and the tangential basis (GeoModel.v, C80 and C82) are opaque here. *)
From Verif Require Import Base PdeModel.
From Verif Require GeoModel.
Set Implicit Arguments.
Open Scope string_scope.
Open Scope list_scope.
Open Scope nat_scope.

Inductive mx :=
| MVar (x : string)
| MNum (c : num)
| MAdd (a b : mx) | MSub (a b : mx) | MMul (a b : mx) | MDiv (a b : mx)
| MCse (a : mx) | MSqrt (a : mx) | MExp (a : mx)
| MNode (i : nat)                                  (* coordinate i of the nodes *)
| MNormal (adim i : nat)                           (* component i of the normal *)
| MBasis (adim j i : nat)                          (* component i of column j of tangential_onb *)
| MLp (tds : list nat) (l : lim) (k a : mx).       (* single layer, target derivatives *)

Definition mint (z : Z) : mx := MNum (NInt z).
Definition mi : mx := MNum NI.
Definition mhalf : mx := MNum (NRat 1 2).

(** Python's [sum]; numpy's matrix-vector products start with the first term instead, which
    does not change the value. *)
Definition msum (l : list mx) : mx := fold_left MAdd l (mint 0).
Definition mcomp (v : list mx) (i : nat) : result mx :=
  match nth_error v i with Some x => Ok x | None => Err IndexError end.

(** Arithmetic of object arrays: scalar times array, and componentwise with the length check of
    numpy's broadcasting (an array of length one broadcasts; not modelled: no caller has one). *)
Definition vscale (c : mx) (v : list mx) : list mx := map (MMul c) v.
Fixpoint vzip (f : mx -> mx -> mx) (a b : list mx) : result (list mx) :=
  match a, b with
  | [], [] => Ok []
  | x :: a', y :: b' => do r <- vzip f a' b'; Ok (f x y :: r)
  | _, _ => Err ValueError
  end.
Definition vcse (v : list mx) : list mx := map MCse v.
(** [np.dot] and [@]. *)
Definition vdot (a b : list mx) : result mx := do p <- vzip MMul a b; Ok (msum p).

(** primitives.py 1808-1828 ([dd_axis]) with mappers.py's DerivativeTaker on the expressions it
    is applied to here (as [dtake] in PdeModel.v). *)
Fixpoint dd_axis (m : nat) (e : mx) : result mx :=
  match e with
  | MLp tds l k a => Ok (MLp (m :: tds) l k a)
  | MAdd a b => do a' <- dd_axis m a; do b' <- dd_axis m b; Ok (MAdd a' b')
  | MSub a b => do a' <- dd_axis m a; do b' <- dd_axis m b; Ok (MSub a' b')
  | MMul (MNum c) b => do b' <- dd_axis m b; Ok (MMul (MNum c) b')
  | MNum _ => Ok (mint 0)
  | _ => Err NotImplementedError
  end.

(** primitives.py 1849-1855 ([grad]). *)
Definition grad (adim : nat) (e : mx) : result (list mx) := mapM (fun i => dd_axis i e) (seq 0 adim).

(** primitives.py 2564-2568 ([div]). *)
Definition div (v : list mx) : result mx :=
  do l <- mapM (fun i => do c <- mcomp v i; dd_axis i c) (seq 0 (length v)); Ok (msum l).

Definition pairs3 : list (nat * nat) := flat_map (fun m => map (fun n => (m, n)) (seq 0 3)) (seq 0 3).

(** primitives.py 2571-2580 ([curl]). *)
Definition curl (v : list mx) : result (list mx) :=
  mapM (fun ell =>
    do l <- mapM (fun mn =>
        do c <- mcomp v (snd mn);
        do d <- dd_axis (fst mn) c;
        Ok (MMul (mint (GeoModel.levi_civita ell (fst mn) (snd mn))) d)) pairs3;
    Ok (msum l)) (seq 0 3).

(** primitives.py 2541-2553 ([cross]). *)
Definition cross (a b : list mx) : result (list mx) :=
  if Nat.eqb (length a) 3 && Nat.eqb (length b) 3 then
    Ok (map (fun i => msum (map (fun jk =>
      MMul (MMul (mint (GeoModel.levi_civita i (fst jk) (snd jk))) (nth (fst jk) a (mint 0)))
           (nth (snd jk) b (mint 0))) pairs3)) (seq 0 3))
  else Err AssertionError.

Definition normal (adim : nat) : list mx := map (MNormal adim) (seq 0 adim).
(** primitives.py 2556-2561, 2531-2538. *)
Definition n_cross (v : list mx) : result (list mx) := cross (normal 3) v.
Definition n_dot (v : list mx) : result mx := vdot (normal (length v)) v.

(** primitives.py 2498-2518. *)
Definition xyz_to_tangential (v : list mx) : result (list mx) :=
  let adim := length v in
  mapM (fun j => vdot (map (MBasis adim j) (seq 0 adim)) v) (seq 0 (adim - 1)).
Definition tangential_to_xyz (t : list mx) : list mx :=
  let adim := S (length t) in
  map (fun a => msum (map (fun j => MMul (MBasis adim j a) (nth j t (mint 0))) (seq 0 (adim - 1)))) (seq 0 adim).

(** primitives.py 2271-2288 ([S] on a scalar or, componentwise, on an array) and 2334-2361
    ([Sp], by [normal_derivative] 2307-2316). *)
Definition symS (l : lim) (k a : mx) : mx := MLp [] l k a.
Definition symSv (l : lim) (k : mx) (v : list mx) : list mx := map (symS l k) v.
Definition symSp (l : lim) (k a : mx) : result mx :=
  do g <- grad 3 (symS l k a);
  vdot (normal 3) g.

(** maxwell/__init__.py 56-83 ([get_sym_maxwell_point_source]): electric, then magnetic field. *)
Definition point_source (k : mx) (j : list mx) : result (list mx) :=
  do a <- curl (symSv LNone k j);
  do h <- curl a;
  Ok (vscale (MMul mi k) a ++ h).

(** maxwell/__init__.py 88-131 ([get_sym_maxwell_plane_wave]). *)
Definition plane_wave (amp v : list mx) (omega eps mu : mx) : result (list mx) :=
  let x := map MNode (seq 0 3) in
  do vv <- vdot v v;
  let n := map (fun c => MDiv c (MSqrt (MCse vv))) v in
  do an <- vdot amp n;
  do amp' <- vzip MSub amp (vscale an n);
  let c_inv := MSqrt (MMul mu eps) in
  do ph <- vdot (map (fun c => MMul c omega) n) x;
  let e := map (fun c => MMul c (MExp (MMul mi ph))) amp' in
  do h <- cross n e;
  Ok (e ++ vscale c_inv h).

(** maxwell/__init__.py 136-219 (PECChargeCurrentMFIEOperator); [k] is the attribute. *)
Definition loc_half (loc : Z) : mx := MMul (mint loc) mhalf.

Definition pec_j_operator (k : mx) (loc : Z) (jt : list mx) : result (list mx) :=
  let jxyz := vcse (tangential_to_xyz jt) in
  do c <- curl (symSv LAvg k jxyz);
  do nc <- n_cross c;
  do r <- vzip MSub (vscale (loc_half loc) jxyz) nc;
  xyz_to_tangential r.
Definition pec_j_rhs (hinc : list mx) : result (list mx) :=
  do nc <- n_cross hinc; xyz_to_tangential nc.
Definition pec_rho_operator (k : mx) (loc : Z) (rho : mx) : result mx :=
  do sp <- symSp LAvg k rho;
  Ok (MAdd (MMul (loc_half loc) rho) sp).
Definition pec_rho_rhs (k : mx) (jt einc : list mx) : result mx :=
  let jxyz := vcse (tangential_to_xyz jt) in
  do ne <- n_dot einc;
  do na <- n_dot (symSv LAvg k jxyz);
  Ok (MAdd ne (MMul (MMul mi k) na)).
Definition pec_scattered_volume_field (k : mx) (jt : list mx) (rho : mx) (l : lim) : result (list mx) :=
  let jxyz := vcse (tangential_to_xyz jt) in
  let a := symSv l k jxyz in
  let phi := symS l k rho in
  do g <- grad 3 phi;
  do e <- vzip MSub (vscale (MMul mi k) a) g;
  do h <- curl a;
  Ok (e ++ h).

(** maxwell/__init__.py 208-329 (MuellerAugmentedMFIEOperator). *)
Record domain := mk_domain { d_eps : mx; d_mu : mx }.
Record mueller := mk_mueller { mu_omega : mx; mu_domains : list domain }.

(** 236-240. *)
Definition mueller_k (o : mueller) (d : domain) : mx :=
  MCse (MMul (mu_omega o) (MSqrt (MMul (d_eps d) (d_mu d)))).
(** 245-250: slices never fail, [unk[2]] and [unk[5]] may. *)
Definition split_unknown (unk : list mx) : result (list mx * mx * list mx * mx) :=
  do re <- mcomp unk 2;
  do rm <- mcomp unk 5;
  Ok (firstn 2 unk, re, firstn 2 (skipn 3 unk), rm).

(** 275-282: the electric and magnetic field of one domain inside [operator]. *)
Definition mueller_E (o : mueller) (d : domain) (l : lim) (jxyz mxyz : list mx) (rho_e : mx) : result (list mx) :=
  let k := mueller_k o d in
  do cm <- curl (symSv l k mxyz);
  do g <- grad 3 (symS l k rho_e);
  do s <- vzip MAdd (vscale (MMul (MMul (MMul mi (mu_omega o)) (d_mu d)) (d_eps d)) (symSv l k jxyz))
                    (vscale (d_mu d) cm);
  do r <- vzip MSub s g; Ok (vcse r).
Definition mueller_H (o : mueller) (d : domain) (l : lim) (jxyz mxyz : list mx) (rho_m : mx) : result (list mx) :=
  let k := mueller_k o d in
  do cj <- curl (symSv l k jxyz);
  do g <- grad 3 (symS l k rho_m);
  do s <- vzip MAdd (vscale (MMul (MMul (MMul (MMul (mint (-1)) mi) (mu_omega o)) (d_mu d)) (d_eps d)) (symSv l k mxyz))
                    (vscale (d_eps d) cj);
  do r <- vzip MAdd s g; Ok (vcse r).

(** 252-291. *)
Definition mueller_operator (o : mueller) (unk : list mx) : result (list mx) :=
  do u <- split_unknown unk;
  let '(jt, rho_e, mt, rho_m) := u in
  let jxyz := vcse (tangential_to_xyz jt) in
  let mxyz := vcse (tangential_to_xyz mt) in
  match mu_domains o with
  | [dom0; dom1] =>
    let eps0 := d_eps dom0 in let mu0 := d_mu dom0 in
    let eps1 := d_eps dom1 in let mu1 := d_mu dom1 in
    do e0 <- mueller_E o dom0 LAvg jxyz mxyz rho_e;
    do h0 <- mueller_H o dom0 LAvg jxyz mxyz rho_m;
    do e1 <- mueller_E o dom1 LAvg jxyz mxyz rho_e;
    do h1 <- mueller_H o dom1 LAvg jxyz mxyz rho_m;
    do dh <- vzip MSub h1 h0; do nh <- n_cross dh;
    do f1' <- vzip MAdd nh (vscale (MMul mhalf (MAdd eps0 eps1)) jxyz);
    do f1 <- xyz_to_tangential f1';
    do de <- vzip MSub (vscale eps1 e1) (vscale eps0 e0); do ne <- n_dot de;
    let f2 := MAdd ne (MMul (MMul mhalf (MAdd eps1 eps0)) rho_e) in
    do de' <- vzip MSub e1 e0; do ne' <- n_cross de';
    do f3' <- vzip MAdd ne' (vscale (MMul mhalf (MAdd mu0 mu1)) mxyz);
    do f3 <- xyz_to_tangential f3';
    do dh' <- vzip MSub (vscale mu1 h1) (vscale mu0 h0); do nh' <- n_dot dh';
    let f4 := MAdd (MMul (mint (-1)) nh') (MMul (MMul mhalf (MAdd mu1 mu0)) rho_m) in
    Ok (f1 ++ [f2] ++ f3 ++ [f4])
  | _ => Err ValueError
  end.

(** 293-302. *)
Definition mueller_rhs (o : mueller) (einc hinc : list mx) : result (list mx) :=
  match mu_domains o with
  | [dom0; dom1] =>
    do nh <- n_cross hinc; do f1 <- xyz_to_tangential nh;
    do f2 <- n_dot (vscale (d_eps dom1) einc);
    do ne <- n_cross einc; do f3 <- xyz_to_tangential ne;
    do f4 <- n_dot (vscale (MMul (mint (-1)) (d_mu dom1)) hinc);
    Ok (f1 ++ [f2] ++ f3 ++ [f4])
  | _ => Err ValueError
  end.

(** 304-327 ([representation], non-negative domain index). *)
Definition mueller_representation (o : mueller) (i : nat) (sol : list mx) : result (list mx) :=
  do u <- split_unknown sol;
  let '(jt, rho_e, mt, rho_m) := u in
  let jxyz := vcse (tangential_to_xyz jt) in
  let mxyz := vcse (tangential_to_xyz mt) in
  match nth_error (mu_domains o) i with
  | None => Err IndexError
  | Some d =>
    let k := mueller_k o d in
    do cm <- curl (symSv LNone k mxyz); do ge <- grad 3 (symS LNone k rho_e);
    do e' <- vzip MAdd (vscale (MMul (MMul mi k) (d_eps d)) (symSv LNone k jxyz)) (vscale (d_mu d) cm);
    do e <- vzip MSub e' ge;
    do cj <- curl (symSv LNone k jxyz); do gm <- grad 3 (symS LNone k rho_m);
    do h' <- vzip MAdd (vscale (MMul (MMul (MMul (mint (-1)) mi) k) (d_mu d)) (symSv LNone k mxyz)) (vscale (d_eps d) cj);
    do h <- vzip MAdd h' gm;
    Ok (e ++ h)
  end.
