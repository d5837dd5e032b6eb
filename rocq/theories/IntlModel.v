(** Model of interleaving and of expansion centers and radii.
    /repo/pytential/symbolic/dof_connection.py 68-126 (interleave_dof_arrays),
    /repo/pytential/symbolic/primitives.py 1301-1407 (expansion radii and centers), 1516-1550
    (interpolate, interleave), /repo/pytential/symbolic/execution.py 295-314 (evaluation of
    Interpolation and Interleave), /repo/pytential/qbx/geometry.py 466-501 (flat_centers,
    flat_expansion_radii). *)
From Verif Require Import Base DofModel MatModel.
Set Implicit Arguments.

(** The array of one element group: dtype, shape (elements, unit DOFs) and entries. *)
Record sub (T : Type) := Sub { dtype : nat; nel : nat; nunit : nat; val : nat -> nat -> T }.
(** A value that is passed as an array: a DOFArray with its array context (None: frozen), or
    something else. *)
Inductive arg (T : Type) := ADof (ctx : option nat) (subs : list (sub T)) | AOther.
Arguments AOther {T}.

(** ** dof_connection.py 84-105, the kernel *)

(** A statement instance: [(false, iel, idof)] is result[iel, 2*idof] = ary1[iel, idof] and
    [(true, iel, idof)] is result[iel, 2*idof + 1] = ary2[iel, idof]. *)
Definition stmt : Type := bool * nat * nat.
Definition memory (T : Type) : Type := nat -> nat -> T.
Definition store {T : Type} (m : memory T) (i j : nat) (x : T) : memory T :=
  fun i' j' => if (i' =? i) && (j' =? j) then x else m i' j'.
Definition exec {T : Type} (a b : sub T) (m : memory T) (s : stmt) : memory T :=
  let '(second, iel, idof) := s in
  if second then store m iel (2 * idof + 1) (val b iel idof)
  else store m iel (2 * idof) (val a iel idof).
(** The domain 0 <= iel < nelements, 0 <= idof < nunit_dofs.  The work items run concurrently:
    the statement instances are executed in some order, a permutation of these. *)
Definition domain (n u : nat) : list stmt := list_prod (list_prod [false; true] (seq 0 n)) (seq 0 u).
(** One call: [order] is the order of execution and [m] what the memory of the result held before. *)
Definition call_kernel {T : Type} (order : list stmt) (m : memory T) (a b : sub T) : sub T :=
  Sub (dtype a) (nel a) (2 * nunit a) (fold_left (exec a b) order m).

(** ** dof_connection.py 107-126: the loop over the groups.  [groups] are the element counts of
    the groups of the discretization.  [sched g s] is the order and the memory of group g, for
    an array of that shape. *)
Section Intl.
Variable T : Type.
Variable sched : nat -> sub T -> list stmt * memory T.
Fixpoint interleave_groups (g : nat) (groups : list nat) (xs ys : list (sub T)) : result (list (sub T)) :=
  match groups, xs, ys with
  | [], [], [] => Ok []
  | n :: groups', x :: xs', y :: ys' =>
      if negb (dtype x =? dtype y) then Err ValueError else
      if negb (nel x =? n) then Err AssertionError else
      if negb ((nel x =? nel y) && (nunit x =? nunit y)) then Err AssertionError else
      do r <- interleave_groups (S g) groups' xs' ys';
      Ok (call_kernel (fst (sched g x)) (snd (sched g x)) x y :: r)
  | _, _, _ => Err ValueError                     (* zip(..., strict=True) *)
  end.
(** dof_connection.py 73-82. *)
Definition interleave_dof_arrays (groups : list nat) (ary1 ary2 : arg T) : result (arg T) :=
  match ary1, ary2 with
  | ADof c1 xs, ADof c2 ys =>
      if negb (opt_eqb Nat.eqb c1 c2) then Err ValueError else
      match c1 with
      | None => Err ValueError
      | Some actx => do r <- interleave_groups 0 groups xs ys; Ok (ADof (Some actx) r)
      end
  | _, _ => Err TypeError
  end.
End Intl.

(** arraycontext.flatten: group by group, element by element. *)
Definition flatten {T : Type} (a : list (sub T)) : list T :=
  concat (map (fun s => concat (map (fun i => map (val s i) (seq 0 (nunit s))) (seq 0 (nel s)))) a).

(** ** primitives.py 1516-1550 *)

(** The result of [interpolate]: the operand itself or a node Interpolation(from_dd, to_dd, operand). *)
Inductive interp_expr := ISame | INode (from to : dofdesc).
Definition interpolate (from_dd to_dd : dd_like) : result interp_expr :=
  do f <- as_dofdesc from_dd;
  do t <- as_dofdesc to_dd;
  if dd_eqb f t then Ok ISame else
  if gran_eqb (granularity t) CENTER then Err ValueError else
  Ok (INode f t).
(** The from_dd of the node Interleave that [interleave] makes. *)
Definition interleave (from_dd : dd_like) : result dofdesc :=
  do f <- as_dofdesc from_dd;
  if negb (gran_eqb (granularity f) NODE) then Err ValueError else Ok f.
(** primitives.py 1537-1539, Interleave.to_dd. *)
Definition interleave_to_dd (f : dofdesc) : result dofdesc := dd_copy f GANone OSentinel (OGran CENTER).

(** ** primitives.py 1301-1407, over numbers R *)
Section Radii.
Variable R : rops.
Variable sched : nat -> sub R -> list stmt * memory R.
(** The discretization of the descriptor: element counts of its groups. *)
Variable groups : list nat.
Definition darr : Type := list (sub R).

(** Arithmetic on DOFArrays: group by group, entry by entry. *)
Definition smap (f : R -> R) (a : sub R) : sub R := Sub (dtype a) (nel a) (nunit a) (fun i j => f (val a i j)).
Definition smap2 (f : R -> R -> R) (a b : sub R) : sub R :=
  Sub (dtype a) (nel a) (nunit a) (fun i j => f (val a i j) (val b i j)).
Definition dscale (c : R) (a : darr) : darr := map (smap (rmul R c)) a.
Definition dmap2 (f : R -> R -> R) (a b : darr) : darr := map (fun p => smap2 f (fst p) (snd p)) (combine a b).

(** primitives.py 1301-1306, _expansion_radii_factor; [dim] None is ambient_dim - 1. *)
Definition two : R := radd R (r1 R) (r1 R).
Definition half : R := rinv R two.
Definition radii_factor (ambient_dim : Z) (dim : option Z) : R :=
  let dim := match dim with None => (ambient_dim - 1)%Z | Some d => d end in
  let dim_fudge_factor := if (dim =? 2)%Z then half else r1 R in
  rmul R half dim_fudge_factor.
(** Evaluation of Interleave and Interpolation (execution.py 295-314) for DOFArrays of the
    discretization of [groups]; both descriptors have the same geometry and stage here, so that
    an Interpolation only changes the granularity, which connection_from_dds
    (CollModel.connection_from_dds) always rejects. *)
Definition eval_interleave (a b : darr) : result darr :=
  do r <- interleave_dof_arrays sched groups (ADof (Some 0) a) (ADof (Some 0) b);
  match r with ADof _ x => Ok x | AOther => Err TypeError end.
Definition eval_interpolate (i : interp_expr) (a : darr) : result darr :=
  match i with ISame => Ok a | INode _ _ => Err ValueError end.
(** primitives.py 1309-1335, _quad_resolution; [h] is the value of _mapping_max_stretch_factor. *)
Definition quad_resolution (gran : option gran) (dd : dd_like) (h : darr) : result darr :=
  let og := match gran with None => ONone | Some g => OGran g end in
  do from_dd <- as_dofdesc dd;
  do to_dd <- dd_copy from_dd GANone OSentinel og;
  match gran with
  | Some CENTER =>
      do intermediate <- dd_copy from_dd GANone OSentinel (OGran NODE);
      do i <- interpolate (LDesc from_dd) (LDesc intermediate);
      do _ <- interleave (LDesc intermediate);
      do nodal <- eval_interpolate i h;
      eval_interleave nodal nodal
  | _ =>
      do i <- interpolate (LDesc from_dd) (LDesc to_dd);
      eval_interpolate i h
  end.
(** primitives.py 1369-1379, 1338-1356 and 1359-1366. *)
Definition expansion_radii (ambient_dim : Z) (dim : option Z) (gran : option gran) (dd : dd_like) (h : darr) : result darr :=
  do q <- quad_resolution gran dd h;
  Ok (dscale (radii_factor ambient_dim dim) q).
Definition danger_zone_radii (ambient_dim : Z) (dim : option Z) (gran : option gran) (dd : dd_like) (h : darr) : result darr :=
  do r <- expansion_radii ambient_dim dim gran dd h;
  Ok (dscale (rmul R (radd R two (r1 R)) (rmul R half half)) r).
Definition tunnel_radii (ambient_dim : Z) (dim : option Z) (gran : option gran) (dd : dd_like) (h : darr) : result darr :=
  do r <- expansion_radii ambient_dim dim gran dd h;
  Ok (dscale half r).
(** primitives.py 1382-1396: x + side * radii * normals, component by component. *)
Definition expansion_centers (ambient_dim : Z) (dim : option Z) (side : R) (dd : dd_like) (x n : list darr) (h : darr)
  : result (list darr) :=
  do r <- expansion_radii ambient_dim dim (Some NODE) dd h;
  Ok (map (fun p => dmap2 (radd R) (fst p) (dmap2 (rmul R) (dscale side r) (snd p))) (combine x n)).
(** primitives.py 1399-1407. *)
Definition interleaved_centers (ambient_dim : Z) (dim : option Z) (dd : dd_like) (x n : list darr) (h : darr)
  : result (list darr) :=
  do dofdesc <- as_dofdesc dd;
  do c_neg <- expansion_centers ambient_dim dim (ropp R (r1 R)) (LDesc dofdesc) x n h;
  do c_pos <- expansion_centers ambient_dim dim (r1 R) (LDesc dofdesc) x n h;
  mapM (fun p => do _ <- interleave (LDesc dofdesc); eval_interleave (fst p) (snd p)) (combine c_neg c_pos).

(** qbx/geometry.py 466-501; [source_dd.to_stage1()] is what the values belong to. *)
Definition flat_centers (ambient_dim : Z) (source_dd : dofdesc) (x n : list darr) (h : darr) : result (list (list R)) :=
  do dd <- to_stage1 source_dd;
  do c <- interleaved_centers ambient_dim None (LDesc dd) x n h;
  Ok (map (@flatten R) c).
Definition flat_expansion_radii (ambient_dim : Z) (source_dd : dofdesc) (h : darr) : result (list R) :=
  do dd <- to_stage1 source_dd;
  do a <- expansion_radii ambient_dim None None (LDesc dd) h;
  do b <- expansion_radii ambient_dim None None (LDesc dd) h;
  do f <- interleave (LDesc dd);
  do r <- eval_interleave a b;
  Ok (flatten r).
End Radii.
