(** Model of the dense matrix builders (/repo/pytential/symbolic/matrix.py lines 80-81, 113-288,
    376-522, 525-623) and of the assembly of block matrices
    (/repo/pytential/symbolic/execution.py lines 971-997, 1001-1063).

    Numbers are elements of an arbitrary ring with an arbitrary total "inverse" function:
    rounding, dtypes and infinities are not modelled.  Arrays are a shape together with a
    function giving the entries; only entries inside of the shape mean anything. *)
From Verif Require Import Base.
Set Implicit Arguments.
Open Scope nat_scope.

(** Operations on numbers (no laws here). *)
Record rops := mk_rops {
  car :> Type;
  r0 : car; r1 : car;
  radd : car -> car -> car; rmul : car -> car -> car; rsub : car -> car -> car;
  ropp : car -> car; rinv : car -> car; reqb : car -> car -> bool }.

Section Mat.
Variable R : rops.

Definition rdiv (a b : R) : R := rmul R a (rinv R b).
Fixpoint rpow (a : R) (k : nat) : R := match k with 0 => r1 R | S k' => rmul R a (rpow a k') end.
(** Sum of [f 0], ..., [f (n-1)]. *)
Fixpoint rsum (n : nat) (f : nat -> R) : R :=
  match n with 0 => r0 R | S n' => radd R (rsum n' f) (f n') end.

(** What the builder's recursion returns: a Python or numpy number, a one- or two-dimensional
    numpy array, or a DOF array taken from the context (its entries never matter). *)
Inductive mval :=
| MNum (c : R)
| MVec (n : nat) (f : nat -> R)
| MMat (n m : nat) (f : nat -> nat -> R)
| MDof.

(** matrix.py lines 80-81: is_zero *)
Definition is_zero (v : mval) : bool := match v with MNum c => reqb R c (r0 R) | _ => false end.

(** numpy broadcasting of one axis, and the index into an axis of length [n]. *)
Definition bdim (a b : nat) : result nat :=
  if a =? b then Ok a else if a =? 1 then Ok b else if b =? 1 then Ok a else Err ValueError.
Definition bi (n i : nat) : nat := if n =? 1 then 0 else i.

(** numpy's elementwise binary operators with broadcasting; a one-dimensional array broadcasts
    against a matrix as a row.  A number with a DOF array gives a DOF array; mixing DOF arrays
    and numpy arrays is refused. *)
Definition nbin (op : R -> R -> R) (a b : mval) : result mval :=
  match a, b with
  | MNum c, MNum d => Ok (MNum (op c d))
  | MNum c, MVec n g => Ok (MVec n (fun i => op c (g i)))
  | MVec n f, MNum d => Ok (MVec n (fun i => op (f i) d))
  | MVec n f, MVec n' g => do k <- bdim n n'; Ok (MVec k (fun i => op (f (bi n i)) (g (bi n' i))))
  | MNum c, MMat n m g => Ok (MMat n m (fun i j => op c (g i j)))
  | MMat n m f, MNum d => Ok (MMat n m (fun i j => op (f i j) d))
  | MMat n m f, MMat n' m' g =>
      do k <- bdim n n'; do l <- bdim m m';
      Ok (MMat k l (fun i j => op (f (bi n i) (bi m j)) (g (bi n' i) (bi m' j))))
  | MMat n m f, MVec m' g =>
      do l <- bdim m m'; Ok (MMat n l (fun i j => op (f i (bi m j)) (g (bi m' j))))
  | MVec m f, MMat n m' g =>
      do l <- bdim m m'; Ok (MMat n l (fun i j => op (f (bi m j)) (g i (bi m' j))))
  | MNum _, MDof | MDof, MNum _ | MDof, MDof => Ok MDof
  | MDof, _ | _, MDof => Err TypeError
  end.

(** numpy's [@] and [dot] for two-dimensional arrays. *)
Definition matmul (n m : nat) (f : nat -> nat -> R) (m' k : nat) (g : nat -> nat -> R) : result mval :=
  if m =? m' then Ok (MMat n k (fun i j => rsum m (fun l => rmul R (f i l) (g l j)))) else Err ValueError.

(** The kernels of a layer potential term: the entries of the QBX matrix (sumpy's
    LayerPotentialMatrixGenerator for the expansion centers of this layer potential) and of the
    point-to-point matrix of the base kernels (sumpy's P2PMatrixGenerator). *)
Record lpk := mk_lpk { lp_qbx : nat -> nat -> R; lp_p2p : nat -> nat -> R }.

(** The expressions the builder knows, after preparation (discretizations are represented by
    their numbers of degrees of freedom, connections and derivatives by their matrices). *)
Inductive bexpr :=
| ENum (c : R)
| EVar (x : string)                       (* also subscripted variables *)
| ESum (es : list bexpr)
| EProd (es : list bexpr)
| EQuot (a b : bexpr)
| EPow (a : bexpr) (k : nat)
| ECall (f : R -> R) (a : bexpr)
| ENodes (n : nat) (f : nat -> R)         (* node coordinates *)
| ERefDeriv (n : nat) (D : nat -> nat -> R) (a : bexpr)
| EInterp (to_quad : bool) (n m : nat) (P : nat -> nat -> R) (a : bexpr)
| EIntG (limit : option Z) (nt ns : nat) (waa : nat -> R) (ks : list lpk) (ds : list bexpr).

(** Values in the context: numbers, flat numpy arrays, DOF arrays. *)
Inductive cval := CNum (c : R) | CVec (n : nat) (f : nat -> R) | CDof (n : nat) (f : nat -> R).

(** The builders: MatrixBuilder and P2PMatrixBuilder with their flags. *)
Inductive flavor := FQbx (weighted : bool) | FP2P (weighted exclude_self : bool).

(** Kinds of terms (lines 178-180). *)
Inductive tkind := KMat | KVec | KNum.
Definition kind_of (v : mval) : tkind :=
  match v with MMat _ _ _ => KMat | MVec _ _ => KVec | _ => KNum end.
Definition kind_eqb (a b : tkind) : bool :=
  match a, b with KMat, KMat | KVec, KVec | KNum, KNum => true | _, _ => false end.

Section Loops.
Variable rec : bexpr -> result mval.

(** matrix.py lines 175-208: map_sum *)
Fixpoint sum_loop (es : list bexpr) (sum_kind : option tkind) (acc : mval) : result mval :=
  match es with
  | [] => Ok acc
  | e :: es' =>
      do v <- rec e;
      if is_zero v then sum_loop es' sum_kind acc
      else
        let k := match sum_kind with Some k => k | None => kind_of v end in
        if kind_eqb (kind_of v) k
        then do acc' <- nbin (radd R) acc v; sum_loop es' (Some k) acc'
        else Err RuntimeError
  end.

(** matrix.py lines 210-239: map_product; [mat] is mat_result, [vs] is vecs_and_scalars.
    Factors that are neither numbers nor numpy arrays are not multiplied. *)
Fixpoint prod_loop (es : list bexpr) (mat : option (nat * nat * (nat -> nat -> R))) (vs : mval) : result mval :=
  match es with
  | [] => match mat with
          | None => Ok vs
          | Some (n, m, f) =>
              match vs with
              | MVec k g => nbin (rmul R) (MMat n m f) (MMat k 1 (fun i _ => g i))
              | _ => nbin (rmul R) (MMat n m f) vs
              end
          end
  | e :: es' =>
      do v <- rec e;
      if is_zero v then Ok (MNum (r0 R))
      else match v with
           | MNum _ => do vs' <- nbin (rmul R) vs v; prod_loop es' mat vs'
           | MMat n m f => match mat with
                           | Some _ => Err RuntimeError
                           | None => prod_loop es' (Some (n, m, f)) vs
                           end
           | MVec _ _ => do vs' <- nbin (rmul R) vs v; prod_loop es' mat vs'
           | MDof => prod_loop es' mat vs
           end
  end.

(** Entry of the matrix of one layer potential term: lines 505-517 (QBX; [mat[:, :] *= waa]
    scales column [s] by [waa s]) and lines 575-617 (point to point: with exclude_self,
    target_to_source is the identity and the entries with equal indices are dropped). *)
Definition lp_entry (fl : flavor) (waa : nat -> R) (k : lpk) (t s : nat) : R :=
  match fl with
  | FQbx w => if w then rmul R (lp_qbx k t s) (waa s) else lp_qbx k t s
  | FP2P w ex =>
      let e := if ex && (t =? s) then r0 R else lp_p2p k t s in
      if w then rmul R e (waa s) else e
  end.

(** matrix.py lines 460-520 and 561-621: map_int_g, loop over kernels and densities *)
Fixpoint intg_loop (fl : flavor) (nt ns : nat) (waa : nat -> R) (ks : list lpk) (ds : list bexpr) (acc : mval) {struct ds} : result mval :=
  match ks, ds with
  | [], [] => Ok acc
  | k :: ks', d :: ds' =>
      do v <- rec d;
      if is_zero v then intg_loop fl nt ns waa ks' ds' acc
      else match v with
           | MNum _ | MDof => Err AssertionError
           | MVec _ _ => Err NotImplementedError
           | MMat n m f =>
               do p <- matmul nt ns (lp_entry fl waa k) n m f;
               do acc' <- nbin (radd R) acc p;
               intg_loop fl nt ns waa ks' ds' acc'
           end
  | _, _ => Err ValueError
  end.
End Loops.

Definition eye (n : nat) : mval := MMat n n (fun i j => if i =? j then r1 R else r0 R).

(** The builder for one block column (matrix.py lines 146-288, 397-449, 450-522, 553-623):
    [dep] is the input of the column with [sz] degrees of freedom, [others] the other inputs.
    Quotients and powers are those of pymbolic's evaluation mapper, on numpy values. *)
Fixpoint bld (fl : flavor) (dep : string) (sz : nat) (others : list string) (ctx : string -> option cval) (e : bexpr) {struct e} : result mval :=
  let rec := bld fl dep sz others ctx in
  match e with
  | ENum c => Ok (MNum c)
  | EVar x =>                                                       (* lines 159-173 *)
      if String.eqb x dep then Ok (eye sz)
      else if inb x others then Ok (MNum (r0 R))
      else match ctx x with
           | Some (CNum c) => Ok (MNum c)
           | Some (CVec n f) => Ok (MVec n f)
           | Some (CDof _ _) => Ok MDof
           | None => Err UnknownVariable
           end
  | ESum es => sum_loop rec es None (MNum (r0 R))
  | EProd es => prod_loop rec es None (MNum (r1 R))
  | EQuot a b => do u <- rec a; do v <- rec b; nbin rdiv u v
  | EPow a k =>
      do u <- rec a;
      Ok match u with
         | MNum c => MNum (rpow c k)
         | MVec n f => MVec n (fun i => rpow (f i) k)
         | MMat n m f => MMat n m (fun i j => rpow (f i j) k)
         | MDof => MDof
         end
  | ECall f a =>                                                    (* lines 272-288 *)
      do u <- rec a;
      match u with
      | MMat _ _ _ => Err RuntimeError
      | MNum c => Ok (MNum (f c))
      | MVec n g => Ok (MVec n (fun i => f (g i)))
      | MDof => Err TypeError
      end
  | ENodes n f => Ok (MVec n f)                                     (* lines 265-270 *)
  | ERefDeriv n D a =>                                              (* lines 241-263 *)
      do u <- rec a;
      match u with
      | MVec k f => if k =? n then Ok (MVec n (fun i => rsum n (fun j => rmul R (D i j) (f j)))) else Err ValueError
      | MMat _ _ _ => Err NotImplementedError
      | MNum _ | MDof => Err AssertionError
      end
  | EInterp to_quad n m P a =>                                      (* lines 397-449 *)
      match fl with
      | FP2P _ _ => Err NotImplementedError                         (* no such method *)
      | FQbx _ =>
          if to_quad
          then do u <- rec a;
               match u with
               | MNum c => Ok (MNum c)
               | MVec _ _ => Err TypeError          (* iterates over the numbers in the array *)
               | MMat k l f => matmul n m P k l f
               | MDof => Err RuntimeError
               end
          else Err RuntimeError
      end
  | EIntG limit nt ns waa ks ds =>
      match fl with
      | FP2P _ _ => intg_loop rec fl nt ns waa ks ds (MNum (r0 R))
      | FQbx _ =>
          match limit with                                          (* line 458 *)
          | None => Err TypeError
          | Some l => if (0 <? Z.abs l)%Z
                      then intg_loop rec fl nt ns waa ks ds (MNum (r0 R))
                      else Err AssertionError
          end
      end
  end.

(** *** Assembly of the blocks *)

(** pytools.single_valued: the common value of all items; empty or non-unique iterables are
    refused.  [None] stands for an item whose computation raises IndexError. *)
Fixpoint single_valued (l : list (option nat)) : result nat :=
  match l with
  | [] => Err ValueError
  | [Some a] => Ok a
  | Some a :: l' => do b <- single_valued l'; if a =? b then Ok a else Err ValueError
  | None :: _ => Err IndexError
  end.

(** [.shape[0]] and [.shape[1]] of a block ([None]: no such axis). *)
Definition shape0 (v : mval) : option nat :=
  match v with MVec n _ => Some n | MMat n _ _ => Some n | _ => None end.
Definition shape1 (v : mval) : option nat := match v with MMat _ m _ => Some m | _ => None end.

Definition col_of (j : nat) (blocks : list (list mval)) : list mval := map (fun row => nth j row (MNum (r0 R))) blocks.
(** np.cumsum([0] + l) *)
Fixpoint cumsum0 (a : nat) (l : list nat) : list nat :=
  match l with [] => [a] | x :: l' => a :: cumsum0 (a + x) l' end.

(** Assignment of one block to a rectangle of the result (lines 991-995): a number fills the
    rectangle, a matrix has to broadcast to it. *)
Definition assign_block (res : nat -> nat -> R) (rlo rhi clo chi : nat) (v : mval) : result (nat -> nat -> R) :=
  let inside i j := (rlo <=? i) && (i <? rhi) && (clo <=? j) && (j <? chi) in
  match v with
  | MNum c => Ok (fun i j => if inside i j then c else res i j)
  | MMat n m f =>
      if ((n =? rhi - rlo) || (n =? 1)) && ((m =? chi - clo) || (m =? 1))
      then Ok (fun i j => if inside i j then f (bi n (i - rlo)) (bi m (j - clo)) else res i j)
      else Err ValueError
  | MVec m f =>
      if (m =? chi - clo) || (m =? 1)
      then Ok (fun i j => if inside i j then f (bi m (j - clo)) else res i j)
      else Err ValueError
  | MDof => Err TypeError
  end.

Fixpoint foldM {A S : Type} (f : S -> A -> result S) (l : list A) (s : S) : result S :=
  match l with [] => Ok s | a :: l' => do s' <- f s a; foldM f l' s' end.

Record matrix := mk_matrix { nrows : nat; ncols : nat; entry : nat -> nat -> R }.

(** execution.py lines 971-997: _bmat ([blocks] has [nc] columns) *)
Definition bmat (nc : nat) (blocks : list (list mval)) : result matrix :=
  do rs <- mapM (fun row => single_valued (map shape0 (filter (fun v => negb (is_zero v)) row))) blocks;
  do cs <- mapM (fun j => single_valued (map shape1 (filter (fun v => negb (is_zero v)) (col_of j blocks)))) (seq 0 nc);
  let brs := cumsum0 0 rs in
  let bcs := cumsum0 0 cs in
  do f <- foldM (fun res j =>
            foldM (fun res i =>
                     assign_block res (nth i brs 0) (nth (S i) brs 0) (nth j bcs 0) (nth (S j) bcs 0)
                                  (nth j (nth i blocks []) (MNum (r0 R))))
                  (seq 0 (length blocks)) res)
          (seq 0 nc) (fun _ _ => r0 R);
  Ok (mk_matrix (last brs 0) (last bcs 0) f).

Definition drop_nth {A : Type} (j : nat) (l : list A) : list A := firstn j l ++ skipn (S j) l.

(** [assert is_zero(block) or isinstance(block, np.ndarray)], execution.py line 1056 *)
Definition check_block (v : mval) : result mval :=
  match v with
  | MNum _ => if is_zero v then Ok v else Err AssertionError
  | MDof => Err AssertionError
  | _ => Ok v
  end.

(** execution.py lines 1042-1063: build_matrix; [inputs] are the input expressions with the
    numbers of degrees of freedom of their domains.  Columns are built one after the other.
    Preparation of the expressions and of the domains is modelled elsewhere. *)
Definition build_matrix (ctx : string -> option cval) (inputs : list (string * nat)) (exprs : list bexpr) : result matrix :=
  do cols <- mapM (fun j =>
               let '(x, sz) := nth j inputs (EmptyString, 0) in
               mapM (fun e => do v <- bld (FQbx true) x sz (drop_nth j (map fst inputs)) ctx e; check_block v) exprs)
             (seq 0 (length inputs));
  bmat (length inputs)
       (map (fun i => map (fun col => nth i col (MNum (r0 R))) cols) (seq 0 (length exprs))).

End Mat.

Arguments MNum {R} c.
Arguments MVec {R} n f.
Arguments MMat {R} n m f.
Arguments MDof {R}.
Arguments EVar {R} x.
Arguments ESum {R} es.
Arguments EProd {R} es.
Arguments ENum {R} c.
Arguments CNum {R} c.
Arguments CVec {R} n f.
Arguments CDof {R} n f.
