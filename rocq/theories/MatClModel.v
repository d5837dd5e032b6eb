(** Model of the cluster matrix builders (/repo/pytential/symbolic/matrix.py lines 293-363,
    628-735, 738-843).  Expressions and numbers as in MatModel.  The flattened blocks are indexed
    by the list of (target, source) index pairs computed by make_index_cluster_cartesian_product
    (modelled in IndexModel). *)
From Verif Require Import Base MatModel.
Set Implicit Arguments.
Open Scope nat_scope.

Section Cl.
Variable R : rops.

(** Values: numbers, one-dimensional numpy arrays (flattened blocks or vectors), DOF arrays. *)
Inductive kval := KNum (c : R) | KArr (n : nat) (f : nat -> R) | KDof.

Definition kzero (v : kval) : bool := match v with KNum c => reqb R c (r0 R) | _ => false end.

(** Elementwise operators on one-dimensional arrays and numbers. *)
Definition kbin (op : R -> R -> R) (a b : kval) : result kval :=
  match a, b with
  | KNum c, KNum d => Ok (KNum (op c d))
  | KNum c, KArr n g => Ok (KArr n (fun i => op c (g i)))
  | KArr n f, KNum d => Ok (KArr n (fun i => op (f i) d))
  | KArr n f, KArr n' g => do k <- bdim n n'; Ok (KArr k (fun i => op (f (bi n i)) (g (bi n' i))))
  | KNum _, KDof | KDof, KNum _ | KDof, KDof => Ok KDof
  | KDof, KArr _ _ | KArr _ _, KDof => Err TypeError
  end.

Section Loops.
Variable rec : bexpr R -> result kval.
Variable total : nat.   (* tgt_src_index._flat_total_size *)

(** Lines 347-355: is_kind_matrix compares sizes; is_kind_vector asks the index list for an
    attribute [target] it does not have ([targets] is meant), so it raises AttributeError. *)
Definition is_kind_matrix (n : nat) : bool := n =? total.

(** map_sum (lines 175-208) with these predicates.  [kind] is [Some true] for matrices and
    [Some false] for scalars. *)
Fixpoint ksum_loop (es : list (bexpr R)) (kind : option bool) (acc : kval) : result kval :=
  match es with
  | [] => Ok acc
  | e :: es' =>
      do v <- rec e;
      if kzero v then ksum_loop es' kind acc
      else
        do tk <- match v with
                 | KArr n _ => if is_kind_matrix n then Ok true else Err AttributeError
                 | _ => Ok false
                 end;
        let k := match kind with Some k => k | None => tk end in
        if Bool.eqb tk k
        then do acc' <- kbin (radd R) acc v; ksum_loop es' (Some k) acc'
        else Err RuntimeError
  end.

(** map_product (lines 210-239) with these predicates. *)
Fixpoint kprod_loop (es : list (bexpr R)) (mat : option (nat * (nat -> R))) (vs : kval) : result kval :=
  match es with
  | [] => match mat with
          | None => Ok vs
          | Some (n, f) =>
              match vs with
              | KArr _ _ => Err AttributeError            (* is_kind_vector *)
              | _ => kbin (rmul R) (KArr n f) vs
              end
          end
  | e :: es' =>
      do v <- rec e;
      if kzero v then Ok (KNum (r0 R))
      else match v with
           | KNum _ => do vs' <- kbin (rmul R) vs v; kprod_loop es' mat vs'
           | KArr n f =>
               if is_kind_matrix n
               then match mat with
                    | Some _ => Err RuntimeError
                    | None => kprod_loop es' (Some (n, f)) vs
                    end
               else do vs' <- kbin (rmul R) vs v; kprod_loop es' mat vs'
           | KDof => kprod_loop es' mat vs
           end
  end.

(** map_int_g of the cluster builders (lines 676-735, 778-843), loop over kernels and densities.
    [rec] is here the inner mapper. *)
Fixpoint kintg_loop (pairs : list (nat * nat)) (fl : flavor) (waa : nat -> R) (ks : list (lpk R)) (ds : list (bexpr R)) (acc : kval) {struct ds} : result kval :=
  match ks, ds with
  | [], [] => Ok acc
  | k :: ks', d :: ds' =>
      do v <- rec d;
      if kzero v then kintg_loop pairs fl waa ks' ds' acc
      else match v with
           | KNum c =>
               do acc' <- kbin (radd R) acc
                            (KArr (length pairs) (fun p => rmul R (lp_entry fl waa k (fst (nth p pairs (0, 0))) (snd (nth p pairs (0, 0)))) c));
               kintg_loop pairs fl waa ks' ds' acc'
           | _ => Err NotImplementedError
           end
  | _, _ => Err ValueError
  end.
End Loops.

Section Builder.
Variable fl : flavor.
Variable pairs : list (nat * nat).
Variable dep : string.
Variable others : list string.
Variable ctx : string -> option (cval R).

(** Variables, node coordinates, functions, derivatives, quotients, powers: as in the base class.
    [depval] is get_dep_variable (lines 336-345 and 359-360), [intg] what map_int_g does. *)
Fixpoint kbld (depval : kval) (intg : bexpr R -> result kval) (e : bexpr R) {struct e} : result kval :=
  let rec := kbld depval intg in
  match e with
  | ENum c => Ok (KNum c)
  | EVar x =>
      if String.eqb x dep then Ok depval
      else if inb x others then Ok (KNum (r0 R))
      else match ctx x with
           | Some (CNum c) => Ok (KNum c)
           | Some (CVec n f) => Ok (KArr n f)
           | Some (CDof _ _) => Ok KDof
           | None => Err UnknownVariable
           end
  | ESum es => ksum_loop rec (length pairs) es None (KNum (r0 R))
  | EProd es => kprod_loop rec (length pairs) es None (KNum (r1 R))
  | EQuot a b => do u <- rec a; do v <- rec b; kbin (@rdiv R) u v
  | EPow a k => do u <- rec a; Ok match u with KNum c => KNum (rpow R c k) | KArr n f => KArr n (fun i => rpow R (f i) k) | KDof => KDof end
  | ECall f a =>
      do u <- rec a;
      match u with
      | KNum c => Ok (KNum (f c))
      | KArr n g => if is_kind_matrix (length pairs) n then Err RuntimeError else Ok (KArr n (fun i => f (g i)))
      | KDof => Err TypeError
      end
  | ENodes _ n f => Ok (KArr n f)
  | ERefDeriv n D a =>
      do u <- rec a;
      match u with
      | KArr k f => if is_kind_matrix (length pairs) k then Err NotImplementedError
                    else if k =? n then Ok (KArr n (fun i => rsum R n (fun j => rmul R (D i j) (f j)))) else Err ValueError
      | _ => Err AssertionError
      end
  | EInterp _ _ _ _ _ => Err NotImplementedError     (* no such method *)
  | EIntG _ _ _ _ _ _ => intg e
  end.

(** The inner mapper (lines 358-360): the input is the number one; layer potentials have no
    mapper method. *)
Definition kinner (e : bexpr R) : result kval := kbld (KNum (r1 R)) (fun _ => Err NotImplementedError) e.

(** map_int_g: the QBX builder refuses a weighted layer potential from one discretization to
    another (lines 663-664; discretizations are represented by their sizes here, so two different
    ones of the same size are told apart by the code only) and wants a limit (line 669). *)
Definition kintg (e : bexpr R) : result kval :=
  match e with
  | EIntG limit nt ns waa ks ds =>
      match fl with
      | FQbx w =>
          if w && negb (nt =? ns) then Err NotImplementedError
          else match limit with
               | None => Err TypeError
               | Some l => if (0 <? Z.abs l)%Z then kintg_loop kinner pairs fl waa ks ds (KNum (r0 R)) else Err AssertionError
               end
      | FP2P _ _ => kintg_loop kinner pairs fl waa ks ds (KNum (r0 R))
      end
  | _ => Err TypeError
  end.

(** QBXClusterMatrixBuilder and P2PClusterMatrixBuilder *)
Definition cluster_bld (e : bexpr R) : result kval :=
  kbld (KArr (length pairs) (fun p => if fst (nth p pairs (0, 0)) =? snd (nth p pairs (0, 0)) then r1 R else r0 R)) kintg e.
End Builder.
End Cl.
Arguments KNum {R} c.
Arguments KArr {R} n f.
Arguments KDof {R}.
