(** Model of the preparation of expressions for proxy interactions in the direct solver.
    /repo/pytential/linalg/direct_solver_symbolic.py lines 65-275. *)
From Verif Require Import Base DofModel SymModel.
From Coq Require Import QArith_base.
Set Implicit Arguments.

(** mappers.py 270-294 ([OperatorCollector]): is the set of layer potentials nonempty? *)
Fixpoint has_intg (e : sexpr) : bool :=
  let 'Node h cs := e in
  match h with HIntG _ => true | _ => existsb has_intg cs end.

(** pymbolic's [is_constant] (numbers only) and [is_zero]. *)
Definition is_number (e : sexpr) : bool := match e with Node (HConst _) [] => true | _ => false end.
Definition is_zero (e : sexpr) : bool := match e with Node (HConst c) [] => Qeq_bool c q0 | _ => false end.
Definition is_one (e : sexpr) : bool := match e with Node (HConst c) [] => Qeq_bool c q1 | _ => false end.

(** pymbolic's [flattened_sum] and [flattened_product] (external): a queue whose nested
    sums/products are appended at the end, zeros/ones are dropped, a zero factor ends
    the loop. The fuel bounds the number of iterations (at most one per node). *)
Fixpoint flat_sum (fuel : nat) (queue done : list sexpr) : list sexpr :=
  match fuel with
  | O => done ++ queue
  | S n =>
      match queue with
      | [] => done
      | x :: q =>
          if is_zero x then flat_sum n q done else
          match x with
          | Node HSum cs => flat_sum n (q ++ cs) done
          | _ => flat_sum n q (done ++ [x])
          end
      end
  end.
Definition sizes (l : list sexpr) : nat := fold_right (fun c n => (size c + n)%nat) 1%nat l.
Definition flattened_sum (l : list sexpr) : sexpr :=
  match flat_sum (sizes l) l [] with
  | [] => num q0
  | [x] => x
  | xs => Node HSum xs
  end.
Fixpoint flat_prod (fuel : nat) (queue done : list sexpr) : option (list sexpr) :=
  match fuel with
  | O => Some (done ++ queue)
  | S n =>
      match queue with
      | [] => Some done
      | x :: q =>
          if is_zero x then None else
          if is_one x then flat_prod n q done else
          match x with
          | Node HProd cs => flat_prod n (q ++ cs) done
          | _ => flat_prod n q (done ++ [x])
          end
      end
  end.
Definition flattened_product (l : list sexpr) : sexpr :=
  match flat_prod (sizes l) l [] with
  | None => num q0
  | Some [] => num q1
  | Some [x] => x
  | Some xs => Node HProd xs
  end.

(** direct_solver_symbolic.py 145-208 ([IntGTermCollector]). *)
Fixpoint collect (e : sexpr) : result sexpr :=
  let 'Node h cs := e in
  match h with
  | HSum => do cs' <- mapM collect cs; Ok (flattened_sum (filter has_intg cs'))
  | HProd =>
      do cs' <- mapM (fun c => if is_number c then Ok c else collect c) cs;
      let consts := filter is_number cs in
      let ops := filter has_intg cs' in
      if (2 <=? length ops)%nat then Err RuntimeError
      else Ok (flattened_product (consts ++ ops))
  | HIntG _ => Ok e
  | _ => do cs' <- mapM collect cs; Ok (Node h cs')
  end.

(** sumpy (external): [TargetTransformationRemover], [SourceTransformationRemover],
    [get_args] (the vector of a directional target derivative and the arguments
    [bargs] of the base kernel) and [get_source_args]. *)
Fixpoint strip_target (k : kern) : kern :=
  match k with
  | KBase b => KBase b
  | KAxisTgt _ k' | KDirTgt _ k' => strip_target k'
  | KAxisSrc a k' => KAxisSrc a (strip_target k')
  | KDirSrc v k' => KDirSrc v (strip_target k')
  end.
Fixpoint strip_source (k : kern) : kern :=
  match k with
  | KBase b => KBase b
  | KAxisTgt a k' => KAxisTgt a (strip_source k')
  | KDirTgt v k' => KDirTgt v (strip_source k')
  | KAxisSrc _ k' | KDirSrc _ k' => strip_source k'
  end.
Fixpoint source_args (k : kern) : list string :=
  match k with
  | KBase _ => []
  | KDirSrc v k' => v :: source_args k'
  | KAxisTgt _ k' | KDirTgt _ k' | KAxisSrc _ k' => source_args k'
  end.
Fixpoint kernel_args (bargs : nat -> list string) (k : kern) : list string :=
  match k with
  | KBase b => bargs b
  | KDirTgt v k' => v :: kernel_args bargs k'
  | KAxisTgt _ k' | KAxisSrc _ k' | KDirSrc _ k' => kernel_args bargs k'
  end.
Fixpoint kern_eqb (a b : kern) : bool :=
  match a, b with
  | KBase x, KBase y => Nat.eqb x y
  | KAxisTgt x k, KAxisTgt y k' | KAxisSrc x k, KAxisSrc y k' => Nat.eqb x y && kern_eqb k k'
  | KDirTgt x k, KDirTgt y k' | KDirSrc x k, KDirSrc y k' => String.eqb x y && kern_eqb k k'
  | _, _ => false
  end.
Fixpoint kerns_eqb (a b : list kern) : bool :=
  match a, b with
  | [], [] => true
  | x :: a', y :: b' => kern_eqb x y && kerns_eqb a' b'
  | _, _ => false
  end.

(** primitives.py 2053-2073 ([IntG.__post_init__]): the argument names must be exactly
    those of the kernels. *)
Definition check_kargs (bargs : nat -> list string) (g : intg) : bool :=
  let names := flat_map (fun k => kernel_args bargs k ++ source_args k) (g_sks g ++ [g_tk g]) in
  subset names (g_kargs g) && subset (g_kargs g) names.

Fixpoint sequence {A : Type} (l : list (result A)) : result (list A) :=
  match l with
  | [] => Ok []
  | x :: l' => do y <- x; do ys <- sequence l'; Ok (y :: ys)
  end.

(** direct_solver_symbolic.py 98-140 ([KernelTransformationRemover]). *)
Fixpoint remove_transf (bargs : nat -> list string) (e : sexpr) : result sexpr :=
  let 'Node h cs := e in
  let rs := map (remove_transf bargs) cs in
  match h with
  | HIntG g =>
      let tk := strip_target (g_tk g) in
      let sks := map strip_source (g_sks g) in
      if kern_eqb tk (g_tk g) && kerns_eqb sks (g_sks g) then Ok e else
      let sargs := flat_map source_args (g_sks g) in
      let kept := filter (fun p => negb (inb (fst p) sargs)) (combine (g_kargs g) (skipn (g_nd g) rs)) in
      do ks <- sequence (map snd kept);
      do ds <- sequence (firstn (g_nd g) rs);
      let g' := IntG tk sks (g_nd g) (g_lim g) (g_src g) (g_tgt g) (map fst kept) in
      if check_kargs bargs g' then Ok (Node (HIntG g') (ds ++ ks)) else Err ValueError
  | _ => do cs' <- sequence rs; Ok (Node h cs')
  end.

(** direct_solver_symbolic.py 213-273 ([_LocationReplacer], [DOFDescriptorReplacer]) on
    top of [LocationTagger] (mappers.py 426-529). [DOFDescriptorReplacer.map_int_g]
    passes [rec] to a method that ignores it, so that both classes do the same. *)
Definition replace_head (ds dt : dofdesc) (h : head) : head :=
  match h with
  | HOnes _ => HOnes dt
  | HQWeight _ => HQWeight dt
  | HNodeCoord ax _ => HNodeCoord ax dt
  | HNumRefDer axes _ => HNumRefDer axes dt
  | HElwise k _ => HElwise k dt
  | HIsShape s _ => HIsShape s dt
  | HIntG g => HIntG (IntG (g_tk g) (g_sks g) (g_nd g) (g_lim g) ds dt (g_kargs g))
  | HInverse op v ex d => HInverse op v ex (fill d dt)
  | HInterp f t => HInterp (fill f ds) (fill t ds)
  | HInterleave f => HInterleave (fill f ds)
  | _ => h
  end.
Fixpoint replace_dd (ds dt : dofdesc) (e : sexpr) : sexpr :=
  let 'Node h cs := e in Node (replace_head ds dt h) (map (replace_dd ds dt) cs).

(** direct_solver_symbolic.py 76-92 ([prepare_proxy_expr]), for one expression. *)
Definition prepare_proxy (bargs : nat -> list string) (ds dt : dofdesc) (e : sexpr) : result sexpr :=
  do e1 <- collect e;
  do e2 <- remove_transf bargs e1;
  Ok (replace_dd ds dt e2).
