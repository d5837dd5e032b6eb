(** Model of skeletonization: pytential/linalg/utils.py:363-398 (interp_decomp), 405-480
    (cluster_skeletonization_error), 482-540 (skeletonization_error) and
    pytential/linalg/skeletonization.py:121-192 (weights of target proxies), 449-456 (the option
    _weighted_proxy), 504-692 (evaluation results, the skeletonization loop), 698-767
    (SkeletonizationResult), 770-830 (skeletonize_by_proxy).
    Numbers are elements of an arbitrary ring (MatModel.rops); an entry of an evaluated matrix
    can also be non-finite (None).  scipy's interpolative decomposition and the evaluation of
    the matrix entries are parameters. *)
From Verif Require Import Base IndexModel MatModel.
Set Implicit Arguments.
Open Scope Z_scope.

(** A two-dimensional array: shape and entries (only those inside of the shape matter). *)
Record mat (T : Type) := Mt { mr : nat; mc : nat; el : nat -> nat -> T }.
Definition mtr {T : Type} (m : mat T) : mat T := Mt (mc m) (mr m) (fun i j => el m j i).
(** np.vstack([a, b]) and np.hstack([a, b]). *)
Definition vstack {T : Type} (a b : mat T) : result (mat T) :=
  if (mc a =? mc b)%nat then
    Ok (Mt (mr a + mr b) (mc a) (fun i j => if (i <? mr a)%nat then el a i j else el b (i - mr a) j))
  else Err ValueError.
Definition hstack {T : Type} (a b : mat T) : result (mat T) :=
  if (mr a =? mr b)%nat then
    Ok (Mt (mr a) (mc a + mc b) (fun i j => if (j <? mc a)%nat then el a i j else el b i (j - mc a)))
  else Err ValueError.
(** [m[:k, :]] for k >= 0. *)
Definition take_rows {T : Type} (k : nat) (m : mat T) : mat T := Mt (Nat.min k (mr m)) (mc m) (el m).
(** [mat[np.ix_(ts, ss)]] for a full matrix. *)
Definition mat_ix {T : Type} (A : Z -> Z -> T) (ts ss : list Z) : mat T :=
  Mt (length ts) (length ss) (fun i j => A (nth i ts 0) (nth j ss 0)).
(** A list of rows as an array. *)
Definition of_rows {T : Type} (d : T) (shape : Z * Z) (rows : list (list T)) : mat T :=
  Mt (Z.to_nat (fst shape)) (Z.to_nat (snd shape)) (fun i j => nth j (nth i rows []) d).

Section Sk.
Variable R : rops.
(** [a @ b]. *)
Definition mmul (a b : mat R) : result (mat R) :=
  if (mc a =? mr b)%nat then Ok (Mt (mr a) (mc b) (fun i j => rsum R (mc a) (fun l => rmul R (el a i l) (el b l j))))
  else Err ValueError.
(** np.all(np.isfinite(m)), and then the array of its numbers (skeletonization.py:652-656). *)
Definition all_finite (m : mat (option R)) : bool :=
  forallb (fun i => forallb (fun j => match el m i j with Some _ => true | None => false end)
                            (seq 0 (mc m))) (seq 0 (mr m)).
Definition numbers (m : mat (option R)) : mat R :=
  Mt (mr m) (mc m) (fun i j => match el m i j with Some x => x | None => r0 R end).
Definition assert_ (b : bool) : result unit := if b then Ok tt else Err AssertionError.

(** ** utils.py:363-398 *)

(** scipy.linalg.interpolative: [sli_eps] decomposes to a tolerance, [sli_rank] to a rank;
    tolerances are of type E. *)
Variable E : Type.
Variable sli_eps : mat R -> E -> result (Z * list nat * mat R).
Variable sli_rank : mat R -> Z -> result (list nat * mat R).
(** [eps < 1], [int(eps)] and the conversion of a rank to a tolerance, as scipy's
    interp_decomp(A, eps_or_k) chooses by [eps_or_k < 1]. *)
Variables (eps_lt1 : E -> bool) (eps_int : E -> Z) (int_eps : Z -> E).
Inductive sli_out := Triple (k : Z) (idx : list nat) (proj : mat R) | Pair (idx : list nat) (proj : mat R).
Definition sli_by_eps (A : mat R) (e : E) : result sli_out :=
  do r <- sli_eps A e; Ok (Triple (fst (fst r)) (snd (fst r)) (snd r)).
Definition sli_by_rank (A : mat R) (k : Z) : result sli_out :=
  do r <- sli_rank A k; Ok (Pair (fst r) (snd r)).
Definition sli_interp_decomp (A : mat R) (arg : E + Z) : result sli_out :=
  match arg with
  | inl e => if eps_lt1 e then sli_by_eps A e else sli_by_rank A (eps_int e)
  | inr k => if k <? 1 then sli_by_eps A (int_eps k) else sli_by_rank A k
  end.
(** sli.reconstruct_interp_matrix(idx, proj): column idx[j] is unit vector j for j < krank and
    column j - krank of proj otherwise. *)
Fixpoint find_pos (c : nat) (idx : list nat) : option nat :=
  match idx with
  | [] => None
  | x :: idx' => if (x =? c)%nat then Some 0%nat else option_map S (find_pos c idx')
  end.
Definition reconstruct (idx : list nat) (proj : mat R) : mat R :=
  let krank := mr proj in
  Mt krank (length idx) (fun r c =>
    match find_pos c idx with
    | Some j => if (j <? krank)%nat then (if (j =? r)%nat then r1 R else r0 R) else el proj r (j - krank)
    | None => r0 R
    end).
Definition interp_decomp (A : mat R) (rank : option Z) (eps : option E) : result (Z * list nat * mat R) :=
  match rank, eps with
  | Some _, Some _ | None, None => Err ValueError
  | None, Some e =>
      do o <- sli_interp_decomp A (inl e);
      match o with
      | Triple k idx proj => Ok (k, idx, reconstruct idx proj)
      | Pair _ _ => Err ValueError               (* not enough values to unpack *)
      end
  | Some k, None =>
      do o <- sli_interp_decomp A (inr k);
      match o with
      | Pair idx proj => Ok (k, idx, reconstruct idx proj)
      | Triple _ _ _ => Err ValueError           (* too many values to unpack *)
      end
  end.

(** ** skeletonization.py:504-559, _ProxyNeighborEvaluationResult *)
Record eval_result := ER {
  er_pxymat : list (option R); er_pxyindex : tscl;
  er_nbrmat : list (option R); er_nbrindex : tscl }.
Definition block_of (flat : list (option R)) (m : tscl) (i : Z) : result (mat (option R)) :=
  do shape <- cluster_shape m i i;
  do l <- flat_cluster_take m flat i;
  do rows <- reshape l shape;
  Ok (of_rows None shape rows).
(** skeletonization.py:544-559, __getitem__. *)
Definition er_get (r : eval_result) (i : Z) : result (mat (option R) * mat (option R)) :=
  do nbrmat_i <- block_of (er_nbrmat r) (er_nbrindex r) i;
  do pxymat_i <- block_of (er_pxymat r) (er_pxyindex r) i;
  Ok (pxymat_i, nbrmat_i).

(** skeletonization.py:121-166, _approximate_geometry_waa_magnitude: the mean of the weights of
    the points of each cluster; over no points the floating point quotient 0/0 is not finite. *)
Fixpoint of_nat (n : nat) : R := match n with O => r0 R | S n' => radd R (of_nat n') (r1 R) end.
Definition mean_weights (waa : list R) (il : indexlist) : result (list (option R)) :=
  mapM (fun c => do ws <- cluster_take il waa c;
                 Ok (match ws with
                     | [] => None
                     | _ => Some (rmul R (fold_left (radd R) ws (r0 R)) (rinv R (of_nat (length ws))))
                     end)) (zrange (nclusters il)).
Definition omul (x w : option R) : option R :=
  match x, w with Some a, Some b => Some (rmul R a b) | _, _ => None end.
(** skeletonization.py:169-192, _apply_weights: [result] starts as zeros. *)
Definition set_slice (acc : list (option R)) (istart : Z) (vals : list (option R)) : list (option R) :=
  firstn (Z.to_nat istart) acc ++ vals ++ skipn (Z.to_nat istart + length vals) acc.
Fixpoint weight_steps (flat : list (option R)) (st : list Z) (waa : list (option R))
    (acc : list (option R)) (is : list Z) : result (list (option R)) :=
  match is with
  | [] => Ok acc
  | i :: is' =>
      match pyslice st i (i + 2) with
      | [istart; iend] =>
          do w <- pyget waa i;
          weight_steps flat st waa
            (set_slice acc istart (map (fun x => omul x w) (pyslice flat istart iend))) is'
      | _ => Err ValueError
      end
  end.
Definition apply_weights (flat : list (option R)) (waa : list R) (tgt_pxy_index : tscl)
    (cluster_index : indexlist) : result (list (option R)) :=
  do _ <- assert_ (ts_n tgt_pxy_index =? nclusters cluster_index);
  do w <- mean_weights waa cluster_index;
  do st <- flat_starts tgt_pxy_index;
  weight_steps flat st w (repeat (Some (r0 R)) (length flat)) (zrange (ts_n tgt_pxy_index)).

(** skeletonization.py:449-456, the option _weighted_proxy: (weighted_sources,
    weighted_targets). *)
Inductive wproxy := WNone | WBool (b : bool) | WTuple (l : list bool) | WOther.
Definition parse_weighted (w : wproxy) : result (bool * bool) :=
  match w with
  | WNone => Ok (true, true)
  | WBool b => Ok (b, b)
  | WTuple [s; t] => Ok (s, t)
  | WTuple _ => Err ValueError                   (* tuple unpacking *)
  | WOther => Err ValueError
  end.

(** ** skeletonization.py:561-592 and the evaluate_* methods 312-398 *)

(** The entries come from [pxymat], [nbrmat]: flat arrays over the product index lists
    (proxies, sources) and (neighbors, sources) for the sources, (targets, proxies) and
    (targets, neighbors) for the targets. *)
Definition source_result (srcindex pxyindex nbrindex : indexlist)
    (pxymat nbrmat : tscl -> result (list (option R))) : result eval_result :=
  if nclusters srcindex =? 1 then Err ValueError else
  do p <- make_ts pxyindex srcindex;
  do pm <- pxymat p;
  do n <- make_ts nbrindex srcindex;
  do nm <- nbrmat n;
  Ok (ER pm p nm n).
Definition target_result (weighted_targets : bool) (waa : list R) (tgtindex pxyindex nbrindex : indexlist)
    (pxymat nbrmat : tscl -> result (list (option R))) : result eval_result :=
  if nclusters tgtindex =? 1 then Err ValueError else
  do p <- make_ts tgtindex pxyindex;
  do pm <- pxymat p;
  do pm' <- (if weighted_targets then apply_weights pm waa p nbrindex else Ok pm);
  do n <- make_ts tgtindex nbrindex;
  do nm <- nbrmat n;
  Ok (ER pm' p nm n).

(** One cluster: L, skeleton targets, R, skeleton sources, rank. *)
Record skel1 := S1 { s1_L : mat R; s1_tgt : list Z; s1_R : mat R; s1_src : list Z; s1_k : Z }.
(** The loop body, skeletonization.py:646-683. *)
Definition skel_cluster (id_rank : option Z) (id_eps : option E) (tgt_src_index : tscl)
    (src_result tgt_result : eval_result) (i : Z) : result skel1 :=
  do sp <- er_get src_result i;
  do src_omat <- vstack (fst sp) (snd sp);
  do tp <- er_get tgt_result i;
  do tgt_omat <- hstack (fst tp) (snd tp);
  do _ <- assert_ (all_finite tgt_omat);
  do _ <- assert_ (all_finite src_omat);
  let src_mat := numbers src_omat in
  let tgt_mat := numbers tgt_omat in
  let max_allowable_rank :=
    Z.of_nat (Nat.min (Nat.min (mr src_mat) (mc src_mat)) (Nat.min (mr tgt_mat) (mc tgt_mat))) in
  (* skeletonize target points *)
  do r <- interp_decomp (mtr tgt_mat) id_rank id_eps;
  let '(k, idx, interp) := r in
  do _ <- assert_ ((0 <? k) && (k <=? zlen idx));
  let '(k, interp) := if max_allowable_rank <? k
                      then (max_allowable_rank, take_rows (Z.to_nat max_allowable_rank) interp)
                      else (k, interp) in
  let L := mtr interp in
  do tcl <- cluster_indices (targets tgt_src_index) i;
  do tgt_skl <- mapM (fun p => pyget tcl (Z.of_nat p)) (firstn (Z.to_nat k) idx);
  do _ <- assert_ ((Z.of_nat (mr interp) =? k) && (mc interp =? mr tgt_mat)%nat);
  (* skeletonize source points *)
  do r <- interp_decomp src_mat (Some k) None;
  let '(k, idx, interp) := r in
  do _ <- assert_ ((0 <? k) && (k <=? zlen idx));
  do scl <- cluster_indices (sources tgt_src_index) i;
  do src_skl <- mapM (fun p => pyget scl (Z.of_nat p)) (firstn (Z.to_nat k) idx);
  do _ <- assert_ ((Z.of_nat (mr interp) =? k) && (mc interp =? mc src_mat)%nat);
  do _ <- assert_ (zlen tgt_skl =? zlen src_skl);
  Ok (S1 L tgt_skl interp src_skl k).

(** skeletonization.py:698-767, SkeletonizationResult and its check. *)
Record skel_result := SR { sk_L : list (mat R); sk_R : list (mat R); sk_index : tscl; sk_skel : tscl }.
Definition make_skel_result (L R' : list (mat R)) (index skel : tscl) : result skel_result :=
  if negb (ts_n index =? ts_n skel) then Err ValueError else
  if negb (zlen L =? ts_n index) then Err ValueError else
  if negb (zlen R' =? ts_n index) then Err ValueError else
  Ok (SR L R' index skel).

(** skeletonization.py:595-692: the check, the loop and the end. *)
Definition skeletonize (id_rank : option Z) (id_eps : option E) (tgt_src_index : tscl)
    (src_result tgt_result : eval_result) : result skel_result :=
  if ts_n tgt_src_index =? 1 then Err ValueError else
  do cs <- mapM (skel_cluster id_rank id_eps tgt_src_index src_result tgt_result) (zrange (ts_n tgt_src_index));
  let skel_starts := IndexModel.cumsum0 (map s1_k cs) in
  do _ <- (match cs with [] => Err ValueError | _ => Ok tt end);     (* np.hstack of nothing *)
  do src_skl_index <- make_index_list_starts (concat (map s1_src cs)) skel_starts;
  do tgt_skl_index <- make_index_list_starts (concat (map s1_tgt cs)) skel_starts;
  do skel_index <- make_ts tgt_skl_index src_skl_index;
  make_skel_result (map s1_L cs) (map s1_R cs) tgt_src_index skel_index.

(** skeletonization.py:770-830, skeletonize_by_proxy: every block (ibrow, ibcol); [ev ibrow ibcol]
    is what the evaluation of that block's interactions gives: (sources, targets). *)
Definition skeletonize_by_proxy (nrows ncols : nat) (id_rank : option Z) (id_eps : option E)
    (tgt_src_index : tscl) (ev : nat -> nat -> result (eval_result * eval_result))
  : result (list (list skel_result)) :=
  mapM (fun ibrow => mapM (fun ibcol =>
      if ts_n tgt_src_index =? 1 then Err ValueError else
      do r <- ev ibrow ibcol;
      skeletonize id_rank id_eps tgt_src_index (fst r) (snd r)) (seq 0 ncols)) (seq 0 nrows).

(** ** utils.py:405-540, errors *)
Section Err.
Variables (V : Type) (norm : mat R -> V) (vdiv : V -> V -> V) (vzero : V).
Definition msub (a b : mat R) : mat R := Mt (mr a) (mc a) (fun i j => rsub R (el a i j) (el b i j)).
(** utils.py:444-451, mnorm. *)
Definition mnorm (relative : bool) (x y : mat R) : V :=
  let result := norm (msub x y) in if relative then vdiv result (norm x) else result.
(** utils.py:457-475: the errors of cluster pair (i, j), i <> j: (target, source). *)
Definition pair_errors (relative : bool) (A : Z -> Z -> R) (sk : skel_result) (i j : Z) : result (V * V) :=
  if i =? j then Ok (vzero, vzero) else
  do f_tgt <- cluster_indices (targets (sk_index sk)) i;
  do f_src <- cluster_indices (sources (sk_index sk)) j;
  do s_tgt <- cluster_indices (targets (sk_skel sk)) i;
  do s_src <- cluster_indices (sources (sk_skel sk)) j;
  do Li <- pyget (sk_L sk) i;
  do Rj <- pyget (sk_R sk) j;
  do t <- mmul Li (mat_ix A s_tgt f_src);
  do s <- mmul (mat_ix A f_tgt s_src) Rj;
  Ok (mnorm relative (mat_ix A f_tgt f_src) t, mnorm relative (mat_ix A f_tgt f_src) s).
(** utils.py:453-480: returned as (tgt_error, src_error). *)
Definition cluster_errors (relative : bool) (A : Z -> Z -> R) (sk : skel_result)
  : result (list (list V) * list (list V)) :=
  do rows <- mapM (fun i => mapM (pair_errors relative A sk i) (zrange (ts_n (sk_index sk))))
                  (zrange (ts_n (sk_index sk)));
  Ok (map (map fst) rows, map (map snd) rows).

(** utils.py:514-530: [skl[np.ix_(ts, ss)] = v]; the last assignment to an entry stays. *)
Fixpoint last_pos (x : Z) (l : list Z) : option nat :=
  match l with
  | [] => None
  | y :: l' => match last_pos x l' with
               | Some p => Some (S p)
               | None => if y =? x then Some 0%nat else None end
  end.
Definition set_ix (M : Z -> Z -> R) (ts ss : list Z) (v : mat R) : Z -> Z -> R :=
  fun r c => match last_pos r ts, last_pos c ss with
             | Some p, Some q => el v p q
             | _, _ => M r c end.
Definition skel_step (A : Z -> Z -> R) (sk : skel_result) (skl : Z -> Z -> R) (ij : Z * Z) : result (Z -> Z -> R) :=
  let '(i, j) := ij in
  if i =? j then Ok skl else
  do f_tgt <- cluster_indices (targets (sk_index sk)) i;
  do f_src <- cluster_indices (sources (sk_index sk)) j;
  do s_tgt <- cluster_indices (targets (sk_skel sk)) i;
  do s_src <- cluster_indices (sources (sk_skel sk)) j;
  do Li <- pyget (sk_L sk) i;
  do Rj <- pyget (sk_R sk) j;
  do LS <- mmul Li (mat_ix A s_tgt s_src);
  do LSR <- mmul LS Rj;
  Ok (set_ix skl f_tgt f_src LSR).
Fixpoint skel_steps (A : Z -> Z -> R) (sk : skel_result) (skl : Z -> Z -> R) (l : list (Z * Z)) : result (Z -> Z -> R) :=
  match l with
  | [] => Ok skl
  | ij :: l' => do skl' <- skel_step A sk skl ij; skel_steps A sk skl' l'
  end.
Definition reconstructed (A : Z -> Z -> R) (sk : skel_result) : result (Z -> Z -> R) :=
  skel_steps A sk A (list_prod (zrange (ts_n (sk_index sk))) (zrange (ts_n (sk_index sk)))).
(** utils.py:533-540: the whole matrix is n x m. *)
Definition skeletonization_error (n m : nat) (relative : bool) (A : Z -> Z -> R) (sk : skel_result) : result V :=
  do skl <- reconstructed A sk;
  let full := fun M : Z -> Z -> R => Mt n m (fun i j => M (Z.of_nat i) (Z.of_nat j)) in
  Ok (mnorm relative (full A) (full skl)).
End Err.
End Sk.

(** utils.py:380-386: whether rng is passed to scipy: [__version__ >= "1.15.0"], a comparison of
    strings. *)
Definition passes_rng (version : string) : bool :=
  match String.compare version "1.15.0" with Lt => false | _ => true end.
