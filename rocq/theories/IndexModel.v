(** Model of pytential/linalg/utils.py:62-356 (IndexList, TargetAndSourceClusterList,
    make_index_list, make_index_cluster_cartesian_product, make_flat_cluster_diag) and of
    pytential/utils.py:44-57 (sort_arrays_together).
    numpy integer arrays are lists of Z; fixed-width overflow is not modelled.  Matrices are
    functions of two indices, or lists of rows where their shape matters. *)
From Verif Require Import Base.
Set Implicit Arguments.
Open Scope Z_scope.

Definition zlen {A : Type} (l : list A) : Z := Z.of_nat (length l).

(** Python slicing [l[a:b]] (step 1): negative bounds count from the end, bounds are clipped. *)
Definition clip (n i : Z) : Z := if i <? 0 then Z.max 0 (i + n) else Z.min i n.
Definition pyslice {A : Type} (l : list A) (a b : Z) : list A :=
  let a' := clip (zlen l) a in
  let b' := clip (zlen l) b in
  firstn (Z.to_nat (b' - a')) (skipn (Z.to_nat a') l).

(** Python/numpy indexing [l[i]]. *)
Definition pyget {A : Type} (l : list A) (i : Z) : result A :=
  let i' := if i <? 0 then i + zlen l else i in
  if i' <? 0 then Err IndexError else
  match nth_error l (Z.to_nat i') with Some v => Ok v | None => Err IndexError end.

(** np.cumsum([0] + l). *)
Fixpoint cumsum_from (s : Z) (l : list Z) : list Z :=
  s :: match l with [] => [] | x :: l' => cumsum_from (s + x) l' end.
Definition cumsum0 (l : list Z) : list Z := cumsum_from 0 l.

(** utils.py:62-92, class IndexList. *)
Record indexlist := IL { indices : list Z; starts : list Z }.
(** utils.py:86-89. *)
Definition nclusters (il : indexlist) : Z := zlen (starts il) - 1.
(** utils.py:91-94. *)
Definition nindices (il : indexlist) : Z := zlen (indices il).
Definition in_range (i n : Z) : bool := (0 <=? i) && (i <? n).
(** utils.py:96-101. *)
Definition cluster_size (il : indexlist) (i : Z) : result Z :=
  if in_range i (nclusters il) then
    do b <- pyget (starts il) (i + 1); do a <- pyget (starts il) i; Ok (b - a)
  else Err IndexError.
(** utils.py:103-112. *)
Definition cluster_indices (il : indexlist) (i : Z) : result (list Z) :=
  if in_range i (nclusters il) then
    do a <- pyget (starts il) i; do b <- pyget (starts il) (i + 1);
    Ok (pyslice (indices il) a b)
  else Err IndexError.
(** utils.py:114-125: [x[self.cluster_indices(i)]]. *)
Definition cluster_take {A : Type} (il : indexlist) (x : list A) (i : Z) : result (list A) :=
  if in_range i (nclusters il) then
    do ix <- cluster_indices il i; mapM (pyget x) ix
  else Err IndexError.

(** utils.py:225-245, make_index_list without starts: an object array of index arrays
    ([np.hstack] of nothing raises ValueError). *)
Definition make_index_list (clusters : list (list Z)) : result indexlist :=
  match clusters with
  | [] => Err ValueError
  | _ => Ok (IL (concat clusters) (cumsum0 (map zlen clusters)))
  end.
(** ... and with starts (240-243). *)
Definition make_index_list_starts (ixs sts : list Z) : result indexlist :=
  do e <- pyget sts (-1);
  if e =? zlen ixs then Ok (IL ixs sts) else Err ValueError.

(** utils.py:128-159, class TargetAndSourceClusterList and its check. *)
Record tscl := TS { targets : indexlist; sources : indexlist }.
Definition make_ts (t s : indexlist) : result tscl :=
  if nclusters t =? nclusters s then Ok (TS t s) else Err ValueError.
(** utils.py:161-164. *)
Definition ts_n (m : tscl) : Z := nclusters (targets m).
(** utils.py:166-169. *)
Definition ts_shape (m : tscl) : Z * Z := (nindices (targets m), nindices (sources m)).
(** Python's range(n). *)
Definition zrange (n : Z) : list Z := map Z.of_nat (seq 0 (Z.to_nat n)).
(** utils.py:174-179. *)
Definition flat_starts (m : tscl) : result (list Z) :=
  do sizes <- mapM (fun i => do a <- cluster_size (targets m) i; do b <- cluster_size (sources m) i;
                             Ok (a * b)) (zrange (ts_n m));
  Ok (cumsum0 sizes).
(** utils.py:181-183. *)
Definition flat_total (m : tscl) : result Z := do st <- flat_starts m; pyget st (-1).
(** utils.py:185-193. *)
Definition cluster_shape (m : tscl) (i j : Z) : result (Z * Z) :=
  do a <- cluster_size (targets m) i; do b <- cluster_size (sources m) j; Ok (a, b).
(** utils.py:204-215: [x[np.ix_(itargets, isources)]] for a matrix given as a function. *)
Definition ts_cluster_take {A : Type} (m : tscl) (x : Z -> Z -> A) (i j : Z) : result (list (list A)) :=
  do ts <- cluster_indices (targets m) i; do ss <- cluster_indices (sources m) j;
  Ok (map (fun t => map (fun s => x t s) ss) ts).
(** utils.py:217-229. *)
Definition flat_cluster_take {A : Type} (m : tscl) (x : list A) (i : Z) : result (list A) :=
  do st <- flat_starts m;
  match pyslice st i (i + 2) with
  | [a; b] => Ok (pyslice x a b)
  | _ => Err ValueError                      (* tuple unpacking *)
  end.

(** utils.py:283-301: the loopy kernel writes, for every cluster and every (i, j), one pair.
    The write instances in program order: position and value ([tgtproduct] and [srcproduct]
    are written at the same positions, so they are modelled as one array of pairs).  Reads
    outside the arrays are errors. *)
Definition cluster_writes (m : tscl) (offsets : list Z) (c : Z) : result (list (Z * (Z * Z))) :=
  do offset <- pyget offsets c;
  do t0 <- pyget (starts (targets m)) c;
  do s0 <- pyget (starts (sources m)) c;
  do t1 <- pyget (starts (targets m)) (c + 1);
  do s1 <- pyget (starts (sources m)) (c + 1);
  let nt := t1 - t0 in
  let ns := s1 - s0 in
  do rows <- mapM (fun i => mapM (fun j =>
      do t <- pyget (indices (targets m)) (t0 + i);
      do s <- pyget (indices (sources m)) (s0 + j);
      Ok (offset + ns * i + j, (t, s))) (zrange ns)) (zrange nt);
  Ok (concat rows).
Definition product_writes (m : tscl) : result (list (Z * (Z * Z))) :=
  do offsets <- flat_starts m;
  do ws <- mapM (cluster_writes m offsets) (zrange (ts_n m));
  Ok (concat ws).
(** Performing writes on an array (uninitialised entries are None). *)
Fixpoint put {A : Type} (l : list (option A)) (p : nat) (v : A) : list (option A) :=
  match l, p with
  | [], _ => []
  | _ :: l', O => Some v :: l'
  | o :: l', S p' => o :: put l' p' v
  end.
Definition perform {A : Type} (ws : list (Z * A)) (n : Z) : list (option A) :=
  fold_left (fun arr w => put arr (Z.to_nat (fst w)) (snd w)) ws (repeat None (Z.to_nat n)).

(** utils.py:339-356. [reshape(rows, cols)] in C order. *)
Fixpoint chunks {A : Type} (r c : nat) (l : list A) : list (list A) :=
  match r with O => [] | S r' => firstn c l :: chunks r' c (skipn c l) end.
Definition reshape {A : Type} (l : list A) (shape : Z * Z) : result (list (list A)) :=
  if (fst shape * snd shape =? zlen l) && (0 <=? fst shape) && (0 <=? snd shape)
  then Ok (chunks (Z.to_nat (fst shape)) (Z.to_nat (snd shape)) l)
  else Err ValueError.
Definition make_flat_cluster_diag {A : Type} (mat : list A) (m : tscl) : result (list (list (list A))) :=
  mapM (fun i => do shape <- cluster_shape m i i; do l <- flat_cluster_take m mat i; reshape l shape)
       (zrange (ts_n m)).

(** pytential/utils.py:44-57.  [zip( *arys, strict=True)], Python's stable [sorted] by a key
    compared with [<], and [zip( *rows, strict=True)].  Arrays have a common element type. *)
Section SortTogether.
Variables (T K : Type) (key : list T -> K) (klt : K -> K -> bool).
(** Rows of [arys]; with no array at all there are no rows. *)
Fixpoint heads (arys : list (list T)) : option (list T * list (list T)) :=
  match arys with
  | [] => Some ([], [])
  | [] :: _ => None
  | (x :: a) :: rest => match heads rest with
                        | Some (xs, as') => Some (x :: xs, a :: as')
                        | None => None end
  end.
Fixpoint zip_rows (n : nat) (arys : list (list T)) : result (list (list T)) :=
  match n with
  | O => if forallb (fun a => match a with [] => true | _ => false end) arys then Ok [] else Err ValueError
  | S n' => match heads arys with
            | Some (row, rest) => do rows <- zip_rows n' rest; Ok (row :: rows)
            | None => Err ValueError end
  end.
Definition zip_strict (arys : list (list T)) : result (list (list T)) :=
  match arys with [] => Ok [] | a :: _ => zip_rows (length a) arys end.
Fixpoint insert (x : list T) (l : list (list T)) : list (list T) :=
  match l with
  | [] => [x]
  | y :: l' => if klt (key y) (key x) then y :: insert x l' else x :: y :: l'
  end.
Definition sorted (l : list (list T)) : list (list T) := fold_right insert [] l.
Definition sort_arrays_together (arys : list (list T)) : result (list (list T)) :=
  do rows <- zip_strict arys; zip_strict (sorted rows).
End SortTogether.
