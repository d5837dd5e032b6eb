(** Model of the construction of layer-potential nodes.
    /repo/pytential/symbolic/primitives.py lines 1958-2073. *)
From Verif Require Import Base.
Set Implicit Arguments.

(** A sumpy kernel: its base kernel and the names of its (target/source) arguments. *)
Record kernel := Kernel { k_base : nat; k_args : list string; k_source_args : list string }.

(** The value passed as [qbx_forced_limit]. *)
Inductive limarg := LimNone | LimStr (s : string) | LimInt (z : Z).

Section Ctor.
Variables D W : Type. (* densities / argument values; DOF descriptors *)
Variable default_dd : W.

(** What is passed as [kernel_arguments]: None, a tuple of pairs or a mapping. *)
Inductive kargs_like := KNone | KTuple (l : list (string * D)) | KMap (l : list (string * D)).

(** A Python dict as the list of its items; assignment. *)
Definition dict := list (string * D).
Fixpoint dset (d : dict) (n : string) (v : D) : dict :=
  match d with
  | [] => [(n, v)]
  | (m, w) :: d' => if String.eqb m n then (m, v) :: d' else (m, w) :: dset d' n v
  end.
Definition dict_of (l : list (string * D)) : dict := fold_left (fun d p => dset d (fst p) (snd p)) l [].
Definition dkeys (d : dict) : list string := map fst d.

Record node := Node
  { n_target : kernel; n_sources : list kernel; n_dens : list D; n_lim : limarg;
    n_src : W; n_tgt : W; n_kargs : dict }.

(** primitives.py 1988-1999: merging deprecated keyword arguments. *)
Fixpoint merge_kwargs (d : dict) (kw : list (string * D)) : result dict :=
  match kw with
  | [] => Ok d
  | (n, v) :: kw' => if inb n (dkeys d) then Err ValueError else merge_kwargs (dset d n v) kw'
  end.

(** primitives.py 2013: [qbx_forced_limit not in {-1, +1, -2, +2, "avg", None}]. *)
Definition limit_allowed (l : limarg) : bool :=
  match l with
  | LimNone => true
  | LimStr s => String.eqb s "avg"
  | LimInt z => (z =? -1)%Z || (z =? 1)%Z || (z =? -2)%Z || (z =? 2)%Z
  end.

(** pytools.single_valued: ValueError unless all equal the first one. *)
Definition single_valued (l : list nat) : result nat :=
  match l with
  | [] => Err ValueError
  | x :: l' => if forallb (Nat.eqb x) l' then Ok x else Err ValueError
  end.

(** primitives.py 2012-2073 ([__post_init__]; type conversions omitted). *)
Definition post_init (g : node) : result node :=
  if negb (limit_allowed (n_lim g)) then Err ValueError else
  let kernels := n_sources g ++ [n_target g] in
  do _ <- single_valued (map k_base kernels);
  let names := flat_map (fun k => k_args k ++ k_source_args k) kernels in
  let provided := dkeys (n_kargs g) in
  if negb (subset names provided) then Err ValueError else
  if negb (subset provided names) then Err ValueError else Ok g.

(** primitives.py 1958-2010 ([__init__]). *)
Definition intg_init (tk : kernel) (sks : list kernel) (dens : list D) (lim : limarg)
    (src tgt : option W) (ka : kargs_like) (kw : list (string * D)) : result node :=
  let d := match ka with KNone => [] | KTuple l => dict_of l | KMap l => l end in
  let s := match src with None => default_dd | Some s => s end in
  let t := match tgt with None => default_dd | Some t => t end in
  do d' <- match kw with [] => Ok d | _ => merge_kwargs d kw end;
  post_init (Node tk sks dens lim s t d').
End Ctor.
Arguments KNone {D}.
