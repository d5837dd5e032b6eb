(** Model of the unregularized layer potential source's executors
    (/repo/pytential/unregularized.py lines 128-168 and 226-317). *)
From Coq Require Import QArith.
From Verif Require Import Base RefineModel AssocModel FmmModel.
Set Implicit Arguments.
Open Scope nat_scope.

(** Geometries of a collection: target points (also point sources), discretizations, and layer
    potential sources with one discretization per stage (None: no stage given). *)
Inductive stage := Stage1 | Stage2 | QuadStage2.
Inductive ugeom :=
| UPoints (x : list pt)
| UDiscr (x : list pt)
| ULpot (nodes : option stage -> list pt).

(** collection.py 347-394 (get_target_or_discretization): layer potential sources are replaced
    by their discretization. *)
Definition target_or_discr (g : ugeom) (s : option stage) : list pt :=
  match g with UPoints x => x | UDiscr x => x | ULpot f => f s end.
(** unregularized.py 415-451 (target_info): [.nodes()] of the geometry itself; a layer potential
    source (source.py 314-365) has no such method. *)
Definition nodes_of (g : ugeom) : result (list pt) :=
  match g with UPoints x => Ok x | UDiscr x => Ok x | ULpot _ => Err AttributeError end.

Section Unreg.
Variable place : nat -> result ugeom.      (* by target name: places.get_geometry *)
Variable stage_of : nat -> option stage.   (* discr_stage of a target name *)
Variable nsrc : nat.
Variable nknl : nat.

(** unregularized.py 128-168. *)
Definition unreg_direct (outs : list output) : result (list (string * list (list contr))) :=
  mapM (fun o =>
      do g <- place (o_tgt o);
      if o_knl o <? nknl
      then Ok (o_name o, p2p nsrc (target_or_discr g (stage_of (o_tgt o))) (o_knl o))
      else Err IndexError) outs.

(** 231-246: unique targets, numbered by name. *)
Fixpoint unreg_gather (outs : list output) (d : list (nat * nat)) (ts : list ugeom)
    : result (list (nat * nat) * list ugeom) :=
  match outs with
  | [] => Ok (d, ts)
  | o :: outs' =>
    if match o_limit o with Some z => (Z.abs z =? 1)%Z | None => false end then Err AssertionError else
    match find (fun e => fst e =? o_tgt o) d with
    | Some _ => unreg_gather outs' d ts
    | None => do g <- place (o_tgt o); unreg_gather outs' (d ++ [(o_tgt o, length ts)]) (ts ++ [g])
    end
  end.
(** 226-317.  The target info is that of the QBX geometry without centers; [fmm] builds tree
    and traversal; boxtree's drive_fmm is the pipeline without centers. *)
Definition unreg_fmm (fmm : list pt -> ftree * ftrav) (outs : list output) : result (list (string * list (list contr))) :=
  do r <- unreg_gather outs [] [];
  let '(numbers, gs) := r in
  do xs <- mapM nodes_of gs;
  let ts := map (fun x => (x, 0%Z)) xs in
  let P := target_points [] ts in
  let '(T, V) := fmm P in
  let pots := drive_fmm T V 0 (repeat (-1)%Z (length P)) (seq 0 nsrc) nknl in
  mapM (fun o =>
      match find (fun e => fst e =? o_tgt o) numbers with
      | None => Err KeyError
      | Some (_, n) =>
        let starts := discr_starts 0 ts in
        match nth_error pots (o_knl o) with
        | None => Err IndexError
        | Some p => Ok (o_name o, slice p (nth n starts 0) (nth (n + 1) starts 0))
        end
      end) outs.
End Unreg.
