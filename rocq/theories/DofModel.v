(** Model of DOF descriptors. /repo/pytential/symbolic/dof_desc.py lines 53-324. *)
From Verif Require Import Base.
Set Implicit Arguments.

(** dof_desc.py 78-93: the discretization stages. *)
Inductive stage := STAGE1 | STAGE2 | QUAD_STAGE2.
(** dof_desc.py 101-110: the granularities. *)
Inductive gran := NODE | CENTER | ELEMENT.
(** A hashable geometry identifier (dof_desc.py 283): the marker classes of lines
    56-75, a stage or granularity class (nothing prevents their use as a name), or
    any other identifier. *)
Inductive geom :=
| DEFAULT_SOURCE | DEFAULT_TARGET | UNNAMED_SOURCE | UNNAMED_TARGET
| GStage (s : stage) | GGran (g : gran) | GName (n : string).

(** dof_desc.py 122-160: the attributes. Not modelled: a descriptor used as the
    geometry identifier of another one. *)
Record dofdesc := DD { geometry : option geom; discr_stage : option stage; granularity : gran }.

(** The Python objects passed as [discr_stage] or [granularity]: None, the sentinel,
    a stage, a granularity or anything else. *)
Inductive pyobj := ONone | OSentinel | OStage (s : stage) | OGran (g : gran) | OOther (n : nat).

(** dof_desc.py 162-186 ([__init__]). *)
Definition dd_init (g : option geom) (st gr : pyobj) : result dofdesc :=
  do s <- match st with
          | ONone => Ok None
          | OStage s => Ok (Some s)
          | _ => Err ValueError
          end;
  do gr' <- match gr with
            | ONone => Ok NODE
            | OGran g => Ok g
            | _ => Err ValueError
            end;
  Ok (DD g s gr').

Definition ostage (s : option stage) : pyobj := match s with None => ONone | Some s => OStage s end.

(** What is passed as the [geometry] argument of [copy]. *)
Inductive geoarg := GANone | GAGeom (g : geom) | GADesc (d : dofdesc).

(** dof_desc.py 188-204 ([copy]); [OSentinel] is an omitted [discr_stage]. *)
Definition dd_copy (self : dofdesc) (g : geoarg) (st gr : pyobj) : result dofdesc :=
  let '(g', st') :=
    match g with
    | GANone => (None, st)
    | GAGeom x => (Some x, st)
    | GADesc d => (geometry d, match st with OSentinel => ostage (discr_stage d) | _ => st end)
    end in
  dd_init (match g' with None => geometry self | Some x => Some x end)
          (match st' with OSentinel => ostage (discr_stage self) | _ => st' end)
          (match gr with ONone => OGran (granularity self) | _ => gr end).

(** dof_desc.py 206-213. *)
Definition to_stage1 (d : dofdesc) : result dofdesc := dd_copy d GANone (OStage STAGE1) ONone.
Definition to_stage2 (d : dofdesc) : result dofdesc := dd_copy d GANone (OStage STAGE2) ONone.
Definition to_quad_stage2 (d : dofdesc) : result dofdesc := dd_copy d GANone (OStage QUAD_STAGE2) ONone.

(** Equality of classes and identifiers. *)
Definition stage_eqb (a b : stage) : bool :=
  match a, b with STAGE1, STAGE1 | STAGE2, STAGE2 | QUAD_STAGE2, QUAD_STAGE2 => true | _, _ => false end.
Definition gran_eqb (a b : gran) : bool :=
  match a, b with NODE, NODE | CENTER, CENTER | ELEMENT, ELEMENT => true | _, _ => false end.
Definition geom_eqb (a b : geom) : bool :=
  match a, b with
  | DEFAULT_SOURCE, DEFAULT_SOURCE | DEFAULT_TARGET, DEFAULT_TARGET
  | UNNAMED_SOURCE, UNNAMED_SOURCE | UNNAMED_TARGET, UNNAMED_TARGET => true
  | GStage s, GStage t => stage_eqb s t
  | GGran s, GGran t => gran_eqb s t
  | GName s, GName t => String.eqb s t
  | _, _ => false
  end.
Definition opt_eqb {A : Type} (f : A -> A -> bool) (a b : option A) : bool :=
  match a, b with None, None => true | Some x, Some y => f x y | _, _ => false end.

(** dof_desc.py 219-223 ([__eq__]). *)
Definition dd_eqb (a b : dofdesc) : bool :=
  opt_eqb geom_eqb (geometry a) (geometry b)
  && opt_eqb stage_eqb (discr_stage a) (discr_stage b)
  && gran_eqb (granularity a) (granularity b).

(** dof_desc.py 225-226 ([__ne__]). *)
Definition dd_neb (a b : dofdesc) : bool := negb (dd_eqb a b).

(** dof_desc.py 215-217 ([__hash__]): the hash of the tuple of attributes, for
    arbitrary hash functions of the components. *)
Definition dd_hash (tuple_hash : Z -> Z -> Z -> Z) (hg : option geom -> Z)
    (hs : option stage -> Z) (hgr : gran -> Z) (d : dofdesc) : Z :=
  tuple_hash (hg (geometry d)) (hs (discr_stage d)) (hgr (granularity d)).

(** What is passed to [as_dofdesc]: a descriptor, None or an identifier. *)
Inductive dd_like := LDesc (d : dofdesc) | LNone | LGeom (g : geom).

(** dof_desc.py 264-274 ([as_dofdesc]). *)
Definition as_dofdesc (x : dd_like) : result dofdesc :=
  match x with
  | LDesc d => Ok d
  | LNone => dd_init None ONone ONone
  | LGeom (GStage s) => dd_init None (OStage s) ONone
  | LGeom (GGran g) => dd_init None ONone (OGran g)
  | LGeom g => dd_init (Some g) ONone ONone
  end.
