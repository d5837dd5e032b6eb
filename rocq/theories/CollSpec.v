(** Histories of API calls on geometry collections and what they should observe. *)
From Verif Require Import Base DofModel RefineModel RefineSpec CollModel.
From Coq Require Import Ascii.
Set Implicit Arguments.
Open Scope nat_scope.

(** The API calls; collections are named by their address. *)
Inductive op :=
| OpNew (a : places_arg) (aw : auto_arg)
| OpGet (cid : nat) (g : gid) (s : option stage)           (* get_discretization *)
| OpTarget (cid : nat) (g : gid) (s : option stage)        (* get_target_or_discretization *)
| OpSource (cid : nat) (g : gid) (s : option stage)        (* get_source_or_discretization *)
| OpConn (cid : nat) (from to : dofdesc)                   (* get_connection *)
| OpCopy (cid : nat) (places : option (list (gid * place))) (aw : auto_arg)
| OpMerge (cid : nat) (places : list (gid * place))
| OpAdd (cid : nat) (places : list (gid * place))          (* add_geometry_to_collection *)
| OpRefine (cid : nat) (st : option stage) (rounds : option nat) (pr : rparams)
| OpUserCache (cid : nat) (n : cname) (k : nat) (v : nat). (* other code filling a cache *)

Inductive resp := RColl (cid : nat) | RGeo (g : geo) | RConn (c : conn) | RUnit.

(** Other users of the caches (e.g. the expression evaluator, C04) write their own keys. *)
Definition user_cache (cid : nat) (n : cname) (k v : nat) : M unit :=
  mdo r <- get_cache cid n;
  mdo d <- read r;
  write r (dset ckey_eqb d (KO k) (VO v)).

Definition exec (E : env) (o : op) : M resp :=
  match o with
  | OpNew a aw => mdo c <- new_collection a aw; ret (RColl c)
  | OpGet c g s => mdo d <- get_discretization E c g s; ret (RGeo (GDiscr d))
  | OpTarget c g s => mdo r <- get_target_or_discretization E c g s; ret (RGeo r)
  | OpSource c g s => mdo r <- get_source_or_discretization E c g s; ret (RGeo r)
  | OpConn c f t => mdo r <- connection_from_dds E c f t; ret (RConn r)
  | OpCopy c p aw => mdo r <- copy_collection c p aw; ret (RColl r)
  | OpMerge c p => mdo r <- merge_collection c p; ret (RColl r)
  | OpAdd c p => mdo r <- add_geometry c p; ret (RColl r)
  | OpRefine c st n pr => mdo r <- refine_geometry_collection E c st n pr; ret (RColl r)
  | OpUserCache c n k v => mdo _ <- user_cache c n k v; ret RUnit
  end.

(** The collection whose caches a call may fill. *)
Definition op_target (o : op) : option nat :=
  match o with
  | OpGet c _ _ | OpTarget c _ _ | OpSource c _ _ | OpConn c _ _ | OpUserCache c _ _ _ => Some c
  | _ => None
  end.
(** Mappings passed to the API have unique keys. *)
Definition keys_unique (l : list (gid * place)) : Prop := NoDup (map fst l).
Definition op_wf (o : op) : Prop :=
  match o with
  | OpNew (AMap l) _ => keys_unique l
  | OpCopy _ (Some l) _ => keys_unique l
  | OpMerge _ l | OpAdd _ l => keys_unique l
  | _ => True
  end.

(** Histories: any calls in any order, failing or not, each with its own surroundings. *)
Inductive steps : heap -> list (env * op) -> heap -> Prop :=
| steps_nil h : steps h [] h
| steps_cons h E o hist h' r h'' :
    op_wf o -> exec E o h = (h', r) -> steps h' hist h'' -> steps h ((E, o) :: hist) h''.

Definition empty_heap : heap := Heap [] [] 0 [].
Definition reachable (h : heap) : Prop := exists hist, steps empty_heap hist h.

(** Observations: the geometries of a collection and the contents of its caches. *)
Definition has_coll (h : heap) (cid : nat) (c : coll) : Prop := nth_error (h_colls h) cid = Some c.
Definition registered (h : heap) (cid : nat) (g : gid) (p : place) : Prop :=
  exists c, has_coll h cid c /\ In (g, p) (c_places c).
Definition contents (h : heap) (cid : nat) (n : cname) : dict :=
  match nth_error (h_colls h) cid with
  | Some c => match dget cname_eqb (c_caches c) n with
              | Some r => nth r (h_dicts h) []
              | None => []
              end
  | None => []
  end.
Definition cached (h : heap) (cid : nat) (n : cname) (k : ckey) (v : cval) : Prop :=
  dget ckey_eqb (contents h cid n) k = Some v.
Definition cached_discr (h : heap) (cid : nat) (g : gid) (s : stage) (d : discr) : Prop :=
  cached h cid CDiscr (KD g s) (VD d).

(** The stage before. *)
Definition previous (s : stage) : option stage :=
  match s with STAGE1 => None | STAGE2 => Some STAGE1 | QUAD_STAGE2 => Some STAGE2 end.
(** Where stage [s] of source [l] starts: at the source's own discretization or at the
    previous stage. *)
Definition starts_at (h : heap) (cid : nat) (g : gid) (l : lpot) (s : stage) (d : discr) : Prop :=
  match previous s with
  | None => d = l_density l
  | Some s' => cached_discr h cid g s' d
  end.

(** Nothing observable about collection [cid] changed. *)
Definition unchanged (h h' : heap) (cid : nat) : Prop :=
  (forall c, has_coll h cid c -> exists c', has_coll h' cid c'
      /\ c_places c' = c_places c /\ c_auto c' = c_auto c /\ c_dim c' = c_dim c)
  /\ forall n, contents h' cid n = contents h cid n.

Definition valid (h : heap) (cid : nat) : Prop := cid < length (h_colls h).

(** What a request for geometry [g] at stage [s] means: QBX sources denote the cached
    discretization of the stage (stage 1 by default), other layer potential sources and
    discretizations denote a discretization, everything else itself. *)
Definition the_stage (s : option stage) : stage := match s with None => STAGE1 | Some s => s end.
Definition denotes (h : heap) (cid : nat) (g : gid) (s : option stage) (r : geo) : Prop :=
  exists p, registered h cid g p /\
    match p with
    | PQBX _ _ _ => exists d, r = GDiscr d /\ cached_discr h cid g (the_stage s) d
    | PLpot _ _ d | PDiscr d _ => r = GDiscr d
    | _ => r = GPlace p
    end.

(** A refinement stage of source [l] failed with [e]. *)
Definition refinement_fails (E : env) (pr : rparams) (l : lpot) (e : exn) : Prop :=
  (exists clk, refine_stage1 E l (Crit1 (r_length pr) (r_curv pr) (r_tol pr)) (r_maxiter pr) clk (l_density l) = Err e)
  \/ (exists clk d, refine_stage2 E l (r_rounds pr) (r_maxiter pr) clk d = Err e).

(** Why a request may fail: no such collection, unknown geometry, failed refinement. *)
Definition request_error (E : env) (h : heap) (cid : nat) (g : gid) (e : exn) : Prop :=
  (e = AssertionError /\ ~ valid h cid)
  \/ (e = KeyError /\ valid h cid /\ forall p, ~ registered h cid g p)
  \/ (exists oid dim l, registered h cid g (PQBX oid dim l) /\ refinement_fails E default_params l e).

(** Places by type. *)
Inductive a_qbx : place -> Prop := A_qbx o n l : a_qbx (PQBX o n l).
Inductive a_source_or_discretization : place -> Prop :=
| A_qbx_source o n l : a_source_or_discretization (PQBX o n l)
| A_lpot_source o n d : a_source_or_discretization (PLpot o n d)
| A_point_source o n : a_source_or_discretization (PPointSource o n)
| A_discretization d n : a_source_or_discretization (PDiscr d n).
Inductive a_target : place -> Prop :=
| A_points o n : a_target (PPoints o n)
| A_target_object o n : a_target (PTarget o n).

(** Pairs of descriptors between which no connection is supported. *)
Definition unsupported (p : place) (from to : dofdesc) : Prop :=
  geometry from <> geometry to \/ granularity from <> NODE \/ granularity to <> NODE
  \/ (discr_stage from <> discr_stage to /\ (~ a_qbx p \/ discr_stage to <> Some QUAD_STAGE2)).


(** * Construction, independently of the code *)

(** The default source and target descriptors an [auto_where] argument asks for. *)
Inductive asks : auto_arg -> dofdesc -> dofdesc -> Prop :=
| asks_none s t : as_dofdesc (LGeom UNNAMED_SOURCE) = Ok s -> as_dofdesc (LGeom UNNAMED_TARGET) = Ok t -> asks AWNone s t
| asks_two a b s t : as_dofdesc a = Ok s -> as_dofdesc b = Ok t -> asks (AWSeq [a; b]) s t
| asks_one a s : as_dofdesc a = Ok s -> asks (AWOne a) s s.

(** [form a s t d s' t']: argument [a] with requested defaults [s], [t] stands for the mapping
    [d] with defaults [s'], [t']. *)
Inductive form : places_arg -> dofdesc -> dofdesc -> list (gid * place) -> dofdesc -> dofdesc -> Prop :=
| form_qbx p s t : a_qbx p -> form (AOne p) s t [(geometry s, p)] s s
| form_both p s t : ~ a_qbx p -> a_source_or_discretization p -> geometry s <> geometry t ->
    form (AOne p) s t [(geometry s, p); (geometry t, p)] s t
| form_same p s t : ~ a_qbx p -> a_source_or_discretization p -> geometry s = geometry t ->
    form (AOne p) s t [(geometry s, p)] s t
| form_pair p q s t : geometry s <> geometry t -> form (ATuple [p; q]) s t [(geometry s, p); (geometry t, q)] s t
| form_last p q s t : geometry s = geometry t -> form (ATuple [p; q]) s t [(geometry s, q)] s t
| form_map l s t : form (AMap l) s t l s t.

(** Python identifiers (ASCII) other than keywords. *)
Definition letters : string := "abcdefghijklmnopqrstuvwxyzABCDEFGHIJKLMNOPQRSTUVWXYZ_"%string.
Definition digits : string := "0123456789"%string.
Definition among (c : ascii) (s : string) : Prop := In c (String.list_ascii_of_string s).
Definition identifier (n : string) : Prop :=
  (exists c rest, String.list_ascii_of_string n = c :: rest /\ among c letters
     /\ forall x, In x rest -> among x letters \/ among x digits)
  /\ ~ In n keywords.
Definition good_name (g : gid) : Prop := forall n, g = Some (GName n) -> identifier n.
Definition good_type (p : place) : Prop := a_source_or_discretization p \/ a_target p.
(** A valid mapping: defaults present, names and types fine, one ambient dimension. *)
Definition good_places (d : list (gid * place)) (s t : dofdesc) (z : Z) : Prop :=
  In (geometry s) (map fst d) /\ In (geometry t) (map fst d)
  /\ forall g p, In (g, p) d -> good_name g /\ good_type p /\ ambient_dim p = Some z.

(** Which error an unacceptable mapping causes. *)
Inductive bad_places (d : list (gid * place)) (s t : dofdesc) : exn -> Prop :=
| bad_default : ~ In (geometry s) (map fst d) \/ ~ In (geometry t) (map fst d) -> bad_places d s t ValueError
| bad_name g p : In (g, p) d -> ~ good_name g -> bad_places d s t ValueError
| bad_type g p : (forall g' p', In (g', p') d -> good_name g') -> In (g, p) d -> ~ good_type p -> bad_places d s t TypeError
| bad_dim g p g' p' : (forall g' p', In (g', p') d -> good_name g' /\ good_type p') ->
    In (g, p) d -> In (g', p') d -> ambient_dim p <> ambient_dim p' -> bad_places d s t RuntimeError.
(** Which error an argument of no accepted form causes. *)
Inductive bad_form : places_arg -> auto_arg -> exn -> Prop :=
| bad_auto a l : length l <> 2 -> bad_form a (AWSeq l) ValueError
| bad_tuple l aw s t : asks aw s t -> length l <> 2 -> bad_form (ATuple l) aw ValueError
| bad_object p aw s t : asks aw s t -> ~ a_source_or_discretization p -> bad_form (AOne p) aw AssertionError
| bad_other aw s t : asks aw s t -> bad_form ABad aw AssertionError.
