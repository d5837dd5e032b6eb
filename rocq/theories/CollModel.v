(** Model of geometry collections and their caches.
    /repo/pytential/collection.py lines 72-511, /repo/pytential/symbolic/execution.py
    lines 591-618, /repo/pytential/qbx/refinement.py lines 900-1085 and
    /repo/pytential/symbolic/dof_connection.py lines 131-282. *)
From Verif Require Import Base DofModel RefineModel.
From Coq Require Import QArith Ascii.
Set Implicit Arguments.
Open Scope nat_scope.

(** Geometries by class; [oid] is the identity of the Python object.  [PQBX]:
    QBXLayerPotentialSource; [PLpot]: other layer potential sources; [PPointSource]:
    PointPotentialSource; [PPoints]: PointsTarget; [PTarget]: other TargetBase; [PDiscr]: a
    discretization; [POther]: any other object. *)
Inductive place :=
| PQBX (oid : nat) (dim : Z) (l : lpot)
| PLpot (oid : nat) (dim : Z) (density : discr)
| PPointSource (oid : nat) (dim : Z)
| PPoints (oid : nat) (dim : Z)
| PTarget (oid : nat) (dim : Z)
| PDiscr (d : discr) (dim : Z)
| POther (oid : nat).

(** The attribute [ambient_dim]. *)
Definition ambient_dim (p : place) : option Z :=
  match p with
  | PQBX _ n _ | PLpot _ n _ | PPointSource _ n | PPoints _ n | PTarget _ n | PDiscr _ n => Some n
  | POther _ => None
  end.

(** [isinstance] tests. *)
Definition is_qbx (p : place) : bool := match p with PQBX _ _ _ => true | _ => false end.
Definition is_target (p : place) : bool := match p with PPoints _ _ | PTarget _ _ => true | _ => false end.
Definition is_discr (p : place) : bool := match p with PDiscr _ _ => true | _ => false end.
Definition is_source (p : place) : bool :=
  match p with PQBX _ _ _ | PLpot _ _ _ | PPointSource _ _ => true | _ => false end.

(** A geometry identifier as found in a descriptor. *)
Definition gid := option geom.
Definition gid_eqb : gid -> gid -> bool := opt_eqb geom_eqb.

(** Python dictionaries (insertion-ordered). *)
Section Dict.
Variables K V : Type.
Variable eqb : K -> K -> bool.
Fixpoint dget (d : list (K * V)) (k : K) : option V :=
  match d with
  | [] => None
  | (k', v) :: d' => if eqb k k' then Some v else dget d' k
  end.
Fixpoint dset (d : list (K * V)) (k : K) (v : V) : list (K * V) :=
  match d with
  | [] => [(k, v)]
  | (k', v') :: d' => if eqb k k' then (k', v) :: d' else (k', v') :: dset d' k v
  end.
(** [d.update(d')]. *)
Definition dupdate (d d' : list (K * V)) : list (K * V) :=
  fold_left (fun acc kv => dset acc (fst kv) (snd kv)) d' d.
End Dict.

(** The three known caches and others (collection.py 81-96, execution.py: the evaluation
    mapper's cache key). *)
Inductive cname := CDiscr | CConn | CCse | COther (n : nat).
Definition cname_eqb (a b : cname) : bool :=
  match a, b with
  | CDiscr, CDiscr | CConn, CConn | CCse, CCse => true
  | COther n, COther m => Nat.eqb n m
  | _, _ => false
  end.
(** Cache keys and values. *)
Inductive ckey := KD (g : gid) (s : stage) | KC (g : gid) (f t : option stage) | KO (n : nat).
Inductive cval := VD (d : discr) | VC (c : conn) | VO (n : nat).
Definition ckey_eqb (a b : ckey) : bool :=
  match a, b with
  | KD g s, KD g' s' => gid_eqb g g' && stage_eqb s s'
  | KC g f t, KC g' f' t' => gid_eqb g g' && opt_eqb stage_eqb f f' && opt_eqb stage_eqb t t'
  | KO n, KO m => Nat.eqb n m
  | _, _ => false
  end.
Definition dict := list (ckey * cval).

(** A collection object; [c_caches] maps cache names to (heap references of) dictionaries. *)
Record coll := Coll {
  c_places : list (gid * place);
  c_auto : dofdesc * dofdesc;
  c_dim : Z;
  c_caches : list (cname * nat) }.

(** The heap: collections and cache dictionaries, addressed by position.  [h_clk] counts
    refiner activity; [h_log] records (collection, geometry, stage) for every successful
    stage computation and is only used to state properties. *)
Record heap := Heap {
  h_colls : list coll;
  h_dicts : list dict;
  h_clk : nat;
  h_log : list (nat * gid * stage) }.

Definition M (A : Type) := heap -> heap * result A.
Definition ret {A : Type} (a : A) : M A := fun h => (h, Ok a).
Definition raise {A : Type} (e : exn) : M A := fun h => (h, Err e).
Definition mbind {A B : Type} (m : M A) (f : A -> M B) : M B :=
  fun h => match m h with
           | (h', Ok a) => f a h'
           | (h', Err e) => (h', Err e)
           end.
Notation "'mdo' x <- a ; b" := (mbind a (fun x => b))
  (at level 200, x pattern, a at level 100, b at level 200, right associativity).
(** [try: m except KeyError: m']. *)
Definition catch_key {A : Type} (m m' : M A) : M A :=
  fun h => match m h with
           | (h', Err KeyError) => m' h'
           | r => r
           end.
Definition lift {A : Type} (r : result A) : M A := fun h => (h, r).

Section ListSet.
Variable A : Type.
Fixpoint lset (l : list A) (i : nat) (a : A) : list A :=
  match l, i with
  | [], _ => []
  | _ :: l', 0 => a :: l'
  | x :: l', S i' => x :: lset l' i' a
  end.
End ListSet.

Definition get_coll (cid : nat) : M coll :=
  fun h => match nth_error (h_colls h) cid with Some c => (h, Ok c) | None => (h, Err AssertionError) end.

(** ** Construction *)

(** collection.py 76-78 ([_is_valid_identifier]), ASCII names only. *)
Definition is_letter (c : ascii) : bool :=
  let n := nat_of_ascii c in
  ((65 <=? n) && (n <=? 90)) || ((97 <=? n) && (n <=? 122)) || (n =? 95).
Definition is_digit (c : ascii) : bool :=
  let n := nat_of_ascii c in (48 <=? n) && (n <=? 57).
Fixpoint all_ident_chars (s : string) : bool :=
  match s with
  | EmptyString => true
  | String c s' => (is_letter c || is_digit c) && all_ident_chars s'
  end.
Definition keywords : list string :=
  ["False"; "None"; "True"; "and"; "as"; "assert"; "async"; "await"; "break"; "class";
   "continue"; "def"; "del"; "elif"; "else"; "except"; "finally"; "for"; "from"; "global";
   "if"; "import"; "in"; "is"; "lambda"; "nonlocal"; "not"; "or"; "pass"; "raise";
   "return"; "try"; "while"; "with"; "yield"]%string.
Definition valid_identifier (s : string) : bool :=
  match s with
  | EmptyString => false
  | String c s' => is_letter c && all_ident_chars s' && negb (inb s keywords)
  end.

(** The argument [auto_where]: None, a list or tuple, or a single value. *)
Inductive auto_arg := AWNone | AWSeq (l : list dd_like) | AWOne (x : dd_like).

(** execution.py 591-618 ([_prepare_auto_where]); [default]: the collection's own. *)
Definition prepare_auto_where (aw : auto_arg) (default : option (dofdesc * dofdesc)) : result (dofdesc * dofdesc) :=
  do (s, t) <- match aw with
               | AWNone => match default with
                           | None => Ok (LGeom UNNAMED_SOURCE, LGeom UNNAMED_TARGET)
                           | Some (a, b) => Ok (LDesc a, LDesc b)
                           end
               | AWSeq [a; b] => Ok (a, b)
               | AWSeq _ => Err ValueError
               | AWOne x => Ok (x, x)
               end;
  do s' <- as_dofdesc s;
  do t' <- as_dofdesc t;
  Ok (s', t').

(** The argument [places]; [ABad] is an object that is neither a place, a tuple nor a
    mapping. *)
Inductive places_arg := AOne (p : place) | ATuple (l : list place) | AMap (l : list (gid * place)) | ABad.

(** collection.py 167-191: construct the dictionary. *)
Definition places_dict (a : places_arg) (au : dofdesc * dofdesc) : result (list (gid * place) * (dofdesc * dofdesc)) :=
  let (src, tgt) := au in
  (* 171-176 *)
  let (src, tgt) := match a with
                    | AOne p => if is_qbx p then (src, src) else if is_target p then (tgt, tgt) else (src, tgt)
                    | _ => (src, tgt)
                    end in
  (* 177-191 *)
  do d <- match a with
          | AOne p => if is_discr p || is_source p
                      then Ok (dset gid_eqb [(geometry src, p)] (geometry tgt) p)
                      else Err AssertionError
          | ATuple [p; q] => Ok (dset gid_eqb [(geometry src, p)] (geometry tgt) q)
          | ATuple _ => Err ValueError
          | AMap l => Ok l
          | ABad => Err AssertionError
          end;
  Ok (d, (src, tgt)).

Definition dict_has (d : list (gid * place)) (g : gid) : bool :=
  match dget gid_eqb d g with Some _ => true | None => false end.

Definition name_ok (g : gid) : bool :=
  match g with Some (GName n) => valid_identifier n | _ => true end.

(** collection.py 193-230: validation. *)
Definition validate (d : list (gid * place)) (au : dofdesc * dofdesc) : result Z :=
  if negb (dict_has d (geometry (fst au))) then Err ValueError
  else if negb (dict_has d (geometry (snd au))) then Err ValueError
  else if negb (forallb (fun kv => name_ok (fst kv)) d) then Err ValueError
  else if negb (forallb (fun kv => is_source (snd kv) || is_target (snd kv) || is_discr (snd kv)) d) then Err TypeError
  else match map (fun kv => ambient_dim (snd kv)) d with
       | [] => Err IndexError
       | n :: ns => if forallb (opt_eqb Z.eqb n) ns
                    then match n with Some z => Ok z | None => Err AttributeError end
                    else Err RuntimeError
       end.

(** collection.py 142-236 ([__init__]); returns the address of the new collection. *)
Definition new_collection (a : places_arg) (aw : auto_arg) : M nat := fun h =>
  match (do au <- prepare_auto_where aw None;
         do (d, au') <- places_dict a au;
         do z <- validate d au';
         Ok (Coll d au' z [])) with
  | Ok c => (Heap (h_colls h ++ [c]) (h_dicts h) (h_clk h) (h_log h), Ok (length (h_colls h)))
  | Err e => (h, Err e)
  end.

(** ** Caches *)

(** collection.py 248-249 ([_get_cache], setdefault). *)
Definition get_cache (cid : nat) (name : cname) : M nat :=
  mdo c <- get_coll cid;
  match dget cname_eqb (c_caches c) name with
  | Some r => ret r
  | None => fun h =>
      let r := length (h_dicts h) in
      (Heap (lset (h_colls h) cid (Coll (c_places c) (c_auto c) (c_dim c) (dset cname_eqb (c_caches c) name r)))
            (h_dicts h ++ [[]]) (h_clk h) (h_log h), Ok r)
  end.
Definition read (r : nat) : M dict := fun h => (h, Ok (nth r (h_dicts h) [])).
Definition write (r : nat) (d : dict) : M unit := fun h =>
  (Heap (h_colls h) (lset (h_dicts h) r d) (h_clk h) (h_log h), Ok tt).

(** [cache[key]] on one of the caches, KeyError if absent. *)
Definition cache_lookup (cid : nat) (name : cname) (k : ckey) : M cval :=
  mdo r <- get_cache cid name;
  mdo d <- read r;
  match dget ckey_eqb d k with Some v => ret v | None => raise KeyError end.
(** [cache[key] = v], RuntimeError if present. *)
Definition cache_add (cid : nat) (name : cname) (k : ckey) (v : cval) : M unit :=
  mdo r <- get_cache cid name;
  mdo d <- read r;
  match dget ckey_eqb d k with
  | Some _ => raise RuntimeError
  | None => write r (dset ckey_eqb d k v)
  end.

(** collection.py 251-309. *)
Definition get_discr_from_cache (cid : nat) (g : gid) (s : stage) : M discr :=
  mdo v <- cache_lookup cid CDiscr (KD g s);
  match v with VD d => ret d | _ => raise AssertionError end.
Definition add_discr_to_cache (cid : nat) (d : discr) (g : gid) (s : stage) : M unit :=
  cache_add cid CDiscr (KD g s) (VD d).
Definition get_conn_from_cache (cid : nat) (g : gid) (f t : option stage) : M conn :=
  mdo v <- cache_lookup cid CConn (KC g f t);
  match v with VC c => ret c | _ => raise AssertionError end.
Definition add_conn_to_cache (cid : nat) (c : conn) (g : gid) (f t : option stage) : M unit :=
  cache_add cid CConn (KC g f t) (VC c).

(** collection.py 409-417 ([get_geometry]). *)
Definition get_geometry (cid : nat) (g : gid) : M place :=
  mdo c <- get_coll cid;
  match dget gid_eqb (c_places c) g with Some p => ret p | None => raise KeyError end.

(** ** Refinement on demand *)

(** Parameters of [_refine_for_global_qbx] (refinement.py 900-907, defaults 928-938). *)
Record rparams := RParams { r_length : option Q; r_curv : option Q; r_tol : Q; r_rounds : nat; r_maxiter : nat }.
Definition default_params : rparams := RParams None None (25 # 1000)%Q 0 10.

(** refinement.py 970-976 and the like: try the caches (954-957), otherwise compute and
    cache (949-951). *)
Definition stage_step (cid : nat) (g : gid) (f : option stage) (t : stage)
    (compute : nat -> discr -> result staged) (d : discr) : M discr :=
  catch_key
    (mdo d' <- get_discr_from_cache cid g t;
     mdo _ <- get_conn_from_cache cid g f (Some t);
     ret d')
    (fun h =>
       match compute (h_clk h) d with
       | Err e => (Heap (h_colls h) (h_dicts h) (S (h_clk h)) (h_log h), Err e)
       | Ok (d', c, _, clk') =>
         (mdo _ <- add_discr_to_cache cid d' g t;
          mdo _ <- add_conn_to_cache cid c g f (Some t);
          ret d')
         (Heap (h_colls h) (h_dicts h) clk' (h_log h ++ [(cid, g, t)]))
       end).

Definition stage_index (s : stage) : nat := match s with STAGE1 => 1 | STAGE2 => 2 | QUAD_STAGE2 => 3 end.

(** refinement.py 900-1013 ([_refine_for_global_qbx] with [_copy_collection=False]). *)
Definition refine_for_global_qbx (E : env) (pr : rparams) (cid : nat) (g : gid) (s : stage) : M unit :=
  mdo p <- get_geometry cid g;
  match p with
  | PQBX _ _ l =>
    mdo d <- stage_step cid g None STAGE1
       (fun clk d => refine_stage1 E l (Crit1 (r_length pr) (r_curv pr) (r_tol pr)) (r_maxiter pr) clk d) (l_density l);
    if stage_index s <? 2 then ret tt else
    mdo d <- stage_step cid g (Some STAGE1) STAGE2
       (fun clk d => refine_stage2 E l (r_rounds pr) (r_maxiter pr) clk d) d;
    if stage_index s <? 3 then ret tt else
    mdo _ <- stage_step cid g (Some STAGE2) QUAD_STAGE2
       (fun clk d => Ok (refine_quad E l clk d)) d;
    ret tt
  | _ => raise TypeError
  end.

(** collection.py 311-330 ([_get_qbx_discretization]). *)
Definition get_qbx_discretization (E : env) (cid : nat) (g : gid) (s : stage) : M discr :=
  mdo p <- get_geometry cid g;
  match p with
  | PQBX _ _ _ | PLpot _ _ _ =>
    catch_key (get_discr_from_cache cid g s)
      (mdo _ <- refine_for_global_qbx E default_params cid g s;
       get_discr_from_cache cid g s)
  | _ => raise AssertionError
  end.

(** A discretization or one of the other geometries. *)
Inductive geo := GDiscr (d : discr) | GPlace (p : place).

(** collection.py 347-364 ([_get_discretization_or_geometry]). *)
Definition get_discretization_or_geometry (E : env) (cid : nat) (g : gid) (s : option stage) : M geo :=
  let s := match s with None => STAGE1 | Some s => s end in
  mdo p <- get_geometry cid g;
  match p with
  | PQBX _ _ _ => mdo d <- get_qbx_discretization E cid g s; ret (GDiscr d)
  | PLpot _ _ d => ret (GDiscr d)
  | PDiscr d _ => ret (GDiscr d)
  | _ => ret (GPlace p)
  end.

(** collection.py 366-379 ([get_source_or_discretization]). *)
Definition get_source_or_discretization (E : env) (cid : nat) (g : gid) (s : option stage) : M geo :=
  mdo r <- get_discretization_or_geometry E cid g s;
  match r with
  | GDiscr _ | GPlace (PPointSource _ _) => ret r
  | _ => raise TypeError
  end.
(** collection.py 381-394 ([get_target_or_discretization]). *)
Definition get_target_or_discretization (E : env) (cid : nat) (g : gid) (s : option stage) : M geo :=
  mdo r <- get_discretization_or_geometry E cid g s;
  match r with
  | GDiscr _ | GPlace (PPointSource _ _) | GPlace (PPoints _ _) | GPlace (PTarget _ _) => ret r
  | _ => raise TypeError
  end.
(** collection.py 396-407 ([get_discretization]); NotADiscretizationError is a TypeError. *)
Definition get_discretization (E : env) (cid : nat) (g : gid) (s : option stage) : M discr :=
  mdo r <- get_target_or_discretization E cid g s;
  match r with GDiscr d => ret d | _ => raise TypeError end.

(** ** Copying *)

(** collection.py 419-428 ([copy]); the stored [auto_where] is a pair of descriptors. *)
Definition copy_collection (cid : nat) (places : option (list (gid * place))) (aw : auto_arg) : M nat :=
  mdo c <- get_coll cid;
  new_collection (AMap (match places with None => c_places c | Some l => l end))
    (match aw with AWNone => AWSeq [LDesc (fst (c_auto c)); LDesc (snd (c_auto c))] | a => a end).

(** collection.py 429-447 ([merge]); the other collection is given by its places. *)
Definition merge_collection (cid : nat) (places : list (gid * place)) : M nat :=
  mdo c <- get_coll cid;
  copy_collection cid (Some (dupdate gid_eqb (c_places c) places)) AWNone.

(** collection.py 480-489: the checks of add_geometry_to_collection. *)
Fixpoint check_additions (old : list (gid * place)) (new : list (gid * place)) : result unit :=
  match new with
  | [] => Ok tt
  | (g, p) :: new' =>
    if dict_has old g then Err ValueError
    else match p with
         | PPoints _ _ | PPointSource _ _ => check_additions old new'
         | _ => Err TypeError
         end
  end.
Definition known_cache (n : cname) : bool := match n with COther _ => false | _ => true end.

(** collection.py 501-512: copy the contents of the known caches. *)
Fixpoint copy_caches (cid new : nat) (names : list cname) : M unit :=
  match names with
  | [] => ret tt
  | n :: names' =>
    if known_cache n then
      mdo r' <- get_cache new n;
      mdo r <- get_cache cid n;
      mdo d <- read r;
      mdo d' <- read r';
      mdo _ <- write r' (dupdate ckey_eqb d' d);
      copy_caches cid new names'
    else copy_caches cid new names'
  end.

(** collection.py 462-509 ([add_geometry_to_collection]). *)
Definition add_geometry (cid : nat) (geoms : list (gid * place)) : M nat :=
  mdo c <- get_coll cid;
  mdo _ <- lift (check_additions (c_places c) geoms);
  mdo new <- merge_collection cid geoms;
  mdo _ <- copy_caches cid new (map fst (c_caches c));
  ret new.

(** refinement.py 1062-1080: the loop of refine_geometry_collection.  [as_dofdesc] of a
    registered identifier is applied (1063-1064). *)
Fixpoint refine_all (E : env) (pr : rparams) (cid : nat) (s : stage) (gs : list gid) : M unit :=
  match gs with
  | [] => ret tt
  | g :: gs' =>
    mdo dd <- lift (as_dofdesc (match g with None => LNone | Some x => LGeom x end));
    mdo p <- get_geometry cid (geometry dd);
    mdo _ <- (if is_qbx p then refine_for_global_qbx E pr cid (geometry dd) s else ret tt);
    refine_all E pr cid s gs'
  end.
(** refinement.py 1020-1082 ([refine_geometry_collection]). *)
Definition refine_geometry_collection (E : env) (cid : nat) (st : option stage) (rounds : option nat) (pr : rparams) : M nat :=
  let s := match st with
           | Some s => s
           | None => match rounds with Some _ => STAGE2 | None => STAGE1 end
           end in
  let pr := RParams (r_length pr) (r_curv pr) (r_tol pr) (match rounds with Some n => n | None => 0 end) (r_maxiter pr) in
  mdo new <- copy_collection cid None AWNone;
  mdo c <- get_coll new;
  mdo _ <- refine_all E pr new s (map fst (c_places c));
  ret new.

(** ** Connections *)

Definition stage_name (i : nat) : option stage :=
  match i with 0 => None | 1 => Some STAGE1 | 2 => Some STAGE2 | _ => Some QUAD_STAGE2 end.
Definition ostage_index (s : option stage) : nat := match s with None => 0 | Some s => stage_index s end.

(** dof_connection.py 243-247. *)
Fixpoint stage_conns (cid : nat) (g : gid) (from n : nat) : M (list conn) :=
  match n with
  | 0 => ret []
  | S n' =>
    mdo c <- get_conn_from_cache cid g (stage_name from) (stage_name (S from));
    mdo cs <- stage_conns cid g (S from) n';
    ret (c :: cs)
  end.

(** dof_connection.py 189-272 ([connection_from_dds]).  The DOFConnection branch (262-264)
    needs a to-granularity other than NODE and is never reached. *)
Definition connection_from_dds (E : env) (cid : nat) (from to : dofdesc) : M conn :=
  mdo lp <- get_geometry cid (geometry from);
  mdo from_discr <- get_discretization E cid (geometry from) (discr_stage from);
  mdo _ <- get_discretization E cid (geometry to) (discr_stage to);
  if negb (gid_eqb (geometry from) (geometry to)) then raise ValueError else
  if negb (gran_eqb (granularity from) NODE) then raise ValueError else
  mdo cs <- (if opt_eqb stage_eqb (discr_stage from) (discr_stage to) then ret []
             else if negb (is_qbx lp) then raise ValueError
             else if negb (opt_eqb stage_eqb (discr_stage to) (Some QUAD_STAGE2)) then raise ValueError
             else stage_conns cid (geometry from) (ostage_index (discr_stage from))
                    (ostage_index (discr_stage to) - ostage_index (discr_stage from)));
  if gran_eqb (granularity from) (granularity to) then ret (Chained from_discr cs)
  else raise ValueError.
