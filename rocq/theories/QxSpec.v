(** What executing statements with a QBX source has to guarantee over the source's lifetime. *)
From Coq Require Import QArith.
From Verif Require Import Base RefineModel RefineSpec AssocModel AssocSpec FmmModel FmmSpec QxModel.
Set Implicit Arguments.
Open Scope nat_scope.

(** Events of a log. *)
Definition times (p : event -> bool) (l : list event) : nat := length (filter p l).
Definition is_warn (e : event) : bool := match e with EWarn => true | _ => false end.
Definition is_inspect (e : event) : bool := match e with EInspect _ => true | _ => false end.
Definition is_run (m : mode) (e : event) : bool :=
  match m, e with Exec, EDrive _ => true | Cost, ECost _ => true | _, _ => false end.
Definition is_tree_work (e : event) : bool :=
  match e with ETree _ _ | ETrav _ _ | EIndep _ _ => true | _ => false end.

(** Two pieces of work are the same if they are done for the same geometry data, or the same
    kernels: [same_work e e'] says that [e'] repeats the work of [e].  A failed association is
    no work that is kept. *)
Definition same_work (e e' : event) : Prop :=
  match e, e' with
  | EGeo k, EGeo k' => k = k'
  | EAssoc k true, EAssoc k' _ => k = k'
  | ETree k _, ETree k' _ => k = k'
  | ETrav k _, ETrav k' _ => k = k'
  | EIndep sk tk, EIndep sk' tk' => sk = sk' /\ tk = tk'
  | _, _ => False
  end.

(** The inputs of the tree builder for source [q], target groups [ts] and association [assoc]
    (one entry per target that is not a center). *)
Record tree_inputs (extent : bool) (q : qsource) (ts : list (list pt * Z)) (assoc : list (option nat)) (a : tree_args) : Prop := {
  ti_nsrc : ta_nsrc a = q_nquad q;
  ti_targets : ta_targets a = q_ctr q ++ concat (map fst ts);
  ti_weights : length (ta_weights a) = ta_nsrc a + length (ta_targets a);
  (* sources and centers count *)
  ti_heavy : forall i, i < ta_nsrc a + length (q_ctr q) -> nth i (ta_weights a) 0%Z = 1%Z;
  (* other targets count iff they use no center *)
  ti_other : forall i, i < length (concat (map fst ts)) ->
    nth (ta_nsrc a + length (q_ctr q) + i) (ta_weights a) 0%Z = match nth i assoc None with None => 1%Z | Some _ => 0%Z end;
  (* only centers have an extent, and only if asked for *)
  ti_radii : match ta_radii a with
    | None => extent = false
    | Some r => extent = true /\ length r = length (ta_targets a)
        /\ (forall c, c < length (q_ctr q) -> nth c r 0%Q = q_radius q c)
        /\ (forall u, length (q_ctr q) <= u -> nth u r 0%Q = 0%Q) end }.

(** Contract of boxtree for well-formed inputs. *)
Definition builder_ok (W : world) (extent : bool) : Prop :=
  forall a, length (ta_weights a) = ta_nsrc a + length (ta_targets a) ->
    fmm_ok (w_build W a) (w_trav W (w_build W a) extent)
    /\ ft_ntgt (w_build W a) = length (ta_targets a) /\ ft_nsrc (w_build W a) = ta_nsrc a.

(** States of a source: a new one, and those reached by executing statements. *)
Definition after (W : world) (C : settings) (l : list (mode * insn * bexpr)) : state := fst (session W C l fresh).
(** A source on which nothing is memoized, whose inspector has been asked [n] times. *)
Definition unused (n : nat) : state := St [] [] n [].
(** The inspector always answers the same. *)
Definition steady (C : settings) : Prop := match c_inspector C with None => True | Some f => forall n, f n = f 0 end.

(** The source kernels have base kernel [base]. *)
Definition same_base (W : world) (sk : list nat) (base : nat) : Prop := sk <> [] /\ forall k, In k sk -> w_base W k = base.
(** The FMM backend can treat the kernels. *)
Definition backend_takes (W : world) (C : settings) (sk tk : list nat) (base : nat) : Prop :=
  (c_backend C = "sumpy"%string /\ c_tsqbx C <> Some true /\ w_invariant W base = true)
  \/ (c_backend C = "fmmlib"%string /\ exists x, sk = [x] /\ w_fmmlib W sk tk (c_tsqbx C) = None).
