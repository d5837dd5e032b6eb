(** Model of the skeletonization wrangler: pytential/linalg/skeletonization.py:195-398
    (SkeletonizationWrangler), 401-496 (make_skeletonization_wrangler), 561-640 (evaluation of the
    interactions of one block) and 770-830 (skeletonize_by_proxy), on top of the models of
    expression preparation (SymModel, ProxyModel), proxies and neighbors (PgModel) and the
    skeletonization loop (SkModel).
    Parameters: the discretizations (nodes and quadrature weights), centers and radii of the
    proxy balls (PgGeoModel), tree and area query (boxtree), and the cluster matrix builders
    (MatClModel). The marker classes PROXY_SKELETONIZATION_SOURCE/TARGET are names here. *)
From Verif Require Import Base DofModel CollModel MatVecModel SymModel ProxyModel IndexModel MatModel PgModel SkModel.
Set Implicit Arguments.
Open Scope string_scope. Open Scope list_scope. Open Scope nat_scope.

(** direct_solver_symbolic.py:55-61. *)
Definition PROXY_SOURCE : geom := GName "PROXY_SKELETONIZATION_SOURCE".
Definition PROXY_TARGET : geom := GName "PROXY_SKELETONIZATION_TARGET".

(** matrix.py:628-843: the builder classes; [BUser] is any other class passed by the caller. *)
Inductive builder := BQbx | BP2P | BUser (n : nat).

(** "A single expression or a sequence of them" (skeletonization.py:424-432). *)
Inductive one_or_seq (A : Type) := OOne (x : A) | OSeq (l : list A).
Arguments OOne {A}. Arguments OSeq {A}.
Definition to_list {A : Type} (a : one_or_seq A) : list A := match a with OOne x => [x] | OSeq l => l end.

(** skeletonization.py:195-283. The context is not modelled: it is handed on unchanged. *)
Record wrangler := Wr {
  w_exprs : list sexpr; w_inputs : list string; w_domains : list dofdesc;
  w_neighbor_builder : builder;
  w_weighted_targets : bool; w_target_proxy_exprs : list sexpr; w_proxy_target_builder : builder;
  w_weighted_sources : bool; w_source_proxy_exprs : list sexpr; w_proxy_source_builder : builder }.

(** 273-281 *)
Definition w_nrows (w : wrangler) : nat := length (w_exprs w).
Definition w_ncols (w : wrangler) : nat := length (w_inputs w).

(** direct_solver_symbolic.py:65-92. *)
Definition prepare_exprs (ps : places) (aw : dofdesc * dofdesc) (l : list sexpr) : result (list sexpr) :=
  mapM (prepare_expr ps (fst aw) (snd aw)) l.
Definition prepare_proxy_exprs (bargs : nat -> list string) (ds dt : dofdesc) (l : list sexpr) : result (list sexpr) :=
  mapM (prepare_proxy bargs ds dt) l.

(** skeletonization.py:401-496; [default] is places.auto_where. *)
Definition make_wrangler (ps : places) (bargs : nat -> list string) (default : option (dofdesc * dofdesc))
    (exprs : one_or_seq sexpr) (inputs : one_or_seq string) (domains : domains_arg) (auto_where : auto_arg)
    (weighted_proxy : wproxy) (pxy_src_builder pxy_tgt_builder nbr_builder : option builder) : result wrangler :=
  let lpot_exprs := to_list exprs in
  let input_exprs := to_list inputs in
  do aw <- prepare_auto_where auto_where default;
  do doms <- prepare_domains (length input_exprs) domains (fst aw);
  do prepared <- prepare_exprs ps aw lpot_exprs;
  do tgt_dd <- as_dofdesc (LGeom PROXY_TARGET);
  do source_proxy_exprs <- prepare_proxy_exprs bargs (fst aw) tgt_dd prepared;
  do src_dd <- as_dofdesc (LGeom PROXY_SOURCE);
  do target_proxy_exprs <- prepare_proxy_exprs bargs src_dd (snd aw) prepared;
  do ws <- parse_weighted weighted_proxy;
  let nbr := match nbr_builder with Some b => b | None => BQbx end in
  let psrc := match pxy_src_builder with Some b => b | None => BP2P end in
  let ptgt := match pxy_tgt_builder with Some b => b | None => BQbx end in
  Ok (Wr prepared input_exprs doms nbr (snd ws) target_proxy_exprs ptgt (fst ws) source_proxy_exprs psrc).

(** list[i] of a Python list, for i >= 0. *)
Definition getn {A : Type} (l : list A) (i : nat) : result A :=
  match nth_error l i with Some x => Ok x | None => Err IndexError end.

Section Wr.
Variable R : rops.
Variables (P D : Type).
(** The collection: its places (for the checks) and its discretizations, with nodes and
    quadrature weights times area elements. *)
Variable ps : places.
Record discr := Discr { d_nodes : list P; d_waa : list R }.
Variable get_discr : dofdesc -> result discr.
(** Proxy generator: centers and radii of the balls of the clusters, the reference points. *)
Variable balls : dofdesc -> list P -> indexlist -> result (list P * list D).
Variable ref_points : list P.
Variable put : P -> D -> P -> P.        (* [radius * ref + center] *)
(** Neighbors. *)
Variables (dist : P -> P -> D) (within : D -> D -> bool).
Variables (build_tree : list P -> ptree P) (area_query : ptree P -> list P -> list D -> aquery).
Variables (dP : P) (dD : D).

(** What a builder is asked for (skeletonization.py:285-308): class, expression, the variable
    whose matrix is wanted, those set to zero, the discretization of the variable, the geometry
    added to the collection, _weighted and exclude_self (None: not passed). *)
Record what := What {
  b_class : builder; b_expr : sexpr; b_dep : string; b_others : list string; b_domain : dofdesc;
  b_added : option (geom * list (option P)); b_weighted : bool; b_exclude_self : option bool }.
(** What the builder returns for the given index lists. *)
Variable run : what -> tscl -> result (list (option R)).

(** ProxyClusterGeometryData, proxy.py:212-260. *)
Record pxydata := Pxy {
  x_dofdesc : dofdesc; x_srcindex : indexlist; x_pxyindex : indexlist;
  x_points : list (option P); x_centers : list P; x_radii : list D }.

(** proxy.py:473-544, the call of the generator on [dofdesc]. *)
Definition generate (dd : dofdesc) (dof_index : indexlist) : result pxydata :=
  do d <- get_discr dd;
  do b <- balls dd (d_nodes d) dof_index;
  let '(centers, radii) := b in
  do px <- generate_proxies (fun i r => put (nth (Z.to_nat i) centers dP) (nth (Z.to_nat i) radii dD) r)
                            ref_points dof_index;
  Ok (Pxy dd dof_index (snd px) (fst px) centers radii).
(** proxy.py:690-810 on the proxies, without tgtindex (skeletonization.py:578-580). *)
Definition gather (x : pxydata) : result indexlist :=
  do d <- get_discr (x_dofdesc x);
  gather_neighbors dist within build_tree area_query (d_nodes d) (x_srcindex x) (x_centers x) (x_radii x) None.

(** proxy.py:283-293, as_sources and as_targets, collection.py:409-417: the geometry must be a
    QBX source (of the dimension of the proxies, which the generator takes from it). *)
Definition assert_qbx (g : option geom) : result unit :=
  match find (fun np => opt_eqb geom_eqb (Some (fst np)) g) ps with
  | Some (_, PQbx) => Ok tt
  | Some _ => Err AssertionError
  | None => Err KeyError
  end.
(** collection.py:480-483: the key must be new. *)
Definition add_geometry1 (g : geom) : result unit :=
  if existsb (fun np => geom_eqb (fst np) g) ps then Err ValueError else Ok tt.

(** skeletonization.py:285-308 *)
Definition evaluate_expr (w : wrangler) (b : builder) (added : option (geom * list (option P)))
    (index : tscl) (expr : sexpr) (idomain : nat) (weighted : bool) (excl : option bool) : result (list (option R)) :=
  do domain <- getn (w_domains w) idomain;
  do _ <- get_discr domain;
  do dep <- getn (w_inputs w) idomain;
  let others := firstn idomain (w_inputs w) ++ skipn (idomain + 1) (w_inputs w) in
  run (What b expr dep others domain added weighted excl) index.

(** 312-327 *)
Definition source_neighbor (w : wrangler) (ibrow ibcol : nat) (index : tscl) : result (list (option R)) :=
  do expr <- getn (w_exprs w) ibrow;
  evaluate_expr w (w_neighbor_builder w) None index expr ibcol (w_weighted_sources w) None.
(** 329-344 *)
Definition target_neighbor (w : wrangler) (ibrow ibcol : nat) (index : tscl) : result (list (option R)) :=
  do expr <- getn (w_exprs w) ibrow;
  evaluate_expr w (w_neighbor_builder w) None index expr ibcol (w_weighted_targets w) None.
(** 350-369 *)
Definition source_proxy (w : wrangler) (x : pxydata) (ibrow ibcol : nat) (index : tscl) : result (list (option R)) :=
  do _ <- assert_qbx (geometry (x_dofdesc x));
  do _ <- add_geometry1 PROXY_TARGET;
  do expr <- getn (w_source_proxy_exprs w) ibrow;
  evaluate_expr w (w_proxy_source_builder w) (Some (PROXY_TARGET, x_points x)) index expr ibcol
    (w_weighted_sources w) (Some false).
(** 371-396, without the weights (which target_result applies). *)
Definition target_proxy (w : wrangler) (x : pxydata) (ibrow ibcol : nat) (index : tscl) : result (list (option R)) :=
  do _ <- assert_qbx (geometry (x_dofdesc x));
  do _ <- add_geometry1 PROXY_SOURCE;
  do expr <- getn (w_target_proxy_exprs w) ibrow;
  evaluate_expr w (w_proxy_target_builder w) (Some (PROXY_SOURCE, x_points x)) index expr ibcol
    false (Some false).

(** 561-592, for the sources and for the targets. *)
Definition source_side (w : wrangler) (dd : dofdesc) (cluster_index : indexlist) (ibrow ibcol : nat) : result (eval_result R) :=
  if (nclusters cluster_index =? 1)%Z then Err ValueError else
  do x <- generate dd cluster_index;
  do nbr <- gather x;
  source_result R (x_srcindex x) (x_pxyindex x) nbr
    (source_proxy w x ibrow ibcol) (source_neighbor w ibrow ibcol).
Definition target_side (w : wrangler) (dd : dofdesc) (cluster_index : indexlist) (ibrow ibcol : nat) : result (eval_result R) :=
  if (nclusters cluster_index =? 1)%Z then Err ValueError else
  do x <- generate dd cluster_index;
  do nbr <- gather x;
  do domain <- getn (w_domains w) ibcol;
  do d <- get_discr domain;
  target_result R (w_weighted_targets w) (d_waa d) (x_srcindex x) (x_pxyindex x) nbr
    (target_proxy w x ibrow ibcol) (target_neighbor w ibrow ibcol).

(** 595-640: both sides on the domain of the input. *)
Definition block_interactions (w : wrangler) (tgt_src_index : tscl) (ibrow ibcol : nat)
  : result (eval_result R * eval_result R) :=
  do dd <- getn (w_domains w) ibcol;
  do sr <- source_side w dd (sources tgt_src_index) ibrow ibcol;
  do tr <- target_side w dd (targets tgt_src_index) ibrow ibcol;
  Ok (sr, tr).

(** 770-830: the public function; weights, builders and auto_where have their defaults. *)
Definition skeletonize_operator (E : Type) (sli_eps : mat R -> E -> result (Z * list nat * mat R))
    (sli_rank : mat R -> Z -> result (list nat * mat R)) (eps_lt1 : E -> bool) (eps_int : E -> Z) (int_eps : Z -> E)
    (bargs : nat -> list string) (default : option (dofdesc * dofdesc))
    (tgt_src_index : tscl) (exprs : one_or_seq sexpr) (inputs : one_or_seq string) (domains : domains_arg)
    (id_eps : option E) (id_rank : option Z) : result (list (list (skel_result R))) :=
  do w <- make_wrangler ps bargs default exprs inputs domains AWNone WNone None None None;
  skeletonize_by_proxy sli_eps sli_rank eps_lt1 eps_int int_eps (w_nrows w) (w_ncols w) id_rank id_eps tgt_src_index
    (block_interactions w tgt_src_index).
End Wr.
