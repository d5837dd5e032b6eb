(** Model of the methods of the data that the proxy generators return.
    /repo/pytential/linalg/proxy.py lines 214-296 ([ProxyClusterGeometryData]), 171-210
    (constructors of [ProxyPointSource] and [ProxyPointTarget]), 533-544 (what the
    generator puts in).  The arrays' values are opaque numbers [A]; the collection maps
    geometry identifiers to places. *)
From Verif Require Import Base IndexModel DofModel.
Open Scope nat_scope.
Set Implicit Arguments.

Section D.
Variable A : Type.

(** An array: of the array context, or a numpy array; of one or two dimensions; an
    object array of arrays of the array context ([centers_dev], one per axis). *)
Inductive arr :=
| Dev1 (v : list A) | Dev2 (rows : list (list A)) | DevObj (rows : list (list A))
| Host1 (v : list A) | Host2 (rows : list (list A)) | HostObj (rows : list (list A)).

(** [actx.to_numpy]: arrays of the array context (also inside of object arrays) to numpy;
    anything else is not accepted. *)
Definition to_numpy (a : arr) : result arr :=
  match a with
  | Dev1 v => Ok (Host1 v) | Dev2 r => Ok (Host2 r) | DevObj r => Ok (HostObj r)
  | _ => Err TypeError end.
(** [np.stack]: the entries along the first axis become one array; there must be
    one at least, and they must have the same shape (zero-dimensional ones make a
    one-dimensional array). *)
Definition same_length (rows : list (list A)) : bool :=
  match rows with [] => true | r :: rs => forallb (fun s => length s =? length r) rs end.
Definition np_stack (a : arr) : result arr :=
  match a with
  | Host2 [] | HostObj [] | Host1 [] => Err ValueError
  | Host2 r | HostObj r => if same_length r then Ok (Host2 r) else Err ValueError
  | Host1 v => Ok (Host1 v)
  | _ => Err TypeError end.

Record pxydata := Pxy
  { p_dd : dofdesc; p_srcindex : indexlist; p_pxyindex : indexlist;
    p_points : arr; p_centers : arr; p_radii : arr; p_cluster_radii : arr }.

(** proxy.py 275-281. *)
Definition pxy_to_numpy (d : pxydata) : result pxydata :=
  do pts0 <- to_numpy (p_points d); do pts <- np_stack pts0;
  do ctr0 <- to_numpy (p_centers d); do ctr <- np_stack ctr0;
  do rad <- to_numpy (p_radii d);
  Ok (Pxy (p_dd d) (p_srcindex d) (p_pxyindex d) pts ctr rad (p_cluster_radii d)).

(** proxy.py 264-265 ([nclusters]). *)
Definition pxy_nclusters (d : pxydata) : Z := nclusters (p_srcindex d).

(** The places of a collection: layer potential sources with QBX (and their ambient
    dimension), or anything else; [get_geometry] raises KeyError for other names. *)
Inductive place := QbxSource (id : nat) (ambient_dim : nat) | OtherPlace.
Definition collection := list (geom * place).
Fixpoint get_geometry (c : collection) (g : option geom) : result place :=
  match c with
  | [] => Err KeyError
  | (n, p) :: c' => if opt_eqb geom_eqb (Some n) g then Ok p else get_geometry c' g
  end.
(** [proxies.shape[0]]. *)
Definition shape0 (a : arr) : nat :=
  match a with Dev1 v | Host1 v => length v | Dev2 r | DevObj r | Host2 r | HostObj r => length r end.
(** ProxyPointSource and ProxyPointTarget (171-182, 198-210): the layer potential and the nodes. *)
Definition proxy_point (lpot : nat) (ambient_dim : nat) (proxies : arr) : result (nat * arr) :=
  if shape0 proxies =? ambient_dim then Ok (lpot, proxies) else Err AssertionError.
(** proxy.py 283-293. *)
Definition as_sources (c : collection) (d : pxydata) : result (nat * arr) :=
  do p <- get_geometry c (geometry (p_dd d));
  match p with QbxSource i n => proxy_point i n (p_points d) | OtherPlace => Err AssertionError end.
Definition as_targets (c : collection) (d : pxydata) : result (nat * arr) :=
  do p <- get_geometry c (geometry (p_dd d));
  match p with QbxSource i n => proxy_point i n (p_points d) | OtherPlace => Err AssertionError end.

(** proxy.py 533-544: proxies as one array, centers as an object array with an entry per
    axis, radii and cluster radii as arrays. *)
Definition generated (dd : dofdesc) (src pxy : indexlist) (proxies centers : list (list A)) (radii cluster_radii : list A) : pxydata :=
  Pxy dd src pxy (Dev2 proxies) (DevObj centers) (Dev1 radii) (Dev1 cluster_radii).
End D.
