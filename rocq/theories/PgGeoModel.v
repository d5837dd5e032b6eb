(** Geometry of proxy balls over the reals: pytential/linalg/proxy.py:301-378 (reference
    points, cluster centers), 407-454 (constructor), 547-647 (cluster radii) and the point
    formula of 519-523.  Floating-point rounding is not modelled; a reduction over an empty
    cluster (npoints = 0; the kernels then produce infinities or NaNs) has no value. *)
From Coq Require Import Reals.
From Verif Require Import Base IndexModel PgModel.
Set Implicit Arguments.
Open Scope R_scope.

(** A point is the list of its coordinates. *)
Definition point := list R.
Definition rsum (l : list R) : R := fold_right Rplus 0 l.
(** [reduce(max, i, ...)] and [reduce(min, i, ...)]. *)
Definition rmax (l : list R) : option R :=
  match l with [] => None | x :: l' => Some (fold_left Rmax l' x) end.
Definition rmin (l : list R) : option R :=
  match l with [] => None | x :: l' => Some (fold_left Rmin l' x) end.

(** Euclidean distance, [sqrt(simul_reduce(sum, idim, (c[idim] - x[idim]) ** 2))]. *)
Definition dist (c x : point) : R :=
  sqrt (rsum (map (fun ab => (fst ab - snd ab) ^ 2) (combine c x))).

(** norm_type (417-421, 439-443). *)
Inductive norm_type := L2 | Linf.
Definition parse_norm (s : string) : result norm_type :=
  if String.eqb s "l2" then Ok L2 else if String.eqb s "linf" then Ok Linf else Err ValueError.

(** proxy.py:329-345, the center of a cluster given by its points; one coordinate. *)
Definition center1 (nt : norm_type) (xs : list R) : option R :=
  match nt with
  | L2 => match xs with [] => None | _ => Some (1 / INR (length xs) * rsum xs) end
  | Linf => match rmax xs, rmin xs with
            | Some bbox_max, Some bbox_min => Some ((bbox_max + bbox_min) / 2)
            | _, _ => None
            end
  end.
Definition coord (d : nat) (p : point) : R := nth d p 0.
Fixpoint opt_all (A : Type) (l : list (option A)) : option (list A) :=
  match l with
  | [] => Some []
  | Some x :: l' => match opt_all l' with Some xs => Some (x :: xs) | None => None end
  | None :: _ => None
  end.
Definition center (nt : norm_type) (ndim : nat) (pts : list point) : option point :=
  opt_all (map (fun d => center1 nt (map (coord d) pts)) (seq 0 ndim)).

(** proxy.py:547-585, ProxyGenerator: the radius of a cluster around its center. *)
Definition cluster_radius (c : point) (pts : list point) : option R := rmax (map (dist c) pts).
(** proxy.py:597-647, QBXProxyGenerator: per source its interior and exterior expansion center
    and its expansion radius. *)
Record qbx_src := QS { center_int : point; center_ext : point; exp_radius : R }.
Definition qbx_cluster_radius (c : point) (srcs : list qbx_src) : option R :=
  match rmax (map (fun s => dist c (center_int s) + exp_radius s) srcs),
        rmax (map (fun s => dist c (center_ext s) + exp_radius s) srcs) with
  | Some rqbx_int, Some rqbx_ext =>
      Some (if Rlt_dec rqbx_ext rqbx_int then rqbx_int else rqbx_ext)
  | _, _ => None
  end.

(** proxy.py:437-447, defaults. *)
Definition radius_factor (f : option R) : R := match f with Some f => f | None => 11 / 10 end.
Definition approx_nproxy (n : option nat) : nat := match n with Some n => n | None => 32%nat end.
(** proxy.py:510. *)
Definition proxy_radius (f : R) (cluster_radius : R) : R := f * cluster_radius.

(** proxy.py:519-523: [radii[i] * ref + centers[:, i]]. *)
Definition place_point (r : R) (c ref : point) : point :=
  map (fun ab => r * fst ab + snd ab) (combine ref c).

(** proxy.py:313-315, np.linspace(0, 2 pi, n, endpoint=False) and the circle. *)
Definition unit_circle (n : nat) : list point :=
  map (fun k => let t := INR k * (2 * PI / INR n) in [cos t; sin t]) (seq 0 n).
(** proxy.py:301-321; in three dimensions the points come from pytools ([sphere]). *)
Definition unit_sphere (sphere : nat -> list point) (ambient_dim : nat) (n : nat) : result (list point) :=
  match ambient_dim with
  | 2%nat => Ok (unit_circle n)
  | 3%nat => Ok (sphere n)
  | _ => Err ValueError
  end.

(** A proxy generator and its constructor (407-454). *)
Record pgen := PGen { pg_factor : R; pg_norm : norm_type; pg_ref : list point }.
Definition make_pgen (sphere : nat -> list point) (ambient_dim : nat) (approx : option nat)
    (factor : option R) (nt : string) : result pgen :=
  do n <- parse_norm nt;
  do ref <- unit_sphere sphere ambient_dim (approx_nproxy approx);
  Ok (PGen (radius_factor factor) n ref).

(** proxy.py:473-544, given the radius rule of the subclass; the centers and radii per cluster. *)
Section Call.
Variables (X : Type) (pos : X -> point) (radius : point -> list X -> option R).
Definition cluster_ball (g : pgen) (ndim : nat) (xs : list X) : option (point * (R * R)) :=
  match center (pg_norm g) ndim (map pos xs) with
  | None => None
  | Some c => match radius c xs with
              | None => None
              | Some cr => Some (c, (cr, proxy_radius (pg_factor g) cr))
              end
  end.
(** [nodes] are the flattened nodes with their data; kernels read nodes[indices[i + ioffset]].
    Returned: centers, cluster radii, radii, proxies, proxy index list. *)
Definition proxy_call (g : pgen) (ndim : nat) (nodes : list X) (dof_index : indexlist) :
    result (list point * list R * list R * (list (option point) * indexlist)) :=
  do clusters <- mapM (fun i => do ix <- cluster_indices dof_index i; mapM (pyget nodes) ix)
                      (zrange (nclusters dof_index));
  match opt_all (map (cluster_ball g ndim) clusters) with
  | None => Err ValueError             (* empty cluster, see above *)
  | Some balls =>
      let centers := map fst balls in
      let cluster_radii := map (fun b => fst (snd b)) balls in
      let radii := map (fun b => snd (snd b)) balls in
      do px <- generate_proxies (fun i ref => place_point (nth (Z.to_nat i) radii 0) (nth (Z.to_nat i) centers []) ref)
                                (pg_ref g) dof_index;
      Ok (centers, cluster_radii, radii, px)
  end.
End Call.
(** ProxyGenerator and QBXProxyGenerator. *)
Definition proxy_generator := proxy_call (fun p : point => p) cluster_radius.
Definition qbx_proxy_generator :=
  proxy_call (fun s : point * qbx_src => fst s) (fun c l => qbx_cluster_radius c (map snd l)).
