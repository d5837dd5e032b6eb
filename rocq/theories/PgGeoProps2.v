(** C71, sharpened: exactly which factors give proxy balls that contain their cluster. *)
From Coq Require Import Reals Lra.
From Verif Require Import Base SymProofs IndexModel IndexSpec IndexProofs IndexProofs3 IndexProps
  PgModel PgSpec PgProofs PgProofs2 PgProps PgGeoModel PgGeoSpec PgGeoProofs PgGeoProps.
Set Implicit Arguments.
Open Scope R_scope.

(** A proxy ball contains its cluster exactly if the factor is at least 1 or all points of the
    cluster coincide with the ball's center. *)
Theorem proxy_ball_contains_cluster_iff : forall g ndim nodes dof_index cs res, of_clusters cs dof_index ->
  (forall x, In x (concat cs) -> (0 <= x < zlen nodes)%Z) ->
  proxy_generator g ndim nodes dof_index = Ok res ->
  forall i cl c cr r, entry cs i cl -> ball_of i res c cr r ->
  exists xs, Forall2 (fun x p => entry nodes x p) cl xs /\
    ((forall x, In x xs -> in_ball c r x) <-> 1 <= pg_factor g \/ forall x, In x xs -> dist c x = 0).
Proof.
  intros g ndim nodes dof cs res Hcs Hn Hres i cl c cr r Hcl HB.
  destruct (proxy_balls_enclose g ndim nodes Hcs Hn Hres Hcl HB) as (xs & F & _ & [Hin Hmax] & Er & Hf & _).
  exists xs. split; [exact F|]. split.
  - intros H. destruct (Rle_dec 1 (pg_factor g)) as [L|L]; [left; exact L|right].
    apply in_map_iff in Hin. destruct Hin as (x0 & E0 & I0). specialize (H x0 I0). unfold in_ball in H.
    rewrite E0, Er in H. pose proof (dist_nonneg c x0) as D0. rewrite E0 in D0.
    assert (cr = 0) by nra.
    intros x Hx. pose proof (Hmax _ (in_map (dist c) _ _ Hx)). pose proof (dist_nonneg c x). lra.
  - intros [H|H]; [exact (Hf H)|]. intros x Hx. unfold in_ball. rewrite (H x Hx).
    apply in_map_iff in Hin. destruct Hin as (x0 & E0 & I0). rewrite (H x0 I0) in E0. rewrite Er, <- E0. lra.
Qed.
Print Assumptions proxy_ball_contains_cluster_iff.

(** The ball of [radius_factor_checked_refuted] meets the hypotheses. *)
Example proxy_ball_contains_cluster_nonvacuous : exists res c cr r,
  of_clusters [[0; 1]]%Z (IL [0; 1]%Z [0; 2]%Z) /\
  proxy_generator (PGen (1/2) Linf (unit_circle 32)) 2 two_points (IL [0; 1]%Z [0; 2]%Z) = Ok res /\ ball_of 0 res c cr r.
Proof.
  destruct (@proxy_balls_total (PGen (1/2) Linf (unit_circle 32)) 2 two_points (IL [0; 1]%Z [0; 2]%Z) [[0; 1]]%Z)
    as (res & E & H).
  - reflexivity.
  - intros x Hx. simpl in Hx. change (zlen _) with 2%Z. lia.
  - intros cl [<-|[]]; discriminate.
  - discriminate.
  - destruct (H 0%Z) as (c & cr & r & HB); [unfold zlen; simpl; lia|].
    exists res, c, cr, r. split; [reflexivity|]. split; [exact E|exact HB].
Qed.
