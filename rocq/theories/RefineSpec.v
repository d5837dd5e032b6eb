(** What the refiner has to establish, in terms of elements, nodes, centers and distances. *)
From Verif Require Import Base RefineModel.
From Coq Require Import QArith Permutation.
Set Implicit Arguments.
Open Scope nat_scope.

(** Node [n] lies on element [e] (elements and nodes are numbered group by group). *)
Fixpoint owns (gs : list (nat * nat)) (e n : nat) : Prop :=
  match gs with
  | [] => False
  | (nel, nu) :: gs' =>
    (e < nel /\ e * nu <= n < e * nu + nu) \/ (nel <= e /\ nel * nu <= n /\ owns gs' (e - nel) (n - nel * nu))
  end.
Definition on_element (d : discr) (e n : nat) : Prop := owns (d_groups d) e n.

(** Violations of the criteria by element [e]. *)
Definition too_long (E : env) (k : crit1) (d : discr) (e : nat) : Prop :=
  match k_length k with Some th => (th < e_quad_res E d e)%Q | None => False end.
Definition too_curved (E : env) (k : crit1) (d : discr) (e : nat) : Prop :=
  match k_curv k with Some th => (th < e_curvature E d e)%Q | None => False end.
(** A source is too close to center [c], one of the two centers of a node of [e]. *)
Definition disturbed (E : env) (k : crit1) (d : discr) (e : nat) : Prop :=
  exists c s, on_element d e (c / 2) /\ s < ndofs d
    /\ (e_dist E (e_center E d c) (e_node E d s) <= (1 - k_tol k) * e_radius E d (c / 2))%Q.
(** A quadrature node of [e] has an expansion center in its danger zone. *)
Definition under_resolved (E : env) (d1 d2 q : discr) (e : nat) : Prop :=
  exists s c, on_element q e s /\ c < 2 * ndofs d1
    /\ (e_dist E (e_node E q s) (e_center E d1 c) <= e_danger E d2 e)%Q.

(** What one round of stage 1 refines: elements violating a simple criterion if there are
    any, otherwise elements with a disturbed expansion disk. *)
Definition stage1_target (E : env) (k : crit1) (d : discr) (e : nat) : Prop :=
  let simple e := too_long E k d e \/ too_curved E k d e in
  simple e \/ ((forall e', e' < nelements d -> ~ simple e') /\ disturbed E k d e).

Definition stage1_criteria_hold (E : env) (k : crit1) (d : discr) : Prop :=
  forall e, e < nelements d -> ~ too_long E k d e /\ ~ too_curved E k d e /\ ~ disturbed E k d e.
Definition stage2_criterion_holds (E : env) (d1 d2 q : discr) : Prop :=
  forall e, e < nelements d2 -> ~ under_resolved E d1 d2 q e.

(** Contracts of the surroundings: every work item runs exactly once, in any order; element
    groups have unit DOFs; box lists contain only existing particles and the area query
    reaches all particles of the ball. *)
Definition schedules_ok (E : env) : Prop := forall n, Permutation (e_order E n) (seq 0 n).
Definition proper (d : discr) : Prop := Forall (fun g => 0 < snd g) (d_groups d).
Definition tree1_ok (E : env) (tol : Q) (d : discr) (t : tree) : Prop :=
  (forall b s, In s (t_sources t b) -> s < ndofs d)
  /\ (forall c s, c < 2 * ndofs d -> s < ndofs d ->
       (e_dist E (e_center E d c) (e_node E d s) <= (1 - tol) * e_radius E d (c / 2))%Q ->
       exists b, In b (t_visit t c) /\ In s (t_sources t b)).
Definition tree2_ok (E : env) (d1 d2 q : discr) (t : tree) : Prop :=
  (forall b c, In c (t_centers t b) -> c < 2 * ndofs d1)
  /\ (forall s c e, on_element q e s -> c < 2 * ndofs d1 ->
       (e_dist E (e_node E q s) (e_center E d1 c) <= e_danger E d2 e)%Q ->
       exists b, In b (t_visit t s) /\ In c (t_centers t b)).

Definition flagged (flags : list bool) (e : nat) : Prop := nth e flags false = true.

(** A connection whose links fit together. *)
Inductive links_from : discr -> list conn -> discr -> Prop :=
| links_nil d : links_from d [] d
| links_cons d c ls d' : conn_from c = d -> links_from (conn_to c) ls d' -> links_from d (c :: ls) d'.

Definition connects (c : conn) (a b : discr) : Prop :=
  conn_from c = a /\ conn_to c = b
  /\ match c with Chained _ ls => links_from a ls b | _ => True end.

(** The refiner was called with exactly the elements satisfying [target]. *)
Definition exact_round (target : discr -> nat -> Prop) (c : conn) : Prop :=
  exists d d' flags, c = RefConn d d' flags /\ length flags = nelements d
    /\ forall e, e < nelements d -> (flagged flags e <-> target d e).
