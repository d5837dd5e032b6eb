(** Vocabulary for C75-C79: what the expressions of PdeModel.v mean, and the facts of potential
    theory the operators are built on. *)
From Verif Require Import Base MatModel PdeModel.
Set Implicit Arguments.
Open Scope string_scope.
Open Scope list_scope.
Open Scope nat_scope.

(** ** A world: a ring of fields, and meanings for everything an expression can mention. *)

(** A layer potential with its descriptors resolved. *)
Inductive rkval := RUser (s : string) | RNormal (g : nat) | RTangent (g : nat).
Record rlp := mk_rlp { rl_kernel : kernel; rl_tds : list nat; rl_lim : lim;
                       rl_src : nat; rl_tgt : nat; rl_kargs : list (string * rkval) }.

Record world := mk_world {
  wR :> rops;
  w_var : string -> wR;
  w_num : num -> wR;
  w_jacw : nat -> nat -> wR;             (* area element times quadrature weight *)
  w_sqrtw : nat -> nat -> wR;
  w_ones : nat -> wR;
  w_int : nat -> nat -> nat -> wR -> wR; (* surface integrals *)
  w_curv : nat -> nat -> nat -> wR;      (* mean curvature *)
  w_normal : nat -> nat -> nat -> wR;    (* components of the normal *)
  w_lp : rlp -> wR -> wR }.

(** The laws every world satisfies: a commutative ring containing the rational numbers, additive
    potentials and integrals, square roots of the weights that are invertible. *)
Fixpoint of_pos (R : rops) (p : positive) : R :=
  match p with
  | xH => r1 R
  | xO q => radd R (of_pos R q) (of_pos R q)
  | xI q => radd R (r1 R) (radd R (of_pos R q) (of_pos R q))
  end.
Definition of_Z (R : rops) (z : Z) : R :=
  match z with Z0 => r0 R | Zpos p => of_pos R p | Zneg p => ropp R (of_pos R p) end.

Record world_ok (W : world) : Prop := {
  wo_ring : ring_theory (r0 W) (r1 W) (radd W) (rmul W) (rsub W) (ropp W) eq;
  wo_int : forall z, w_num W (NInt z) = of_Z W z;
  wo_rat : forall n d, rmul W (w_num W (NRat n d)) (of_pos W d) = of_Z W n;
  wo_inv : forall p, rmul W (of_pos W p) (rinv W (of_pos W p)) = r1 W;
  wo_sqrt : forall ad g, rmul W (w_sqrtw W ad g) (w_sqrtw W ad g) = w_jacw W ad g;
  wo_sqrt_inv : forall ad g, rmul W (w_sqrtw W ad g) (rinv W (w_sqrtw W ad g)) = r1 W;
  wo_lp_add : forall p a b, w_lp W p (radd W a b) = radd W (w_lp W p a) (w_lp W p b);
  wo_int_add : forall ad d g a b, w_int W ad d g (radd W a b) = radd W (w_int W ad d g a) (w_int W ad d g b) }.

(** ** Evaluation.  [ds], [dt]: the geometries that unspecified sources and targets stand for.
    The operands of a layer potential live on the source (this is what binding does, see C17). *)
Definition res_dd (ds dt : nat) (d : dofd) : nat :=
  match d with DNone => dt | DStage1 => ds | DGeo g => g end.
Definition res_src (ds : nat) (d : dofd) : nat := match d with DGeo g => g | _ => ds end.
Definition res_tgt (dt : nat) (d : dofd) : nat := match d with DGeo g => g | _ => dt end.
Definition res_kval (ds : nat) (v : kval) : rkval :=
  match v with
  | KVUser s => RUser s
  | KVNormal d => RNormal (res_dd ds ds d)
  | KVTangent d => RTangent (res_dd ds ds d)
  end.
Definition res_kargs (ds : nat) (a : list (string * kval)) : list (string * rkval) :=
  map (fun p => (fst p, res_kval ds (snd p))) a.

Fixpoint ev (W : world) (ds dt : nat) (e : pe) : W :=
  match e with
  | PVar x => w_var W x
  | PNum c => w_num W c
  | PAdd a b => radd W (ev W ds dt a) (ev W ds dt b)
  | PSub a b => rsub W (ev W ds dt a) (ev W ds dt b)
  | PMul a b => rmul W (ev W ds dt a) (ev W ds dt b)
  | PDiv a b => rmul W (ev W ds dt a) (rinv W (ev W ds dt b))
  | PNeg a => ropp W (ev W ds dt a)
  | PCse a => ev W ds dt a
  | PJacW ad d => w_jacw W ad (res_dd ds dt d)
  | PSqrtW ad d => w_sqrtw W ad (res_dd ds dt d)
  | POnes d => w_ones W (res_dd ds dt d)
  | PInt ad dim d a => w_int W ad dim (res_dd ds dt d) (ev W ds dt a)
  | PCurv ad dim d => w_curv W ad dim (res_dd ds dt d)
  | PNormal ad i d => w_normal W ad i (res_dd ds dt d)
  | PLp k tds l s t ka a =>
      w_lp W (mk_rlp k tds l (res_src ds s) (res_tgt dt t) (res_kargs ds ka)) (ev W ds ds a)
  end.

(** ** The classical potentials of a kernel on one surface [g] (or from [g] to [t]), as maps on
    fields: single and double layer, their normal derivatives, second normal derivative. *)
Section Potentials.
Variable W : world.
Variable ka : list (string * rkval).

Definition with_normal (g : nat) : list (string * rkval) := ka ++ [("dsource_vec", RNormal g)].
Definition dbl (k : kernel) : kernel := mk_kernel (kbase k) (kdirs k ++ ["dsource_vec"]).

Definition pot (k : kernel) (tds : list nat) (l : lim) (s t : nat) (a : list (string * rkval)) : W -> W :=
  w_lp W (mk_rlp k tds l s t a).
Definition Single k l s t := pot k [] l s t ka.
Definition Double k l s t := pot (dbl k) [] l s t (with_normal s).
Definition SingleN k l s t : W -> W := fun f =>
  rsum W (kdim k) (fun i => rmul W (w_normal W (kdim k) i t) (pot k [i] l s t ka f)).
Definition DoubleN k l s t : W -> W := fun f =>
  rsum W (kdim k) (fun i => rmul W (w_normal W (kdim k) i t) (pot (dbl k) [i] l s t (with_normal s) f)).
Definition SingleNN k l s t : W -> W := fun f =>
  rsum W (kdim k) (fun i => rsum W (kdim k) (fun j =>
    rmul W (rmul W (w_normal W (kdim k) i t) (w_normal W (kdim k) j t)) (pot k [i; j] l s t ka f))).

(** Half of a field. *)
Definition half (f : W) : W := rmul W (w_num W (NRat 1 2)) f.
Definition signed (s : Z) (f : W) : W := rmul W (of_Z W s) f.

(** The jump relations on the surface [g]: the exterior (+1) and interior (-1) limits of the
    single and double layer and of their normal derivatives, relative to the average of the two. *)
Definition single_continuous k g := forall s s' f, (s = 1 \/ s = -1)%Z -> (s' = 1 \/ s' = -1)%Z ->
  Single k (LSide s) g g f = Single k (LSide s') g g f.
Definition double_jump k g := forall s f, (s = 1 \/ s = -1)%Z ->
  Double k (LSide s) g g f = radd W (Double k LAvg g g f) (signed s (half f)).
Definition singleN_jump k g := forall s f, (s = 1 \/ s = -1)%Z ->
  SingleN k (LSide s) g g f = rsub W (SingleN k LAvg g g f) (signed s (half f)).
Definition doubleN_continuous k g := forall s s' f, (s = 1 \/ s = -1)%Z -> (s' = 1 \/ s' = -1)%Z ->
  DoubleN k (LSide s) g g f = DoubleN k (LSide s') g g f.
End Potentials.

(** The mean of a field over a surface. *)
Definition mean_of (W : world) (ad dim g : nat) (f : W) : W :=
  rmul W (w_int W ad dim g f) (rinv W (w_int W ad dim g (w_ones W g))).

(** The square-root weight of an operator on [g], and its reciprocal. *)
Definition sqrt_weight (W : world) (o : bvp_op) (g : nat) : W :=
  if o_l2 o then w_sqrtw W (kdim (o_kernel o)) g else r1 W.
Definition unweighted (W : world) (o : bvp_op) (g : nat) (u : W) : W :=
  if o_l2 o then rmul W u (rinv W (w_sqrtw W (kdim (o_kernel o)) g)) else u.

(** The kernel arguments supplied are those the kernel takes, each once. *)
Definition args_match (k : kernel) (ka : list (string * kval)) : Prop :=
  NoDup (map fst ka) /\ (forall x, In x (map fst ka) <-> In x (kernel_args k)) /\
  ~ In "dsource_vec" (map fst ka).
