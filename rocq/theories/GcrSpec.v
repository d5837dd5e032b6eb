(** Vocabulary for the convergence of GMRES: scalars with conjugation (the real and the
    complex numbers), inner products, definite operators, Krylov spaces. *)
From Coq Require Import Reals Lra Ring.
From Verif Require Import Base GmresModel GmresSpec.
Set Implicit Arguments.

Record scalars (K : Type) := Scalars {
  k0 : K; k1 : K; kadd : K -> K -> K; kmul : K -> K -> K; ksub : K -> K -> K; kopp : K -> K;
  k_ring : ring_theory k0 k1 kadd kmul ksub kopp eq;
  kconj : K -> K;
  of_real : R -> K;
  kabs2 : K -> R;                                            (* |c|^2 *)
  conj_add : forall c d, kconj (kadd c d) = kadd (kconj c) (kconj d);
  conj_mul : forall c d, kconj (kmul c d) = kmul (kconj c) (kconj d);
  conj_conj : forall c, kconj (kconj c) = c;
  conj_real : forall x, kconj (of_real x) = of_real x;
  real_add : forall x y, of_real (x + y)%R = kadd (of_real x) (of_real y);
  real_mul : forall x y, of_real (x * y)%R = kmul (of_real x) (of_real y);
  real_one : of_real 1%R = k1;
  real_inj : forall x y, of_real x = of_real y -> x = y;
  abs2_spec : forall c, kmul c (kconj c) = of_real (kabs2 c);
  abs2_pos : forall c, (0 <= kabs2 c)%R;
  abs2_zero : forall c, kabs2 c = 0%R -> c = k0 }.
Definition kabs (K : Type) (sc : scalars K) (c : K) : R := sqrt (kabs2 sc c).

Section Space.
Variables V K : Type.
Variable sc : scalars K.
Variable vo : vops V K.

(** A vector space over [K]. *)
Record module_laws (vs : vspace vo) : Prop := ModuleLaws {
  m_zero : kzero vo = k0 sc;
  m_one : forall u, vscale vo (k1 sc) u = u;
  m_mul : forall c d u, vscale vo c (vscale vo d u) = vscale vo (kmul sc c d) u;
  m_add : forall c d u, vscale vo (kadd sc c d) u = vadd vo (vscale vo c u) (vscale vo d u) }.

(** An inner product, linear in its second argument (as [numpy.vdot]); [q u] is the
    square of the norm. *)
Record inner_product (dot : V -> V -> K) (q : V -> R) : Prop := InnerProduct {
  ip_add : forall u v w, dot u (vadd vo v w) = kadd sc (dot u v) (dot u w);
  ip_scale : forall c u v, dot u (vscale vo c v) = kmul sc c (dot u v);
  ip_conj : forall u v, dot v u = kconj sc (dot u v);
  ip_self : forall u, dot u u = of_real sc (q u);
  ip_pos : forall u, (0 <= q u)%R }.
(** gmres.py 190-191: [np.sqrt(abs(dot(x, x)))]. *)
Definition gnorm (dot : V -> V -> K) (x : V) : R := sqrt (kabs sc (dot x x)).
(** [1/norm(w)]. *)
Definition ginv (n : R) : K := of_real sc (/ n)%R.

(** The subspace generated by the vectors in [P]. *)
Inductive span (vs : vspace vo) (P : V -> Prop) : V -> Prop :=
| sp_zero : span vs P (vzero vs)
| sp_in : forall u, P u -> span vs P u
| sp_scale : forall c u, span vs P u -> span vs P (vscale vo c u)
| sp_add : forall u v, span vs P u -> span vs P v -> span vs P (vadd vo u v).
(** The vectors [r, A r, ..., A^(m-1) r]. *)
Definition krylov (A : V -> V) (r : V) (m : nat) (u : V) : Prop := exists j, j < m /\ u = Nat.iter j A r.

(** Only the zero vector has a zero product with its image. *)
Definition definite (A : V -> V) (dot : V -> V -> K) (q : V -> R) : Prop :=
  forall u, dot u (A u) = k0 sc -> q u = 0%R.
(** [|<u, A u>| >= alpha |u|^2] and [|A u| <= beta |u|]. *)
Definition coercive (A : V -> V) (dot : V -> V -> K) (q : V -> R) (alpha beta : R) : Prop :=
  (0 < alpha)%R /\ (0 < beta)%R
  /\ (forall u, alpha * q u <= kabs sc (dot u (A u)))%R
  /\ (forall u, q (A u) <= beta ^ 2 * q u)%R.
(** At most [n] nonzero vectors are pairwise orthogonal. *)
Definition dimension_at_most (dot : V -> V -> K) (q : V -> R) (n : nat) : Prop :=
  forall l, ForallOrdPairs (fun u v => dot u v = k0 sc) l -> Forall (fun u => q u <> 0%R) l -> length l <= n.
End Space.

(** Exact comparisons of real numbers. *)
Definition exact_comparisons (no : nops R) : Prop :=
  (forall x y, nltb no x y = true <-> (x < y)%R) /\ (forall x, niszero no x = true <-> x = 0%R)
  /\ (forall x y, nmul no x y = (x * y)%R) /\ (forall x y, ndiv no x y = (x / y)%R) /\ n125 no = (5 / 4)%R.
