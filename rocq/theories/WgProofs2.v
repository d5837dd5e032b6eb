(** Lemmas for C126, C127: the rows of the operator. *)
From Coq Require Import Ring.
From Verif Require Import Base MatModel PdeModel PdeSpec WgModel WgSpec WgProofs.
Set Implicit Arguments.
Open Scope string_scope.
Open Scope list_scope.
Open Scope nat_scope.

Lemma lookup_op op x i o : key_off x = Some o -> i < length (op_interfaces op) -> lookup (unknown_index op) (x, i) = Ok (4 * i + o).
Proof.
  intros Ho Hi. rewrite unknown_index_eq, lookup_keys, Ho. cbn [andb Nat.leb].
  replace (i <? 0 + length (op_interfaces op)) with true by (symmetry; apply Nat.ltb_lt; lia). f_equal. lia.
Qed.
Lemma get_nth l i x : nth_error l i = Some x -> get l i = Ok x.
Proof. unfold get. intros ->. reflexivity. Qed.
Lemma get_map (A : Type) (f : A -> wx) l i x : nth_error l i = Some x -> get (map f l) i = Ok (f x).
Proof. intros E. apply get_nth. now rewrite nth_error_map, E. Qed.

Definition Kx (ne x : string) : wx := WCse (upper_half_square_root (WSub (wsq (WVar x)) (wsq (WVar ne)))).

Section P.
Variable W : wworld.
Hypothesis HW : wworld_ok W.
Add Ring WR : (wo_ring W HW).
Local Notation "x + y" := (radd W x y). Local Notation "x * y" := (rmul W x y).
Local Notation "x - y" := (rsub W x y). Local Notation "- x" := (ropp W x).

(** The rows as written, over the potentials' values. *)
Section Rows.
Variable c : curve W.
Variables ne n0 n1 K0 K1 : W.
Variable u : currents W.
Definition dD0 (f : W) : W := pD W c [] LAvg K0 f.
Definition dD1 (f : W) : W := pD W c [] LAvg K1 f.
Definition nS (K f : W) : W := c_nor c 0 * pS W [0] LAvg K f + c_nor c 1 * pS W [1] LAvg K f.
Definition tS (K f : W) : W := pS W [0] (LSide 1) K f * c_tan c 0 + pS W [1] (LSide 1) K f * c_tan c 1.
Definition tT (K f : W) : W := pT W c [0] (LSide 1) K f * c_tan c 0 + pT W c [1] (LSide 1) K f * c_tan c 1.
Definition vS (v : nat -> W) (K f : W) : W :=
  c_tan c 0 * pS W [] (LSide 1) K (v 0 * f) + c_tan c 1 * pS W [] (LSide 1) K (v 1 * f).
Definition T1 (K f : W) : W := pT W c [] (LSide 1) K f.
Definition S1 (K f : W) : W := pS W [] (LSide 1) K f.
Definition avg2 : W := (n0 * n0 + n1 * n1) * rinv W (of_Z W 2).

Definition row1 : W := avg2 * jt u + (n0 * n0 * dD0 (jt u) - n1 * n1 * dD1 (jt u))
  + ne * (T1 K0 (mt u) - T1 K1 (mt u))
  + im W * ((n0 * n0 - ne * ne) * S1 K0 (mz u) - (n1 * n1 - ne * ne) * S1 K1 (mz u)).
Definition row2 : W := avg2 * jz u
  - im W * ne * (n0 * n0 * vS (c_nor c) K0 (jt u) - n1 * n1 * vS (c_nor c) K1 (jt u))
  - (n0 * n0 * nS K0 (jz u) - n1 * n1 * nS K1 (jz u))
  + (im W * (tT K0 (mt u) - tT K1 (mt u)) - im W * (n0 * n0 * vS (c_tan c) K0 (mt u) - n1 * n1 * vS (c_tan c) K1 (mt u)))
  + ne * (tS K0 (mz u) - tS K1 (mz u)).
Definition row3 : W := mt u - ne * (T1 K0 (jt u) - T1 K1 (jt u))
  - im W * ((n0 * n0 - ne * ne) * S1 K0 (jz u) - (n1 * n1 - ne * ne) * S1 K1 (jz u))
  + (dD0 (mt u) - dD1 (mt u)).
Definition row4 : W := mz u
  - (im W * (tT K0 (jt u) - tT K1 (jt u)) - im W * (n0 * n0 * vS (c_tan c) K0 (jt u) - n1 * n1 * vS (c_tan c) K1 (jt u)))
  - ne * (tS K0 (jz u) - tS K1 (jz u))
  - im W * ne * (vS (c_nor c) K0 (mt u) - vS (c_nor c) K1 (mt u))
  - (nS K0 (mz u) - nS K1 (mz u)).

Hypothesis J0 : jumps W c K0.
Hypothesis J1 : jumps W c K1.
Hypothesis O : oriented W c.

Lemma half_two : rinv W (of_Z W 2) = half W.
Proof.
  assert (H : half W * of_Z W 2 = r1 W).
  { change (half W * (r1 W + r1 W) = r1 W). rewrite <- (wo_half W HW) at 3. unfold half. ring. }
  transitivity (half W * of_Z W 2 * rinv W (of_Z W 2)); [rewrite H; ring|].
  transitivity (half W * (of_Z W 2 * rinv W (of_Z W 2))); [ring|]. rewrite (wo_two W HW). ring.
Qed.
Lemma hh2 x : x = half W * x + half W * x.
Proof. transitivity ((half W + half W) * x); [rewrite (hh HW); ring|ring]. Qed.
Lemma ofZ1 : of_Z W 1 = r1 W. Proof. reflexivity. Qed.
Lemma ofZm1 : of_Z W (-1) = - r1 W. Proof. reflexivity. Qed.

Lemma D_out K f : jumps W c K -> pD W c [] (LSide 1) K f = pD W c [] LAvg K f + half W * f.
Proof. intros J. rewrite (ju_D W c K J 1%Z f (or_introl eq_refl)), ofZ1. ring. Qed.
Lemma D_in K f : jumps W c K -> pD W c [] (LSide (-1)) K f = pD W c [] LAvg K f - half W * f.
Proof. intros J. rewrite (ju_D W c K J (-1)%Z f (or_intror eq_refl)), ofZm1. ring. Qed.

Lemma row1_jump : row1 = jump W (fun l => mag W c ne n0 K0 l u 2) (fun l => mag W c ne n1 K1 l u 2).
Proof.
  unfold row1, jump. cbn [mag]. rewrite (ju_T W c K1 J1), (ju_S W c K1 J1), (D_out _ J0), (D_in _ J1).
  unfold avg2, dD0, dD1, T1, S1. rewrite half_two. ring.
Qed.
Lemma row3_jump : row3 = jump W (fun l => el W c ne n0 K0 l u 2) (fun l => el W c ne n1 K1 l u 2).
Proof.
  unfold row3, jump. cbn [el]. rewrite (ju_T W c K1 J1), (ju_S W c K1 J1), (D_out _ J0), (D_in _ J1).
  rewrite (hh2 (mt u)) at 1. unfold dD0, dD1, T1, S1. ring.
Qed.

(** The tangential component, by the potentials it is made of. *)
Lemma nor_tan l K f : jumps W c K -> c_tan c 0 * pS W [] l K (c_nor c 0 * f) + c_tan c 1 * pS W [] l K (c_nor c 1 * f)
  = c_tan c 0 * pS W [] l K (c_tan c 1 * f) - c_tan c 1 * pS W [] l K (c_tan c 0 * f).
Proof.
  intros J. destruct O as [-> ->]. replace (- c_tan c 0 * f) with (- (c_tan c 0 * f)) by ring.
  rewrite (ju_neg W c K J). ring.
Qed.
Lemma el_along n K l : jumps W c K -> along W c (el W c ne n K l u)
  = im W * along W c (fun a => pT W c [a] l K (jt u)) + ne * along W c (fun a => pS W [a] l K (jz u))
    - im W * (n * n) * (c_tan c 0 * pS W [] l K (c_tan c 0 * jt u) + c_tan c 1 * pS W [] l K (c_tan c 1 * jt u))
    + (c_nor c 0 * pS W [0] l K (mz u) + c_nor c 1 * pS W [1] l K (mz u))
    + im W * ne * (c_tan c 0 * pS W [] l K (c_nor c 0 * mt u) + c_tan c 1 * pS W [] l K (c_nor c 1 * mt u)).
Proof.
  intros J. rewrite (nor_tan l (mt u) J). destruct O as [-> ->]. unfold along. cbn [el]. ring.
Qed.
Lemma mag_along n K l : jumps W c K -> along W c (mag W c ne n K l u)
  = - (im W * along W c (fun a => pT W c [a] l K (mt u))) - ne * along W c (fun a => pS W [a] l K (mz u))
    + im W * (n * n) * (c_tan c 0 * pS W [] l K (c_tan c 0 * mt u) + c_tan c 1 * pS W [] l K (c_tan c 1 * mt u))
    + n * n * (c_nor c 0 * pS W [0] l K (jz u) + c_nor c 1 * pS W [1] l K (jz u))
    + im W * ne * (n * n) * (c_tan c 0 * pS W [] l K (c_nor c 0 * jt u) + c_tan c 1 * pS W [] l K (c_nor c 1 * jt u)).
Proof.
  intros J. rewrite (nor_tan l (jt u) J). destruct O as [-> ->]. unfold along. cbn [mag]. ring.
Qed.

Lemma N_out K f : jumps W c K -> c_nor c 0 * pS W [0] (LSide 1) K f + c_nor c 1 * pS W [1] (LSide 1) K f = nS K f - half W * f.
Proof. intros J. rewrite (ju_Sn W c K J 1%Z f (or_introl eq_refl)), ofZ1. unfold nS. ring. Qed.
Lemma N_in K f : jumps W c K -> c_nor c 0 * pS W [0] (LSide (-1)) K f + c_nor c 1 * pS W [1] (LSide (-1)) K f = nS K f + half W * f.
Proof. intros J. rewrite (ju_Sn W c K J (-1)%Z f (or_intror eq_refl)), ofZm1. unfold nS. ring. Qed.

Lemma row4_jump : row4 = - jump W (fun l => along W c (el W c ne n0 K0 l u)) (fun l => along W c (el W c ne n1 K1 l u)).
Proof.
  unfold jump. rewrite (el_along n0 (LSide 1) J0), (el_along n1 (LSide (-1)) J1).
  rewrite (N_out (mz u) J0), (N_in (mz u) J1), (ju_Tt W c K1 J1), (ju_St W c K1 J1).
  rewrite !(ju_S W c K1 J1). unfold row4. rewrite (hh2 (mz u)) at 1. unfold along, tT, tS, vS. ring.
Qed.
Lemma row2_jump : row2 = - jump W (fun l => along W c (mag W c ne n0 K0 l u)) (fun l => along W c (mag W c ne n1 K1 l u)).
Proof.
  unfold jump. rewrite (mag_along n0 (LSide 1) J0), (mag_along n1 (LSide (-1)) J1).
  rewrite (N_out (jz u) J0), (N_in (jz u) J1), (ju_Tt W c K1 J1), (ju_St W c K1 J1).
  rewrite !(ju_S W c K1 J1). unfold row2, avg2. rewrite half_two. unfold along, tT, tS, vS. ring.
Qed.
End Rows.

(** The expressions the code builds evaluate to these rows. *)
Definition nv (x : string) : W := w_var W x.
Definition kv (ne x : string) : W := wev W (Kx ne x).
Lemma operator_rows names ne itf rest l2 kvac u x0 x1 e0 e1 e2 e3 ue :
  let '(d0, d1, wh) := itf in
  let op := mk_wop (itf :: rest) (WCse (WVar ne)) (map WVar names) (map (Kx ne) names) kvac l2 in
  nth_error names d0 = Some x0 -> nth_error names d1 = Some x1 ->
  u = e0 :: e1 :: e2 :: e3 :: ue -> default_geometry W wh ->
  exists r, operator op u = Ok (Some r) /\ length r = Nat.mul 4 (length (itf :: rest))
    /\ wat W r 0 = row1 (curve_of W wh) (nv ne) (nv x0) (nv x1) (kv ne x0) (kv ne x1) (currents_of W u)
    /\ wat W r 1 = row2 (curve_of W wh) (nv ne) (nv x0) (nv x1) (kv ne x0) (kv ne x1) (currents_of W u)
    /\ wat W r 2 = row3 (curve_of W wh) (nv ne) (nv x0) (nv x1) (kv ne x0) (kv ne x1) (currents_of W u)
    /\ wat W r 3 = row4 (curve_of W wh) (nv ne) (nv x0) (nv x1) (kv ne x0) (kv ne x1) (currents_of W u)
    /\ forall i, 4 <= i < Nat.mul 4 (length (itf :: rest)) -> wat W r i = r0 W.
Proof.
  destruct itf as [[d0 d1] wh]. cbv zeta. intros N0 N1 -> G.
  set (op := mk_wop _ _ _ _ _ _).
  assert (L : forall x o, key_off x = Some o -> lookup (unknown_index op) (x, 0) = Ok o).
  { intros x o Ho. rewrite (@lookup_op op x 0 o Ho); [f_equal; lia|cbn; lia]. }
  assert (GN0 : get (op_n op) d0 = Ok (WVar x0)) by (apply get_map; exact N0).
  assert (GN1 : get (op_n op) d1 = Ok (WVar x1)) by (apply get_map; exact N1).
  assert (GK0 : get (op_K op) d0 = Ok (Kx ne x0)) by (apply get_map; exact N0).
  assert (GK1 : get (op_K op) d1 = Ok (Kx ne x1)) by (apply get_map; exact N1).
  unfold operator. change (op_interfaces op) with ((d0, d1, wh) :: rest).
  unfold operator_body. cbv zeta.
  rewrite (L "jz" 0 eq_refl), (L "jt" 1 eq_refl), (L "mz" 2 eq_refl), (L "mt" 3 eq_refl). cbn [Base.bind get nth_error].
  unfold a23_expr, opTt, opSn, opSt, opSv, symS, symD, symT, tangential_derivative, normal_derivative.
  rewrite GN0, GN1, GK0, GK1. cbn [Base.bind dax mapM tangent normal map].
  replace (repeat (wint 0) (Nat.mul 4 (length ((d0, d1, wh) :: rest))))
    with (wint 0 :: wint 0 :: wint 0 :: wint 0 :: repeat (wint 0) (Nat.mul 4 (length rest)))
    by (cbn [length]; replace (Nat.mul 4 (S (length rest))) with (S (S (S (S (Nat.mul 4 (length rest)))))) by lia; reflexivity).
  cbn [addto Base.bind]. eexists. split; [reflexivity|].
  split; [cbn [length]; rewrite repeat_length; lia|].
  assert (Gt : forall a, w_tan W DNone a = w_tan W (DGeo wh) a) by (intros; apply G).
  assert (Gn : forall a, w_nor W DNone a = w_nor W (DGeo wh) a) by (intros; apply G).
  repeat match goal with |- _ /\ _ => split end.
  5: { intros i Hi. cbn [length] in Hi. unfold wat. destruct i as [|[|[|[|i]]]]; try lia. cbn [nth].
       rewrite nth_repeat. cbn [wev wint]. rewrite (wo_int W HW). reflexivity. }
  all: unfold wat; cbn -[of_Z Kx upper_half_square_root];
    fold (kv ne x0) (kv ne x1); rewrite ?Gt, ?Gn; fold (im W); rewrite ?(wo_int W HW).
  all: unfold row1, row2, row3, row4, avg2, dD0, dD1, nS, tS, tT, vS, T1, S1, pS, pT, pD, nv, currents_of, curve_of, wat;
    cbn [c_tan c_nor jt jz mt mz nth]; change (of_Z W 0) with (r0 W); change (of_Z W 1) with (r1 W);
    change (of_Z W (-1)) with (- r1 W); change (of_Z W 2) with (r1 W + r1 W); ring.
Qed.

Lemma kv_square names ne x : In x names -> kv ne x * kv ne x = nv x * nv x - nv ne * nv ne.
Proof. intros _. exact (uhsr_square HW (WSub (wsq (WVar x)) (wsq (WVar ne)))). Qed.
End P.
