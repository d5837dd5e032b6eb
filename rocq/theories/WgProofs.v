(** Lemmas for C125-C128. *)
From Coq Require Import Ring.
From Verif Require Import Base MatModel PdeModel PdeSpec WgModel WgSpec.
Set Implicit Arguments.
Open Scope string_scope.
Open Scope list_scope.
Open Scope nat_scope.

(** ** The index of the unknowns. *)
Definition keys_at (i : nat) : list (string * nat) := [("jz", i); ("jt", i); ("mz", i); ("mt", i)].
Definition key_off (x : string) : option nat :=
  if (x =? "jz")%string then Some 0 else if (x =? "jt")%string then Some 1
  else if (x =? "mz")%string then Some 2 else if (x =? "mt")%string then Some 3 else None.

Lemma fold_index (ks : list (string * nat)) : forall acc : list ((string * nat) * nat),
  fold_left (fun r k => r ++ [(k, length r)]) ks acc = acc ++ combine ks (seq (length acc) (length ks)).
Proof.
  induction ks as [|k ks IH]; intros acc; cbn; [now rewrite app_nil_r|].
  rewrite IH, app_length. cbn. rewrite <- app_assoc. cbn. do 3 f_equal. f_equal. lia.
Qed.
Lemma keys_length n : forall s, length (flat_map keys_at (seq s n)) = 4 * n.
Proof. induction n as [|n IH]; intros s; cbn [seq flat_map]; [reflexivity|]. rewrite app_length, IH. cbn [keys_at length]. lia. Qed.
Lemma unknown_index_eq op : unknown_index op =
  combine (flat_map keys_at (seq 0 (length (op_interfaces op)))) (seq 0 (4 * length (op_interfaces op))).
Proof.
  unfold unknown_index. rewrite fold_index. cbn [app length]. rewrite <- (keys_length _ 0). reflexivity.
Qed.
Lemma lookup_keys x i n : forall s b,
  lookup (combine (flat_map keys_at (seq s n)) (seq b (4 * n))) (x, i)
  = match key_off x with
    | Some o => if (s <=? i) && (i <? s + n) then Ok (b + 4 * (i - s) + o) else Err KeyError
    | None => Err KeyError
    end.
Proof.
  induction n as [|n IH]; intros s b.
  - cbn [seq flat_map Nat.mul combine lookup]. destruct (key_off x); [|reflexivity].
    destruct ((s <=? i) && (i <? s + 0)) eqn:E; [|reflexivity].
    apply andb_prop in E. destruct E as [E1 E2]. apply Nat.leb_le in E1. apply Nat.ltb_lt in E2. lia.
  - replace (4 * S n) with (S (S (S (S (4 * n))))) by lia. cbn [seq flat_map keys_at app combine lookup key_eqb fst snd].
    unfold key_eqb; cbn [fst snd]. rewrite (IH (S s) (S (S (S (S b))))).
    rewrite (String.eqb_sym "jz" x), (String.eqb_sym "jt" x), (String.eqb_sym "mz" x), (String.eqb_sym "mt" x).
    unfold key_off.
    destruct (Nat.eqb_spec s i) as [->|Ne].
    + rewrite !andb_true_r. replace (i <=? i) with true by (symmetry; apply Nat.leb_le; lia).
      replace (i <? i + S n) with true by (symmetry; apply Nat.ltb_lt; lia).
      replace (S i <=? i) with false by (symmetry; apply Nat.leb_gt; lia). cbn [andb].
      destruct (x =? "jz")%string; [f_equal; lia|]. destruct (x =? "jt")%string; [f_equal; lia|].
      destruct (x =? "mz")%string; [f_equal; lia|]. destruct (x =? "mt")%string; [f_equal; lia|]. reflexivity.
    + rewrite !andb_false_r. cbn [andb].
      assert (E : (S s <=? i) && (i <? S s + n) = (s <=? i) && (i <? s + S n)).
      { apply Bool.eq_iff_eq_true. rewrite !andb_true_iff, !Nat.leb_le, !Nat.ltb_lt. lia. }
      rewrite E.
      destruct (x =? "jz")%string; [|destruct (x =? "jt")%string; [|destruct (x =? "mz")%string; [|destruct (x =? "mt")%string; [|reflexivity]]]];
      (destruct ((s <=? i) && (i <? s + S n)) eqn:E2; [|reflexivity];
       apply andb_prop in E2; destruct E2 as [E3 E4]; apply Nat.leb_le in E3; apply Nat.ltb_lt in E4; f_equal; lia).
Qed.

Section P.
Variable W : wworld.
Hypothesis HW : wworld_ok W.
Add Ring WR : (wo_ring W HW).
Local Notation "x + y" := (radd W x y). Local Notation "x * y" := (rmul W x y).
Local Notation "x - y" := (rsub W x y). Local Notation "- x" := (ropp W x).

Lemma num_int z : w_num W (NInt z) = of_Z W z. Proof. apply (wo_int W HW). Qed.
Lemma ii : im W * im W = - r1 W. Proof. apply (wo_i W HW). Qed.
Lemma hh : half W + half W = r1 W. Proof. apply (wo_half W HW). Qed.

(** The wave number of a domain. *)
Lemma uhsr_square x : wev W (upper_half_square_root x) * wev W (upper_half_square_root x) = wev W x.
Proof.
  cbn. destruct (wo_if W HW (w_half W (wev W x)) (w_num W NI * w_half W (- wev W x)) (w_half W (wev W x))) as [-> | ->].
  - transitivity ((w_num W NI * w_num W NI) * (w_half W (- wev W x) * w_half W (- wev W x))); [ring|].
    rewrite (wo_root W HW), (wo_i W HW). ring.
  - apply (wo_root W HW).
Qed.

(** Off the curve: Maxwell's equations. *)
Section Volume.
Variable D : nat -> W -> W.
Variable c : curve W.
Variables ne n K : W.
Variable u : currents W.
Hypothesis V : volume W D.
Hypothesis Hz : helmholtz W D K.
Hypothesis O : oriented W c.
Hypothesis HK : K * K = n * n - ne * ne.
Hypothesis Cn : constant W D n.
Hypothesis Cne : constant W D ne.

Lemma D_add m f g : D m (f + g) = D m f + D m g. Proof. apply (vo_add W D V). Qed.
Lemma D_0 m : D m (r0 W) = r0 W.
Proof.
  assert (E : D m (r0 W) + D m (r0 W) = D m (r0 W)). { rewrite <- D_add. f_equal. ring. }
  transitivity (D m (r0 W) + D m (r0 W) - D m (r0 W)); [ring|]. rewrite E. ring.
Qed.
Lemma D_opp m f : D m (- f) = - D m f.
Proof.
  assert (E : D m f + D m (- f) = r0 W). { rewrite <- D_add. rewrite <- (D_0 m). f_equal. ring. }
  transitivity (D m f + D m (- f) - D m f); [ring|]. rewrite E. ring.
Qed.
Lemma D_sub m f g : D m (f - g) = D m f - D m g.
Proof. replace (f - g) with (f + - g) by ring. rewrite D_add, D_opp. ring. Qed.
Lemma D_i m f : D m (im W * f) = im W * D m f. Proof. apply (vo_i W D V). Qed.
Lemma D_n m f : D m (n * f) = n * D m f. Proof. apply Cn. Qed.
Lemma D_ne m f : D m (ne * f) = ne * D m f. Proof. apply Cne. Qed.
Lemma D_const k l m f : constant W D k -> constant W D l -> D m (k * l * f) = k * l * D m f.
Proof. intros A B. replace (k * l * f) with (k * (l * f)) by ring. rewrite A, B. ring. Qed.

Lemma curve_maxwell : maxwell W D ne n (el W c ne n K LNone u) (mag W c ne n K LNone u).
Proof.
  destruct O as [O0 O1].
  set (a0 := pS W [] LNone K (c_tan c 0%nat * jt u)).
  set (a1 := pS W [] LNone K (c_tan c 1%nat * jt u)).
  set (a2 := pS W [] LNone K (jz u)).
  set (b0 := pS W [] LNone K (c_tan c 0%nat * mt u)).
  set (b1 := pS W [] LNone K (c_tan c 1%nat * mt u)).
  set (b2 := pS W [] LNone K (mz u)).
  assert (TJ : pT W c [] LNone K (jt u) = - (D 0%nat a0 + D 1%nat a1)) by apply (he_src W D K Hz).
  assert (TM : pT W c [] LNone K (mt u) = - (D 0%nat b0 + D 1%nat b1)) by apply (he_src W D K Hz).
  assert (N1 : forall f, pS W [] LNone K (c_nor c 1%nat * f) = - pS W [] LNone K (c_tan c 0%nat * f)).
  { intros f. rewrite O1. replace (- c_tan c 0%nat * f) with (- (c_tan c 0%nat * f)) by ring. apply (he_neg W D K Hz). }
  assert (DM : pD W c [] LNone K (mt u) = D 1%nat b0 - D 0%nat b1).
  { unfold pD. rewrite (he_src W D K Hz), N1, O0. fold b0 b1. rewrite D_opp. ring. }
  assert (DJ : pD W c [] LNone K (jt u) = D 1%nat a0 - D 0%nat a1).
  { unfold pD. rewrite (he_src W D K Hz), N1, O0. fold a0 a1. rewrite D_opp. ring. }
  assert (PT : forall m f, pT W c [m] LNone K f = D m (pT W c [] LNone K f)) by (intros; apply (he_der W D K Hz)).
  assert (PS : forall m f, pS W [m] LNone K f = D m (pS W [] LNone K f)) by (intros; apply (he_der W D K Hz)).
  assert (PDE : forall f, D 1%nat (D 1%nat (pS W [] LNone K f)) = ne * (ne * pS W [] LNone K f) - n * (n * pS W [] LNone K f) - D 0%nat (D 0%nat (pS W [] LNone K f))).
  { intros f. pose proof (he_pde W D K Hz f) as E. cbn in E. rewrite HK in E. set (s := pS W [] LNone K f) in *.
    transitivity (D 0%nat (D 0%nat s) + D 1%nat (D 1%nat s) - D 0%nat (D 0%nat s)); [ring|]. rewrite E. ring. }
  assert (Qa0 := PDE (c_tan c 0%nat * jt u)). fold a0 in Qa0.
  assert (Qa1 := PDE (c_tan c 1%nat * jt u)). fold a1 in Qa1.
  assert (Qa2 := PDE (jz u)). fold a2 in Qa2.
  assert (Qb0 := PDE (c_tan c 0%nat * mt u)). fold b0 in Qb0.
  assert (Qb1 := PDE (c_tan c 1%nat * mt u)). fold b1 in Qb1.
  assert (Qb2 := PDE (mz u)). fold b2 in Qb2.
  assert (Com : forall f, D 1%nat (D 0%nat f) = D 0%nat (D 1%nat f)) by (intros; apply (vo_comm W D V)).
  assert (I2 := ii). set (j := im W) in *.
  assert (E0 : el W c ne n K LNone u 0%nat = j * (- (D 0%nat (D 0%nat a0) + D 0%nat (D 1%nat a1))) + ne * D 0%nat a2 - j * (n * (n * a0)) - D 1%nat b2 + j * (ne * b1)).
  { cbn [el]. rewrite PT, TJ, D_opp, D_add, !PS. fold a0 a1 a2 b0 b1 b2 j. ring. }
  assert (E1 : el W c ne n K LNone u 1%nat = j * (- (D 0%nat (D 1%nat a0) + D 1%nat (D 1%nat a1))) + ne * D 1%nat a2 - j * (n * (n * a1)) + D 0%nat b2 - j * (ne * b0)).
  { cbn [el]. rewrite PT, TJ, D_opp, D_add, !PS, Com. fold a0 a1 a2 b0 b1 b2 j. ring. }
  assert (E2 : el W c ne n K LNone u 2%nat = ne * (D 0%nat a0 + D 1%nat a1) - j * (n * (n * a2) - ne * (ne * a2)) + (D 1%nat b0 - D 0%nat b1)).
  { cbn [el]. rewrite TJ, DM. fold a0 a1 a2 b0 b1 b2 j. ring. }
  assert (H0 : mag W c ne n K LNone u 0%nat = j * (D 0%nat (D 0%nat b0) + D 0%nat (D 1%nat b1)) - ne * D 0%nat b2 + j * (n * (n * b0)) - n * (n * D 1%nat a2) + j * (ne * (n * (n * a1)))).
  { cbn [mag]. rewrite PT, TM, D_opp, D_add, !PS. fold a0 a1 a2 b0 b1 b2 j. ring. }
  assert (H1 : mag W c ne n K LNone u 1%nat = j * (D 0%nat (D 1%nat b0) + D 1%nat (D 1%nat b1)) - ne * D 1%nat b2 + j * (n * (n * b1)) + n * (n * D 0%nat a2) - j * (ne * (n * (n * a0)))).
  { cbn [mag]. rewrite PT, TM, D_opp, D_add, !PS, Com. fold a0 a1 a2 b0 b1 b2 j. ring. }
  assert (H2 : mag W c ne n K LNone u 2%nat = - (ne * (D 0%nat b0 + D 1%nat b1)) + j * (n * (n * b2) - ne * (ne * b2)) + n * (n * (D 1%nat a0 - D 0%nat a1))).
  { cbn [mag]. rewrite TM, DJ. fold a0 a1 a2 b0 b1 b2 j. ring. }
  clearbody a0 a1 a2 b0 b1 b2.
  assert (Rj : forall m f, D m (j * f) = j * D m f) by apply D_i.
  split.
  - intros a Ha. destruct a as [|[|[|a]]]; [| | |lia]; cbn [rot3 D3];
    rewrite ?E0, ?E1, ?E2, ?H0, ?H1, ?H2; fold j;
    repeat rewrite ?D_add, ?D_sub, ?D_opp, ?Rj, ?D_n, ?D_ne, ?Com, ?Qa0, ?Qa1, ?Qa2, ?Qb0, ?Qb1, ?Qb2;
    ring [I2].
  - intros a Ha. destruct a as [|[|[|a]]]; [| | |lia]; cbn [rot3 D3];
    rewrite ?E0, ?E1, ?E2, ?H0, ?H1, ?H2; fold j;
    repeat rewrite ?D_add, ?D_sub, ?D_opp, ?Rj, ?D_n, ?D_ne, ?Com, ?Qa0, ?Qa1, ?Qa2, ?Qb0, ?Qb1, ?Qb2;
    ring [I2].
  - unfold div3; cbn [D3]. rewrite ?E0, ?E1, ?E2; fold j.
    repeat rewrite ?D_add, ?D_sub, ?D_opp, ?Rj, ?D_n, ?D_ne, ?Com, ?Qa0, ?Qa1, ?Qa2, ?Qb0, ?Qb1, ?Qb2. ring [I2].
  - unfold div3; cbn [D3]. rewrite ?H0, ?H1, ?H2; fold j.
    repeat rewrite ?D_add, ?D_sub, ?D_opp, ?Rj, ?D_n, ?D_ne, ?Com, ?Qa0, ?Qa1, ?Qa2, ?Qb0, ?Qb1, ?Qb2. ring [I2].
Qed.
End Volume.
End P.
