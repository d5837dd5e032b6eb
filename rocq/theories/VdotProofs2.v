From Coq Require Import Reals Lra Lia.
From Coquelicot Require Import Complex.
From Verif Require Import Base GmresModel GmresSpec GcrSpec GcrProps VdotModel VdotSpec VdotProofs VdotSpec2.
Set Implicit Arguments.

Notation sq := (fun c : C => (fst c * fst c + snd c * snd c)%R).
Notation rsum := (fold_right Rplus 0%R).

Lemma scp_add a : forall b c, length a = length b -> length a = length c ->
  sum_conj_prod a (map2 Cplus b c) = Cplus (sum_conj_prod a b) (sum_conj_prod a c).
Proof.
  induction a as [|x a IH]; intros [|y b] [|z c] H1 H2; try discriminate; simpl map2.
  - rewrite scp_nil. symmetry. apply Cplus_0_l.
  - injection H1 as H1. injection H2 as H2. rewrite !scp_cons, IH by assumption.
    change (@eq C (Cplus (Cmult (Cconj x) (Cplus y z)) (Cplus (sum_conj_prod a b) (sum_conj_prod a c)))
      (Cplus (Cplus (Cmult (Cconj x) y) (sum_conj_prod a b)) (Cplus (Cmult (Cconj x) z) (sum_conj_prod a c)))). ring.
Qed.
Lemma scp_scale k a : forall b, length a = length b ->
  sum_conj_prod a (map2 (fun x _ => Cmult k x) b b) = Cmult k (sum_conj_prod a b).
Proof.
  induction a as [|x a IH]; intros [|y b] H1; try discriminate; simpl map2.
  - rewrite scp_nil. ring.
  - injection H1 as H1. rewrite !scp_cons, IH by assumption. ring.
Qed.
Lemma scp_conj a : forall b, length a = length b -> sum_conj_prod b a = Cconj (sum_conj_prod a b).
Proof.
  induction a as [|x a IH]; intros [|y b] H1; try discriminate.
  - rewrite scp_nil. apply injective_projections; cbn; ring.
  - injection H1 as H1. rewrite !scp_cons, IH by assumption. apply injective_projections; cbn; ring.
Qed.
Lemma scp_self a : sum_conj_prod a a = RtoC (rsum (map sq a)).
Proof.
  induction a as [|x a IH]; [reflexivity|]. rewrite scp_cons, IH. simpl map. simpl fold_right.
  apply injective_projections; cbn; ring.
Qed.
Lemma rsum_pos l : Forall (fun x => 0 <= x)%R l -> (0 <= rsum l)%R.
Proof. induction 1; simpl; [lra|]. lra. Qed.
Lemma sq_pos c : (0 <= sq c)%R. Proof. nra. Qed.
Lemma sq_zero (c : C) : sq c = 0%R -> c = RtoC 0.
Proof. destruct c as [x y]; simpl. intros H. assert (x = 0%R) by nra. assert (y = 0%R) by nra. subst. reflexivity. Qed.
Lemma rsum_zero l : Forall (fun x => 0 <= x)%R l -> rsum l = 0%R -> Forall (fun x => x = 0%R) l.
Proof.
  induction 1 as [|x l Hx Hl IH]; simpl; intros H; constructor; pose proof (rsum_pos Hl); [lra|]. apply IH. lra.
Qed.

(** ** Bessel's inequality *)
Section Bessel.
Variable V : Type.
Variable vo : vops V C.
Variable dot : V -> V -> C.
Variable q : V -> R.
Hypothesis IP : inner_product cscalars vo dot q.

Lemma bessel l : ForallOrdPairs (fun u v => dot u v = RtoC 0) l -> Forall (fun u => q u <> 0%R) l ->
  forall v, (rsum (map (fun u => sq (dot u v) / q u) l) <= q v)%R.
Proof.
  induction 1 as [|u l Hu _ IH]; intros Hq v; simpl.
  - apply (ip_pos IP).
  - inversion Hq as [|? ? Q1 Q2]; subst. specialize (IH Q2).
    set (d := dot u v). set (c := Cmult (RtoC (- / q u)) d).
    set (v' := vadd vo v (vscale vo c u)).
    assert (Hd : forall w, dot w v' = Cplus (dot w v) (Cmult c (dot w u))).
    { intros w. unfold v'. rewrite (ip_add IP), (ip_scale IP). reflexivity. }
    assert (Hl : map (fun w => (sq (dot w v') / q w)%R) l = map (fun w => (sq (dot w v) / q w)%R) l).
    { apply map_ext_in. intros w Hw. rewrite Hd.
      assert (E : dot w u = RtoC 0).
      { rewrite (ip_conj IP u w). rewrite (proj1 (Forall_forall _ _) Hu w Hw). apply injective_projections; cbn; ring. }
      rewrite E. replace (Cplus (dot w v) (Cmult c (RtoC 0))) with (dot w v); [reflexivity|].
      apply injective_projections; cbn; ring. }
    specialize (IH v'). rewrite Hl in IH.
    assert (Hqv : q v' = (q v - sq d / q u)%R).
    { assert (E : dot v' v' = RtoC (q v - sq d / q u)%R).
      { rewrite Hd. rewrite (ip_conj IP v v'), (ip_conj IP u v'), !Hd.
        assert (E1 : dot v v = RtoC (q v)) by apply (ip_self IP).
        assert (E2 : dot u u = RtoC (q u)) by apply (ip_self IP).
        assert (E3 : dot v u = Cconj d) by apply (ip_conj IP).
        rewrite E1, E2, E3. change (dot u v) with d. unfold c. clearbody d. destruct d as [x y].
        apply injective_projections; cbn; field; exact Q1. }
      rewrite (ip_self IP) in E. injection E. auto. }
    rewrite Hqv in IH. fold d. lra.
Qed.

(** At most [n] orthogonal vectors, if there are [n] unit vectors [es] in which
    norms are sums of squared coefficients. *)
Lemma rsum_le A (f g : A -> R) l : (forall x, In x l -> f x <= g x)%R -> (rsum (map f l) <= rsum (map g l))%R.
Proof.
  induction l as [|x l IH]; simpl; intros H; [lra|]. pose proof (H x (or_introl eq_refl)).
  pose proof (IH (fun y Hy => H y (or_intror Hy))). lra.
Qed.
Lemma rsum_plus A (f g : A -> R) l : rsum (map (fun x => f x + g x)%R l) = (rsum (map f l) + rsum (map g l))%R.
Proof. induction l as [|x l IH]; simpl; [ring|]. rewrite IH. ring. Qed.
Lemma rsum_swap A B (f : A -> B -> R) l m :
  rsum (map (fun a => rsum (map (f a) m)) l) = rsum (map (fun b => rsum (map (fun a => f a b) l)) m).
Proof.
  induction l as [|a l IH]; simpl.
  - induction m as [|b m IHm]; simpl; [reflexivity|]. rewrite <- IHm. ring.
  - rewrite IH. rewrite <- rsum_plus. reflexivity.
Qed.
Lemma rsum_const A c (l : list A) : rsum (map (fun _ => c) l) = (INR (length l) * c)%R.
Proof. induction l as [|a l IH]; [simpl; ring|]. cbn [map fold_right length]. rewrite S_INR, IH. ring. Qed.
Lemma rsum_div A (f : A -> R) c l : rsum (map (fun x => f x / c)%R l) = (rsum (map f l) / c)%R.
Proof. induction l as [|x l IH]; simpl; [unfold Rdiv; ring|]. rewrite IH. unfold Rdiv. ring. Qed.

Lemma dim_of_basis es : (forall e, In e es -> q e = 1%R) ->
  (forall u, q u = rsum (map (fun e => sq (dot u e)) es)) ->
  dimension_at_most cscalars dot q (length es).
Proof.
  intros H1 Hp l Ho Hq.
  assert (E : rsum (map (fun u => rsum (map (fun e => sq (dot u e) / q u)%R es)) l) = INR (length l)).
  { rewrite <- (Rmult_1_r (INR (length l))), <- (rsum_const 1%R). f_equal. apply map_ext_in. intros u Hu.
    rewrite rsum_div, <- Hp. field. exact (proj1 (Forall_forall _ _) Hq u Hu). }
  rewrite rsum_swap in E.
  apply INR_le. rewrite <- E.
  apply Rle_trans with (rsum (map (fun _ => 1%R) es)).
  - apply rsum_le. intros e He. rewrite <- (H1 e He). apply bessel; assumption.
  - rewrite rsum_const. lra.
Qed.
End Bessel.

Section L.
Variable mixed : list C -> list value -> result C.
Variable actx : bool.
Variable L : layout.
Hypothesis HL : supported actx L.
Notation dd := (@default_dot L mixed actx).

Lemma default_eq (u v : vec L) : structured_vdot mixed actx (val u) (val v) = Ok (sum_conj_prod (entries (val u)) (entries (val v))).
Proof.
  apply structured_vdot_l.
  - intros xs ys E1 E2. pose proof (vec_layout u) as Hu. pose proof (vec_layout v) as Hv.
    rewrite E1 in Hu. rewrite E2 in Hv. rewrite <- Hu in Hv. discriminate Hv.
  - rewrite !vec_layout. auto.
Qed.
Lemma dd_eq u v : dd u v = sum_conj_prod (entries (val u)) (entries (val v)).
Proof. unfold default_dot. rewrite default_eq. reflexivity. Qed.

Lemma dd_ip : inner_product cscalars (vec_ops L) dd (@norm2 L).
Proof.
  constructor; intros; rewrite ?dd_eq; cbn [vadd vscale vec_ops]; rewrite ?entries_op2.
  - apply scp_add; rewrite !vec_length; reflexivity.
  - apply scp_scale; rewrite !vec_length; reflexivity.
  - apply scp_conj; rewrite !vec_length; reflexivity.
  - apply scp_self.
  - apply rsum_pos. apply Forall_forall. intros x Hx. apply in_map_iff in Hx. destruct Hx as (c & <- & _). apply sq_pos.
Qed.

Definition unit (j : nat) : vec L := vec_of L (fun i => if Nat.eqb i j then RtoC 1 else RtoC 0).
Lemma scp_units a : forall k j,
  sum_conj_prod a (map (fun i => if Nat.eqb i j then RtoC 1 else RtoC 0) (seq k (length a)))
  = if Nat.leb k j && Nat.ltb j (k + length a) then Cconj (nth (j - k) a (RtoC 0)) else RtoC 0.
Proof.
  induction a as [|x a IH]; intros k j.
  - simpl. replace (k + 0) with k by lia. destruct (Nat.leb_spec k j), (Nat.ltb_spec j k); simpl; try reflexivity; lia.
  - cbn [length seq map]. rewrite scp_cons, IH.
    destruct (Nat.eqb_spec k j) as [->|Hn].
    + rewrite Nat.sub_diag. rewrite Nat.leb_refl. replace (Nat.leb (S j) j) with false by (symmetry; apply Nat.leb_gt; lia).
      replace (Nat.ltb j (j + S (length a))) with true by (symmetry; apply Nat.ltb_lt; lia). simpl. ring.
    + replace (Nat.leb (S k) j) with (Nat.leb k j) by (destruct (Nat.leb_spec k j), (Nat.leb_spec (S k) j); try reflexivity; lia).
      replace (S k + length a) with (k + S (length a)) by lia.
      destruct (Nat.leb_spec k j); simpl; [|ring].
      destruct (Nat.ltb_spec j (k + S (length a))); [|ring].
      replace (j - k) with (S (j - S k)) by lia. simpl. ring.
Qed.
Lemma dd_unit u j : j < size L -> dd u (unit j) = Cconj (nth j (entries (val u)) (RtoC 0)).
Proof.
  intros Hj. rewrite dd_eq. unfold unit. rewrite entries_vec_of, <- (vec_length u), scp_units, Nat.sub_0_r.
  replace (Nat.ltb j (0 + length (entries (val u)))) with true; [reflexivity|].
  symmetry. apply Nat.ltb_lt. rewrite vec_length. exact Hj.
Qed.

Lemma dd_dim : dimension_at_most cscalars dd (@norm2 L) (size L).
Proof.
  pose proof (@dim_of_basis _ _ _ _ dd_ip (map unit (seq 0 (size L)))) as H.
  rewrite map_length, seq_length in H. apply H.
  - intros e He. apply in_map_iff in He. destruct He as (j & <- & Hj). apply in_seq in Hj.
    assert (E : dd (unit j) (unit j) = RtoC (norm2 (unit j))) by apply (ip_self dd_ip).
    rewrite dd_unit in E by lia. unfold unit at 1 in E. rewrite entries_vec_of in E.
    rewrite (nth_indep _ _ (if Nat.eqb 0 j then RtoC 1 else RtoC 0)) in E by (rewrite map_length, seq_length; lia).
    rewrite (map_nth (fun i => if Nat.eqb i j then RtoC 1 else RtoC 0)) in E.
    rewrite seq_nth in E by lia. simpl in E. rewrite Nat.eqb_refl in E. injection E. auto.
  - intros u. rewrite map_map. unfold norm2 at 1.
    assert (E : map (fun x => sq (dd u (unit x))) (seq 0 (size L)) = map sq (entries (val u))).
    { rewrite (map_ext_in _ (fun j => sq (nth j (entries (val u)) (RtoC 0)))).
      - rewrite <- (vec_length u). generalize (entries (val u)). intros l.
        rewrite <- map_map with (f := fun j => nth j l (RtoC 0)) (g := sq). f_equal.
        induction l as [|a l IH]; [reflexivity|]. cbn [length seq map]. f_equal.
        rewrite <- seq_shift, map_map. exact IH.
      - intros j Hj. apply in_seq in Hj. rewrite dd_unit by lia. cbn. ring. }
    rewrite E. reflexivity.
Qed.

Lemma norm2_zero (u : vec L) : norm2 u = 0%R <-> Forall (fun c => c = RtoC 0) (entries (val u)).
Proof.
  unfold norm2. split.
  - intros H. apply rsum_zero in H.
    + rewrite Forall_map in H. eapply Forall_impl; [|exact H]. intros c. apply sq_zero.
    + apply Forall_forall. intros x Hx. apply in_map_iff in Hx. destruct Hx as (c & <- & _). apply sq_pos.
  - induction 1 as [|c l -> _ IH]; simpl; [reflexivity|]. rewrite IH. ring.
Qed.

Lemma vec_module : module_laws cscalars (vec_space L).
Proof.
  constructor; intros; [reflexivity| | |]; apply vec_ext; cbn [vadd vscale vec_ops]; rewrite ?entries_op2.
  - induction (entries (val u)) as [|a l IH]; [reflexivity|]. cbn [map2]. f_equal; [cbn; ring|exact IH].
  - induction (entries (val u)) as [|a l IH]; [reflexivity|]. cbn [map2]. f_equal; [cbn; ring|exact IH].
  - induction (entries (val u)) as [|a l IH]; [reflexivity|]. cbn [map2]. f_equal; [cbn; ring|exact IH].
Qed.
End L.
