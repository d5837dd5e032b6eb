(** Lemmas for C75-C79. *)
From Coq Require Import Ring.
From Verif Require Import Base MatModel MatProofs PdeModel PdeSpec SymProofs2.
Set Implicit Arguments.
Open Scope string_scope.
Open Scope list_scope.
Open Scope nat_scope.

Lemma subset_iff a b : subset a b = true <-> (forall x, In x a -> In x b).
Proof.
  unfold subset. rewrite forallb_forall. split; intros H x Hx.
  - specialize (H x Hx). apply existsb_exists in H. destruct H as (y & Hy & E).
    apply String.eqb_eq in E. subst. auto.
  - apply existsb_exists. exists x. split; auto. apply String.eqb_refl.
Qed.

Lemma int_g_vec_Ok k d l s t ka e : int_g_vec k d l s t ka = Ok e -> e = PLp k [] l s t ka d.
Proof.
  unfold int_g_vec. destruct (negb _); [discriminate|]. destruct (negb _); [discriminate|].
  intros [= <-]. reflexivity.
Qed.

Lemma int_g_vec_total k d l s t ka : (forall x, In x (map fst ka) <-> In x (kernel_args k)) ->
  int_g_vec k d l s t ka = Ok (PLp k [] l s t ka d).
Proof.
  intros H. unfold int_g_vec.
  rewrite (proj2 (subset_iff (kernel_args k) (map fst ka))) by (intros x; apply H).
  rewrite (proj2 (subset_iff (map fst ka) (kernel_args k))) by (intros x; apply H). reflexivity.
Qed.

Lemma int_g_vec_fails k d l s t ka : ~ (forall x, In x (map fst ka) <-> In x (kernel_args k)) ->
  int_g_vec k d l s t ka = Err ValueError.
Proof.
  intros H. unfold int_g_vec.
  destruct (subset (kernel_args k) (map fst ka)) eqn:E1; simpl; auto.
  destruct (subset (map fst ka) (kernel_args k)) eqn:E2; simpl; auto.
  exfalso. apply H. intros x. rewrite subset_iff in E1, E2. split; auto.
Qed.

Lemma dset_fresh ka x v : ~ In x (map fst ka) -> dset ka x v = ka ++ [(x, v)].
Proof.
  induction ka as [|[y w] ka IH]; simpl; auto. intros H.
  destruct (String.eqb_spec x y); [subst; tauto|]. rewrite IH; tauto.
Qed.

Lemma res_src_dd ds d : res_dd ds ds d = res_src ds d.
Proof. destruct d; reflexivity. Qed.

Lemma symD_Ok k d l s t ka e : ~ In "dsource_vec" (map fst ka) -> symD k d l s t ka = Ok e ->
  e = PLp (dbl k) [] l s t (ka ++ [("dsource_vec", KVNormal s)]) (PCse d).
Proof. unfold symD. intros H E. apply int_g_vec_Ok in E. rewrite dset_fresh in E by auto. exact E. Qed.

Lemma symD_total k d l s t ka : args_match k ka ->
  symD k d l s t ka = Ok (PLp (dbl k) [] l s t (ka ++ [("dsource_vec", KVNormal s)]) (PCse d)).
Proof.
  intros (Hnd & H & Hn). unfold symD. rewrite dset_fresh by auto. apply int_g_vec_total.
  intros x. unfold kernel_args; simpl. rewrite map_app, !in_app_iff. simpl. rewrite H.
  unfold kernel_args. rewrite in_app_iff. tauto.
Qed.

Lemma symS_total k d l s t ka : args_match k ka -> symS k d l s t ka = Ok (PLp k [] l s t ka d).
Proof. intros (_ & H & _). apply int_g_vec_total; auto. Qed.

Lemma psumM_Ok n f e : psumM n f = Ok e -> forall i, i < n -> exists a, f i = Ok a.
Proof.
  revert e; induction n; simpl; intros e H i Hi; [lia|].
  apply bind_Ok in H. destruct H as (a & Ha & H). apply bind_Ok in H. destruct H as (b & Hb & H).
  destruct (Nat.eq_dec i n); [subst; eauto|]. apply IHn with (e := a); auto. lia.
Qed.

Lemma psumM_total n f : (forall i, i < n -> exists a, f i = Ok a) -> exists e, psumM n f = Ok e.
Proof.
  induction n; simpl; intros H; [eauto|]. destruct IHn as (a & Ea); [intros; apply H; lia|].
  destruct (H n) as (b & Eb); [lia|]. rewrite Ea, Eb. simpl. eauto.
Qed.

Section Ev.
Variable W : world.
Hypothesis OK : world_ok W.
Let Rth := wo_ring OK.
Add Ring Wr : Rth.

Lemma ev_psumM ds dt n f e (F : nat -> W) : psumM n f = Ok e ->
  (forall i a, i < n -> f i = Ok a -> ev W ds dt a = F i) -> ev W ds dt e = rsum W n F.
Proof.
  revert e; induction n; simpl; intros e H HF.
  - injection H as <-. simpl. rewrite (wo_int OK). reflexivity.
  - apply bind_Ok in H. destruct H as (a & Ha & H). apply bind_Ok in H. destruct H as (b & Hb & H).
    injection H as <-. simpl. rewrite (IHn a Ha), (HF n b); auto.
Qed.

Lemma ev_symS ds dt k d l s t ka e : symS k d l s t ka = Ok e ->
  ev W ds dt e = Single W (res_kargs ds ka) k l (res_src ds s) (res_tgt dt t) (ev W ds ds d).
Proof. intros H. apply int_g_vec_Ok in H. subst. reflexivity. Qed.

Lemma ev_symD ds dt k d l s t ka e : ~ In "dsource_vec" (map fst ka) -> symD k d l s t ka = Ok e ->
  ev W ds dt e = Double W (res_kargs ds ka) k l (res_src ds s) (res_tgt dt t) (ev W ds ds d).
Proof.
  intros Hn H. apply symD_Ok in H; auto. subst. simpl. unfold Double, pot, with_normal.
  unfold res_kargs. rewrite map_app. simpl. rewrite res_src_dd. reflexivity.
Qed.

Lemma ev_symSp ds dt k d l s t ka e : t <> DStage1 -> symSp k d l s t ka = Ok e ->
  ev W ds dt e = SingleN W (res_kargs ds ka) k l (res_src ds s) (res_tgt dt t) (ev W ds ds d).
Proof.
  intros Ht H. unfold symSp in H. apply bind_Ok in H. destruct H as (x & Hx & H).
  apply int_g_vec_Ok in Hx. subst x. unfold normal_derivative in H.
  apply ev_psumM with (ds := ds) (dt := dt) (1 := H). intros i a Hi Ea. simpl in Ea. injection Ea as <-.
  simpl. unfold pot. f_equal. destruct t; try reflexivity. congruence.
Qed.

Lemma ev_symDp ds dt k d l s t ka e : t <> DStage1 -> ~ In "dsource_vec" (map fst ka) -> symDp k d l s t ka = Ok e ->
  ev W ds dt e = DoubleN W (res_kargs ds ka) k l (res_src ds s) (res_tgt dt t) (ev W ds ds d).
Proof.
  intros Ht Hn H. unfold symDp in H. apply bind_Ok in H. destruct H as (x & Hx & H).
  apply symD_Ok in Hx; auto. subst x. unfold normal_derivative in H.
  apply ev_psumM with (ds := ds) (dt := dt) (1 := H). intros i a Hi Ea. simpl in Ea. injection Ea as <-.
  simpl. unfold pot, with_normal, res_kargs. rewrite map_app. simpl. rewrite res_src_dd.
  f_equal. destruct t; try reflexivity. congruence.
Qed.

Lemma ev_symSpp ds dt k d l s t ka e : t <> DStage1 -> symSpp k d l s t ka = Ok e ->
  ev W ds dt e = SingleNN W (res_kargs ds ka) k l (res_src ds s) (res_tgt dt t) (ev W ds ds d).
Proof.
  intros Ht H. unfold symSpp in H. apply bind_Ok in H. destruct H as (x & Hx & H).
  apply int_g_vec_Ok in Hx. subst x. unfold normal_second_derivative in H.
  apply ev_psumM with (ds := ds) (dt := dt) (1 := H). intros i a Hi Ea.
  apply ev_psumM with (ds := ds) (dt := dt) (1 := Ea). intros j b Hj Eb. simpl in Eb. injection Eb as <-.
  simpl. unfold pot. destruct t; try reflexivity. congruence.
Qed.

Lemma lp_zero p : w_lp W p (r0 W) = r0 W.
Proof.
  assert (H : w_lp W p (r0 W) = radd W (w_lp W p (r0 W)) (w_lp W p (r0 W))).
  { rewrite <- (wo_lp_add OK). f_equal. ring. }
  transitivity (rsub W (w_lp W p (r0 W)) (w_lp W p (r0 W))); [rewrite H at 2; ring|ring].
Qed.
Lemma lp_opp p a : w_lp W p (ropp W a) = ropp W (w_lp W p a).
Proof.
  assert (H : radd W (w_lp W p (ropp W a)) (w_lp W p a) = r0 W).
  { rewrite <- (wo_lp_add OK). rewrite <- (lp_zero p). f_equal. ring. }
  transitivity (rsub W (radd W (w_lp W p (ropp W a)) (w_lp W p a)) (w_lp W p a)); [ring|rewrite H; ring].
Qed.
Lemma lp_sub p a b : w_lp W p (rsub W a b) = rsub W (w_lp W p a) (w_lp W p b).
Proof.
  replace (rsub W a b) with (radd W a (ropp W b)) by ring. rewrite (wo_lp_add OK), lp_opp. ring.
Qed.
Lemma rsum_sub n (f g : nat -> W) : rsum W n (fun i => rsub W (f i) (g i)) = rsub W (rsum W n f) (rsum W n g).
Proof. induction n; simpl; [ring|]. rewrite IHn. ring. Qed.

Lemma DoubleN_sub ka k l s t a b : DoubleN W ka k l s t (rsub W a b) = rsub W (DoubleN W ka k l s t a) (DoubleN W ka k l s t b).
Proof.
  unfold DoubleN. rewrite <- rsum_sub. apply rsum_ext. intros i _. unfold pot. rewrite lp_sub. ring.
Qed.
Lemma SingleN_add ka k l s t a b : SingleN W ka k l s t (radd W a b) = radd W (SingleN W ka k l s t a) (SingleN W ka k l s t b).
Proof.
  unfold SingleN. rewrite <- (rsum_add W Rth). apply rsum_ext. intros i _. unfold pot. rewrite (wo_lp_add OK). ring.
Qed.

(** ** Weights *)
Lemma rinv_one : rinv W (r1 W) = r1 W.
Proof. pose proof (wo_inv OK 1) as H. simpl in H. transitivity (rmul W (r1 W) (rinv W (r1 W))); [ring|auto]. Qed.

Lemma ev_sqrt_weight ds dt o dd : ev W ds dt (get_sqrt_weight (o_l2 o) (kdim (o_kernel o)) dd) = sqrt_weight W o (res_dd ds dt dd).
Proof. unfold get_sqrt_weight, sqrt_weight. destruct (o_l2 o); simpl; auto. apply (wo_int OK). Qed.

Lemma ev_unweighted ds dt o dd u :
  ev W ds dt (PCse (PDiv u (get_sqrt_weight (o_l2 o) (kdim (o_kernel o)) dd))) = unweighted W o (res_dd ds dt dd) (ev W ds dt u).
Proof.
  cbn [ev]. rewrite ev_sqrt_weight. unfold sqrt_weight, unweighted. destruct (o_l2 o); auto.
  rewrite rinv_one. ring.
Qed.

Lemma sqrt_weight_unweighted o g f : rmul W (sqrt_weight W o g) (unweighted W o g f) = f.
Proof.
  unfold sqrt_weight, unweighted. destruct (o_l2 o); [|ring].
  pose proof (wo_sqrt_inv OK (kdim (o_kernel o)) g) as H.
  transitivity (rmul W f (rmul W (w_sqrtw W (kdim (o_kernel o)) g) (rinv W (w_sqrtw W (kdim (o_kernel o)) g)))); [ring|].
  rewrite H. ring.
Qed.

Lemma sqrt_weight_cancel o g a b : rmul W (sqrt_weight W o g) a = rmul W (sqrt_weight W o g) b -> a = b.
Proof.
  unfold sqrt_weight. destruct (o_l2 o); intros H.
  - pose proof (wo_sqrt_inv OK (kdim (o_kernel o)) g) as Hi.
    set (w := w_sqrtw W (kdim (o_kernel o)) g) in *.
    transitivity (rmul W (rinv W w) (rmul W w a)).
    + transitivity (rmul W (rmul W w (rinv W w)) a); [rewrite Hi|]; ring.
    + rewrite H. transitivity (rmul W (rmul W w (rinv W w)) b); [|rewrite Hi]; ring.
  - transitivity (rmul W (r1 W) a); [ring|]. rewrite H. ring.
Qed.

(** Minus one half times a sign. *)
Lemma opp_pos_mul n d a : rmul W (w_num W (NRat (Zneg n) d)) a = ropp W (rmul W (w_num W (NRat (Zpos n) d)) a).
Proof.
  assert (H : w_num W (NRat (Zneg n) d) = ropp W (w_num W (NRat (Zpos n) d))).
  { pose proof (wo_rat OK (Zneg n) d) as H1. pose proof (wo_rat OK (Zpos n) d) as H2. simpl in H1, H2.
    pose proof (wo_inv OK d) as Hi.
    transitivity (rmul W (rmul W (w_num W (NRat (Zneg n) d)) (of_pos W d)) (rinv W (of_pos W d))).
    - transitivity (rmul W (w_num W (NRat (Zneg n) d)) (rmul W (of_pos W d) (rinv W (of_pos W d)))); [rewrite Hi|]; ring.
    - rewrite H1. rewrite <- H2.
      transitivity (ropp W (rmul W (w_num W (NRat (Zpos n) d)) (rmul W (of_pos W d) (rinv W (of_pos W d))))); [ring|].
      rewrite Hi. ring. }
  rewrite H. ring.
Qed.

Lemma ev_jump ds dt s u :
  ev W ds dt (PMul (PMul (prat (-1) 2) (pint s)) u) = ropp W (signed W s (half W (ev W ds dt u))).
Proof.
  cbn [ev prat pint]. rewrite (wo_int OK). unfold signed, half.
  transitivity (rmul W (w_num W (NRat (-1) 2)) (rmul W (of_Z W s) (ev W ds dt u))); [ring|].
  rewrite opp_pos_mul. ring.
Qed.

Lemma ev_pmean ds dt ad dim e dd : ev W ds dt (pmean ad dim e dd) = mean_of W ad dim (res_dd ds dt dd) (ev W ds dt e).
Proof. reflexivity. Qed.

(** Division by a positive integer. *)
Lemma ev_div_pos ds dt a p : ev W ds dt (PDiv a (pint (Zpos p))) = rmul W (w_num W (NRat 1 p)) (ev W ds dt a).
Proof.
  cbn [ev pint]. rewrite (wo_int OK). simpl.
  pose proof (wo_rat OK 1 p) as H. simpl in H. pose proof (wo_inv OK p) as Hi.
  transitivity (rmul W (rmul W (w_num W (NRat 1 p)) (of_pos W p)) (rmul W (ev W ds dt a) (rinv W (of_pos W p)))).
  - rewrite H. ring.
  - transitivity (rmul W (rmul W (w_num W (NRat 1 p)) (ev W ds dt a)) (rmul W (of_pos W p) (rinv W (of_pos W p)))); [ring|].
    rewrite Hi. ring.
Qed.
End Ev.
