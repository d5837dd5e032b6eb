(** C112: symbolic layer potentials and vector calculus mean what they say.
    C113: the operands for which they do not. *)
From Coq Require Import Reals Setoid Ring InitialRing Permutation.
From Verif Require Import Base DofModel GeoModel GeoSpec GeoProofs CtorModel CtorSpec CtorProofs SymSpec
  LpModel LpSpec LpProofs LpProofs2 LpProofs3 LpProofs4 LpProofs5 LpProofs6 LpProofs7 LpProofs8 LpProofs9 LpProofs10.
Set Implicit Arguments.
Open Scope string_scope.
Open Scope list_scope.
Open Scope nat_scope.

Lemma Forall2_In_l {A B : Type} (R : A -> B -> Prop) l l' x : Forall2 R l l' -> In x l ->
  exists y, In y l' /\ R x y.
Proof.
  induction 1 as [|a b l l' H _ IH]; intros X; [contradiction|]. destruct X as [<-|X].
  - exists b. split; [left; reflexivity|exact H].
  - destruct (IH X) as (y & I1 & I2). exists y. split; [right; exact I1|exact I2].
Qed.

Section Props.
Variable C : calculus.
Notation R := (dr_car (cr C)).
Notation "x +! y" := (dr_add (cr C) x y) (at level 50, left associativity).
Notation "x *! y" := (dr_mul (cr C) x y) (at level 40, left associativity).
Notation "-! x" := (dr_opp (cr C) x) (at level 35, right associativity).
Notation d := (dr_d (cr C)).

Add Ring Rr : (dr_ring (cr C)).

(** ** Vector calculus *)
Theorem axis_derivative_is_derivative : forall id axis adim e r,
  pure e -> dd_axis id axis adim e = Ok r -> axis < adim /\ pure r /\ value C r = d axis (value C e).
Proof.
  intros id axis adim e r P H. split.
  - unfold dd_axis in H. destruct (Nat.ltb_spec axis adim); [assumption|discriminate].
  - exact (@dd_axis_val C id axis adim e r _ P H).
Qed.
Theorem gradient_is_gradient : forall id adim e l,
  pure e -> grad id adim e = Ok l ->
  length l = adim /\ forall i, i < adim -> exists r, nth_error l i = Some r /\ pure r /\ value C r = d i (value C e).
Proof.
  intros id adim e l P H. destruct (@grad_spec C id adim e l P H) as [L F]. split; [exact L|].
  intros i Hi. destruct (F i (fun _ _ => dr_0 (cr C)) Hi) as (r & A & _ & B & D'). exists r. auto.
Qed.
Theorem laplacian_is_laplacian : forall id adim e r,
  pure e -> laplace id adim e = Ok r ->
  pure r /\ value C r = sum_axes C adim (fun i => d i (d i (value C e))).
Proof. intros id adim e r P H. exact (@laplace_val C id adim e r _ P H). Qed.
Theorem divergence_is_divergence : forall id v r,
  Forall pure v -> div id v = Ok r ->
  pure r /\ value C r = sum_axes C (length v) (fun i => d i (value C (nth i v (EQ 0)))).
Proof. intros id v r P H. exact (@div_val C id v r _ P H). Qed.
Theorem curl_is_curl : forall id v0 v1 v2 rest l,
  Forall pure (v0 :: v1 :: v2 :: rest) -> curl id (v0 :: v1 :: v2 :: rest) = Ok l ->
  map (value C) l = [ d 1 (value C v2) +! -! d 2 (value C v1);
                      d 2 (value C v0) +! -! d 0 (value C v2);
                      d 0 (value C v1) +! -! d 1 (value C v0) ] /\ Forall pure l.
Proof.
  intros id v0 v1 v2 rest l P H. destruct (@curl_val C id _ l (fun _ _ => dr_0 (cr C)) P H) as (L & _ & F).
  destruct l as [|a [|b [|c [|]]]]; try discriminate L.
  destruct (F 0 ltac:(lia)) as (r0 & E0 & P0 & V0). destruct (F 1 ltac:(lia)) as (r1 & E1 & P1 & V1).
  destruct (F 2 ltac:(lia)) as (r2 & E2 & P2 & V2).
  cbn in E0, E1, E2. injection E0 as <-. injection E1 as <-. injection E2 as <-.
  split; [|repeat constructor; assumption].
  cbn [map]. unfold value in *. rewrite V0, V1, V2.
  cbn [seq list_prod map app fst snd nth levi_civita rsum fold_right]. unfold c_int. cbn [gen_phiZ gen_phiPOS].
  f_equal; [|f_equal; [|f_equal]]; ring.
Qed.
Theorem curl_needs_three : forall id v l, curl id v = Ok l -> 3 <= length v.
Proof.
  intros id v l H. destruct (Nat.le_gt_cases 3 (length v)) as [L|L]; [exact L|exfalso].
  unfold curl in H. cbn [seq mapM] in H.
  match type of H with bind (bind (mapM ?f ?x) _) _ = _ => destruct (mapM f x) as [ts|] eqn:E end; [|discriminate].
  apply mapM_Ok in E. assert (X : In (0, 2) (list_prod (seq 0 3) (seq 0 3))) by (cbn; tauto).
  destruct (@Forall2_In_l _ _ _ _ _ (0, 2) E X) as (y & _ & Y). cbn [snd] in Y.
  rewrite (proj2 (nth_error_None v 2)) in Y by lia. discriminate.
Qed.
Lemma curl_success id v : 3 <= length v -> Forall pure v -> Forall takable v -> exists l, curl id v = Ok l.
Proof.
  intros L P T. destruct v as [|a [|b [|c v]]]; cbn [length] in L; try lia.
  assert (X : forall i x, i < 3 -> In x [a; b; c] -> exists r, dd_axis id i 3 x = Ok r).
  { intros i x Hi Hx. rewrite Forall_forall in P, T. assert (In x (a :: b :: c :: v)) by (cbn in *; tauto).
    apply (@dd_axis_ok C); auto. }
  unfold curl. cbn [seq list_prod map app mapM fst snd nth_error bind].
  repeat match goal with |- context [dd_axis id ?i 3 ?x] =>
    let r := fresh "r" in let E := fresh in destruct (X i x ltac:(lia) ltac:(cbn; tauto)) as [r E]; rewrite E; cbn [bind] end.
  eexists. reflexivity.
Qed.

(** Potentials and their linear combinations with constant coefficients can be
    differentiated. *)
Theorem combinations_have_derivatives : forall id adim e, combination e ->
  (forall axis, axis < adim -> exists r, dd_axis id axis adim e = Ok r) /\ (exists l, grad id adim e = Ok l).
Proof.
  intros id adim e H. pose proof (combination_pure H) as P. pose proof (@combination_takable C e H) as T. split.
  - intros axis Ha. apply (@dd_axis_ok C); assumption.
  - apply (@grad_ok C); assumption.
Qed.
Theorem combinations_have_div_and_curl : forall id v, Forall combination v ->
  (exists r, div id v = Ok r) /\ (3 <= length v -> exists l, curl id v = Ok l).
Proof.
  intros id v H. assert (P : Forall pure v) by (eapply Forall_impl; [intros a; apply combination_pure|exact H]).
  assert (T : Forall takable v) by (eapply Forall_impl; [intros a; apply (@combination_takable C)|exact H]). split.
  - apply (@div_ok C); assumption.
  - intros L. apply curl_success; assumption.
Qed.
Theorem potentials_have_laplacians : forall id adim e, is_potential e -> exists r, laplace id adim e = Ok r.
Proof. intros id adim e H. destruct e; try contradiction. apply (@laplace_ok C). exact H. Qed.

(** ** Derivatives of several expressions at once
    A factor of a product may contain several derivative sources only if they belong to
    the same derivative; otherwise it is refused. *)
Lemma bind_children_sources cs is_ ts r : bind_children cs is_ ts = Ok r ->
  forall i, In i is_ -> forall a b, In a (dsrcs (nth i cs (EQ 0))) -> In b (dsrcs (nth i cs (EQ 0))) -> a = b.
Proof.
  revert ts r. induction is_ as [|j is_ IH]; intros ts r H i Hi a b Ha Hb; [contradiction|].
  cbn [bind_children] in H. destruct (bind_child cs j ts) as [t|] eqn:E; cbn [bind] in H; [|discriminate].
  destruct Hi as [<-|Hi].
  - unfold bind_child in E. destruct (dsrcs (nth j cs (EQ 0))) as [|x l]; [contradiction|].
    destruct (same_all (x :: l)) eqn:Es; cbn [negb] in E; [clear E|discriminate E].
    cbn [same_all] in Es. rewrite forallb_forall in Es.
    assert (X : forall y, In y (x :: l) -> y = x).
    { intros y [<-|Hy]; [reflexivity|]. apply Es, Nat.eqb_eq in Hy. congruence. }
    rewrite (X a Ha), (X b Hb). reflexivity.
  - exact (IH _ _ H i Hi a b Ha Hb).
Qed.
Lemma mapM_exists (A B : Type) (f : A -> result B) l : (forall x, exists y, f x = Ok y) -> exists t, mapM f l = Ok t.
Proof.
  intros H. induction l as [|x l (t & IH)]; [eexists; reflexivity|]. destruct (H x) as (y & Ey).
  exists (y :: t). cbn [mapM]. rewrite Ey. cbn [bind]. rewrite IH. reflexivity.
Qed.
Theorem sources_of_a_factor_agree : forall cs r, bind_prod cs = Ok r ->
  forall c, In c cs -> forall a b, In a (dsrcs c) -> In b (dsrcs c) -> a = b.
Proof.
  intros cs r H c Hc a b Ha Hb. unfold bind_prod in H. destruct (existsb clash cs); [discriminate|].
  destruct (bind_children cs (seq 0 (length cs)) [cs]) as [ts|] eqn:E; cbn [bind] in H; [|discriminate].
  destruct (In_nth _ _ (EQ 0) Hc) as (i & Hi & En).
  apply (@bind_children_sources cs _ _ _ E i); rewrite ?En; [apply in_seq; lia|exact Ha|exact Hb].
Qed.
(** Different derivatives in one factor are NotImplementedError; the same derivative may
    be applied to several expressions at once. *)
Theorem sources_of_different_derivatives_refused : forall id id' ax a b, id <> id' -> pure a -> pure b ->
  resolve (EProd [ENab (Some id) ax; ESum [EDsrc id a; EDsrc id' b]]) = Err NotImplementedError.
Proof.
  intros id id' ax a b Hne Pa Pb. destruct (@resolve_pure C a Pa) as (a' & Ea & Pa' & _).
  destruct (@resolve_pure C b Pb) as (b' & Eb & Pb' & _).
  assert (E : mapM resolve [ENab (Some id) ax; ESum [EDsrc id a; EDsrc id' b]]
              = Ok [ENab (Some id) ax; ESum [EDsrc id a'; EDsrc id' b']]).
  { cbn [resolve mapM bind]. rewrite Ea, Eb. reflexivity. }
  cbn [resolve] in *. rewrite E. cbn [bind]. unfold bind_prod.
  assert (F : existsb clash [ENab (Some id) ax; ESum [EDsrc id a'; EDsrc id' b']] = false) by reflexivity.
  rewrite F. cbn [length seq bind_children]. unfold bind_child at 1. cbn [nth dsrcs bind].
  unfold bind_child. cbn [nth dsrcs flat_map app same_all forallb]. rewrite (proj2 (Nat.eqb_neq id id') Hne). reflexivity.
Qed.
Theorem sources_of_one_derivative_accepted : forall id ax a b, pure a -> pure b -> takable a -> takable b ->
  exists r, resolve (EProd [ENab (Some id) ax; ESum [EDsrc id a; EDsrc id b]]) = Ok r.
Proof.
  intros id ax a b Pa Pb Ta Tb. destruct (@resolve_pure C a Pa) as (a' & Ea & Pa' & _).
  destruct (@resolve_pure C b Pb) as (b' & Eb & Pb' & _).
  assert (E : mapM resolve [ENab (Some id) ax; ESum [EDsrc id a; EDsrc id b]]
              = Ok [ENab (Some id) ax; ESum [EDsrc id a'; EDsrc id b']]).
  { cbn [resolve mapM bind]. rewrite Ea, Eb. reflexivity. }
  cbn [resolve] in *. rewrite E. cbn [bind]. unfold bind_prod.
  assert (F : existsb clash [ENab (Some id) ax; ESum [EDsrc id a'; EDsrc id b']] = false) by reflexivity.
  rewrite F. cbn [length seq bind_children]. unfold bind_child at 1. cbn [nth dsrcs bind].
  unfold bind_child. cbn [nth dsrcs flat_map app same_all forallb nabs filter fst snd onat_eqb map].
  rewrite !Nat.eqb_refl. cbn [andb negb map snd fst fold_left].
  match goal with |- context [mapM ?f [_]] => cbn [mapM] end.
  match goal with |- context [mapM ?f (seq ?s ?n)] =>
    assert (X : forall l, exists t, mapM f l = Ok t) end.
  { intros l. apply mapM_exists. intros i. cbn [nth ds_find mapM]. rewrite !Nat.eqb_refl.
    destruct (Ta a' i Ea) as (ca & Eca). destruct (Tb b' i Eb) as (cb & Ecb). rewrite Eca, Ecb. cbn [bind].
    eexists. reflexivity. }
  match goal with |- context [mapM ?f (seq ?s ?n)] => destruct (X (seq s n)) as (t & ->) end.
  eexists. reflexivity.
Qed.

(** ** Normal and tangential derivatives *)
Theorem normal_derivative_is_normal_derivative : forall id adim dim o dd n e r,
  hypersurface adim dim -> dim_is adim o dim -> normal adim o dd = Ok n -> pure e ->
  normal_derivative id adim e o dd = Ok r ->
  pure r /\ value C r = sum_axes C adim (fun i => c_geo C (nth i n (gz 0)) *! d i (value C e)).
Proof.
  intros id adim dim o dd n e r H Ho Hn P E.
  destruct (as_dofdesc dd) as [dsc|] eqn:Ed; [|unfold normal_derivative, normal_mv in E; rewrite Ed in E; discriminate].
  exact (@normal_derivative_val C id adim dim o dd dsc n e r _ H Ho Ed Hn P E).
Qed.
Theorem second_normal_derivative_is_second_normal_derivative : forall id adim dim o dd n e r,
  hypersurface adim dim -> dim_is adim o dim -> normal adim o dd = Ok n -> pure e ->
  normal_second_derivative id adim e o dd = Ok r ->
  pure r /\ value C r = sum_axes C adim (fun i => c_geo C (nth i n (gz 0)) *!
              sum_axes C adim (fun j => c_geo C (nth j n (gz 0)) *! d j (d i (value C e)))).
Proof.
  intros id adim dim o dd n e r H Ho Hn P E.
  destruct (as_dofdesc dd) as [dsc|] eqn:Ed; [|unfold normal_second_derivative, normal_mv in E; rewrite Ed in E; discriminate].
  exact (@normal_second_val C id adim dim o dd dsc n e r _ H Ho Ed Hn P E).
Qed.
Theorem normal_derivatives_exist : forall id adim dim o dd e,
  hypersurface adim dim -> dim_is adim o dim -> (exists n, normal adim o dd = Ok n) ->
  (combination e -> exists r, normal_derivative id adim e o dd = Ok r)
  /\ (is_potential e -> exists r, normal_second_derivative id adim e o dd = Ok r).
Proof.
  intros id adim dim o dd e H Ho [n Hn].
  assert (Ed : exists dsc, as_dofdesc dd = Ok dsc).
  { unfold normal in Hn. destruct (as_dofdesc dd) as [x|]; [eauto|discriminate]. }
  destruct Ed as [dsc Ed]. split.
  - intros Hc. exact (@normal_derivative_ok C id adim dim o dd dsc e H Ho Ed (combination_pure Hc) (@combination_takable C e Hc)).
  - intros Hp. destruct e; try contradiction. exact (@normal_second_ok C id adim dim o dd dsc _ _ _ _ _ _ _ H Ho Ed Hp).
Qed.
(** Along a curve: the derivative along the unit tangent (the pseudoscalar over the area
    element). *)
Theorem tangential_derivative_of_a_curve : forall id adim dd p a t e m,
  pseudoscalar adim (Some 1) dd = Ok p -> area_element adim (Some 1) dd = Ok a -> mv_as_vector adim (mv_div p a) = Ok t ->
  pure e -> tangential_derivative id adim e (Some 1) dd = Ok m ->
  pure (mget m 0) /\ value C (mget m 0) = sum_axes C adim (fun i => c_geo C (nth i t (gz 0)) *! d i (value C e))
  /\ forall b, b <> 0 -> mget m b = EQ 0.
Proof. intros id adim dd p a t e m Hp Ha Ht P H. exact (@tangential_val C id adim e dd p a t m _ P Hp Ha Ht H). Qed.
Theorem tangential_derivative_exists : forall id adim dd p a t e,
  pseudoscalar adim (Some 1) dd = Ok p -> area_element adim (Some 1) dd = Ok a -> mv_as_vector adim (mv_div p a) = Ok t ->
  combination e -> exists m, tangential_derivative id adim e (Some 1) dd = Ok m.
Proof.
  intros id adim dd p a t e Hp Ha Ht H.
  exact (@tangential_ok C id adim e dd p a t (combination_pure H) (@combination_takable C e H) Hp Ha Ht).
Qed.

(** ** Layer potentials *)
Theorem single_layer_is_single_layer : forall k dens lim src tgt ka kwargs s t,
  valid_kargs ka -> pure_arguments ka kwargs -> pure_operand dens ->
  as_dofdesc src = Ok s -> as_dofdesc tgt = Ok t ->
  limit_allowed (match lim with None => LimInt 1 | Some l => l end) = true -> matching_arguments k ka kwargs ->
  exists u, S k dens lim src tgt ka kwargs = Ok u /\ pure_operand u
    /\ componentwise_value C (layer C k (match lim with None => LimInt 1 | Some l => l end) s t (arg_values C ka kwargs k)) dens u.
Proof. intros. unfold S. apply int_g_vec_ok; assumption. Qed.
Theorem single_layer_accepts : forall k e lim src tgt ka kwargs, valid_kargs ka ->
  ((exists u, S k (OS e) lim src tgt ka kwargs = Ok u) <->
   limit_allowed (match lim with None => LimInt 1 | Some l => l end) = true /\ matching_arguments k ka kwargs
   /\ (exists s, as_dofdesc src = Ok s) /\ (exists t, as_dofdesc tgt = Ok t)).
Proof.
  intros k e lim src tgt ka kwargs Hv. split.
  - intros [u H]. destruct (@int_g_vec_inv k e _ src tgt ka kwargs u Hv H) as (A & B & s & t & E1 & E2 & _). eauto 6.
  - intros (A & B & (s & E1) & (t & E2)). unfold S, int_g_vec. cbn [componentwise]. rewrite E1, E2. cbn [bind].
    change (match lim with None => LimInt 1 | Some l => l end) with (default_limit lim (LimInt 1)) in A.
    destruct (mk_intg (sxr k) [txr k] [e] (default_limit lim (LimInt 1)) s t
               (fold_left (fun d p => dset d (fst p) (snd p)) kwargs (kdict ka))) as [u|er] eqn:Em; [eexists; reflexivity|].
    exfalso. assert (X : exists u, mk_intg (sxr k) [txr k] [e] (default_limit lim (LimInt 1)) s t (final_args ka kwargs) = Ok u).
    { eexists. apply mk_intg_iff. split; [exact A|]. split; [|reflexivity]. intros n. etransitivity; [|exact (B n)].
      apply final_keys. exact Hv. }
    destruct X as [u X]. unfold final_args in X. congruence.
Qed.

(** [int_g_dsource]: a blade of the result is the potential of the source derivatives
    along that blade's direction; a blade that is missing has no direction. *)
Theorem source_derivative_blades : forall adim dsource k dens lim src tgt ka kwargs s t,
  valid_kargs ka -> pure_arguments ka kwargs -> pure_operand dens ->
  as_dofdesc src = Ok s -> as_dofdesc tgt = Ok t ->
  limit_allowed lim = true -> matching_arguments k ka kwargs -> ~ In "dsource_vec" (arg_names k) ->
  adim = b_dim (kb k) -> Forall (fun t => coefficient (snd t)) dsource ->
  exists m, int_g_dsource adim dsource k dens lim src tgt ka kwargs = Ok m
    /\ NoDup (map fst m)
    /\ (forall B u, In (B, u) m -> pure_operand u
          /\ componentwise_value C (fun x => sum_axes C adim (fun i =>
               layer C (d_source i k) lim s t (arg_values C ka kwargs k) (direction C adim dsource B i *! x))) dens u)
    /\ (forall B i, ~ In B (map fst m) -> i < adim -> direction C adim dsource B i = dr_0 (cr C)).
Proof.
  intros adim dsource k dens lim src tgt ka kwargs s t Hv Hp Hd Hs Ht Hl Hm Hn Ha Hc.
  destruct (@dsource_ok C adim dsource k dens lim src tgt ka kwargs s t Hv Hp Hd Hs Ht Hl Hm Hn Ha Hc) as (m & E & K & F).
  exists m. split; [exact E|]. split; [rewrite K; apply mprod_nodup|]. split.
  - intros B u I. rewrite Forall_forall in F. exact (F _ I).
  - intros B i I Hi. rewrite K in I. exact (@dsource_absent C adim dsource B i Hc Hi I).
Qed.

(** The double layer potential: source derivatives along the normal at the source. *)
Theorem double_layer_is_double_layer : forall k dens lim src tgt ka adim dim o kwargs s t n,
  valid_kargs ka -> pure_arguments ka kwargs -> pure_operand dens ->
  as_dofdesc src = Ok s -> as_dofdesc tgt = Ok t ->
  limit_allowed (match lim with None => LimStr "avg" | Some l => l end) = true ->
  matching_arguments k ka kwargs -> ~ In "dsource_vec" (arg_names k) ->
  adim = None \/ adim = Some (b_dim (kb k)) -> hypersurface (b_dim (kb k)) dim -> dim_is (b_dim (kb k)) o dim ->
  normal (b_dim (kb k)) o src = Ok n ->
  exists u, D k dens lim src tgt ka adim o kwargs = Ok u /\ pure_operand u
   /\ componentwise_value C (fun x => sum_axes C (b_dim (kb k)) (fun i =>
        layer C (d_source i k) (match lim with None => LimStr "avg" | Some l => l end) s t (arg_values C ka kwargs k)
              (c_geo C (nth i n (gz 0)) *! x))) dens u.
Proof.
  intros k dens lim src tgt ka adim dim o kwargs s t n Hv Hp Hd Hs Ht Hl Hm Hn Ha Hh Ho Hno.
  apply (@D_ok C k dens lim src tgt ka adim dim o kwargs s t n); try assumption.
  unfold ambient. destruct Ha as [-> | ->]; reflexivity.
Qed.
Theorem double_layer_accepts : forall k e lim src tgt ka adim dim o kwargs,
  valid_kargs ka -> pure_arguments ka kwargs -> pure e ->
  ~ In "dsource_vec" (given_names ka kwargs) -> ~ In "dsource_vec" (arg_names k) ->
  adim = None \/ adim = Some (b_dim (kb k)) -> hypersurface (b_dim (kb k)) dim -> dim_is (b_dim (kb k)) o dim ->
  ((exists u, D k (OS e) lim src tgt ka adim o kwargs = Ok u) <->
   limit_allowed (match lim with None => LimStr "avg" | Some l => l end) = true /\ matching_arguments k ka kwargs
   /\ (exists s, as_dofdesc src = Ok s) /\ (exists t, as_dofdesc tgt = Ok t)).
Proof.
  intros k e lim src tgt ka adim dim o kwargs Hv Hp Pe Hg Hk Ha Hh Ho.
  assert (A : ambient adim k = b_dim (kb k)) by (unfold ambient; destruct Ha as [-> | ->]; reflexivity).
  split.
  - intros [u H]. destruct (@D_inv k e lim src tgt ka adim dim o kwargs u Hv Hg Hk) as (X & Y & Z & W);
      try (rewrite A; assumption); [exact H|]. auto.
  - intros (X & Y & (s & Hs) & (t & Ht)).
    destruct (@normal_explicit (b_dim (kb k)) dim o src s Hh Ho Hs) as (n & Hn & _).
    destruct (@D_ok C k (OS e) lim src tgt ka adim dim o kwargs s t n Hv Hp Pe Hs Ht X Y Hk A Hh Ho Hn) as (u & E & _).
    exists u. exact E.
Qed.

(** The target normal derivatives: defaults of the limit, normal at the target. *)
Lemma single_potential k e lim src tgt ka kwargs s t :
  valid_kargs ka -> pure_arguments ka kwargs -> pure e -> as_dofdesc src = Ok s -> as_dofdesc tgt = Ok t ->
  limit_allowed lim = true -> matching_arguments k ka kwargs ->
  exists u, S k (OS e) (Some lim) src tgt ka kwargs = Ok (OS u) /\ is_potential u
    /\ value C u = layer C k lim s t (arg_values C ka kwargs k) (value C e).
Proof.
  intros Hv Hp Pe Hs Ht Hl Hm.
  destruct (@int_g_vec_ok C k (OS e) lim src tgt ka kwargs s t Hv Hp Pe Hs Ht Hl Hm) as (o & E & P & V).
  destruct (@int_g_vec_inv k e lim src tgt ka kwargs o Hv E) as (_ & _ & s' & t' & _ & _ & ->).
  eexists. split; [exact E|]. split; [exact P|exact V].
Qed.
Theorem S_prime_is_normal_derivative_of_S : forall id k e lim src tgt ka adim dim o kwargs s t n,
  valid_kargs ka -> pure_arguments ka kwargs -> pure e -> as_dofdesc src = Ok s -> as_dofdesc tgt = Ok t ->
  limit_allowed (match lim with None => LimStr "avg" | Some l => l end) = true -> matching_arguments k ka kwargs ->
  let a := match adim with None => b_dim (kb k) | Some a => a end in
  hypersurface a dim -> dim_is a o dim -> normal a o tgt = Ok n ->
  exists r, Sp id k e lim src tgt ka adim o kwargs = Ok r /\ pure r
   /\ value C r = sum_axes C a (fun i => c_geo C (nth i n (gz 0)) *!
        d i (layer C k (match lim with None => LimStr "avg" | Some l => l end) s t (arg_values C ka kwargs k) (value C e))).
Proof.
  intros id k e lim src tgt ka adim dim o kwargs s t n Hv Hp Pe Hs Ht Hl Hm a Hh Ho Hn.
  destruct (@single_potential k e _ src tgt ka kwargs s t Hv Hp Pe Hs Ht Hl Hm) as (u & E & I & V).
  assert (Cu : combination u) by (left; left; exact I).
  destruct (@normal_derivative_ok C id a dim o tgt t u Hh Ho Ht (combination_pure Cu) (@combination_takable C u Cu)) as [r Er].
  destruct (@normal_derivative_val C id a dim o tgt t n u r (fun _ _ => dr_0 (cr C)) Hh Ho Ht Hn (combination_pure Cu) Er) as [Pr Vr].
  exists r. split; [|split; [exact Pr|]].
  - unfold Sp. change (default_limit lim (LimStr "avg")) with (match lim with None => LimStr "avg" | Some l => l end).
    rewrite E. cbn [bind]. exact Er.
  - unfold value in *. rewrite Vr. rewrite V. reflexivity.
Qed.
Theorem S_double_prime_is_second_normal_derivative_of_S : forall id k e lim src tgt ka adim dim o kwargs s t n,
  valid_kargs ka -> pure_arguments ka kwargs -> pure e -> as_dofdesc src = Ok s -> as_dofdesc tgt = Ok t ->
  limit_allowed (match lim with None => LimInt 1 | Some l => l end) = true -> matching_arguments k ka kwargs ->
  let a := match adim with None => b_dim (kb k) | Some a => a end in
  hypersurface a dim -> dim_is a o dim -> normal a o tgt = Ok n ->
  exists r, Spp id k e lim src tgt ka adim o kwargs = Ok r /\ pure r
   /\ value C r = sum_axes C a (fun i => c_geo C (nth i n (gz 0)) *! sum_axes C a (fun j => c_geo C (nth j n (gz 0)) *!
        d j (d i (layer C k (match lim with None => LimInt 1 | Some l => l end) s t (arg_values C ka kwargs k) (value C e))))).
Proof.
  intros id k e lim src tgt ka adim dim o kwargs s t n Hv Hp Pe Hs Ht Hl Hm a Hh Ho Hn.
  destruct (@single_potential k e _ src tgt ka kwargs s t Hv Hp Pe Hs Ht Hl Hm) as (u & E & I & V).
  destruct (proj2 (@normal_derivatives_exist id a dim o tgt u Hh Ho (ex_intro _ n Hn)) I) as [r Er].
  assert (Cu : combination u) by (left; left; exact I).
  destruct (@normal_second_val C id a dim o tgt t n u r (fun _ _ => dr_0 (cr C)) Hh Ho Ht Hn (combination_pure Cu) Er) as [Pr Vr].
  exists r. split; [|split; [exact Pr|]].
  - unfold Spp. change (default_limit lim (LimInt 1)) with (match lim with None => LimInt 1 | Some l => l end).
    rewrite E. cbn [bind]. exact Er.
  - unfold value in *. rewrite Vr. rewrite V. reflexivity.
Qed.
Theorem D_prime_is_normal_derivative_of_D : forall id k e lim src tgt ka adim dim o kwargs s t n nt,
  valid_kargs ka -> pure_arguments ka kwargs -> pure e -> as_dofdesc src = Ok s -> as_dofdesc tgt = Ok t ->
  limit_allowed (match lim with None => LimInt 1 | Some l => l end) = true -> matching_arguments k ka kwargs ->
  ~ In "dsource_vec" (arg_names k) -> adim = None \/ adim = Some (b_dim (kb k)) ->
  hypersurface (b_dim (kb k)) dim -> dim_is (b_dim (kb k)) o dim ->
  normal (b_dim (kb k)) o src = Ok n -> normal (b_dim (kb k)) o tgt = Ok nt ->
  exists r, Dp id k e lim src tgt ka adim o kwargs = Ok r /\ pure r
   /\ value C r = sum_axes C (b_dim (kb k)) (fun j => c_geo C (nth j nt (gz 0)) *!
        d j (sum_axes C (b_dim (kb k)) (fun i =>
          layer C (d_source i k) (match lim with None => LimInt 1 | Some l => l end) s t (arg_values C ka kwargs k)
                (c_geo C (nth i n (gz 0)) *! value C e)))).
Proof.
  intros id k e lim src tgt ka adim dim o kwargs s t n nt Hv Hp Pe Hs Ht Hl Hm Hd Ha Hh Ho Hn Hnt.
  assert (A : ambient adim k = b_dim (kb k)) by (unfold ambient; destruct Ha as [-> | ->]; reflexivity).
  set (lm := match lim with None => LimInt 1 | Some l => l end) in *.
  destruct (@D_ok C k (OS e) (Some lm) src tgt ka (Some (b_dim (kb k))) dim o kwargs s t n Hv Hp Pe Hs Ht Hl Hm Hd eq_refl Hh Ho Hn)
    as (u0 & E & P & V).
  destruct u0 as [u| |]; try contradiction. cbn [pure_operand componentwise_value default_limit] in P, V.
  pose proof (@D_takable C _ _ _ _ _ _ _ _ _ _ E P) as T.
  destruct (@normal_derivative_ok C id (b_dim (kb k)) dim o tgt t u Hh Ho Ht P T) as [r Er].
  destruct (@normal_derivative_val C id (b_dim (kb k)) dim o tgt t nt u r (fun _ _ => dr_0 (cr C)) Hh Ho Ht Hnt P Er) as [Pr Vr].
  exists r. split; [|split; [exact Pr|]].
  - unfold Dp. rewrite A. change (default_limit lim (LimInt 1)) with lm. rewrite E. cbn [bind]. exact Er.
  - unfold value in *. rewrite Vr. rewrite V. reflexivity.
Qed.
End Props.

(** ** A calculus, and concrete cases *)
Definition xd_add (x y : Z * Z) : Z * Z := (fst x + fst y, snd x + snd y)%Z.
Definition xd_mul (x y : Z * Z) : Z * Z := (fst x * fst y, fst x * snd y + snd x * fst y)%Z.
Definition xd_opp (x : Z * Z) : Z * Z := (- fst x, - snd x)%Z.
Definition xd_d (i : nat) (x : Z * Z) : Z * Z := (0, (Z.of_nat i + 1) * snd x)%Z.
Definition xdual : diff_ring.
Proof.
  refine (@DR (Z * Z) (0, 0)%Z (1, 0)%Z xd_add xd_mul xd_opp (fun x y => xd_add x (xd_opp y)) xd_d _ _ _).
  - constructor; intros; repeat match goal with x : (Z * Z)%type |- _ => destruct x end;
      unfold xd_add, xd_mul, xd_opp; apply injective_projections; cbn [fst snd]; try reflexivity; ring.
  - intros i [] []. unfold xd_d, xd_add. apply injective_projections; cbn [fst snd]; ring.
  - intros i [a b] [c d]. unfold xd_d, xd_add, xd_mul. apply injective_projections; cbn [fst snd]; ring.
Defined.
Definition xint : Z -> Z * Z := gen_phiZ (0, 0)%Z (1, 0)%Z xd_add xd_mul xd_opp.
Lemma xint_const z : snd (xint z) = 0%Z.
Proof.
  assert (A : forall x y, snd x = 0%Z -> snd y = 0%Z -> snd (xd_add x y) = 0%Z) by (intros x y X Y; cbn; rewrite X, Y; reflexivity).
  assert (M : forall x y, snd x = 0%Z -> snd y = 0%Z -> snd (xd_mul x y) = 0%Z)
    by (intros x y X Y; cbn; rewrite X, Y; rewrite Z.mul_0_r; reflexivity).
  unfold xint. assert (P : forall p, snd (gen_phiPOS (1, 0)%Z xd_add xd_mul p) = 0%Z).
  { induction p as [p IH|p IH|]; [| |reflexivity]; (destruct p as [q|q|]; [| |reflexivity]);
      (cbn [gen_phiPOS]; try apply A; try apply M; auto). }
  destruct z as [|p|p]; cbn [gen_phiZ]; [reflexivity|apply P|]. unfold xd_opp. cbn [snd]. rewrite P. reflexivity.
Qed.
Definition xcalc : calculus.
Proof.
  refine (@Calc xdual
    (fun g => match g with GQ z _ => xint z | _ => (2, 1)%Z end) (fun _ => (3, 1)%Z) (fun _ => (7, 0)%Z)
    (fun x y => x) (fun i => (Z.of_nat i, 1)%Z)
    (fun b lim s t av axes x => (Z.of_nat (length axes) + fst x, snd x + 5)%Z) _ _ _ _).
  - reflexivity.
  - intros i n d. cbn. unfold xd_d. rewrite xint_const. rewrite Z.mul_0_r. reflexivity.
  - intros i s. cbn. unfold xd_d. cbn [snd]. rewrite Z.mul_0_r. reflexivity.
  - intros i x y H _. exact H.
Defined.

Definition lap2 : kern := Kn (Bs 0 2 []) [].
Definition lap3 : kern := Kn (Bs 0 3 []) [].
Definition helm : kern := Kn (Bs 1 3 ["k"]) [].
Definition sig : ex := EVar "sigma".
Definition one_arg (x : ex) : list (string * list ex) := [("k", [x])].
Example ex_helmholtz : matching_arguments helm (KMap (one_arg (ESpat "k"))) []
  /\ ~ matching_arguments helm KNone [] /\ limit_allowed (LimInt 1) = true /\ limit_allowed (LimInt 3) = false
  /\ hypersurface 3 2 /\ dim_is 3 None 2 /\ (exists n, normal 3 None LNone = Ok n) /\ ~ In "dsource_vec" (arg_names helm).
Proof.
  split; [intros n; reflexivity|]. split; [intros H; destruct (proj2 (H "k") (or_introl eq_refl))|].
  split; [reflexivity|]. split; [reflexivity|]. split; [right; auto|]. split; [right; auto|]. split; [eexists; reflexivity|].
  intros [H|[]]. discriminate.
Qed.
Example ex_single_layer : exists u, S helm (OS sig) None LNone LNone (KMap (one_arg (ESpat "k"))) [] = Ok (OS u)
  /\ is_potential u /\ value xcalc u = (3, 6)%Z /\ S helm (OS sig) None LNone LNone KNone [] = Err ValueError
  /\ S helm (OS sig) (Some (LimInt 3)) LNone LNone (KMap (one_arg (ESpat "k"))) [] = Err ValueError.
Proof. eexists. split; [reflexivity|]. repeat split; vm_compute; auto. Qed.
Example ex_vector_density : exists u v, S lap2 (OA [sig; EVar "mu"]) (Some LimNone) LNone LNone KNone [] = Ok (OA [u; v]).
Proof. do 2 eexists. reflexivity. Qed.
Example ex_double_layer : exists u, D helm (OS sig) None LNone LNone KNone None None (one_arg (ESpat "k")) = Ok (OS u)
  /\ value xcalc u = (21, 30)%Z.
Proof. eexists. split; [vm_compute; reflexivity|vm_compute; reflexivity]. Qed.
Example ex_primes : exists a b c, Sp 0 lap2 sig None LNone LNone KNone None None [] = Ok a
  /\ Spp 0 lap2 sig None LNone LNone KNone None None [] = Ok b /\ Dp 0 lap2 sig None LNone LNone KNone None None [] = Ok c
  /\ value xcalc a = (0, 36)%Z /\ value xcalc c <> value xcalc a.
Proof. do 3 eexists. split; [vm_compute; reflexivity|]. split; [vm_compute; reflexivity|]. split; [vm_compute; reflexivity|]. split; [vm_compute; reflexivity|vm_compute; discriminate]. Qed.
Definition u0 : ex := EPot lap3 [lap3] [sig] (LimInt 1) (DD None None NODE) (DD None None NODE) [].
Definition u1 : ex := EPot lap3 [lap3] [EVar "mu"] (LimInt 1) (DD None None NODE) (DD None None NODE) [].
Example ex_combination : combination (ESum [EProd [EQ 3; u0]; EProd [ESpat "c"; u1]]).
Proof.
  right. eexists. split; [reflexivity|]. split; [cbn; lia|].
  apply Forall_cons; [|apply Forall_cons; [|apply Forall_nil]]; right.
  - exists (EQ 3), u0. cbn. intuition; discriminate.
  - exists (ESpat "c"), u1. cbn. intuition.
Qed.
Example ex_calculus : exists l c m, grad 0 3 (ESum [EProd [EQ 3; u0]; EProd [ESpat "c"; u1]]) = Ok l
  /\ map (value xcalc) l = [(0, 60); (0, 120); (0, 180)]%Z
  /\ curl 0 [u0; EProd [EQ 3; u1]; u0] = Ok c /\ map (value xcalc) c = [(0, -42); (0, 12); (0, 6)]%Z
  /\ div 0 [u0; u1] = Ok m /\ value xcalc m = (0, 18)%Z /\ curl 0 [u0; u1] = Err IndexError /\ dd_axis 0 3 3 u0 = Err IndexError
  /\ dd_axis 0 0 3 (EProd [u0; u1]) = Err TypeError.
Proof. do 3 eexists. split; [vm_compute; reflexivity|]. split; [vm_compute; reflexivity|]. split; [vm_compute; reflexivity|]. split; [vm_compute; reflexivity|].
  split; [vm_compute; reflexivity|]. repeat split; vm_compute; reflexivity. Qed.
Example ex_tangent : exists p a t m, pseudoscalar 2 (Some 1) LNone = Ok p /\ area_element 2 (Some 1) LNone = Ok a
  /\ mv_as_vector 2 (mv_div p a) = Ok t /\ tangential_derivative 0 2 u0 (Some 1) LNone = Ok m /\ length m = 1.
Proof. do 4 eexists. split; [vm_compute; reflexivity|]. split; [vm_compute; reflexivity|]. split; [vm_compute; reflexivity|]. split; vm_compute; reflexivity. Qed.
Example ex_blades : exists m, int_g_dsource 2 [(1, EQ 1); (2, EVar "b")] lap2 (OS sig) (LimInt 1) LNone LNone KNone [] = Ok m
  /\ map fst m = [0; 3] /\ Forall (fun t => coefficient (snd t)) [(1, EQ 1); (2, EVar "b")]
  /\ direction xcalc 2 [(1, EQ 1); (2, EVar "b")] 0 1 = (3, 1)%Z /\ direction xcalc 2 [(1, EQ 1); (2, EVar "b")] 3 0 = (-3, -1)%Z.
Proof. eexists. split; [vm_compute; reflexivity|]. split; [reflexivity|]. split; [repeat constructor|]. split; vm_compute; reflexivity. Qed.

Example ex_two_sources : combination u0 /\ pure u0 /\ (exists a b, dsrcs (ESum [EDsrc 0 u0; EDsrc 0 u0]) = [a; b])
  /\ (exists r, resolve (EProd [ENab (Some 0) 1; ESum [EDsrc 0 u0; EDsrc 0 u0]]) = Ok r /\ r <> EQ 0).
Proof.
  split; [left; left; cbn; tauto|]. split; [cbn; tauto|]. split; [do 2 eexists; reflexivity|].
  eexists. split; [vm_compute; reflexivity|discriminate].
Qed.
(** ** C113: what is accepted although it is not what it says *)
(** A direction given as a keyword argument replaces the normal of the double layer. *)
Theorem direction_replaces_normal_refuted : exists u,
  D lap2 (OS sig) None LNone LNone KNone None None [("dsource_vec", [EVar "a"; EVar "b"])] = Ok (OS u)
  /\ (match u with EPot _ _ _ _ _ _ args => args = [("dsource_vec", [EVar "a"; EVar "b"])] | _ => False end)
  /\ ~ matching_arguments lap2 KNone [("dsource_vec", [EVar "a"; EVar "b"])].
Proof.
  eexists. split; [vm_compute; reflexivity|]. split; [reflexivity|]. intros H. destruct (proj1 (H "dsource_vec")). left. reflexivity.
Qed.
(** In [kernel_arguments] it is dropped, whatever it is; other unknown names are errors. *)
Theorem direction_argument_dropped_refuted : forall v e lim src tgt kwargs,
  D lap2 (OS e) lim src tgt (KMap [("dsource_vec", v)]) None None kwargs = D lap2 (OS e) lim src tgt KNone None None kwargs
  /\ S lap2 (OS e) (Some (LimInt 1)) LNone LNone (KMap [("dsource_vec", v)]) [] = Err ValueError.
Proof. intros. split; reflexivity. Qed.
(** A kernel that has a source derivative along "dsource_vec" already: its vector is
    replaced with the normal. *)
Definition lap2d : kern := Kn (Bs 0 2 []) [WDir "dsource_vec"].
Theorem inner_direction_replaced_refuted : forall v w e lim src tgt,
  D lap2d (OS e) lim src tgt (KMap [("dsource_vec", v)]) None None [] = D lap2d (OS e) lim src tgt (KMap [("dsource_vec", w)]) None None []
  /\ (exists u, D lap2d (OS e) None LNone LNone (KMap [("dsource_vec", v)]) None None [] = Ok (OS u) /\ matching_arguments lap2d (KMap [("dsource_vec", v)]) []).
Proof. intros. split; [reflexivity|]. eexists. split; [vm_compute; reflexivity|]. intros n. reflexivity. Qed.
(** An argument given twice: [IntG] refuses it, [S] takes the keyword argument. *)
Theorem argument_given_twice_refuted : forall a b e lim src tgt,
  S helm (OS e) lim src tgt (KMap (one_arg a)) (one_arg b) = S helm (OS e) lim src tgt KNone (one_arg b)
  /\ forall kh : CtorModel.kernel, @intg_init (list ex) nat 0 kh [kh] [[e]] (LimInt 1) None None (KMap (one_arg a)) (one_arg b) = Err ValueError.
Proof. intros. split; [reflexivity|]. intros kh. reflexivity. Qed.
(** Tangential derivatives on surfaces in three dimensions are empty multivectors. *)
Theorem tangential_derivative_of_a_surface_refuted : forall id e,
  tangential_derivative id 3 e None LNone = Ok [] /\ tangential_derivative id 3 e (Some 2) LNone = Ok [].
Proof. intros. split; reflexivity. Qed.
(** On a curve in three dimensions (no hypersurface) double layers and normal
    derivatives are the number 0. *)
Theorem curve_in_space_refuted : forall id e,
  D lap3 (OS e) None LNone LNone KNone None (Some 1) [] = Ok (OS (EQ 0))
  /\ normal_derivative id 3 e (Some 1) LNone = Ok (EQ 0).
Proof. intros. split; vm_compute; reflexivity. Qed.
(** [ambient_dim] need not be the kernel's: the direction then has too few components. *)
Theorem wrong_ambient_dim_refuted : exists u v,
  D lap3 (OS sig) None LNone LNone KNone (Some 2) None [] = Ok (OS u)
  /\ (match u with EPot _ _ _ _ _ _ args => args = [("dsource_vec", v)] | _ => False end) /\ length v = 2 /\ b_dim (kb lap3) = 3.
Proof. do 2 eexists. split; [vm_compute; reflexivity|]. split; [reflexivity|]. split; reflexivity. Qed.

Print Assumptions axis_derivative_is_derivative.
Print Assumptions gradient_is_gradient.
Print Assumptions laplacian_is_laplacian.
Print Assumptions divergence_is_divergence.
Print Assumptions curl_is_curl.
Print Assumptions curl_needs_three.
Print Assumptions combinations_have_derivatives.
Print Assumptions combinations_have_div_and_curl.
Print Assumptions potentials_have_laplacians.
Print Assumptions normal_derivative_is_normal_derivative.
Print Assumptions second_normal_derivative_is_second_normal_derivative.
Print Assumptions normal_derivatives_exist.
Print Assumptions tangential_derivative_of_a_curve.
Print Assumptions tangential_derivative_exists.
Print Assumptions single_layer_is_single_layer.
Print Assumptions single_layer_accepts.
Print Assumptions source_derivative_blades.
Print Assumptions double_layer_is_double_layer.
Print Assumptions double_layer_accepts.
Print Assumptions S_prime_is_normal_derivative_of_S.
Print Assumptions S_double_prime_is_second_normal_derivative_of_S.
Print Assumptions D_prime_is_normal_derivative_of_D.
Print Assumptions direction_replaces_normal_refuted.
Print Assumptions direction_argument_dropped_refuted.
Print Assumptions inner_direction_replaced_refuted.
Print Assumptions argument_given_twice_refuted.
Print Assumptions tangential_derivative_of_a_surface_refuted.
Print Assumptions curve_in_space_refuted.
Print Assumptions wrong_ambient_dim_refuted.
Print Assumptions sources_of_a_factor_agree.
Print Assumptions sources_of_different_derivatives_refused.
Print Assumptions sources_of_one_derivative_accepted.
