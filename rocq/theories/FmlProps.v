(** C93, C94: the FMMLIB backend. *)
From Coq Require Import QArith Permutation.
From Verif Require Import Base SymProofs SymProofs2 RefineModel AssocModel FmmModel FmmSpec FmmProofs FmmProofs2 FmmProofs4 FmmProps FmlModel FmlSpec FmlProofs FmlProofs2 FmlProofs3 FmlProofs4.
Set Implicit Arguments.
Open Scope nat_scope.

(** * C93: kernels *)

(** Exactly which lists of kernels are accepted; everything else is an error of one kind. *)
Theorem fmmlib_kernels_accepted setting ks :
  (exists ti, digest setting ks = Ok ti) <->
  ks <> [] /\ (forall k, In k ks -> acceptable k)
  /\ (forall k k', In k ks -> In k' ks -> source_vector k = source_vector k' /\ wave_number k = wave_number k')
  /\ (setting = Some true -> forall k, In k ks -> ts_applies k).
Proof.
  split.
  - intros (ti & H). apply digest_iff in H. destruct H as (k0 & ks' & -> & A & B & C & _). split; [discriminate|]. split; [exact A|]. split; [|exact B].
    intros k k' I I'. destruct (C k I), (C k' I'). split; congruence.
  - intros (N & A & C & B). destruct ks as [|k0 ks]; [contradiction|]. eexists. apply digest_iff. exists k0, ks. split; [reflexivity|]. split; [exact A|]. split; [exact B|].
    split; [|reflexivity]. intros k I. apply C; [exact I|left; reflexivity].
Qed.
Print Assumptions fmmlib_kernels_accepted.
Theorem fmmlib_kernels_error setting ks e : digest setting ks = Err e -> (ks = [] /\ e = IndexError) \/ (ks <> [] /\ e = ValueError).
Proof.
  destruct ks as [|k0 ks]; [intros [= <-]; left; auto|]. intros H. right. split; [discriminate|]. unfold digest in H.
  destruct (foldM (digest_step setting) _ (k0 :: ks)) as [st|e'] eqn:F.
  - assert (F' := F). apply foldM_digest in F'. destruct F' as (A & _ & ->). cbn [bind] in H.
    destruct (single _); cbn [negb] in H; [|congruence]. destruct (single _); cbn [negb] in H; [|congruence].
    destruct (known_wave (A k0 (or_introl eq_refl))) as [(E & _)|(n & E & _)]; rewrite E in H; discriminate.
  - cbn [bind] in H. injection H as ->. eapply foldM_err; [|exact F]. intros s x e0. apply digest_step_err.
Qed.
Print Assumptions fmmlib_kernels_error.

(** What is recorded about accepted kernels. *)
Theorem fmmlib_kernels_digested setting ks ti :
  digest setting ks = Ok ti ->
  outputs ti = map target_axis ks
  /\ (ti_ifgrad ti = true <-> exists k, In k ks /\ target_axis k <> None)
  /\ (using_tsqbx ti = true <-> setting <> Some false /\ forall k, In k ks -> ts_applies k)
  /\ (forall k, In k ks -> source_deriv_name ti = source_vector k /\ k_name ti = wave_number k)
  /\ (forall k, nth_error ks 0 = Some k -> ti_dim ti = dim_of k /\ (ti_helmholtz ti = true <-> exists n, fst (base_kernel k) = Helmholtz n))
  /\ (using_tsqbx ti = true -> ti_ifgrad ti = true -> source_deriv_name ti = None).
Proof.
  intros H. apply digest_iff in H. destruct H as (k0 & ks' & E & A & B & C & ->). cbn [outputs ti_ifgrad using_tsqbx source_deriv_name k_name ti_dim ti_helmholtz].
  assert (U : uses_ts setting ks = true <-> setting <> Some false /\ forall k, In k ks -> ts_applies k).
  { unfold uses_ts. rewrite andb_true_iff, forallb_forall. split.
    - intros (S & F). split; [intros ->; discriminate|]. intros k I. apply ts_supported_iff. apply F. exact I.
    - intros (S & F). split; [destruct setting as [[|]|]; congruence|]. intros k I. apply ts_supported_iff. auto. }
  assert (G : any_axis ks = true <-> exists k, In k ks /\ target_axis k <> None).
  { unfold any_axis. rewrite existsb_exists. split; intros (k & I & X); exists k; (split; [exact I|]); destruct (target_axis k); congruence. }
  split; [reflexivity|]. split; [exact G|]. split; [exact U|]. split; [intros k I; destruct (C k I); auto|]. split.
  - intros k N. rewrite E in N. injection N as <-. split; [reflexivity|]. unfold is_helm. assert (I : In k0 ks) by (rewrite E; left; reflexivity).
    destruct (known_wave (A k0 I)) as [(X & X')|(n & X & X')]; rewrite X, X'; split; try discriminate; eauto. intros (n & ?); discriminate.
  - intros HU HG. apply U in HU. apply G in HG. destruct HG as (k & I & X). destruct HU as (_ & HU). destruct (C k I) as (<- & _).
    specialize (HU k I). destruct (A k I) as (d & N). destruct HU as (D & _). unfold source_vector. destruct k as [b d'|a i|v i|i]; try (cbn in X; congruence). cbn in *.
    inversion N; subst; [reflexivity|cbn in D; lia].
Qed.
Print Assumptions fmmlib_kernels_digested.

(** From a potential instruction: target kernels differentiate only with respect to the target,
    source kernels only with respect to the source. *)
Inductive target_only : knl -> Prop :=
| TBase b d : target_only (BaseKnl b d)
| TAxis a i : target_only i -> target_only (AxisTarget a i)
| TOther i : target_only i -> target_only (OtherWrap i).
Inductive source_only : knl -> Prop :=
| SBase b d : source_only (BaseKnl b d)
| SDir v i : source_only i -> source_only (DirSource v i)
| SOther i : source_only i -> source_only (OtherWrap i).
Theorem fmmlib_instruction_accepted setting srcs tgts :
  (forall t, In t tgts -> target_only t) -> (forall s, In s srcs -> source_only s) ->
  (exists ti, fmmlib_tree_indep setting srcs tgts = Ok ti) <->
  exists s d, srcs = [s] /\ no_target s d /\ tgts <> []
    /\ (forall t, In t tgts -> exists b d', t = BaseKnl b d' \/ exists a, t = AxisTarget a (BaseKnl b d'))
    /\ (setting = Some true -> d = 3 /\ forall t, In t tgts -> derivatives t + derivatives s <= 1).
Proof.
  intros TO SO.
  assert (BD : forall s d, no_target s d -> dim_of s = d) by (intros s d [? ? ? ?|? ? ? ? ?]; reflexivity).
  assert (RB : forall t s, base_kernel (replace_base t s) = base_kernel s) by (induction t; cbn; auto).
  assert (RD : forall t s, derivatives (replace_base t s) = derivatives t + derivatives s) by (induction t; cbn; intros; rewrite ?IHt; reflexivity).
  assert (NN : forall s d, no_target s d -> forall x, no_target (match s with AxisTarget _ i => i | _ => s end) x <-> no_target s x) by (intros s d [? ? ? ?|? ? ? ? ?]; reflexivity).
  split.
  - intros (ti & H). unfold fmmlib_tree_indep in H. destruct srcs as [|s rest]; [discriminate|]. destruct (negb _); [discriminate|]. destruct rest; [|discriminate].
    assert (D : exists ti, digest setting (map (fun t => replace_base t s) tgts) = Ok ti) by eauto. apply fmmlib_kernels_accepted in D. destruct D as (N & A & C & B).
    assert (NT : tgts <> []) by (intros ->; apply N; reflexivity). assert (SS := SO s (or_introl eq_refl)).
    assert (AC : forall t, In t tgts -> (exists d, no_target s d) /\ exists b d', t = BaseKnl b d' \/ exists a, t = AxisTarget a (BaseKnl b d')).
    { intros t I. specialize (A (replace_base t s) (in_map (fun t => replace_base t s) _ _ I)). specialize (TO t I). destruct A as (d & Nd). destruct TO as [b d'|a i HI|i HI].
      - split; [|eauto]. exists d. destruct SS; exact Nd.
      - destruct HI as [b0 d0|a' i' HI'|i' HI']; cbn in Nd; [|inversion Nd|inversion Nd]. split; [exists d; exact Nd|eauto].
      - cbn in Nd. inversion Nd. }
    destruct tgts as [|t0 tgts]; [contradiction|]. destruct (AC t0 (or_introl eq_refl)) as ((d & Nd) & _). exists s, d.
    split; [reflexivity|]. split; [exact Nd|]. split; [exact NT|]. split; [intros t I; apply AC; exact I|]. intros S. split.
    + destruct (B S (replace_base t0 s)) as (_ & E); [left; reflexivity|]. unfold dim_of in E. rewrite RB in E. rewrite <- (BD s d Nd). exact E.
    + intros t I. rewrite <- RD. apply (B S). apply (in_map (fun t => replace_base t s)). exact I.
  - intros (s & d & -> & Nd & NT & SH & B). unfold fmmlib_tree_indep. cbn [forallb negb]. apply fmmlib_kernels_accepted. split; [|split; [|split]].
    + intros E. apply map_eq_nil in E. contradiction.
    + intros k I. apply in_map_iff in I. destruct I as (t & <- & I). destruct (SH t I) as (b & d' & [->|(a & ->)]); cbn [replace_base]; exists d; [|exact Nd].
      unfold without_target. apply (NN s d Nd). exact Nd.
    + assert (X : forall t, In t tgts -> source_vector (replace_base t s) = source_vector s).
      { intros t I. destruct (SH t I) as (b & d' & [->|(a & ->)]); [reflexivity|]. cbn. unfold source_vector. cbn. destruct Nd; reflexivity. }
      intros k k' I I'. apply in_map_iff in I. destruct I as (t & <- & I). apply in_map_iff in I'. destruct I' as (t' & <- & I'). rewrite !X by assumption. split; [reflexivity|].
      unfold wave_number. rewrite !RB. reflexivity.
    + intros S k I. apply in_map_iff in I. destruct I as (t & <- & I). destruct (B S) as (-> & B'). split; [rewrite RD; apply B'; exact I|]. unfold dim_of. rewrite RB. exact (BD s 3 Nd).
Qed.
Print Assumptions fmmlib_instruction_accepted.

(** The wrangler needs the Helmholtz parameter and the dipole directions, and nothing else. *)
Theorem fmmlib_wrangler_built setting ks ti kk sk :
  digest setting ks = Ok ti ->
  ((exists wr, make_wrangler ti kk sk = Ok wr) <->
   (forall k n, In k ks -> wave_number k = Some n -> In n (map fst kk)) /\ (forall k v, In k ks -> source_vector k = Some v -> In v (map fst sk)))
  /\ (forall e, make_wrangler ti kk sk = Err e -> e = KeyError)
  /\ (forall wr, make_wrangler ti kk sk = Ok wr ->
        (w_dipole wr = None <-> forall k, In k ks -> source_vector k = None)
        /\ (level_order_kernel wr = None <-> w_k wr = 0)
        /\ ((forall k, In k ks -> wave_number k = None) -> level_order_kernel wr = None)
        /\ (forall k n, In k ks -> wave_number k = Some n -> In (n, w_k wr) kk)).
Proof.
  intros H. apply fmmlib_kernels_digested in H as D. destruct D as (_ & _ & _ & D & _). apply digest_iff in H. destruct H as (k0 & ks' & E & _).
  assert (I0 : In k0 ks) by (rewrite E; left; reflexivity). destruct (D k0 I0) as (D1 & D2).
  assert (LK : forall A (l : list (string * A)) n, lookup l n <> None <-> In n (map fst l)).
  { intros A l n. unfold lookup. split.
    - destruct (find _ l) as [[x y]|] eqn:F; [|congruence]. apply find_some in F. destruct F as (I & F). cbn in F. apply String.eqb_eq in F. subst. intros _. apply in_map_iff. exists (n, y). auto.
    - intros I. apply in_map_iff in I. destruct I as ([x y] & <- & I). destruct (find _ l) eqn:F; [discriminate|]. exfalso. apply find_none with (x := (x, y)) in F; [|exact I]. cbn in F. rewrite String.eqb_refl in F. discriminate. }
  assert (LI : forall A (l : list (string * A)) n a, lookup l n = Some a -> In (n, a) l).
  { intros A l n a. unfold lookup. destruct (find _ l) as [[x y]|] eqn:F; [|discriminate]. apply find_some in F. destruct F as (I & F). cbn in F. apply String.eqb_eq in F. subst. intros [= <-]. exact I. }
  assert (W : (forall k n, In k ks -> wave_number k = Some n -> k_name ti = Some n) /\ (forall n, k_name ti = Some n -> wave_number k0 = Some n)).
  { split; [intros k n I W; destruct (D k I); congruence|congruence]. }
  assert (SV : (forall k v, In k ks -> source_vector k = Some v -> source_deriv_name ti = Some v) /\ (forall v, source_deriv_name ti = Some v -> source_vector k0 = Some v)).
  { split; [intros k v I X; destruct (D k I); congruence|congruence]. }
  unfold make_wrangler. split; [|split].
  - split.
    + intros (wr & M). apply bind_Ok in M. destruct M as (k & M1 & M2). apply bind_Ok in M2. destruct M2 as (d & M2 & _). split.
      * intros k' n I X. apply (proj1 W) in X; [|exact I]. rewrite X in M1. apply LK. destruct (lookup kk n); congruence.
      * intros k' v I X. apply (proj1 SV) in X; [|exact I]. rewrite X in M2. apply LK. destruct (lookup sk v); congruence.
    + intros (A & B). destruct (k_name ti) as [n|] eqn:K.
      * assert (X := A k0 n I0 (eq_sym D2)). apply LK in X. destruct (lookup kk n); [|congruence]. cbn [bind]. destruct (source_deriv_name ti) as [v|] eqn:S; [|cbn; eauto].
        assert (Y := B k0 v I0 (eq_sym D1)). apply LK in Y. destruct (lookup sk v); [|congruence]. cbn. eauto.
      * cbn [bind]. destruct (source_deriv_name ti) as [v|] eqn:S; [|cbn; eauto].
        assert (Y := B k0 v I0 (eq_sym D1)). apply LK in Y. destruct (lookup sk v); [|congruence]. cbn. eauto.
  - intros e. destruct (k_name ti) as [n|]; [destruct (lookup kk n)|]; cbn [bind]; try (intros [= <-]; reflexivity); destruct (source_deriv_name ti) as [v|]; [destruct (lookup sk v)| |destruct (lookup sk v)|]; cbn [bind]; try discriminate; intros [= <-]; reflexivity.
  - intros wr M. apply bind_Ok in M. destruct M as (k & M1 & M2). apply bind_Ok in M2. destruct M2 as (d & M2 & M3). injection M3 as <-. cbn [w_dipole w_k]. unfold level_order_kernel. cbn [w_k].
    split; [|split; [|split]].
    + split.
      * intros ->. destruct (source_deriv_name ti) eqn:S; [destruct (lookup sk s); discriminate|]. intros k' I. destruct (D k' I). congruence.
      * intros X. rewrite (X k0 I0) in D1. rewrite D1 in M2. congruence.
    + destruct (k =? 0) eqn:K; [apply Nat.eqb_eq in K; split; auto|]. apply Nat.eqb_neq in K. split; [discriminate|contradiction].
    + intros X. rewrite (X k0 I0) in D2. rewrite D2 in M1. injection M1 as <-. reflexivity.
    + intros k' n I X. apply (proj1 W) in X; [|exact I]. rewrite X in M1. apply LI. destruct (lookup kk n); congruence.
Qed.
Print Assumptions fmmlib_wrangler_built.

(** * C94: potentials *)
Lemma digest_drive T V nc ttc setting ks ti wr kk sk :
  fmm_ok T V -> levels_ok T V -> ttc_ok nc (ft_ntgt T) ttc -> digest setting ks = Ok ti -> make_wrangler ti kk sk = Ok wr ->
  (forall k a, In k ks -> target_axis k = Some a -> a < dim_of k) -> (forall k k', In k ks -> In k' ks -> dim_of k = dim_of k') ->
  ti_ifgrad ti = existsb (fun o : option nat => match o with Some _ => true | None => false end) (outputs ti)
  /\ (forall a, In (Some a) (outputs ti) -> a < ti_dim ti)
  /\ (using_tsqbx ti = true -> ti_ifgrad ti = true -> w_dipole wr = None)
  /\ length (ft_sorted T) = ft_ntgt T.
Proof.
  intros OK LO HT H M HA HD. assert (D := H). apply fmmlib_kernels_digested in D. destruct D as (Do & Dg & Du & Ds & Dd & Dt). assert (H' := H). apply digest_iff in H'. destruct H' as (k0 & ks' & E & _ & _ & _ & _).
  assert (N0 : nth_error ks 0 = Some k0) by (rewrite E; reflexivity). assert (I0 : In k0 ks) by (rewrite E; left; reflexivity). split; [|split; [|split]].
  - rewrite Do. destruct (ti_ifgrad ti) eqn:G.
    + destruct (proj1 Dg eq_refl) as (k & I & X). symmetry. apply existsb_exists. exists (target_axis k). split; [apply in_map; exact I|]. destruct (target_axis k); congruence.
    + symmetry. destruct (existsb _ _) eqn:X; [|reflexivity]. exfalso. apply existsb_exists in X. destruct X as (o & I & X). apply in_map_iff in I. destruct I as (k & <- & I).
      assert (Y : false = true) by (apply Dg; exists k; split; [exact I|destruct (target_axis k); congruence]). discriminate.
  - intros a I. rewrite Do in I. apply in_map_iff in I. destruct I as (k & Ek & I). destruct (Dd k0 N0) as (-> & _). rewrite <- (HD k k0 I I0). exact (HA k a I Ek).
  - intros U G. apply (@fmmlib_wrangler_built setting ks ti kk sk H) in M. destruct M as (M & _). apply M. intros k I. destruct (Ds k I) as (<- & _). auto.
  - apply (sorted_length OK).
Qed.
(** Every output is, at every target, the full potential of its kernel, by the route the
    association prescribes, and nothing is garbage: whether target-specific expansions are
    used or not. *)
Theorem fmmlib_potentials T V nc ttc setting s tgts kk sk ti wr sw :
  fmm_ok T V -> levels_ok T V -> ttc_ok nc (ft_ntgt T) ttc ->
  fmmlib_tree_indep setting [s] tgts = Ok ti -> make_wrangler ti kk sk = Ok wr ->
  (forall t a, In t tgts -> target_axis t = Some a -> a < dim_of s) -> target_axis s = None ->
  exists pots, fmmlib_apply T V nc ttc setting [s] tgts kk sk [sw] = Ok pots /\ length pots = length tgts
  /\ forall i t, nth_error tgts i = Some t -> exists pot, nth_error pots i = Some pot /\ length pot = ft_ntgt T
    /\ (forall u, u < nc -> nth u pot [] = [])
    /\ forall u, nc <= u -> u < ft_ntgt T ->
         Permutation (nth u pot []) (map Some (full_potential (knl_label t) sw (ft_nsrc T) (route_of (nth u ttc 0%Z)) u)).
Proof.
  intros OK LO HT H M HA HS. set (w := map (fun u => nth u sw 0) (ft_user_src T)). assert (H' := H). cbn in H'.
  assert (RB : forall t s, base_kernel (replace_base t s) = base_kernel s) by (induction t; cbn; auto).
  assert (RT : forall t, target_axis (replace_base t s) = target_axis t) by (intros [b d|a i|v i|i]; cbn; auto).
  destruct (@digest_drive T V nc ttc setting _ ti wr kk sk OK LO HT H' M) as (Hg & Ha & Hd & Ls).
  { intros k a I E. apply in_map_iff in I. destruct I as (t & <- & I). rewrite RT in E. unfold dim_of. rewrite RB. exact (HA t a I E). }
  { intros k k' I I'. apply in_map_iff in I. destruct I as (t & <- & I). apply in_map_iff in I'. destruct I' as (t' & <- & I'). unfold dim_of. rewrite !RB. reflexivity. }
  destruct (@fml_potentials_eq T V nc ttc w ti wr OK LO HT Hg Ha Hd) as (m2q & Em & Ep).
  apply fmmlib_kernels_digested in H'. destruct H' as (Do & _).
  unfold fmmlib_apply. rewrite H. cbn [bind]. rewrite M. cbn [bind drive_fmmlib]. fold w. rewrite Ep. eexists. split; [reflexivity|]. rewrite map_length, Do, !map_length. split; [reflexivity|].
  intros i t N. rewrite !nth_error_map, N. cbn [option_map]. eexists. split; [reflexivity|]. rewrite RT. split; [|split].
  - unfold fml_row. rewrite map_length. exact Ls.
  - intros u U. apply (@fml_row_center T V nc ttc w ti wr OK HT Hd). exact U.
  - intros u U1 U2. destruct (@fml_row_target T V nc ttc w ti wr OK LO HT Hd m2q (label_of (target_axis t)) u Em U1 U2) as (k & K & P).
    eapply Permutation_trans; [exact P|]. apply Permutation_map. change (label_of (target_axis t)) with (knl_label t). rewrite <- eval_map_full. apply Permutation_map. apply (parts_perm OK). exact K.
Qed.
Print Assumptions fmmlib_potentials.

(** The same as the other backend (target kernel number [knl_label t] there), and the same with
    or without target-specific expansions: every source with the same strength, by the same
    route. *)
Theorem fmmlib_agrees_with_sumpy T V nc ttc setting s tgts kk sk ti wr sw pots nknl :
  fmm_ok T V -> levels_ok T V -> ttc_ok nc (ft_ntgt T) ttc ->
  fmmlib_tree_indep setting [s] tgts = Ok ti -> make_wrangler ti kk sk = Ok wr ->
  (forall t a, In t tgts -> target_axis t = Some a -> a < dim_of s) -> target_axis s = None ->
  fmmlib_apply T V nc ttc setting [s] tgts kk sk [sw] = Ok pots ->
  forall i t u, nth_error tgts i = Some t -> knl_label t < nknl -> u < ft_ntgt T ->
    Permutation (nth u (nth i pots []) []) (map Some (nth u (nth (knl_label t) (drive_fmm T V nc ttc sw nknl) []) [])).
Proof.
  intros OK LO HT H M HA HS E i t u N K U. destruct (@fmmlib_potentials T V nc ttc setting s tgts kk sk ti wr sw OK LO HT H M HA HS) as (pots' & E' & _ & F).
  assert (pots' = pots) by congruence. subst pots'. destruct (F i t N) as (pot & Np & _ & Fc & Ft). rewrite (nth_error_nth _ _ _ Np).
  destruct (@fmm_potentials T V nc ttc sw nknl (knl_label t) OK HT K) as (_ & _ & Gc & Gt). destruct (Nat.lt_ge_cases u nc) as [C|C].
  - rewrite (Fc u C), (Gc u C). apply Permutation_refl.
  - eapply Permutation_trans; [apply (Ft u C U)|]. apply Permutation_map. apply Permutation_sym. apply (Gt u C U).
Qed.
Print Assumptions fmmlib_agrees_with_sumpy.
Theorem tsqbx_setting_immaterial T V nc ttc setting setting' s tgts kk sk sw pots pots' :
  fmm_ok T V -> levels_ok T V -> ttc_ok nc (ft_ntgt T) ttc ->
  (forall t a, In t tgts -> target_axis t = Some a -> a < dim_of s) -> target_axis s = None ->
  fmmlib_apply T V nc ttc setting [s] tgts kk sk [sw] = Ok pots ->
  fmmlib_apply T V nc ttc setting' [s] tgts kk sk [sw] = Ok pots' ->
  length pots = length pots' /\ forall i u, Permutation (nth u (nth i pots []) []) (nth u (nth i pots' []) []).
Proof.
  intros OK LO HT HA HS E E'.
  assert (G : forall st p, fmmlib_apply T V nc ttc st [s] tgts kk sk [sw] = Ok p -> length p = length tgts
     /\ forall i t, nth_error tgts i = Some t -> exists pot, nth_error p i = Some pot /\ length pot = ft_ntgt T
    /\ (forall u, u < nc -> nth u pot [] = [])
    /\ forall u, nc <= u -> u < ft_ntgt T ->
         Permutation (nth u pot []) (map Some (full_potential (knl_label t) sw (ft_nsrc T) (route_of (nth u ttc 0%Z)) u))).
  { intros st p A. assert (B := A). unfold fmmlib_apply in B. apply bind_Ok in B. destruct B as (ti & B1 & B2). apply bind_Ok in B2. destruct B2 as (wr & B2 & _).
    destruct (@fmmlib_potentials T V nc ttc st s tgts kk sk ti wr sw OK LO HT B1 B2 HA HS) as (p' & A' & X). assert (p' = p) by congruence. subst p'. exact X. }
  destruct (G _ _ E) as (L & F). destruct (G _ _ E') as (L' & F'). split; [congruence|]. intros i u.
  destruct (nth_error tgts i) as [t|] eqn:N.
  - destruct (F i t N) as (pot & Np & Lp & Fc & Ft). destruct (F' i t N) as (pot' & Np' & Lp' & Fc' & Ft'). rewrite (nth_error_nth _ _ _ Np), (nth_error_nth _ _ _ Np').
    destruct (Nat.lt_ge_cases u nc) as [C|C]; [rewrite Fc, Fc' by exact C; apply Permutation_refl|].
    destruct (Nat.lt_ge_cases u (ft_ntgt T)) as [U|U]; [|rewrite !nth_overflow by lia; apply Permutation_refl].
    eapply Permutation_trans; [apply (Ft u C U)|]. apply Permutation_sym. apply (Ft' u C U).
  - apply nth_error_None in N. rewrite (nth_overflow pots) by lia. rewrite (nth_overflow pots') by lia. apply Permutation_refl.
Qed.
Print Assumptions tsqbx_setting_immaterial.
(** Several strength vectors or several source kernels are rejected. *)
Theorem fmmlib_one_density T V nc ttc setting srcs tgts kk sk sws pots :
  fmmlib_apply T V nc ttc setting srcs tgts kk sk sws = Ok pots -> length srcs = 1 /\ length sws = 1.
Proof.
  intros H. unfold fmmlib_apply in H. apply bind_Ok in H. destruct H as (ti & H1 & H). apply bind_Ok in H. destruct H as (wr & H2 & H). split.
  - destruct srcs as [|s [|s' r]]; [discriminate|reflexivity|]. cbn [fmmlib_tree_indep] in H1. destruct (negb _); discriminate.
  - destruct sws as [|sw [|sw' r]]; [discriminate|reflexivity|discriminate].
Qed.
Print Assumptions fmmlib_one_density.

(** The check behind the absence of garbage: a translated or evaluated term survives exactly if the
    center, the scale and (for a translation) the order used are those of its coefficients. *)
Theorem fmmlib_frames_checked :
  (forall from to e i p f, nth_error e i = Some (Some (p, f)) ->
     nth_error (translate from to e) i = Some (if frame_dec f from then Some (p, to) else None))
  /\ (forall label c sc e r u i q s f, nth_error e i = Some (Some ((q, s), f)) ->
     nth_error (taeval label c sc e r u) i =
       Some (if place_dec (f_place f) c then if scale_dec (f_scale f) sc then Some (Contr label q s r u) else None else None))
  /\ (forall e i, nth_error e i = Some None -> (forall from to, nth_error (translate from to e) i = Some None)
       /\ forall label c sc r u, nth_error (taeval label c sc e r u) i = Some None).
Proof.
  assert (P : forall a b, place_eqb a b = if place_dec a b then true else false).
  { intros [x|x] [y|y]; cbn [place_eqb]; destruct (place_dec _ _) as [E|E]; try discriminate; try reflexivity;
      destruct (Nat.eqb_spec x y); try reflexivity; try congruence. }
  assert (S0 : forall a b, scale_eqb a b = if scale_dec a b then true else false).
  { intros [x|x] [y|y]; cbn [scale_eqb]; destruct (scale_dec _ _) as [E|E]; try discriminate; try reflexivity;
      destruct (Nat.eqb_spec x y); try reflexivity; try congruence. }
  assert (O0 : forall a b, order_eqb a b = if order_dec a b then true else false).
  { intros [x|] [y|]; cbn [order_eqb]; destruct (order_dec _ _) as [E|E]; try discriminate; try reflexivity; try congruence;
      destruct (Nat.eqb_spec x y); try reflexivity; try congruence. }
  assert (F : forall a b, frame_eqb a b = if frame_dec a b then true else false).
  { intros [p1 s1 o1] [p2 s2 o2]. unfold frame_eqb. cbn [f_place f_scale f_order]. rewrite P, S0, O0.
    destruct (place_dec p1 p2), (scale_dec s1 s2), (order_dec o1 o2), (frame_dec _ _) as [E|E]; try reflexivity; congruence. }
  split; [|split].
  - intros from to e i p f H. unfold translate. erewrite map_nth_error by exact H. cbv beta iota. rewrite F. destruct (frame_dec _ _); reflexivity.
  - intros label c sc e r u i q s f H. unfold taeval. erewrite map_nth_error by exact H. cbv beta iota. rewrite P, S0.
    destruct (place_dec _ _), (scale_dec _ _); reflexivity.
  - intros e i H. split; intros; unfold translate, taeval; erewrite map_nth_error by exact H; reflexivity.
Qed.
Print Assumptions fmmlib_frames_checked.

(** * Examples *)
Open Scope string_scope.
Open Scope list_scope.
Open Scope nat_scope.
(** tree5 of FmmProps with list 3 on the level of its boxes. *)
Definition trav5' : ftrav :=
  TR [1; 4] (fun k => match k with 0 => [1] | _ => [4] end)
    (fun b => match b with 2 => [1] | 4 => [3] | _ => [] end)
    [([], fun _ => []); ([], fun _ => []); ([0], fun _ => [3])] (fun b => match b with 1 => [4] | _ => [] end).
Lemma trav5'_ok : fmm_ok tree5 trav5'.
Proof.
  destruct tree5_ok. split; auto.
  - cbn. intros lev [<- | [<- | [<- | []]]]; (split; [repeat constructor; cbn; tauto|]); cbn; intuition lia.
Qed.
Lemma levels5_ok : levels_ok tree5 trav5'.
Proof.
  split.
  - intros l b (s & n & N & S1 & S2). destruct l as [|[|[|l]]]; cbn in N; try (injection N as <- <-; cbn; lia). destruct l; discriminate.
  - intros l lev m b N M I. destruct l as [|[|[|l]]]; cbn in N; try (injection N as <-; cbn in M, I; lia).
    + injection N as <-. destruct I as [<-|[]]. exists 3, 2. cbn. split; [reflexivity|lia].
    + destruct l; discriminate.
Qed.
Definition dlp3 : knl := DirSource "n" (BaseKnl (Helmholtz "k") 3).
Definition slp3 : knl := BaseKnl (Helmholtz "k") 3.
Definition pot3 : knl := BaseKnl Laplace 3.
Definition dx3 : knl := AxisTarget 2 (BaseKnl Laplace 3).
(** Single-layer potential and its derivative: target-specific; with a dipole: not. *)
Example tsqbx_example :
  fmmlib_apply tree5 trav5' 1 ttc5 None [slp3] [pot3; dx3] [("k", 7)] [] [[10; 11; 12; 13]]
  = Ok (map (fun lab => [ []; map (fun s => Some (Contr lab (10 + s) s (Via 0) 1)) [0; 3; 1; 2];
                          map (fun s => Some (Contr lab (10 + s) s Point 2)) [2; 0; 3; 1] ]) [0; 3]).
Proof. vm_compute. reflexivity. Qed.
Example dipole_example :
  fmmlib_apply tree5 trav5' 1 ttc5 None [dlp3] [pot3; dx3] [("k", 7)] [("n", [1])] [[10; 11; 12; 13]]
  = Ok (map (fun lab => [ []; map (fun s => Some (Contr lab (10 + s) s (Via 0) 1)) [2; 0; 3; 1];
                          map (fun s => Some (Contr lab (10 + s) s Point 2)) [2; 0; 3; 1] ]) [0; 3]).
Proof. vm_compute. reflexivity. Qed.
Example forced_example :
  fmmlib_apply tree5 trav5' 1 ttc5 (Some true) [dlp3] [pot3; dx3] [("k", 7)] [("n", [1])] [[10; 11; 12; 13]] = Err ValueError
  /\ fmmlib_apply tree5 trav5' 1 ttc5 None [dlp3; slp3] [pot3] [("k", 7)] [("n", [1])] [[10; 11; 12; 13]] = Err ValueError
  /\ fmmlib_apply tree5 trav5' 1 ttc5 None [dlp3] [pot3] [("k", 7)] [] [[10; 11; 12; 13]] = Err KeyError.
Proof. repeat split. Qed.
Example fmmlib_potentials_applies : exists pots, fmmlib_apply tree5 trav5' 1 ttc5 None [slp3] [pot3; dx3] [("k", 7)] [] [[10; 11; 12; 13]] = Ok pots
  /\ Permutation (nth 1 (nth 1 pots []) []) (map Some (full_potential 3 [10; 11; 12; 13] 4 (Via 0) 1)).
Proof.
  destruct (@fmmlib_potentials tree5 trav5' 1 ttc5 None slp3 [pot3; dx3] [("k", 7)] [] _ _ [10; 11; 12; 13] trav5'_ok levels5_ok ttc5_ok eq_refl eq_refl) as (pots & E & _ & F).
  - intros t a [<-|[<-|[]]]; cbn; [discriminate|]. intros [= <-]. lia.
  - reflexivity.
  - exists pots. split; [exact E|]. destruct (F 1 dx3 eq_refl) as (pot & N & _ & _ & P). rewrite (nth_error_nth _ _ _ N). apply P; cbn; lia.
Qed.
