(** Proofs about QxModel: the memo dictionaries hold what would be computed anew. *)
From Coq Require Import QArith Permutation.
From Verif Require Import Base RefineModel RefineSpec AssocModel AssocSpec FmmModel FmmSpec FmmProofs FmmProofs2 FmmProofs3 FmmProofs4 QxModel QxSpec.
Set Implicit Arguments.
Open Scope nat_scope.

(** ** Keys *)
Lemma tgts_eqb_eq a : forall b, tgts_eqb a b = true <-> a = b.
Proof.
  induction a as [|[x z] a IH]; intros [|[y w] b]; cbn; try (split; [discriminate|congruence]); [tauto|].
  rewrite Bool.andb_true_iff, IH. unfold pair_eqb. cbn. rewrite Bool.andb_true_iff, Nat.eqb_eq, Z.eqb_eq. split; [intros [[-> ->] ->]; reflexivity|intros E; injection E; auto].
Qed.
Lemma gkey_eqb_eq a b : gkey_eqb a b = true <-> a = b.
Proof.
  destruct a as [p n t], b as [p' n' t']. unfold gkey_eqb. cbn. rewrite !Bool.andb_true_iff, !Nat.eqb_eq, tgts_eqb_eq.
  split; [intros [[-> ->] ->]; reflexivity|intros E; injection E; auto].
Qed.
Lemma gkey_eqb_refl a : gkey_eqb a a = true.
Proof. apply gkey_eqb_eq. reflexivity. Qed.
Lemma gkey_eqb_neq a b : a <> b -> gkey_eqb a b = false.
Proof. intros N. destruct (gkey_eqb a b) eqn:E; [|reflexivity]. apply gkey_eqb_eq in E. congruence. Qed.
Lemma gkey_dec (a b : gkey) : {a = b} + {a <> b}.
Proof. destruct (gkey_eqb a b) eqn:E; [left; apply gkey_eqb_eq; exact E|right; intros ->; rewrite gkey_eqb_refl in E; discriminate]. Qed.
Lemma nats_eqb_eq a : forall b, nats_eqb a b = true <-> a = b.
Proof.
  induction a as [|x a IH]; intros [|y b]; cbn; try (split; [discriminate|congruence]); [tauto|].
  rewrite Bool.andb_true_iff, IH, Nat.eqb_eq. split; [intros [-> ->]; reflexivity|intros E; injection E; auto].
Qed.
Lemma indep_known_In s sk tk : indep_known s sk tk = true <-> In (sk, tk) (s_indep s).
Proof.
  unfold indep_known. rewrite existsb_exists. split.
  - intros ([a b] & I & E). cbn in E. apply andb_prop in E. destruct E as [E1 E2]. apply nats_eqb_eq in E1. apply nats_eqb_eq in E2. subst. exact I.
  - intros I. exists (sk, tk). split; [exact I|]. cbn. rewrite (proj2 (nats_eqb_eq sk sk) eq_refl), (proj2 (nats_eqb_eq tk tk) eq_refl). reflexivity.
Qed.

(** The record found for a key after writing. *)
Definition look (l : list (gkey * geo)) (k : gkey) : option geo :=
  match find (fun e => gkey_eqb (fst e) k) l with Some e => Some (snd e) | None => None end.
Lemma look_put_same l k g : look (put_geo l k g) k = Some g.
Proof.
  unfold look. induction l as [|[k' g'] l IH]; cbn [put_geo].
  - cbn. rewrite gkey_eqb_refl. reflexivity.
  - destruct (gkey_eqb k' k) eqn:E; cbn [find fst]; rewrite E; [reflexivity|exact IH].
Qed.
Lemma look_put_other l k k' g : k' <> k -> look (put_geo l k g) k' = look l k'.
Proof.
  intros N. unfold look. induction l as [|[k0 g0] l IH]; cbn [put_geo].
  - cbn. rewrite gkey_eqb_neq by congruence. reflexivity.
  - destruct (gkey_eqb k0 k) eqn:E.
    + apply gkey_eqb_eq in E. subst k0. cbn [find fst]. rewrite gkey_eqb_neq by congruence. reflexivity.
    + cbn [find fst]. destruct (gkey_eqb k0 k'); [reflexivity|exact IH].
Qed.
Lemma find_geo_look s k : find_geo s k = look (s_geo s) k.
Proof. reflexivity. Qed.

Ltac four := split; [auto|split; [auto|split; [auto|]]].
Section Det.
Variable W : world.
Variable C : settings.
Notation src := (source_of W).
Notation pts := (points_of W).

(** What is to be computed for a key. *)
Definition ttc_at (k : gkey) (t : list Z) : Prop :=
  exists a, associate_all (src k) (pts k) = Associated a /\ t = user_ttc (length (q_ctr (src k))) a.
Definition args_at (k : gkey) (a : tree_args) : Prop :=
  exists t ws, ttc_at k t
    /\ refine_weights (q_nquad (src k)) (length (target_points (q_ctr (src k)) (pts k))) t = Ok ws
    /\ a = TA (q_nquad (src k)) (target_points (q_ctr (src k)) (pts k)) ws
             (target_radii C (src k) (length (target_points (q_ctr (src k)) (pts k)))).
Definition tree_at (k : gkey) (T : ftree) : Prop := exists a, args_at k a /\ T = w_build W a.
Definition trav_at (k : gkey) (V : ftrav) : Prop := exists T, tree_at k T /\ V = w_trav W T (c_extent C).
Lemma ttc_fun k t t' : ttc_at k t -> ttc_at k t' -> t = t'.
Proof. intros (a & A & ->) (b & B & ->). congruence. Qed.
Lemma args_fun k a a' : args_at k a -> args_at k a' -> a = a'.
Proof. intros (t & w & T & R & ->) (t' & w' & T' & R' & ->). pose proof (ttc_fun T T'). subst. congruence. Qed.
Lemma tree_fun k t t' : tree_at k t -> tree_at k t' -> t = t'.
Proof. intros (a & A & ->) (b & B & ->). rewrite (args_fun A B). reflexivity. Qed.
Lemma trav_fun k t t' : trav_at k t -> trav_at k t' -> t = t'.
Proof. intros (a & A & ->) (b & B & ->). rewrite (tree_fun A B). reflexivity. Qed.

(** The same work is never in the log twice, and the log agrees with the memo. *)
Definition fresh_work (l : list event) : Prop :=
  forall l1 e l2, l = l1 ++ e :: l2 -> forall e', In e' l2 -> ~ same_work e e'.
Definition sound (e : event) : Prop :=
  match e with
  | EAssoc k ok => ok = true <-> exists a, associate_all (src k) (pts k) = Associated a
  | ETree k a => args_at k a
  | ETrav k m => m = c_extent C
  | _ => True
  end.
Record valid (s : state) : Prop := {
  v_ttc : forall k g t, find_geo s k = Some g -> g_ttc g = Some t -> ttc_at k t;
  v_tree : forall k g t, find_geo s k = Some g -> g_tree g = Some t -> tree_at k t;
  v_trav : forall k g t, find_geo s k = Some g -> g_trav g = Some t -> trav_at k t;
  v_sk : forall sk tk, In (sk, tk) (s_indep s) ->
      (exists x, base_kernel W sk = Ok x)
      /\ (c_backend C = "sumpy"%string \/ (c_backend C = "fmmlib"%string /\ (exists x, sk = [x]) /\ w_fmmlib W sk tk (c_tsqbx C) = None));
  v_log : fresh_work (s_log s);
  v_sound : Forall sound (s_log s);
  v_geo_log : forall k, In (EGeo k) (s_log s) -> find_geo s k <> None;
  v_ttc_log : forall k, In (EAssoc k true) (s_log s) -> exists g t, find_geo s k = Some g /\ g_ttc g = Some t;
  v_tree_log : forall k a, In (ETree k a) (s_log s) -> exists g t, find_geo s k = Some g /\ g_tree g = Some t;
  v_trav_log : forall k m, In (ETrav k m) (s_log s) -> exists g t, find_geo s k = Some g /\ g_trav g = Some t;
  v_indep_log : forall sk tk, In (EIndep sk tk) (s_log s) -> In (sk, tk) (s_indep s) }.

Lemma valid_unused n : valid (unused n).
Proof.
  constructor; cbn; try (intros; discriminate); try (intros; contradiction); [|constructor].
  intros l1 e l2 E. destruct l1; discriminate.
Qed.

(** Appending to the log. *)
Lemma fresh_work_snoc l e : fresh_work l -> (forall e0, In e0 l -> ~ same_work e0 e) -> fresh_work (l ++ [e]).
Proof.
  intros F N l1 e0 l2 E e' I.
  destruct l2 as [|z l2] using rev_ind; [destruct I|]. clear IHl2.
  assert (X : l ++ [e] = (l1 ++ e0 :: l2) ++ [z]) by (rewrite E, <- app_assoc; reflexivity).
  apply app_inj_tail in X. destruct X as [-> ->]. apply in_app_iff in I. destruct I as [I|[<-|[]]].
  - exact (F _ _ _ eq_refl _ I).
  - apply N. apply in_app_iff. right. left. reflexivity.
Qed.

(** Events that memoize nothing. *)
Definition idle (e : event) : Prop :=
  match e with EWarn | EInspect _ | EDrive _ | ECost _ | EAssoc _ false => True | _ => False end.
Lemma valid_idle s e n : valid s -> idle e -> sound e -> (forall k, e = EAssoc k false -> forall k', In (EAssoc k' true) (s_log s) -> k' <> k) ->
  valid (St (s_geo s) (s_indep s) n (s_log s ++ [e])).
Proof.
  intros V I S N. destruct V as [v1 v2 v3 v4 v5 v6 v7 v8 v9 v10 v11]. constructor; cbn [s_geo s_indep s_calls s_log find_geo]; try assumption.
  - apply fresh_work_snoc; [exact v5|]. intros e0 I0 SW. destruct e as [|k|k [|]|k a|k m|sk tk|k|k|k]; cbn in I; try contradiction; destruct e0 as [|k0|k0 [|]|k0 a0|k0 m0|sk0 tk0|k0|k0|k0]; cbn in SW; try contradiction.
    subst k0. exact (N k eq_refl k I0 eq_refl).
  - apply Forall_app. split; [exact v6|constructor; [exact S|constructor]].
  - intros k J. apply in_app_iff in J. destruct J as [J|[->|[]]]; [exact (v7 k J)|contradiction].
  - intros k J. apply in_app_iff in J. destruct J as [J|[->|[]]]; [exact (v8 k J)|contradiction].
  - intros k a J. apply in_app_iff in J. destruct J as [J|[->|[]]]; [exact (v9 k a J)|contradiction].
  - intros k m J. apply in_app_iff in J. destruct J as [J|[->|[]]]; [exact (v10 k m J)|contradiction].
  - intros sk tk J. apply in_app_iff in J. destruct J as [J|[->|[]]]; [exact (v11 sk tk J)|contradiction].
Qed.

(** Recording a piece of work [e] for key [k], with the new record [g]. *)
Lemma valid_record s k g e :
  valid s ->
  (exists j, e = EGeo k /\ j = tt) \/ e = EAssoc k true \/ (exists a, e = ETree k a) \/ (exists m, e = ETrav k m) ->
  sound e ->
  (forall t, g_ttc g = Some t -> ttc_at k t) -> (forall t, g_tree g = Some t -> tree_at k t) -> (forall t, g_trav g = Some t -> trav_at k t) ->
  (forall g0, find_geo s k = Some g0 -> (g_ttc g0 <> None -> g_ttc g <> None) /\ (g_tree g0 <> None -> g_tree g <> None) /\ (g_trav g0 <> None -> g_trav g <> None)) ->
  (e = EGeo k -> find_geo s k = None) ->
  (e = EAssoc k true -> g_ttc g <> None /\ forall g0, find_geo s k = Some g0 -> g_ttc g0 = None) ->
  (forall a, e = ETree k a -> g_tree g <> None /\ forall g0, find_geo s k = Some g0 -> g_tree g0 = None) ->
  (forall m, e = ETrav k m -> g_trav g <> None /\ forall g0, find_geo s k = Some g0 -> g_trav g0 = None) ->
  valid (St (put_geo (s_geo s) k g) (s_indep s) (s_calls s) (s_log s ++ [e])).
Proof.
  intros V E S G1 G2 G3 GM N1 N2 N3 N4. destruct V as [v1 v2 v3 v4 v5 v6 v7 v8 v9 v10 v11].
  assert (LK : forall k0 g1, look (put_geo (s_geo s) k g) k0 = Some g1 -> (k0 = k /\ g1 = g) \/ (k0 <> k /\ look (s_geo s) k0 = Some g1)).
  { intros k0 g1 X. destruct (gkey_dec k0 k) as [->|D]; [rewrite look_put_same in X; injection X as <-; auto|]. rewrite look_put_other in X by exact D. auto. }
  assert (SOME : forall A (o : option A), o <> None -> exists x, o = Some x) by (intros A [x|] H; [eauto|congruence]).
  constructor; cbn [s_geo s_indep s_calls s_log].
  - intros k0 g1 t X Y. rewrite find_geo_look in X. cbn [s_geo] in X. destruct (LK _ _ X) as [[-> ->]|[_ X']]; [exact (G1 t Y)|exact (v1 _ _ _ X' Y)].
  - intros k0 g1 t X Y. rewrite find_geo_look in X. cbn [s_geo] in X. destruct (LK _ _ X) as [[-> ->]|[_ X']]; [exact (G2 t Y)|exact (v2 _ _ _ X' Y)].
  - intros k0 g1 t X Y. rewrite find_geo_look in X. cbn [s_geo] in X. destruct (LK _ _ X) as [[-> ->]|[_ X']]; [exact (G3 t Y)|exact (v3 _ _ _ X' Y)].
  - exact v4.
  - apply fresh_work_snoc; [exact v5|]. intros e0 I0 SW.
    destruct E as [(j & -> & _)|[->|[(a & ->)|(m & ->)]]]; destruct e0 as [|k0|k0 [|]|k0 a0|k0 m0|sk0 tk0|k0|k0|k0]; cbn in SW; try contradiction; subst k0.
    + exact (v7 _ I0 (N1 eq_refl)).
    + destruct (v8 _ I0) as (g0 & t & X & Y). destruct (N2 eq_refl) as (_ & Z). rewrite (Z _ X) in Y. discriminate.
    + destruct (v9 _ _ I0) as (g0 & t & X & Y). destruct (N3 a eq_refl) as (_ & Z). rewrite (Z _ X) in Y. discriminate.
    + destruct (v10 _ _ I0) as (g0 & t & X & Y). destruct (N4 m eq_refl) as (_ & Z). rewrite (Z _ X) in Y. discriminate.
  - apply Forall_app. split; [exact v6|constructor; [exact S|constructor]].
  - intros k0 J. rewrite find_geo_look. cbn [s_geo]. destruct (gkey_dec k0 k) as [->|D]; [rewrite look_put_same; discriminate|]. rewrite look_put_other by exact D.
    apply in_app_iff in J. destruct J as [J|[J|[]]]; [exact (v7 _ J)|]. destruct E as [(j & -> & _)|[->|[(a & ->)|(m & ->)]]]; congruence.
  - intros k0 J. rewrite find_geo_look. cbn [s_geo]. destruct (gkey_dec k0 k) as [->|D].
    + rewrite look_put_same. apply in_app_iff in J. destruct J as [J|[J|[]]].
      * destruct (v8 _ J) as (g0 & t & X & Y). destruct (GM _ X) as (Z & _). destruct (SOME _ (g_ttc g) (Z ltac:(congruence))) as (x & Q). eauto.
      * destruct (N2 J) as (Z & _). destruct (SOME _ _ Z) as (x & Q). eauto.
    + rewrite look_put_other by exact D. apply in_app_iff in J. destruct J as [J|[J|[]]]; [exact (v8 _ J)|]. destruct E as [(j & -> & _)|[->|[(a & ->)|(m & ->)]]]; congruence.
  - intros k0 a0 J. rewrite find_geo_look. cbn [s_geo]. destruct (gkey_dec k0 k) as [->|D].
    + rewrite look_put_same. apply in_app_iff in J. destruct J as [J|[J|[]]].
      * destruct (v9 _ _ J) as (g0 & t & X & Y). destruct (GM _ X) as (_ & Z & _). destruct (SOME _ (g_tree g) (Z ltac:(congruence))) as (x & Q). eauto.
      * destruct (N3 _ J) as (Z & _). destruct (SOME _ _ Z) as (x & Q). eauto.
    + rewrite look_put_other by exact D. apply in_app_iff in J. destruct J as [J|[J|[]]]; [exact (v9 _ _ J)|]. destruct E as [(j & -> & _)|[->|[(a & ->)|(m & ->)]]]; congruence.
  - intros k0 a0 J. rewrite find_geo_look. cbn [s_geo]. destruct (gkey_dec k0 k) as [->|D].
    + rewrite look_put_same. apply in_app_iff in J. destruct J as [J|[J|[]]].
      * destruct (v10 _ _ J) as (g0 & t & X & Y). destruct (GM _ X) as (_ & _ & Z). destruct (SOME _ (g_trav g) (Z ltac:(congruence))) as (x & Q). eauto.
      * destruct (N4 _ J) as (Z & _). destruct (SOME _ _ Z) as (x & Q). eauto.
    + rewrite look_put_other by exact D. apply in_app_iff in J. destruct J as [J|[J|[]]]; [exact (v10 _ _ J)|]. destruct E as [(j & -> & _)|[->|[(a & ->)|(m & ->)]]]; congruence.
  - intros sk tk J. apply in_app_iff in J. destruct J as [J|[J|[]]]; [exact (v11 _ _ J)|]. destruct E as [(j & -> & _)|[->|[(a & ->)|(m & ->)]]]; discriminate.
Qed.

(** ** Outcomes that do not depend on the state *)
Definition obind A B (o : outcome A) (f : A -> outcome B) : outcome B := match o with Val a => f a | Exc e => Exc e end.
Definition olift A (r : result A) : outcome A := match r with Ok a => Val a | Err e => Exc (Std e) end.
Definition res_ok (P : event -> Prop) A (s : state) (r : state * outcome A) (o : outcome A) : Prop :=
  valid (fst r) /\ s_calls (fst r) = s_calls s /\ snd r = o
  /\ exists l, s_log (fst r) = s_log s ++ l /\ Forall P l.
Definition pure (P : event -> Prop) A (m : M A) (o : outcome A) : Prop := forall s, valid s -> res_ok P s (m s) o.
Lemma pure_ret P A (a : A) : pure P (ret a) (Val a).
Proof. intros s V. cbn. four. exists []. rewrite app_nil_r. auto. Qed.
Lemma pure_fail P A e : pure P (fail A e) (Exc e).
Proof. intros s V. cbn. four. exists []. rewrite app_nil_r. auto. Qed.
Lemma pure_bind P A B (m : M A) (f : A -> M B) o o' :
  pure P m o -> (forall a, o = Val a -> pure P (f a) (o' a)) -> pure P (bind m f) (obind o o').
Proof.
  intros D F s V. destruct (D s V) as (V1 & K1 & O1 & l1 & L1 & Q1). unfold bind. destruct (m s) as [s1 [a|e]]; cbn in *; subst o; cbn.
  - destruct (F a eq_refl s1 V1) as (V2 & K2 & O2 & l2 & L2 & Q2). split; [exact V2|]. split; [congruence|]. split; [exact O2|].
    exists (l1 ++ l2). split; [rewrite L2, L1, app_assoc; reflexivity|apply Forall_app; auto].
  - split; [exact V1|]. split; [exact K1|]. split; [reflexivity|]. exists l1. auto.
Qed.
Lemma pure_lift P A (r : result A) : pure P (lift r) (olift r).
Proof. destruct r; [apply pure_ret|apply pure_fail]. Qed.
Definition p_raise (o : option exn) : outcome unit := match o with None => Val tt | Some e => Exc (Std e) end.
Lemma pure_raise_if P o : pure P (raise_if o) (p_raise o).
Proof. destruct o; [apply pure_fail|apply pure_ret]. Qed.
Fixpoint omap A B (f : A -> outcome B) (l : list A) : outcome (list B) :=
  match l with [] => Val [] | x :: l' => obind (f x) (fun y => obind (omap f l') (fun ys => Val (y :: ys))) end.
Lemma pure_mmap P A B (f : A -> M B) g l : (forall a, pure P (f a) (g a)) -> pure P (mmap f l) (omap g l).
Proof.
  intros F. induction l as [|x l IH]; cbn; [apply pure_ret|]. apply pure_bind; [apply F|]. intros y _. apply pure_bind; [exact IH|]. intros ys _. apply pure_ret.
Qed.
Lemma pure_weaken (P Q : event -> Prop) A (m : M A) o : (forall e, P e -> Q e) -> pure P m o -> pure Q m o.
Proof. intros I D s V. destruct (D s V) as (V1 & K & O & l & L & F). four. exists l. split; [exact L|]. eapply Forall_impl; [exact I|exact F]. Qed.
Lemma pure_ext P A (m m' : M A) o : (forall s, m s = m' s) -> pure P m' o -> pure P m o.
Proof. intros E D s V. rewrite E. exact (D s V). Qed.

Definition assoc_event (e : event) : Prop := match e with EGeo _ | EAssoc _ _ => True | _ => False end.
Definition quiet (e : event) : Prop := match e with EGeo _ | EAssoc _ _ | ETree _ _ | ETrav _ _ | EIndep _ _ => True | _ => False end.
Lemma assoc_quiet e : assoc_event e -> quiet e.
Proof. destruct e; cbn; auto. Qed.

Lemma pure_geometry_data k : pure assoc_event (geometry_data k) (Val tt).
Proof.
  intros s V. unfold geometry_data. destruct (find_geo s k) eqn:E.
  - cbn. four. exists []. rewrite app_nil_r. auto.
  - cbn. split; [|split; [reflexivity|split; [reflexivity|]]; exists [EGeo k]; split; [reflexivity|repeat constructor]].
    apply (@valid_record s k (Geo None None None) (EGeo k) V); cbn; try (intros; discriminate); try (intros; congruence); auto.
    + left. exists tt. auto.
Qed.

Definition p_ttc (k : gkey) : outcome (list Z) :=
  match associate_all (src k) (pts k) with
  | Raised e => Exc (Std e)
  | Failed _ _ => Exc (Std TargetAssociationFailed)
  | Associated a => Val (user_ttc (length (q_ctr (src k))) a)
  end.
Lemma p_ttc_at k t : p_ttc k = Val t <-> ttc_at k t.
Proof.
  unfold p_ttc, ttc_at. destruct (associate_all (src k) (pts k)) as [a|fl fa|e]; split; try discriminate.
  - intros E. injection E as <-. eauto.
  - intros (a' & E & ->). injection E as ->. reflexivity.
  - intros (a' & E & _). discriminate.
  - intros (a' & E & _). discriminate.
Qed.
Lemma no_assoc_before s k : valid s -> (forall a, associate_all (src k) (pts k) <> Associated a) -> forall k', In (EAssoc k' true) (s_log s) -> k' <> k.
Proof.
  intros V N k' I ->. pose proof (v_sound V) as F. rewrite Forall_forall in F. specialize (F _ I). cbn in F. destruct (proj1 F eq_refl) as (a & A). exact (N a A).
Qed.
Lemma pure_ttc k : pure assoc_event (user_target_to_center W k) (p_ttc k).
Proof.
  intros s V. unfold user_target_to_center, bind, get_geo. destruct (find_geo s k) as [g|] eqn:E.
  - destruct (g_ttc g) as [t|] eqn:T.
    + cbn. split; [exact V|split; [reflexivity|split; [|exists []; rewrite app_nil_r; auto]]]. symmetry. apply p_ttc_at. eapply v_ttc; eassumption.
    + unfold p_ttc. destruct (associate_all (src k) (pts k)) as [a|fl fa|e] eqn:A; cbn.
      * split; [|split; [reflexivity|split; [reflexivity|]]; exists [EAssoc k true]; split; [reflexivity|repeat constructor]].
        apply (@valid_record s k _ (EAssoc k true) V); cbn; try (intros; discriminate); auto.
        -- split; eauto.
        -- intros t X. injection X as <-. unfold ttc_at. eauto.
        -- intros t X. eapply v_tree; eassumption.
        -- intros t X. eapply v_trav; eassumption.
        -- intros g0 X. rewrite E in X. injection X as <-. split; [discriminate|auto].
        -- intros _. split; [discriminate|]. intros g0 X. rewrite E in X. injection X as <-. exact T.
      * assert (NA : forall a, associate_all (src k) (pts k) <> Associated a) by (intros a; rewrite A; discriminate).
        split; [|split; [reflexivity|split; [reflexivity|]]; exists [EAssoc k false]; split; [reflexivity|repeat constructor]].
        apply valid_idle; cbn; auto; [split; [discriminate|intros (a & X); exact (False_ind _ (NA a X))]|]. intros k0 X k' I. injection X as <-. exact (no_assoc_before V NA I).
      * assert (NA : forall a, associate_all (src k) (pts k) <> Associated a) by (intros a; rewrite A; discriminate).
        split; [|split; [reflexivity|split; [reflexivity|]]; exists [EAssoc k false]; split; [reflexivity|repeat constructor]].
        apply valid_idle; cbn; auto; [split; [discriminate|intros (a & X); exact (False_ind _ (NA a X))]|]. intros k0 X k' I. injection X as <-. exact (no_assoc_before V NA I).
  - cbn. unfold p_ttc. destruct (associate_all (src k) (pts k)) as [a|fl fa|e] eqn:A; cbn.
      * split; [|split; [reflexivity|split; [reflexivity|]]; exists [EAssoc k true]; split; [reflexivity|repeat constructor]].
        apply (@valid_record s k _ (EAssoc k true) V); cbn; try (intros; discriminate); auto.
        -- split; eauto.
        -- intros t X. injection X as <-. unfold ttc_at. eauto.
        -- intros g0 X. congruence.
        -- intros _. split; [discriminate|]. intros g0 X. congruence.
      * assert (NA : forall a, associate_all (src k) (pts k) <> Associated a) by (intros a; rewrite A; discriminate).
        split; [|split; [reflexivity|split; [reflexivity|]]; exists [EAssoc k false]; split; [reflexivity|repeat constructor]].
        apply valid_idle; cbn; auto; [split; [discriminate|intros (a & X); exact (False_ind _ (NA a X))]|]. intros k0 X k' I. injection X as <-. exact (no_assoc_before V NA I).
      * assert (NA : forall a, associate_all (src k) (pts k) <> Associated a) by (intros a; rewrite A; discriminate).
        split; [|split; [reflexivity|split; [reflexivity|]]; exists [EAssoc k false]; split; [reflexivity|repeat constructor]].
        apply valid_idle; cbn; auto; [split; [discriminate|intros (a & X); exact (False_ind _ (NA a X))]|]. intros k0 X k' I. injection X as <-. exact (no_assoc_before V NA I).
Qed.

(** *** The tree *)
Definition p_args (k : gkey) : outcome tree_args :=
  obind (p_ttc k) (fun t =>
  obind (olift (refine_weights (q_nquad (src k)) (length (target_points (q_ctr (src k)) (pts k))) t)) (fun ws =>
  Val (TA (q_nquad (src k)) (target_points (q_ctr (src k)) (pts k)) ws
             (target_radii C (src k) (length (target_points (q_ctr (src k)) (pts k))))))).
Definition p_tree (k : gkey) : outcome ftree := obind (p_args k) (fun a => Val (w_build W a)).
Definition p_trav (k : gkey) : outcome ftrav := obind (p_tree k) (fun T => Val (w_trav W T (c_extent C))).
Lemma p_args_at k a : p_args k = Val a <-> args_at k a.
Proof.
  unfold p_args, args_at. split.
  - destruct (p_ttc k) as [t|] eqn:T; cbn; [|discriminate]. destruct (refine_weights _ _ _) as [ws|] eqn:R; cbn; [|discriminate]. intros E. injection E as <-.
    exists t, ws. split; [apply p_ttc_at; exact T|]. auto.
  - intros (t & ws & T & R & ->). apply p_ttc_at in T. rewrite T. cbn. rewrite R. reflexivity.
Qed.
Lemma p_tree_at k t : p_tree k = Val t <-> tree_at k t.
Proof.
  unfold p_tree, tree_at. split.
  - destruct (p_args k) as [a|] eqn:A; cbn; [|discriminate]. intros E. injection E as <-. exists a. split; [apply p_args_at; exact A|reflexivity].
  - intros (a & A & ->). apply p_args_at in A. rewrite A. reflexivity.
Qed.
Lemma p_trav_at k t : p_trav k = Val t <-> trav_at k t.
Proof.
  unfold p_trav, trav_at. split.
  - destruct (p_tree k) as [a|] eqn:A; cbn; [|discriminate]. intros E. injection E as <-. exists a. split; [apply p_tree_at; exact A|reflexivity].
  - intros (a & A & ->). apply p_tree_at in A. rewrite A. reflexivity.
Qed.

(** The record after a successful user_target_to_center is the one before, with the association. *)
Lemma ttc_keeps k s : match user_target_to_center W k s with (s', Val t) =>
    s_indep s' = s_indep s /\ (exists g, find_geo s' k = Some g /\ g_ttc g = Some t
       /\ g_tree g = match find_geo s k with Some g0 => g_tree g0 | None => None end
       /\ g_trav g = match find_geo s k with Some g0 => g_trav g0 | None => None end)
  | _ => True end.
Proof.
  unfold user_target_to_center, bind, get_geo. destruct (find_geo s k) as [g|] eqn:E; cbn.
  - destruct (g_ttc g) as [t|] eqn:T; cbn; [split; [reflexivity|]; exists g; auto|].
    destruct (associate_all (src k) (pts k)); cbn; auto. split; [reflexivity|]. rewrite find_geo_look. cbn. rewrite look_put_same. eexists. split; [reflexivity|]. auto.
  - destruct (associate_all (src k) (pts k)); cbn; auto. split; [reflexivity|]. rewrite find_geo_look. cbn. rewrite look_put_same. eexists. split; [reflexivity|]. auto.
Qed.

Definition memo (s : state) (k : gkey) : geo := match find_geo s k with Some g => g | None => Geo None None None end.
Definition new_tree (k : gkey) : M ftree :=
  let q := source_of W k in
  let P := target_points (q_ctr q) (points_of W k) in
  let r := target_radii C q (length P) in
  mdo ttc <- user_target_to_center W k;
  mdo ws <- lift (refine_weights (q_nquad q) (length P) ttc);
  let a := TA (q_nquad q) P ws r in
  mdo _ <- say (ETree k a);
  let t := w_build W a in
  mdo g <- get_geo k;
  mdo _ <- set_geo k (Geo (g_ttc g) (Some t) (g_trav g));
  ret t.
Lemma tree_eq k s : tree W C k s = match g_tree (memo s k) with Some t => (s, Val t) | None => new_tree k s end.
Proof. unfold tree, bind at 1, get_geo at 1. fold (memo s k). destruct (g_tree (memo s k)); reflexivity. Qed.
Definition new_trav (k : gkey) : M ftrav :=
  mdo t <- tree W C k;
  mdo _ <- say (ETrav k (c_extent C));
  let v := w_trav W t (c_extent C) in
  mdo g <- get_geo k;
  mdo _ <- set_geo k (Geo (g_ttc g) (g_tree g) (Some v));
  ret v.
Lemma trav_eq k s : traversal W C k s = match g_trav (memo s k) with Some t => (s, Val t) | None => new_trav k s end.
Proof. unfold traversal, bind at 1, get_geo at 1. fold (memo s k). destruct (g_trav (memo s k)); reflexivity. Qed.

Lemma pure_tree k : pure quiet (tree W C k) (p_tree k).
Proof.
  intros s V. rewrite tree_eq. destruct (g_tree (memo s k)) as [t|] eqn:G; unfold memo in G.
  - destruct (find_geo s k) as [g|] eqn:E; [|discriminate].
    cbn. split; [exact V|split; [reflexivity|split; [|exists []; rewrite app_nil_r; auto]]]. symmetry. apply p_tree_at. eapply v_tree; [exact V|exact E|exact G].
  - assert (NT : forall g, find_geo s k = Some g -> g_tree g = None) by (intros g E; rewrite E in G; exact G). unfold new_tree.
    destruct (@pure_weaken assoc_event quiet _ _ _ assoc_quiet (pure_ttc k) s V) as (V1 & K1 & O1 & l1 & L1 & F1). pose proof (ttc_keeps k s) as KP.
    unfold bind at 1. destruct (user_target_to_center W k s) as [s1 [t|e]]; cbn in *.
    + unfold p_tree, p_args. rewrite <- O1. cbn. unfold bind at 1. destruct (refine_weights _ _ t) as [ws|e] eqn:R; cbn.
      * destruct KP as (_ & g & FG & T1 & T2 & T3).
        assert (NT2 : g_tree g = None) by (rewrite T2; destruct (find_geo s k) eqn:E; [apply NT; reflexivity|reflexivity]).
        assert (FL : forall l, find_geo (St (s_geo s1) (s_indep s1) (s_calls s1) l) k = Some g) by (intros l; exact FG). rewrite !FL. cbn.
        assert (AT : args_at k (TA (q_nquad (src k)) (target_points (q_ctr (src k)) (pts k)) ws (target_radii C (src k) (length (target_points (q_ctr (src k)) (pts k)))))).
        { exists t, ws. split; [apply p_ttc_at; symmetry; exact O1|]. auto. }
        split; [|split; [exact K1|split; [reflexivity|]]].
        -- apply (@valid_record s1 k _ (ETree k (TA (q_nquad (src k)) (target_points (q_ctr (src k)) (pts k)) ws (target_radii C (src k) (length (target_points (q_ctr (src k)) (pts k)))))) V1); cbn; try (intros; discriminate); auto.
           ++ right. right. left. eauto.
           ++ intros t0 X. eapply v_ttc; [exact V1|exact FG|exact X].
           ++ intros t0 X. injection X as <-. eexists. split; [exact AT|reflexivity].
           ++ intros t0 X. eapply v_trav; [exact V1|exact FG|exact X].
           ++ intros g1 X. rewrite FG in X. injection X as <-. split; [auto|split; [discriminate|auto]].
           ++ intros a _. split; [discriminate|]. intros g1 X. rewrite FG in X. injection X as <-. exact NT2.
        -- rewrite L1. eexists. split; [rewrite <- app_assoc; reflexivity|]. apply Forall_app. split; [exact F1|repeat constructor].
      * split; [exact V1|split; [exact K1|split; [reflexivity|]]]. exists l1. auto.
    + unfold p_tree, p_args. rewrite <- O1. cbn. split; [exact V1|split; [exact K1|split; [reflexivity|]]]. exists l1. auto.
Qed.

Lemma tree_keeps k s : match tree W C k s with (s', Val t) =>
    exists g, find_geo s' k = Some g /\ g_tree g = Some t
       /\ g_trav g = match find_geo s k with Some g0 => g_trav g0 | None => None end
  | _ => True end.
Proof.
  rewrite tree_eq. destruct (g_tree (memo s k)) as [t|] eqn:T; unfold memo in T.
  - destruct (find_geo s k) as [g0|] eqn:E; [|discriminate]. exists g0. auto.
  - unfold new_tree. pose proof (ttc_keeps k s) as KP. unfold bind at 1. destruct (user_target_to_center W k s) as [s1 [t|e]]; cbn; [|exact I].
    unfold bind at 1. destruct (refine_weights _ _ t) as [ws|e] eqn:R; cbn; [|exact I]. destruct KP as (_ & g & FG & T1 & T2 & T3).
    eexists. split; [apply look_put_same|]. cbn. split; [reflexivity|]. unfold find_geo in FG |- *. cbn [s_geo]. destruct (find _ (s_geo s1)) as [[k1 g1]|]; [|discriminate]. cbn in FG |- *. injection FG as ->. exact T3.
Qed.

Lemma pure_trav k : pure quiet (traversal W C k) (p_trav k).
Proof.
  intros s V. rewrite trav_eq. destruct (g_trav (memo s k)) as [t|] eqn:G; unfold memo in G.
  - destruct (find_geo s k) as [g|] eqn:E; [|discriminate].
    cbn. split; [exact V|split; [reflexivity|split; [|exists []; rewrite app_nil_r; auto]]]. symmetry. apply p_trav_at. eapply v_trav; [exact V|exact E|exact G].
  - assert (NT : forall g, find_geo s k = Some g -> g_trav g = None) by (intros g E; rewrite E in G; exact G). unfold new_trav.
    destruct (@pure_tree k s V) as (V1 & K1 & O1 & l1 & L1 & F1). pose proof (tree_keeps k s) as KP.
    unfold bind at 1. destruct (tree W C k s) as [s1 [t|e]]; cbn in *.
    + unfold p_trav. rewrite <- O1. cbn.
      destruct KP as (g & FG & T2 & T3).
      assert (NT2 : g_trav g = None) by (rewrite T3; destruct (find_geo s k) eqn:E; [apply NT; reflexivity|reflexivity]).
      assert (FL : forall l, find_geo (St (s_geo s1) (s_indep s1) (s_calls s1) l) k = Some g) by (intros l; exact FG). rewrite !FL. cbn.
      split; [|split; [exact K1|split; [reflexivity|]]].
      * apply (@valid_record s1 k _ (ETrav k (c_extent C)) V1); cbn; try (intros; discriminate); auto.
        -- right. right. right. eauto.
        -- intros t0 X. eapply v_ttc; [exact V1|exact FG|exact X].
        -- intros t0 X. eapply v_tree; [exact V1|exact FG|exact X].
        -- intros t0 X. injection X as <-. exists t. split; [apply p_tree_at; symmetry; exact O1|reflexivity].
        -- intros g1 X. rewrite FG in X. injection X as <-. split; [auto|split; [auto|discriminate]].
        -- intros a _. split; [discriminate|]. intros g1 X. rewrite FG in X. injection X as <-. exact NT2.
      * rewrite L1. eexists. split; [rewrite <- app_assoc; reflexivity|]. apply Forall_app. split; [exact F1|repeat constructor].
    + unfold p_trav. rewrite <- O1. cbn. split; [exact V1|split; [exact K1|split; [reflexivity|]]]. exists l1. auto.
Qed.

(** *** Kernels and wrangler *)
Definition p_indep (sk tk : list nat) : outcome unit :=
  obind (olift (base_kernel W sk)) (fun _ =>
    if String.eqb (c_backend C) "sumpy" then Val tt
    else if String.eqb (c_backend C) "fmmlib" then
      match sk with [_] => p_raise (w_fmmlib W sk tk (c_tsqbx C)) | _ => Exc (Std ValueError) end
    else Exc (Std ValueError)).
Lemma pure_indep sk tk : pure quiet (tree_indep W C sk tk) (p_indep sk tk).
Proof.
  intros s V. unfold tree_indep. destruct (indep_known s sk tk) eqn:K.
  - cbn. split; [exact V|split; [reflexivity|split; [|exists []; rewrite app_nil_r; auto]]]. cbn [snd]. apply indep_known_In in K.
    destruct (v_sk V _ _ K) as ((x & B) & Q). unfold p_indep. rewrite B. cbn. destruct Q as [->|(-> & (y & ->) & F)]; [reflexivity|]. cbn. rewrite F. reflexivity.
  - unfold p_indep, bind at 1. destruct (base_kernel W sk) as [x|e] eqn:B; cbn [lift ret fail olift obind].
    2:{ split; [exact V|split; [reflexivity|split; [reflexivity|exists []; rewrite app_nil_r; auto]]]. }
    assert (GO : forall H : c_backend C = "sumpy"%string \/ (c_backend C = "fmmlib"%string /\ (exists x, sk = [x]) /\ w_fmmlib W sk tk (c_tsqbx C) = None),
       res_ok quiet s (St (s_geo s) (s_indep s ++ [(sk, tk)]) (s_calls s) (s_log s ++ [EIndep sk tk]), Val tt) (Val tt)).
    { intros H. split; [|split; [reflexivity|split; [reflexivity|exists [EIndep sk tk]; split; [reflexivity|repeat constructor]]]]. cbn [fst].
      destruct V as [v1 v2 v3 v4 v5 v6 v7 v8 v9 v10 v11]. constructor; cbn [s_geo s_indep s_calls s_log]; try assumption.
      - intros sk0 tk0 I. apply in_app_iff in I. destruct I as [I|[E|[]]]; [exact (v4 _ _ I)|]. injection E as <- <-. split; [eauto|exact H].
      - apply fresh_work_snoc; [exact v5|]. intros e0 I0 SW. destruct e0 as [|k0|k0 [|]|k0 a0|k0 m0|sk0 tk0|k0|k0|k0]; cbn in SW; try contradiction. destruct SW as [-> ->].
        apply v11 in I0. apply indep_known_In in I0. congruence.
      - apply Forall_app. split; [exact v6|repeat constructor].
      - intros k J. apply in_app_iff in J. destruct J as [J|[J|[]]]; [exact (v7 _ J)|discriminate].
      - intros k J. apply in_app_iff in J. destruct J as [J|[J|[]]]; [exact (v8 _ J)|discriminate].
      - intros k a J. apply in_app_iff in J. destruct J as [J|[J|[]]]; [exact (v9 _ _ J)|discriminate].
      - intros k a J. apply in_app_iff in J. destruct J as [J|[J|[]]]; [exact (v10 _ _ J)|discriminate].
      - intros sk0 tk0 J. apply in_app_iff. apply in_app_iff in J. destruct J as [J|[J|[]]]; [left; exact (v11 _ _ J)|right; left; congruence]. }
    assert (NO : forall e, res_ok quiet s (s, @Exc unit e) (Exc e)).
    { intros e. split; [exact V|split; [reflexivity|split; [reflexivity|exists []; rewrite app_nil_r; auto]]]. }
    destruct (String.eqb (c_backend C) "sumpy") eqn:S1.
    + apply String.eqb_eq in S1. apply (GO (or_introl S1)).
    + destruct (String.eqb (c_backend C) "fmmlib") eqn:S2; [|apply NO]. apply String.eqb_eq in S2. destruct sk as [|x0 [|y sk]]; try apply NO.
      destruct (w_fmmlib W [x0] tk (c_tsqbx C)) as [e|] eqn:F; [apply NO|]. apply GO. right. eauto.
Qed.
Definition p_wrangler (k : gkey) (base : nat) : outcome ftrav :=
  if String.eqb (c_backend C) "sumpy" then
    if match c_tsqbx C with Some true => true | _ => false end then Exc (Std ValueError) else
    if w_invariant W base then p_trav k else Exc UnboundLocal
  else p_trav k.
Lemma pure_wrangler k base : pure quiet (wrangler W C k base) (p_wrangler k base).
Proof.
  unfold wrangler, p_wrangler. destruct (String.eqb _ _); [|apply pure_trav]. destruct (match c_tsqbx C with Some true => true | _ => false end); [apply pure_fail|].
  destruct (w_invariant W base); [apply pure_trav|apply pure_fail].
Qed.

(** *** Everything before the inspector *)
Definition prefix := (list ((nat * option Z) * nat) * gkey * ftree * ftrav * list Z)%type.
Definition pre (i : insn) (b : bexpr) : M prefix :=
  mdo r <- lift (gather (b_obj b) (i_outs i) [] []);
  let k := GK (b_places b) (i_src i) (snd r) in
  mdo _ <- geometry_data k;
  mdo _ <- raise_if (i_strengths i);
  mdo base <- lift (base_kernel W (i_skn i));
  mdo T <- tree W C k;
  mdo _ <- raise_if (i_args i);
  mdo _ <- tree_indep W C (i_skn i) (i_tkn i);
  mdo V <- wrangler W C k base;
  mdo ttc <- user_target_to_center W k;
  if existsb (fun c => (c =? -2)%Z) ttc then fail _ (Std RuntimeError) else ret (fst r, k, T, V, ttc).
Definition p_pre (i : insn) (b : bexpr) : outcome prefix :=
  obind (olift (gather (b_obj b) (i_outs i) [] [])) (fun r =>
  let k := GK (b_places b) (i_src i) (snd r) in
  obind (Val tt) (fun _ =>
  obind (p_raise (i_strengths i)) (fun _ =>
  obind (olift (base_kernel W (i_skn i))) (fun base =>
  obind (p_tree k) (fun T =>
  obind (p_raise (i_args i)) (fun _ =>
  obind (p_indep (i_skn i) (i_tkn i)) (fun _ =>
  obind (p_wrangler k base) (fun V =>
  obind (p_ttc k) (fun ttc =>
  if existsb (fun c => (c =? -2)%Z) ttc then Exc (Std RuntimeError) else Val (fst r, k, T, V, ttc)))))))))).
Lemma pure_pre i b : pure quiet (pre i b) (p_pre i b).
Proof.
  unfold pre, p_pre.
  apply pure_bind; [apply pure_lift|]. intros r _.
  apply pure_bind; [eapply pure_weaken; [exact assoc_quiet|apply pure_geometry_data]|]. intros _ _.
  apply pure_bind; [apply pure_raise_if|]. intros _ _.
  apply pure_bind; [apply pure_lift|]. intros base _.
  apply pure_bind; [apply pure_tree|]. intros T _.
  apply pure_bind; [apply pure_raise_if|]. intros _ _.
  apply pure_bind; [apply pure_indep|]. intros _ _.
  apply pure_bind; [apply pure_wrangler|]. intros V _.
  apply pure_bind; [eapply pure_weaken; [exact assoc_quiet|apply pure_ttc]|]. intros t _.
  destruct (existsb _ t); [apply pure_fail|apply pure_ret].
Qed.
Definition finish (m : mode) (i : insn) (x : prefix) : result (list (string * value)) :=
  let '(numbers, k, T, V, ttc) := x in
  let nc := length (q_ctr (src k)) in
  mapM (pick_output numbers (discr_starts nc (pts k))
     (driver m T V nc ttc (q_nquad (src k)) (length (i_tkn i)))) (i_outs i).
Definition key_of (x : prefix) : gkey := let '(_, k, _, _, _) := x in k.
Definition post (m : mode) (i : insn) (x : prefix) : M (list (string * value)) :=
  mdo go <- inspect C (key_of x);
  if negb go then ret (map (fun o => (o_name o, Zero)) (i_outs i)) else
  mdo _ <- say (match m with Exec => EDrive (key_of x) | Cost => ECost (key_of x) end);
  lift (finish m i x).
Lemma bind_assoc A B D (m : M A) (f : A -> M B) (g : B -> M D) s : bind (bind m f) g s = bind m (fun a => bind (f a) g) s.
Proof. unfold bind. destruct (m s) as [s1 [a|e]]; reflexivity. Qed.
Lemma bind_cong A B (m : M A) (f g : A -> M B) s : (forall a s, f a s = g a s) -> bind m f s = bind m g s.
Proof. intros E. unfold bind. destruct (m s) as [s1 [a|e]]; [apply E|reflexivity]. Qed.
Lemma exec_eq m i b s : exec_insn_fmm W C m i b s = bind (pre i b) (post m i) s.
Proof.
  unfold exec_insn_fmm, pre.
  do 9 (rewrite bind_assoc; apply bind_cong; clear s; intros ? s; cbv beta zeta).
  destruct (existsb _ _); reflexivity.
Qed.

(** *** Executing a statement *)
Definition run_event (m : mode) (k : gkey) : event := match m with Exec => EDrive k | Cost => ECost k end.
Definition zeros (i : insn) : list (string * value) := map (fun o => (o_name o, Zero)) (i_outs i).
(** What comes after the prefix: the outcome, given the number of earlier inspections; the
    number of inspections; the events. *)
Definition p_post (m : mode) (i : insn) (x : prefix) (n : nat) : outcome (list (string * value)) :=
  match c_inspector C with
  | None => olift (finish m i x)
  | Some f => if f n then olift (finish m i x) else Val (zeros i)
  end.
Definition d_post : nat := match c_inspector C with None => 0 | Some _ => 1 end.
Definition e_post (m : mode) (x : prefix) (n : nat) : list event :=
  match c_inspector C with
  | None => [run_event m (key_of x)]
  | Some f => if f n then [EInspect (key_of x); run_event m (key_of x)] else [EInspect (key_of x)]
  end.
Lemma post_spec m i x s : valid s ->
  valid (fst (post m i x s)) /\ snd (post m i x s) = p_post m i x (s_calls s)
  /\ s_calls (fst (post m i x s)) = s_calls s + d_post /\ s_log (fst (post m i x s)) = s_log s ++ e_post m x (s_calls s).
Proof.
  intros V. unfold post, p_post, d_post, e_post, inspect.
  assert (RV : forall n s1, valid s1 -> valid (St (s_geo s1) (s_indep s1) n (s_log s1 ++ [run_event m (key_of x)]))).
  { intros n s1 V1. apply valid_idle; [exact V1|destruct m; exact I|destruct m; exact I|]. intros k E. destruct m; discriminate. }
  assert (LL : forall s1, lift (finish m i x) s1 = (s1, olift (finish m i x))) by (intros s1; destruct (finish m i x); reflexivity).
  destruct (c_inspector C) as [f|].
  - cbv beta iota zeta delta [bind say ret]. cbn [s_geo s_indep s_calls s_log].
    assert (V1 : valid (St (s_geo s) (s_indep s) (S (s_calls s)) (s_log s ++ [EInspect (key_of x)]))).
    { apply valid_idle; [exact V|exact I|exact I|]. intros k E. discriminate. }
    destruct (f (s_calls s)); cbn [negb].
    + rewrite !LL. cbn [fst snd]. split; [|split; [reflexivity|split; [cbn; lia|]]].
      * exact (RV (S (s_calls s)) _ V1).
      * cbn. rewrite <- app_assoc. destruct m; reflexivity.
    + cbn. split; [exact V1|split; [reflexivity|split; [lia|reflexivity]]].
  - cbv beta iota zeta delta [bind say ret]. cbn [negb s_geo s_indep s_calls s_log]. rewrite !LL. cbn [fst snd]. split; [|split; [reflexivity|split; [cbn; lia|]]].
    + exact (RV (s_calls s) s V).
    + cbn. destruct m; reflexivity.
Qed.

Lemma fmm_spec m i b s : valid s ->
  let r := exec_insn_fmm W C m i b s in
  valid (fst r) /\ exists q, Forall quiet q /\
  match p_pre i b with
  | Exc e => snd r = Exc e /\ s_calls (fst r) = s_calls s /\ s_log (fst r) = s_log s ++ q
  | Val x => snd r = p_post m i x (s_calls s) /\ s_calls (fst r) = s_calls s + d_post
      /\ s_log (fst r) = s_log s ++ q ++ e_post m x (s_calls s)
  end.
Proof.
  intros V r. unfold r. rewrite exec_eq. destruct (@pure_pre i b s V) as (V1 & K1 & O1 & q & L1 & F1). unfold bind.
  destruct (pre i b s) as [s1 [x|e]]; cbn in V1, K1, O1, L1; rewrite <- O1.
  - destruct (@post_spec m i x s1 V1) as (V2 & O2 & K2 & L2). split; [exact V2|]. exists q. split; [exact F1|]. rewrite <- K1.
    split; [exact O2|]. split; [exact K2|]. rewrite L2, L1, app_assoc. reflexivity.
  - cbn. split; [exact V1|]. exists q. auto.
Qed.

(** *** Direct execution *)
Definition p_other (i : insn) (b : bexpr) (g : (nat * option Z) * list (nat * output))
    : outcome (list (nat * (string * list (list contr)))) :=
  let '((t, l), os) := g in
  let lim := match l with Some z => z | None => 0%Z end in
  obind (olift (b_obj b t)) (fun x =>
  let k := GK (b_places b) (i_src i) [(x, lim)] in
  let q := src k in
  obind (Val tt) (fun _ =>
  obind (p_ttc k) (fun ttc =>
  let tt' := skipn (length (q_ctr q)) ttc in
  if (Z.abs lim =? 1)%Z && (length (qbx_tgt_numbers tt') <? length (w_pts W x)) then Exc (Std RuntimeError) else
  olift (mapM (named (length (i_tkn i)) (fun k => apply_on_subset (q_nquad q) tt' k (p2p (q_nquad q) (w_pts W x) k))) os)))).
Lemma pure_other i b g : pure assoc_event (exec_other_insn W i b g) (p_other i b g).
Proof.
  destruct g as [[t l] os]. unfold exec_other_insn, p_other.
  apply pure_bind; [apply pure_lift|]. intros x _. cbv zeta.
  apply pure_bind; [apply pure_geometry_data|]. intros _ _.
  apply pure_bind; [apply pure_ttc|]. intros ttc _.
  destruct (_ && _); [apply pure_fail|apply pure_lift].
Qed.
Definition p_direct (i : insn) (b : bexpr) : outcome (list (option (string * value))) :=
  let nq := q_nquad (w_q W (b_places b) (i_src i)) in
  let nknl := length (i_tkn i) in
  obind (p_raise (i_args i)) (fun _ =>
  obind (p_raise (i_strengths i)) (fun _ =>
  obind (olift (resolve_all (b_obj b) (i_outs i))) (fun _ =>
  obind (olift (partition_outputs (b_self b) (combine (seq 0 (length (i_outs i))) (i_outs i)) [] [])) (fun gs =>
  obind (olift (base_kernel W (i_skn i))) (fun _ =>
  obind (olift (mapM (exec_self nq nknl (target_nodes W b)) (fst gs))) (fun r1 =>
  obind (omap (p_other i b) (snd gs)) (fun r2 =>
  Val (map (option_map (fun e : string * list (list contr) => (fst e, Pot (snd e))))
        (put_results (put_results (repeat None (length (i_outs i))) (concat r1)) (concat r2)))))))))).
Lemma pure_direct i b : pure assoc_event (exec_insn_direct W i b) (p_direct i b).
Proof.
  unfold exec_insn_direct, p_direct. cbv zeta.
  apply pure_bind; [apply pure_raise_if|]. intros _ _.
  apply pure_bind; [apply pure_raise_if|]. intros _ _.
  apply pure_bind; [apply pure_lift|]. intros _ _.
  apply pure_bind; [apply pure_lift|]. intros gs _.
  apply pure_bind; [apply pure_lift|]. intros _ _.
  apply pure_bind; [apply pure_lift|]. intros r1 _.
  apply pure_bind; [apply pure_mmap; intros g; apply pure_other|]. intros r2 _. apply pure_ret.
Qed.

(** *** Statements and sessions *)
Definition p_compute (m : mode) (i : insn) (b : bexpr) (n : nat) : outcome (list (option (string * value))) :=
  if c_direct C then match m with Exec => p_direct i b | Cost => Exc (Std NotImplementedError) end
  else obind (obind (p_pre i b) (fun x => p_post m i x n)) (fun r => Val (map Some r)).
Definition d_compute (m : mode) (i : insn) (b : bexpr) : nat :=
  if c_direct C then 0 else match p_pre i b with Val _ => d_post | Exc _ => 0 end.
Definition warning (m : mode) : list event :=
  if c_norefine C && negb (c_direct C && match m with Cost => true | Exec => false end) then [EWarn] else [].
Definition e_compute (m : mode) (i : insn) (b : bexpr) (n : nat) : list event :=
  if c_direct C then [] else match p_pre i b with Val x => e_post m x n | Exc _ => [] end.
Definition inner_event (e : event) : Prop := if c_direct C then assoc_event e else quiet e.

Lemma dispatch_spec A (f : M A) s (R : state * outcome A -> Prop) :
  valid s -> (forall s1, valid s1 -> s_calls s1 = s_calls s -> s_log s1 = s_log s ++ (if c_norefine C then [EWarn] else []) -> R (f s1)) -> R (dispatch C f s).
Proof.
  intros V H. unfold dispatch, bind. destruct (c_norefine C).
  - cbn [say]. apply H; [|reflexivity|reflexivity]. apply valid_idle; [exact V|exact I|exact I|]. intros k E. discriminate.
  - cbn [ret]. apply H; [exact V|reflexivity|]. rewrite app_nil_r. reflexivity.
Qed.
Lemma compute_spec m i b s : valid s ->
  let r := compute W C m i b s in
  valid (fst r) /\ snd r = p_compute m i b (s_calls s) /\ s_calls (fst r) = s_calls s + d_compute m i b
  /\ exists q, Forall inner_event q /\ s_log (fst r) = s_log s ++ warning m ++ q ++ e_compute m i b (s_calls s).
Proof.
  intros V. cbv zeta. unfold p_compute, d_compute, warning, e_compute, inner_event, compute.
  assert (FM : c_direct C = false -> forall m,
    let r := dispatch C (mdo r <- exec_insn_fmm W C m i b; ret (map Some r)) s in
    valid (fst r) /\ snd r = obind (obind (p_pre i b) (fun x => p_post m i x (s_calls s))) (fun r => Val (map Some r))
    /\ s_calls (fst r) = s_calls s + match p_pre i b with Val _ => d_post | Exc _ => 0 end
    /\ exists q, Forall quiet q /\ s_log (fst r) = s_log s ++ (if c_norefine C then [EWarn] else []) ++ q ++ match p_pre i b with Val x => e_post m x (s_calls s) | Exc _ => [] end).
  { intros D m0. cbv zeta. apply dispatch_spec with (R := fun r => valid (fst r) /\ snd r = obind (obind (p_pre i b) (fun x => p_post m0 i x (s_calls s))) (fun r => Val (map Some r))
    /\ s_calls (fst r) = s_calls s + match p_pre i b with Val _ => d_post | Exc _ => 0 end
    /\ exists q, Forall quiet q /\ s_log (fst r) = s_log s ++ (if c_norefine C then [EWarn] else []) ++ q ++ match p_pre i b with Val x => e_post m0 x (s_calls s) | Exc _ => [] end); [exact V|].
    intros s1 V1 K1 L1. destruct (@fmm_spec m0 i b s1 V1) as (V2 & q & F & X). unfold bind.
    destruct (exec_insn_fmm W C m0 i b s1) as [s2 o]. cbn [fst snd] in V2, X. destruct (p_pre i b) as [x|e].
    - destruct X as (O & K & L). subst o. rewrite K1 in *. cbn [obind]. destruct (p_post m0 i x (s_calls s)) as [v|e]; cbn; (split; [exact V2|split; [reflexivity|split; [exact K|]]]);
        exists q; (split; [exact F|]); rewrite L, L1, <- !app_assoc; reflexivity.
    - destruct X as (O & K & L). subst o. cbn. split; [exact V2|split; [reflexivity|split; [lia|]]]. exists q. split; [exact F|]. rewrite L, L1, app_nil_r, <- !app_assoc. reflexivity. }
  destruct (c_direct C) eqn:D.
  - destruct m; cbn [andb negb].
    + apply dispatch_spec with (R := fun r => valid (fst r) /\ snd r = p_direct i b /\ s_calls (fst r) = s_calls s + 0
        /\ exists q, Forall assoc_event q /\ s_log (fst r) = s_log s ++ (if c_norefine C && true then [EWarn] else []) ++ q ++ []); [exact V|].
      intros s1 V1 K1 L1. destruct (@pure_direct i b s1 V1) as (V2 & K2 & O2 & q & L2 & F2). split; [exact V2|]. split; [exact O2|]. split; [lia|].
      exists q. split; [exact F2|]. rewrite L2, L1, app_nil_r, <- app_assoc. destruct (c_norefine C); reflexivity.
    + rewrite Bool.andb_false_r. cbn. split; [exact V|]. split; [reflexivity|]. split; [lia|]. exists []. split; [constructor|]. rewrite app_nil_r. reflexivity.
  - cbn [andb negb]. rewrite Bool.andb_true_r. destruct m; apply (FM eq_refl).
Qed.

Lemma session_spec l : forall s, valid s -> valid (fst (session W C l s)) /\ length (snd (session W C l s)) = length l.
Proof.
  induction l as [|[[m i] b] l IH]; intros s V; cbn [session]; [auto|].
  destruct (@compute_spec m i b s V) as (V1 & _). destruct (compute W C m i b s) as [s1 r]. cbn in V1. destruct (IH s1 V1) as (V2 & L2).
  destruct (session W C l s1) as [s2 rs]. cbn in *. split; [exact V2|]. lia.
Qed.
End Det.
