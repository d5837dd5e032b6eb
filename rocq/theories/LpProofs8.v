(** Lemmas for LpProps.v, part 8: layer potentials. *)
From Coq Require Import Reals Setoid Ring InitialRing Permutation.
From Verif Require Import Base DofModel GeoModel GeoSpec GeoProofs CtorModel CtorSpec CtorProofs SymSpec
  LpModel LpSpec LpProofs LpProofs2 LpProofs3 LpProofs4 LpProofs5 LpProofs6 LpProofs7.
Set Implicit Arguments.
Open Scope nat_scope.

(** ** Arguments *)
Lemma find_rev_last (D : Type) (l : list (string * D)) n :
  option_map snd (find (fun p => String.eqb (fst p) n) (rev l)) = last_value l n.
Proof.
  assert (F : forall (l m : list (string * D)), find (fun p => String.eqb (fst p) n) (l ++ m)
     = match find (fun p => String.eqb (fst p) n) l with Some x => Some x | None => find (fun p => String.eqb (fst p) n) m end).
  { intros l0 m. induction l0 as [|a l0 IH]; [reflexivity|]. cbn [app find]. destruct (fst a =? n)%string; [reflexivity|exact IH]. }
  induction l as [|[m v] l IH]; [reflexivity|]. cbn [rev last_value]. rewrite F.
  destruct (find _ (rev l)) as [x|]; cbn [option_map] in *; rewrite <- IH; [reflexivity|].
  cbn [find fst]. destruct (m =? n)%string; reflexivity.
Qed.
Lemma last_value_app (D : Type) (l m : list (string * D)) n :
  last_value (l ++ m) n = match last_value m n with Some v => Some v | None => last_value l n end.
Proof.
  induction l as [|[k v] l IH]; cbn [app last_value]; [destruct (last_value m n); reflexivity|].
  rewrite IH. destruct (last_value m n); reflexivity.
Qed.
Definition final_args (ka : kargs) (kwargs : list (string * list ex)) : list (string * list ex) :=
  fold_left (fun d p => dset d (fst p) (snd p)) kwargs (kdict ka).
Lemma kdict_spec ka : valid_kargs ka -> NoDup (dkeys (kdict ka)) /\ forall n, dget (kdict ka) n = last_value (arg_items ka) n.
Proof.
  intros H. assert (H' : forall l, ka = KMap l -> NoDup (map fst l)) by (intros l ->; exact H).
  destruct (@base_dict_spec (list ex) ka H') as [A B]. split; [exact A|]. intros n. exact (B n).
Qed.
Lemma final_spec ka kwargs : valid_kargs ka ->
  NoDup (dkeys (final_args ka kwargs)) /\ forall n, dget (final_args ka kwargs) n = given ka kwargs n.
Proof.
  intros H. destruct (kdict_spec ka H) as [A B]. unfold final_args.
  destruct (@dict_of_spec (list ex) kwargs (kdict ka) A) as [A' B']. split; [exact A'|].
  intros n. rewrite B'. unfold LpSpec.given. rewrite find_rev_last, last_value_app, B. reflexivity.
Qed.
Lemma final_keys ka kwargs n : valid_kargs ka -> In n (dkeys (final_args ka kwargs)) <-> In n (given_names ka kwargs).
Proof.
  intros H. destruct (@final_spec ka kwargs H) as [_ B]. rewrite dget_keys, B. unfold given_names, LpSpec.given.
  rewrite find_rev_last, last_value_keys. reflexivity.
Qed.
Lemma strs_eqb_refl l : strs_eqb l l = true.
Proof. induction l as [|x l IH]; [reflexivity|]. cbn. rewrite String.eqb_refl. exact IH. Qed.
Lemma base_eqb_refl b : base_eqb b b = true.
Proof. unfold base_eqb. rewrite !Nat.eqb_refl, strs_eqb_refl. reflexivity. Qed.

Lemma names_split k n : In n (flat_map arg_names ([txr k] ++ [sxr k])) <-> In n (arg_names k).
Proof.
  cbn [app flat_map]. rewrite app_nil_r, in_app_iff. unfold arg_names, txr, sxr. cbn [kb kw]. rewrite !in_app_iff.
  assert (F1 : In n (flat_map (fun w => match w with WDir n => [n] | _ => [] end) (filter is_src (kw k)))
               <-> In n (flat_map (fun w => match w with WDir n => [n] | _ => [] end) (kw k))).
  { rewrite !in_flat_map. split; intros (w & Hw & Hn).
    - apply filter_In in Hw. exists w. tauto.
    - exists w. split; [|exact Hn]. apply filter_In. split; [exact Hw|]. destruct w; cbn in *; try contradiction; reflexivity. }
  assert (F2 : In n (flat_map (fun w => match w with WDir n => [n] | _ => [] end) (filter (fun w => negb (is_src w)) (kw k))) -> False).
  { rewrite in_flat_map. intros (w & Hw & Hn). apply filter_In in Hw. destruct Hw as [_ Hw].
    destruct w; cbn in *; try contradiction; discriminate. }
  tauto.
Qed.
(** A kernel's [IntG] node is created exactly when limit and names fit. *)
Lemma mk_intg_iff k dens lim s t args u :
  mk_intg (sxr k) [txr k] dens lim s t args = Ok u <->
  limit_allowed lim = true /\ (forall n, In n (dkeys args) <-> In n (arg_names k))
  /\ u = EPot (sxr k) [txr k] dens lim s t args.
Proof.
  unfold mk_intg. destruct (limit_allowed lim); cbn [negb]; [|split; [discriminate|intros (X & _); discriminate]].
  cbn [app hd kb sxr txr forallb]. rewrite !base_eqb_refl. cbn [andb negb].
  change [txr k; sxr k] with ([txr k] ++ [sxr k]).
  destruct (subset (flat_map arg_names ([txr k] ++ [sxr k])) (dkeys args)) eqn:E1; cbn [negb].
  - destruct (subset (dkeys args) (flat_map arg_names ([txr k] ++ [sxr k]))) eqn:E2; cbn [negb].
    + rewrite subset_spec in E1, E2. split.
      * intros H. injection H as <-. split; [reflexivity|]. split; [|reflexivity].
        intros n. rewrite <- (names_split k n). split; auto.
      * intros (_ & _ & ->). reflexivity.
    + split; [discriminate|]. intros (_ & H & _). exfalso. apply not_true_iff_false in E2. apply E2. apply subset_spec.
      intros n Hn. apply names_split. apply H. exact Hn.
  - split; [discriminate|]. intros (_ & H & _). exfalso. apply not_true_iff_false in E1. apply E1. apply subset_spec.
    intros n Hn. apply H. apply names_split. exact Hn.
Qed.

Section V.
Variable C : calculus.
Notation R := (dr_car (cr C)).
Notation r0 := (dr_0 (cr C)).
Notation r1 := (dr_1 (cr C)).
Notation "x +! y" := (dr_add (cr C) x y) (at level 50, left associativity).
Notation "x *! y" := (dr_mul (cr C) x y) (at level 40, left associativity).
Notation d := (dr_d (cr C)).
Add Ring Rr8 : (dr_ring (cr C)).

Lemma target_filter ws u : target_op C (filter (fun w => negb (is_src w)) ws) u = target_op C ws u.
Proof. induction ws as [|w ws IH]; [reflexivity|]. destruct w; cbn [filter is_src negb target_op]; rewrite ?IH; reflexivity. Qed.
Lemma source_filter b lim s t av ws : forall axes x,
  source_pot C b lim s t av (filter is_src ws) axes x = source_pot C b lim s t av ws axes x.
Proof.
  induction ws as [|w ws IH]; intros axes x; [reflexivity|]. destruct w; cbn [filter is_src source_pot]; rewrite ?IH; try reflexivity.
  unfold sum_axes. f_equal. apply map_ext. intros i. apply IH.
Qed.
Lemma source_ext b lim s t av av' ws : (forall n, In n (arg_names (Kn b ws)) -> alookup C av n = alookup C av' n) ->
  forall axes x, source_pot C b lim s t av ws axes x = source_pot C b lim s t av' ws axes x.
Proof.
  intros H. assert (Hb : map (alookup C av) (b_args b) = map (alookup C av') (b_args b)).
  { apply map_ext_in. intros n Hn. apply H. unfold arg_names. cbn [kb]. apply in_app_iff. left. exact Hn. }
  assert (Hw : forall n, In (WDir n) ws -> alookup C av n = alookup C av' n).
  { intros n Hn. apply H. unfold arg_names. cbn [kw]. apply in_app_iff. right. apply in_flat_map. exists (WDir n). split; [exact Hn|left; reflexivity]. }
  clear H. induction ws as [|w ws IH]; intros axes x; cbn [source_pot]; [rewrite Hb; reflexivity|].
  assert (IH' := IH (fun n Hn => Hw n (or_intror Hn))).
  destruct w; try apply IH'. rewrite (Hw name (or_introl eq_refl)). unfold sum_axes. f_equal. apply map_ext. intros i. apply IH'.
Qed.
Lemma alookup_map (f : list ex -> list R) (args : list (string * list ex)) n :
  alookup C (map (fun p => (fst p, f (snd p))) args) n = match dget args n with Some v => f v | None => [] end.
Proof. induction args as [|[m v] args IH]; [reflexivity|]. cbn [map fst snd alookup dget]. destruct (m =? n)%string; [reflexivity|exact IH]. Qed.
Lemma alookup_names (g : string -> list R) l n : In n l -> alookup C (map (fun n => (n, g n)) l) n = g n.
Proof.
  induction l as [|m l IH]; intros H; [contradiction|]. cbn [map alookup]. destruct (String.eqb_spec m n); [subst; reflexivity|].
  apply IH. destruct H; [contradiction|assumption].
Qed.
Definition node (k : kern) (lim : limarg) (s t : dofdesc) (args : list (string * list ex)) (e : ex) : ex :=
  EPot (sxr k) [txr k] [e] lim s t args.
Lemma node_val nu k lim s t args e :
  val C nu (node k lim s t args e)
  = target_op C (kw k) (source_pot C (kb k) lim s t (map (fun p => (fst p, map (val C nu) (snd p))) args) (kw k) [] (val C nu e)).
Proof.
  unfold node. cbn [val pots map]. rewrite rsum_cons, rsum_nil. unfold sxr. cbn [kb kw]. rewrite target_filter. f_equal.
  unfold txr. cbn [kw]. rewrite source_filter. ring.
Qed.
Lemma node_pure k lim s t args e : pure e -> (forall n v, In (n, v) args -> Forall pure v) -> pure (node k lim s t args e).
Proof.
  intros Pe Ha. apply pure_pot. split; [constructor; [exact Pe|constructor]|].
  apply Forall_forall. intros [n v] Hn. exact (Ha n v Hn).
Qed.
Lemma dset_in (dct : list (string * list ex)) n v m w : In (m, w) (dset dct n v) -> w = v \/ In (m, w) dct.
Proof.
  induction dct as [|[k x] dct IH]; cbn [dset].
  - intros [E|[]]. injection E as _ <-. left. reflexivity.
  - destruct (k =? n)%string; intros [E|H].
    + injection E as _ <-. left. reflexivity.
    + right. right. exact H.
    + right. left. exact E.
    + destruct (IH H); [left; assumption|right; right; assumption].
Qed.
Lemma fold_dset_in (l : list (string * list ex)) : forall dct m w,
  In (m, w) (fold_left (fun d p => dset d (fst p) (snd p)) l dct) -> (exists m', In (m', w) l) \/ In (m, w) dct.
Proof.
  induction l as [|[n v] l IH]; intros dct m w H; cbn [fold_left] in H; [right; exact H|].
  destruct (IH _ _ _ H) as [[m' X]|X]; [left; exists m'; right; exact X|].
  destruct (dset_in _ _ _ _ _ X) as [->|Y]; [left; exists n; left; reflexivity|right; exact Y].
Qed.
Lemma kdict_in ka m w : In (m, w) (kdict ka) -> exists m', In (m', w) (arg_items ka).
Proof.
  destruct ka as [|l|l]; cbn [kdict arg_items]; [contradiction| |intros H; exists m; exact H].
  intros H. destruct (fold_dset_in _ _ _ _ H) as [X|[]]. exact X.
Qed.
Lemma final_pure ka kwargs n v : pure_arguments ka kwargs -> In (n, v) (final_args ka kwargs) -> Forall pure v.
Proof.
  intros H Hin. destruct (fold_dset_in _ _ _ _ Hin) as [[m X]|X].
  - apply (H m v). apply in_app_iff. right. exact X.
  - apply kdict_in in X. destruct X as [m X]. apply (H m v). apply in_app_iff. left. exact X.
Qed.

(** ** [int_g_vec] *)
Lemma componentwise_ok (F : ex -> result ex) (f : R -> R) o :
  (forall e, pure e -> exists u, F e = Ok u /\ pure u /\ value C u = f (value C e)) -> pure_operand o ->
  exists o', componentwise F o = Ok o' /\ pure_operand o' /\ componentwise_value C f o o'.
Proof.
  intros H Po. destruct o as [e|l|m]; cbn [componentwise pure_operand componentwise_value] in *.
  - destruct (H e Po) as (u & -> & Pu & Vu). exists (OS u). repeat split; assumption.
  - assert (X : exists us, mapM F l = Ok us /\ Forall pure us /\ Forall2 (fun e u => value C u = f (value C e)) l us).
    { induction Po as [|e l Pe Pl IH]; [exists []; repeat split; constructor|].
      destruct (H e Pe) as (u & E & Pu & Vu). destruct IH as (us & E' & Pus & Vus).
      exists (u :: us). cbn [mapM]. rewrite E, E'. repeat split; constructor; assumption. }
    destruct X as (us & -> & P & V). exists (OA us). repeat split; assumption.
  - assert (X : exists us, mmapM F m = Ok us /\ Forall (fun t => pure (snd t)) us
        /\ Forall2 (fun t t' => fst t' = fst t /\ value C (snd t') = f (value C (snd t))) m us).
    { unfold mmapM. induction Po as [|[b e] m Pe Pl IH]; [exists []; repeat split; constructor|].
      destruct (H e Pe) as (u & E & Pu & Vu). destruct IH as (us & E' & Pus & Vus).
      exists ((b, u) :: us). cbn [mapM fst snd]. rewrite E. cbn [bind]. rewrite E'. repeat split; constructor; try assumption. split; [reflexivity|exact Vu]. }
    destruct X as (us & -> & P & V). exists (OM us). repeat split; assumption.
Qed.
Lemma layer_ext k lim s t av av' x : (forall n, In n (arg_names k) -> alookup C av n = alookup C av' n) ->
  layer C k lim s t av x = layer C k lim s t av' x.
Proof.
  intros H. unfold layer. f_equal. apply source_ext. destruct k as [b ws]. exact H.
Qed.
Lemma args_lookup ka kwargs k n : valid_kargs ka -> In n (arg_names k) ->
  alookup C (map (fun p => (fst p, map (value C) (snd p))) (final_args ka kwargs)) n = alookup C (arg_values C ka kwargs k) n.
Proof.
  intros Hv Hn. rewrite (alookup_map (map (value C))). destruct (@final_spec ka kwargs Hv) as [_ B]. rewrite B.
  unfold arg_values. rewrite (@alookup_names (fun n => map (value C) (match LpSpec.given ka kwargs n with Some v => v | None => [] end)) (arg_names k) n Hn).
  destruct (LpSpec.given ka kwargs n); reflexivity.
Qed.
Lemma int_g_vec_ok k dens lim src tgt ka kwargs s t :
  valid_kargs ka -> pure_arguments ka kwargs -> pure_operand dens -> as_dofdesc src = Ok s -> as_dofdesc tgt = Ok t ->
  limit_allowed lim = true -> matching_arguments k ka kwargs ->
  exists o, int_g_vec k dens lim src tgt ka kwargs = Ok o /\ pure_operand o
    /\ componentwise_value C (layer C k lim s t (arg_values C ka kwargs k)) dens o.
Proof.
  intros Hv Ha Hd Hs Ht Hl Hm. unfold int_g_vec. rewrite Hs, Ht. cbn [bind]. apply componentwise_ok; [|exact Hd].
  intros e Pe. exists (node k lim s t (final_args ka kwargs) e). split; [|split].
  - apply mk_intg_iff. split; [exact Hl|]. split; [|reflexivity]. intros n. rewrite <- (Hm n). apply final_keys. exact Hv.
  - apply node_pure; [exact Pe|]. intros n v Hin. exact (@final_pure ka kwargs n v Ha Hin).
  - unfold value at 1. rewrite node_val. unfold layer. f_equal. apply source_ext. intros n Hn. apply args_lookup; [exact Hv|].
    destruct k; exact Hn.
Qed.
(** A failing construction. *)
Lemma int_g_vec_inv k e lim src tgt ka kwargs o : valid_kargs ka ->
  int_g_vec k (OS e) lim src tgt ka kwargs = Ok o ->
  limit_allowed lim = true /\ matching_arguments k ka kwargs
  /\ exists s t, as_dofdesc src = Ok s /\ as_dofdesc tgt = Ok t /\ o = OS (node k lim s t (final_args ka kwargs) e).
Proof.
  intros Hv H. unfold int_g_vec in H. cbn [componentwise] in H.
  destruct (as_dofdesc src) as [s|]; cbn [bind] in H; [|discriminate].
  destruct (as_dofdesc tgt) as [t|]; cbn [bind] in H; [|discriminate].
  destruct (mk_intg (sxr k) [txr k] [e] lim s t (final_args ka kwargs)) as [u|] eqn:E.
  2:{ unfold final_args in E. rewrite E in H. discriminate. }
  pose proof E as E0. unfold final_args in E0. rewrite E0 in H. cbn [bind] in H. injection H as <-.
  apply mk_intg_iff in E. destruct E as (A & B & ->). split; [exact A|]. split.
  - intros n. rewrite <- B. symmetry. apply final_keys. exact Hv.
  - exists s, t. repeat split.
Qed.

(** ** Source derivatives *)
Lemma rsum_exchange (A B : Type) (f : A -> B -> R) l m :
  rsum C (map (fun a => rsum C (map (fun b => f a b) m)) l) = rsum C (map (fun b => rsum C (map (fun a => f a b) l)) m).
Proof.
  induction l as [|a l IH]; cbn [map].
  - rewrite rsum_nil. symmetry. apply rsum_zero. reflexivity.
  - rewrite rsum_cons, IH, <- rsum_plus. f_equal.
Qed.
Lemma source_dir b lim s t av name ws : forall axes x,
  source_pot C b lim s t av (ws ++ [WDir name]) axes x
  = sum_axes C (b_dim b) (fun i => source_pot C b lim s t av (ws ++ [WSrc i]) axes (vnth C i (alookup C av name) *! x)).
Proof.
  induction ws as [|w ws IH]; intros axes x; cbn [app source_pot]; [reflexivity|].
  destruct w; try apply IH.
  unfold sum_axes at 1 2. rewrite (rsum_ext C _ (fun j => rsum C (map (fun i => source_pot C b lim s t av (ws ++ [WSrc i]) (j :: axes)
        (vnth C j (alookup C av name0) *! (vnth C i (alookup C av name) *! x))) (seq 0 (b_dim b)))) (seq 0 (b_dim b))).
  - rewrite rsum_exchange. reflexivity.
  - intros j _. rewrite IH. unfold sum_axes. f_equal. apply map_ext. intros i. f_equal. ring.
Qed.
Lemma target_rsum ws l : target_op C ws (rsum C l) = rsum C (map (target_op C ws) l).
Proof.
  induction ws as [|w ws IH]; cbn [target_op]; [rewrite map_id; reflexivity|].
  destruct w; rewrite IH; try reflexivity.
  - rewrite d_rsum, map_map. reflexivity.
  - rewrite <- rsum_scale. reflexivity.
Qed.
Lemma insert_ws_app ws : insert_ws ws = ws ++ [WDir dir_vec_name].
Proof. induction ws as [|w ws IH]; [reflexivity|]. cbn [insert_ws app]. rewrite IH. reflexivity. Qed.
Lemma target_app_src ws w u : is_src w = true -> target_op C (ws ++ [w]) u = target_op C ws u.
Proof.
  intros Hw. induction ws as [|w' ws IH]; cbn [app target_op]; [destruct w; try discriminate; reflexivity|].
  destruct w'; rewrite IH; reflexivity.
Qed.
Lemma layer_dir k lim s t av x :
  layer C (insert_source_derivative k) lim s t av x
  = sum_axes C (b_dim (kb k)) (fun i => layer C (d_source i k) lim s t av (vnth C i (alookup C av dir_vec_name) *! x)).
Proof.
  unfold layer, insert_source_derivative, d_source. cbn [kb kw]. rewrite insert_ws_app, source_dir.
  rewrite target_app_src by reflexivity. unfold sum_axes. rewrite target_rsum, map_map. f_equal. apply map_ext. intros i.
  rewrite target_app_src by reflexivity. reflexivity.
Qed.
Lemma insert_args k : arg_names (insert_source_derivative k) = arg_names k ++ [dir_vec_name].
Proof.
  unfold arg_names, insert_source_derivative. cbn [kb kw]. rewrite insert_ws_app, flat_map_app, app_assoc. reflexivity.
Qed.
Lemma d_source_args i k : arg_names (d_source i k) = arg_names k.
Proof. unfold arg_names, d_source. cbn [kb kw]. rewrite flat_map_app. cbn [flat_map app]. rewrite app_nil_r. reflexivity. Qed.

(** One blade of [int_g_dsource]. *)
Lemma blade_ok adim k dens lim src tgt ka kwargs s t v (w : nat -> R) :
  valid_kargs ka -> pure_arguments ka kwargs -> pure_operand dens -> as_dofdesc src = Ok s -> as_dofdesc tgt = Ok t ->
  limit_allowed lim = true -> matching_arguments k ka kwargs -> ~ In dir_vec_name (arg_names k) ->
  adim = b_dim (kb k) -> length v = adim -> Forall pure v -> (forall i, i < adim -> value C (nth i v (EQ 0)) = w i) ->
  exists o, int_g_vec (insert_source_derivative k) dens lim src tgt (KMap (dset (kdict ka) dir_vec_name v)) kwargs = Ok o
    /\ pure_operand o
    /\ componentwise_value C (fun x => sum_axes C adim (fun i => layer C (d_source i k) lim s t (arg_values C ka kwargs k) (w i *! x))) dens o.
Proof.
  intros Hv Ha Hd Hs Ht Hl Hm Hn Hdim Lv Pv Vv.
  destruct (kdict_spec ka Hv) as [K1' K2].
  assert (Hv' : valid_kargs (KMap (dset (kdict ka) dir_vec_name v))) by (cbn [valid_kargs]; apply dset_nodup; exact K1').
  assert (Hng : ~ In dir_vec_name (given_names ka kwargs)) by (intros X; apply Hn; apply Hm; exact X).
  assert (Hnk : last_value kwargs dir_vec_name = None).
  { destruct (last_value kwargs dir_vec_name) eqn:E; [|reflexivity]. exfalso. apply Hng. unfold given_names. rewrite map_app.
    apply in_app_iff. right. apply last_value_keys. congruence. }
  destruct (@int_g_vec_ok (insert_source_derivative k) dens lim src tgt (KMap (dset (kdict ka) dir_vec_name v)) kwargs s t) as (o & E & Po & Vo); try assumption.
  - intros n x Hin. cbn [arg_items] in Hin. apply in_app_iff in Hin. destruct Hin as [Hin|Hin].
    + destruct (dset_in _ _ _ _ _ Hin) as [->|Y]; [exact Pv|]. apply kdict_in in Y. destruct Y as [m Y]. apply (Ha m x). apply in_app_iff. left. exact Y.
    + apply (Ha n x). apply in_app_iff. right. exact Hin.
  - intros n. rewrite insert_args, in_app_iff. rewrite <- (Hm n). unfold given_names. cbn [arg_items]. rewrite !map_app, !in_app_iff.
    assert (X : In n (map fst (kdict ka)) <-> In n (map fst (arg_items ka))).
    { change (map fst (kdict ka)) with (dkeys (kdict ka)). rewrite dget_keys, K2, last_value_keys. reflexivity. }
    change (map fst (dset (kdict ka) dir_vec_name v)) with (dkeys (dset (kdict ka) dir_vec_name v)). rewrite dkeys_dset.
    change (dkeys (kdict ka)) with (map fst (kdict ka)). rewrite X. cbn [In]. intuition.
  - exists o. split; [exact E|]. split; [exact Po|].
    assert (Fe : forall x, layer C (insert_source_derivative k) lim s t (arg_values C (KMap (dset (kdict ka) dir_vec_name v)) kwargs (insert_source_derivative k)) x
       = sum_axes C adim (fun i => layer C (d_source i k) lim s t (arg_values C ka kwargs k) (w i *! x))).
    { intros x. rewrite layer_dir, <- Hdim. set (av := arg_values C (KMap _) kwargs _).
      assert (Lk : forall n, In n (arg_names k) -> alookup C av n = alookup C (arg_values C ka kwargs k) n).
      { intros n Hk. unfold av, arg_values. rewrite insert_args.
        rewrite (@alookup_names (fun n => map (value C) (match LpSpec.given (KMap (dset (kdict ka) dir_vec_name v)) kwargs n with Some v => v | None => [] end)) (arg_names k ++ [dir_vec_name]) n) by (apply in_app_iff; left; exact Hk).
        rewrite (@alookup_names (fun n => map (value C) (match LpSpec.given ka kwargs n with Some v => v | None => [] end)) (arg_names k) n Hk).
        assert (Eg : LpSpec.given (KMap (dset (kdict ka) dir_vec_name v)) kwargs n = LpSpec.given ka kwargs n).
        { unfold LpSpec.given. rewrite !find_rev_last, !last_value_app. destruct (last_value kwargs n); [reflexivity|].
          cbn [arg_items]. rewrite last_value_nodup by exact Hv'. rewrite dget_dset, K2.
          destruct (String.eqb_spec dir_vec_name n); [subst; contradiction|reflexivity]. }
        rewrite Eg. reflexivity. }
      assert (Ld : alookup C av dir_vec_name = map (value C) v).
      { unfold av, arg_values. rewrite insert_args.
        rewrite (@alookup_names (fun n => map (value C) (match LpSpec.given (KMap (dset (kdict ka) dir_vec_name v)) kwargs n with Some v => v | None => [] end)) (arg_names k ++ [dir_vec_name]) dir_vec_name) by (apply in_app_iff; right; left; reflexivity).
        unfold LpSpec.given. rewrite !find_rev_last, !last_value_app, Hnk.
        cbn [arg_items]. rewrite last_value_nodup by exact Hv'. rewrite dget_dset, String.eqb_refl. reflexivity. }
      unfold sum_axes. apply rsum_ext. intros i Hi. apply in_seq in Hi. rewrite Ld.
      assert (Ei : vnth C i (map (value C) v) = w i).
      { unfold vnth. rewrite (nth_indep _ r0 (value C (EQ 0))) by (rewrite map_length; lia). rewrite map_nth. apply Vv. lia. }
      rewrite Ei. apply layer_ext. intros n Hk. apply Lk. rewrite d_source_args in Hk. exact Hk. }
    destruct dens as [e|l|m], o as [e'|l'|m']; cbn [componentwise_value] in *; try contradiction.
    + rewrite Vo. apply Fe.
    + clear - Vo Fe. induction Vo as [|x y l l' H Vo IH]; constructor; [|exact IH]. rewrite H. apply Fe.
    + clear - Vo Fe. induction Vo as [|x y l l' [H1 H2] Vo IH]; constructor; [|exact IH]. split; [exact H1|]. rewrite H2. apply Fe.
Qed.
End V.
