(** C32, C59-C62: the scipy-like operator. *)
From Verif Require Import Base SymProofs SymProofs2 DofModel CollModel MatVecModel MatVecSpec.
Set Implicit Arguments.
Open Scope string_scope.
Open Scope list_scope.
Open Scope nat_scope.

Lemma shape_ndofs_sum sh : shape_ndofs sh = list_sum (map (fun g => fst g * snd g) sh).
Proof. induction sh as [|g sh IH]; [reflexivity|]. change (fst g * snd g + shape_ndofs sh = fst g * snd g + list_sum (map (fun g => fst g * snd g) sh)). rewrite IH. reflexivity. Qed.

(** * Layout *)
Fixpoint mkspans (s : nat) (ds : list (option dshape)) : list (nat * nat) :=
  match ds with [] => [] | d :: ds' => (s, s + comp_size d) :: mkspans (s + comp_size d) ds' end.
Definition total_of (ds : list (option dshape)) : nat := list_sum (map comp_size ds).
Lemma mkspans_length ds : forall s, length (mkspans s ds) = length ds.
Proof. induction ds as [|d ds IH]; intros s; cbn; [reflexivity|]. rewrite IH. reflexivity. Qed.
Lemma mkspans_nth ds : forall s i, i < length ds -> nth_error (mkspans s ds) i = Some (s + sizes_before ds i, s + sizes_before ds (S i)).
Proof.
  unfold sizes_before. induction ds as [|d ds IH]; intros s [|i] I; cbn in I; try lia.
  - cbn. do 2 f_equal; lia.
  - cbn [mkspans nth_error]. rewrite IH by lia. cbn [firstn map list_sum fold_right]. do 2 f_equal; unfold list_sum; lia.
Qed.
Lemma nth_error_ext' A (l l' : list A) : (forall i, nth_error l i = nth_error l' i) -> l = l'.
Proof.
  revert l'. induction l as [|a l IH]; intros [|b l'] H; [reflexivity|specialize (H 0); discriminate|specialize (H 0); discriminate|].
  f_equal; [specialize (H 0); cbn in H; congruence|]. apply IH. intros i. exact (H (S i)).
Qed.
Lemma sizes_before_all ds : sizes_before ds (length ds) = total_of ds.
Proof. unfold sizes_before. rewrite firstn_all. reflexivity. Qed.
Lemma op_ok_spans R (op : matvecop R) : op_ok op -> o_spans op = mkspans 0 (o_discrs op) /\ o_total op = total_of (o_discrs op).
Proof.
  intros (_ & L & T & H). split; [|rewrite T; apply sizes_before_all]. apply nth_error_ext'. intros i. destruct (Nat.lt_ge_cases i (length (o_discrs op))) as [I|I].
  - rewrite H, mkspans_nth by exact I. reflexivity.
  - rewrite (proj2 (nth_error_None _ _)) by lia. symmetry. apply nth_error_None. rewrite mkspans_length. exact I.
Qed.

Lemma layout_spec gd doms : forall total ds se t, layout gd doms total = Ok (ds, se, t) <->
  exists shs, Forall2 (fun d sh => gd (geometry d) (discr_stage d) = Ok sh) doms shs /\ ds = map Some shs /\ se = mkspans total ds /\ t = total + total_of ds.
Proof.
  induction doms as [|d doms IH]; intros total ds se t; cbn [layout].
  - split.
    + intros H. injection H as <- <- <-. exists []. repeat split; try constructor. unfold total_of. cbn. lia.
    + intros (shs & F & -> & -> & ->). inversion F; subst. cbn. unfold total_of. cbn. rewrite Nat.add_0_r. reflexivity.
  - split.
    + intros H. apply bind_Ok in H. destruct H as (sh & G & H). apply bind_Ok in H. destruct H as ([[ds' se'] t'] & L & H). injection H as <- <- <-.
      apply IH in L. destruct L as (shs & F & -> & -> & ->). exists (sh :: shs). split; [constructor; assumption|]. split; [reflexivity|].
      rewrite shape_ndofs_sum. split; [reflexivity|]. unfold total_of. cbn [map list_sum fold_right comp_size]. unfold list_sum. lia.
    + intros (shs & F & -> & -> & ->). inversion F as [|? sh ? shs' G F']; subst. rewrite G. cbn [bind].
      assert (L : layout gd doms (total + shape_ndofs sh) = Ok (map Some shs', mkspans (total + shape_ndofs sh) (map Some shs'), total + shape_ndofs sh + total_of (map Some shs'))) by (apply IH; exists shs'; auto).
      rewrite L. cbn [bind map mkspans]. rewrite shape_ndofs_sum. unfold total_of. cbn [map list_sum fold_right comp_size]. f_equal. f_equal. unfold list_sum. lia.
Qed.
Lemma prepare_domains_spec n doms auto dds : prepare_domains n doms auto = Ok dds <-> domains_denote n auto doms dds.
Proof.
  destruct doms as [|x|l]; cbn [prepare_domains].
  - cbn. split; [intros H; injection H as <-; constructor|intros H; inversion H; reflexivity].
  - split.
    + intros H. apply bind_Ok in H. destruct H as (d & E & H). injection H as <-. constructor. exact E.
    + intros H. inversion H as [|? d E|]; subst. rewrite E. reflexivity.
  - split.
    + destruct (length l =? n) eqn:L; [|discriminate]. intros H. apply mapM_Ok_inv in H. constructor; [apply Nat.eqb_eq; exact L|exact H].
    + intros H. inversion H as [| |? ? L F]; subst. rewrite Nat.eqb_refl. clear H. induction F as [|x d l dds E F IH]; cbn [mapM]; [reflexivity|]. rewrite E. cbn [bind]. rewrite IH. reflexivity.
Qed.

(** The operator has one component per result, living on the discretization of its domain, in
    consecutive slices; its shape is the total number of degrees of freedom, squared. *)
Theorem scipy_op_spec R gd auto rl arg doms extra (op : matvecop R) :
  let n := match rl with Some n => n | None => 1 end in
  scipy_op gd auto rl arg doms extra = Ok op <->
  exists dds shs, domains_denote n auto doms dds
    /\ Forall2 (fun d sh => gd (geometry d) (discr_stage d) = Ok sh) dds shs
    /\ o_arg op = arg /\ o_extra op = extra /\ o_discrs op = map Some shs
    /\ o_spans op = map (fun i => (sizes_before (map Some shs) i, sizes_before (map Some shs) (S i))) (seq 0 (length shs))
    /\ o_total op = sizes_before (map Some shs) (length shs)
    /\ op_shape op = (o_total op, o_total op).
Proof.
  cbv zeta. assert (SP : forall shs, mkspans 0 (map Some shs) = map (fun i => (sizes_before (map Some shs) i, sizes_before (map Some shs) (S i))) (seq 0 (length shs))).
  { intros shs. apply nth_error_ext'. intros i. rewrite nth_error_map. destruct (Nat.lt_ge_cases i (length shs)) as [I|I].
    - rewrite mkspans_nth by (rewrite map_length; exact I). cbn [plus]. rewrite (nth_error_nth' _ 0) by (rewrite seq_length; exact I). rewrite seq_nth by exact I. reflexivity.
    - rewrite (proj2 (nth_error_None _ _)) by (rewrite mkspans_length, map_length; exact I). rewrite (proj2 (nth_error_None (seq 0 (length shs)) _)) by (rewrite seq_length; exact I). reflexivity. }
  assert (TT : forall shs, sizes_before (map Some shs) (length shs) = total_of (map Some shs)).
  { intros shs. rewrite <- (map_length Some shs) at 1. apply sizes_before_all. }
  unfold scipy_op. set (n := match rl with Some n => n | None => 1 end). split.
  - intros H. apply bind_Ok in H. destruct H as (dds & P & H). apply bind_Ok in H. destruct H as ([[ds se] t] & L & H). injection H as <-. apply prepare_domains_spec in P. apply layout_spec in L.
    destruct L as (shs & F & -> & -> & ->). exists dds, shs. cbn [o_arg o_extra o_discrs o_spans o_total]. rewrite SP, TT. repeat split; auto.
  - intros (dds & shs & P & F & A & X & D & S & T & _). apply prepare_domains_spec in P. rewrite P. cbn [bind].
    rewrite (proj2 (layout_spec gd dds 0 (map Some shs) (mkspans 0 (map Some shs)) (0 + total_of (map Some shs)))) by (exists shs; auto). cbn [bind].
    destruct op as [oa ot od os oe]. cbn in A, X, D, S, T. subst. rewrite SP. cbn [plus]. rewrite TT. reflexivity.
Qed.
Print Assumptions scipy_op_spec.
Lemma scipy_op_ok R gd auto rl arg doms extra (op : matvecop R) : match rl with Some n => n | None => 1 end <> 0 ->
  scipy_op gd auto rl arg doms extra = Ok op -> op_ok op.
Proof.
  intros N H. apply scipy_op_spec in H. destruct H as (dds & shs & P & F & _ & _ & D & S & T & _).
  assert (FL : forall A B (Q : A -> B -> Prop) l l', Forall2 Q l l' -> length l = length l') by (intros A B Q l l' G; induction G; cbn; congruence).
  assert (L : length dds = match rl with Some n => n | None => 1 end) by (inversion P as [| |l ? LL G]; subst; try apply repeat_length; rewrite <- (FL _ _ _ _ _ G); exact LL).
  assert (L2 : length dds = length shs) by (clear - F; induction F; cbn; congruence).
  split; [rewrite D; destruct shs; [cbn in L2; congruence|discriminate]|]. rewrite D, S, T, !map_length, seq_length. split; [reflexivity|]. split; [reflexivity|].
  intros i I. rewrite nth_error_map, (nth_error_nth' _ 0) by (rewrite seq_length; exact I). rewrite seq_nth by exact I. reflexivity.
Qed.

(** * Flattening *)
Section Flat.
Variable R : Type.
Variable zero : R.
Notation val := (val R).

Lemma take_group_spec nel nu : forall l : list R, nel * nu <= length l ->
  let (g, r) := take_group nel nu l in
  length g = nel /\ Forall (fun e => length e = nu) g /\ l = concat g ++ r /\ length r = length l - nel * nu.
Proof.
  induction nel as [|n IH]; intros l L; cbn [take_group]; [cbn; repeat split; [constructor|lia]|].
  specialize (IH (skipn nu l)). rewrite skipn_length in IH. destruct (take_group n nu (skipn nu l)) as [g r]. destruct IH as (A & B & C & D); [nia|].
  split; [cbn; lia|]. split; [constructor; [rewrite firstn_length; nia|exact B]|]. split; [cbn [concat]; rewrite <- app_assoc, <- C; symmetry; apply firstn_skipn|nia].
Qed.
Lemma take_groups_spec sh : forall l : list R, list_sum (map (fun g => fst g * snd g) sh) <= length l ->
  let (gs, r) := take_groups sh l in
  Forall2 (fun s g => length g = fst s /\ Forall (fun e => length e = snd s) g) sh gs /\ l = concat (concat gs) ++ r
  /\ length r = length l - list_sum (map (fun g => fst g * snd g) sh).
Proof.
  induction sh as [|[nel nu] sh IH]; intros l L; cbn [take_groups]; [cbn; repeat split; [constructor|lia]|].
  cbn [map list_sum fold_right fst snd] in L. change (nel * nu + list_sum (map (fun g => fst g * snd g) sh) <= length l) in L.
  pose proof (take_group_spec nel nu l) as G. destruct (take_group nel nu l) as [g r]. destruct G as (A & B & C & D); [lia|].
  specialize (IH r). destruct (take_groups sh r) as [gs r']. destruct IH as (E & F & H); [lia|].
  split; [constructor; [cbn; auto|exact E]|]. split; [cbn [concat]; rewrite concat_app, <- app_assoc, <- F; exact C|].
  cbn [map list_sum fold_right fst snd]. change (length r' = length l - (nel * nu + list_sum (map (fun g => fst g * snd g) sh))). lia.
Qed.
Lemma take_group_inv nel nu (g : list (list R)) r : length g = nel -> Forall (fun e => length e = nu) g -> take_group nel nu (concat g ++ r) = (g, r).
Proof.
  revert nel. induction g as [|e g IH]; intros nel L F; cbn in L; subst nel; [reflexivity|]. inversion F as [|? ? E F']; subst. cbn [take_group concat].
  rewrite <- app_assoc. rewrite firstn_app, Nat.sub_diag, firstn_O, app_nil_r, firstn_all. rewrite skipn_app, Nat.sub_diag, skipn_all. cbn [skipn app].
  rewrite (IH _ eq_refl F'). reflexivity.
Qed.
Lemma take_groups_inv sh (gs : list (list (list R))) r : Forall2 (fun s g => length g = fst s /\ Forall (fun e => length e = snd s) g) sh gs ->
  take_groups sh (concat (concat gs) ++ r) = (gs, r).
Proof.
  induction 1 as [|[nel nu] g sh gs (A & B) F IH]; [reflexivity|]. cbn [take_groups concat]. rewrite concat_app, <- app_assoc.
  cbn [fst snd] in A, B. rewrite (take_group_inv _ A B), IH. reflexivity.
Qed.
Lemma dof_length sh (gs : list (list (list R))) : Forall2 (fun s g => length g = fst s /\ Forall (fun e => length e = snd s) g) sh gs ->
  length (concat (concat gs)) = list_sum (map (fun g => fst g * snd g) sh).
Proof.
  assert (G : forall nu (g : list (list R)), Forall (fun e => length e = nu) g -> length (concat g) = length g * nu).
  { intros nu g F. induction F as [|e g E F IH]; [reflexivity|]. cbn [concat length]. rewrite app_length, E, IH. lia. }
  induction 1 as [|[nel nu] g sh gs (A & B) F IH]; [reflexivity|]. cbn [concat]. rewrite concat_app, app_length, IH, (G _ _ B), A. reflexivity.
Qed.
Lemma fits_comp_flat d (v : val) xs : fits_comp d v xs -> flat_entries v = Ok xs /\ length xs = comp_size d.
Proof.
  destruct d as [sh|], v as [gs|l| | | |]; cbn [fits_comp]; try contradiction.
  - intros (F & ->). split; [reflexivity|]. apply dof_length. exact F.
  - intros (L & ->). split; [reflexivity|exact L].
Qed.
Lemma unflatten_comp_ok d (xs : list R) : length xs = comp_size d ->
  exists c, match d with Some sh => unflatten_dof sh xs | None => Ok (VFlat xs) end = Ok c /\ fits_comp d c xs.
Proof.
  destruct d as [sh|]; cbn [comp_size]; intros L.
  - unfold unflatten_dof. rewrite shape_ndofs_sum, L, Nat.eqb_refl. pose proof (take_groups_spec sh xs) as T. destruct (take_groups sh xs) as [gs r].
    destruct T as (A & B & C); [lia|]. assert (r = []) by (destruct r; [reflexivity|cbn in C; lia]). subst r. rewrite app_nil_r in B. exists (VDof gs). split; [reflexivity|]. split; assumption.
  - exists (VFlat xs). split; [reflexivity|]. split; [exact L|reflexivity].
Qed.
Lemma unflatten_comp_inv d (c : val) xs : fits_comp d c xs ->
  match d with Some sh => unflatten_dof sh xs | None => Ok (VFlat xs) end = Ok c.
Proof.
  destruct d as [sh|], c as [gs|l| | | |]; cbn [fits_comp]; try contradiction.
  - intros (F & ->). unfold unflatten_dof. rewrite shape_ndofs_sum, (dof_length F), Nat.eqb_refl. rewrite <- (app_nil_r (concat (concat gs))), (take_groups_inv _ F). reflexivity.
  - intros (_ & ->). reflexivity.
Qed.

Lemma slice_mid (pre xs post : list R) n : length xs = n -> slice (pre ++ xs ++ post) (length pre) (length pre + n) = xs.
Proof.
  intros <-. unfold slice. rewrite skipn_app, skipn_all, Nat.sub_diag. cbn [skipn app]. replace (length pre + length xs - length pre) with (length xs) by lia.
  rewrite firstn_app, Nat.sub_diag, firstn_O, app_nil_r, firstn_all. reflexivity.
Qed.
Lemma unflatten_comps_ok ds : forall xss pre, map (@length R) xss = map comp_size ds ->
  exists cs, unflatten_comps ds (mkspans (length pre) ds) (pre ++ concat xss) = Ok cs /\ length cs = length ds
    /\ forall i d c xs, nth_error ds i = Some d -> nth_error cs i = Some c -> nth_error xss i = Some xs -> fits_comp d c xs.
Proof.
  induction ds as [|d ds IH]; intros [|xs xss] pre E; try discriminate.
  - exists []. split; [reflexivity|]. split; [reflexivity|]. intros [|i] ? ? ? H; discriminate.
  - cbn [map] in E. injection E as E0 E1. destruct (@unflatten_comp_ok d xs E0) as (c & C & FC). cbn [unflatten_comps mkspans concat]. rewrite slice_mid by exact E0. rewrite C. cbn [bind].
    destruct (IH xss (pre ++ xs) E1) as (cs & U & L & F). rewrite app_length, E0, <- app_assoc in U. rewrite U. cbn [bind]. exists (c :: cs). split; [reflexivity|]. split; [cbn; lia|].
    intros [|i] d' c' xs' H1 H2 H3; [cbn in H1, H2, H3; congruence|exact (F i d' c' xs' H1 H2 H3)].
Qed.
Lemma unflatten_comps_inv ds : forall (cs : list val) (xss : list (list R)) pre, length cs = length ds -> length xss = length ds ->
  (forall i d c xs, nth_error ds i = Some d -> nth_error cs i = Some c -> nth_error xss i = Some xs -> fits_comp d c xs) ->
  unflatten_comps ds (mkspans (length pre) ds) (pre ++ concat xss) = Ok cs.
Proof.
  induction ds as [|d ds IH]; intros [|c cs] [|xs xss] pre L1 L2 F; try discriminate; [reflexivity|]. assert (F0 := F 0 d c xs eq_refl eq_refl eq_refl). destruct (@fits_comp_flat _ _ _ F0) as (_ & L).
  cbn [unflatten_comps mkspans concat]. rewrite slice_mid by exact L. rewrite (@unflatten_comp_inv _ _ _ F0). cbn [bind].
  specialize (IH cs xss (pre ++ xs)). rewrite app_length, L, <- app_assoc in IH. rewrite IH; [reflexivity|cbn in *; lia|cbn in *; lia|]. intros i d' c' xs' H1 H2 H3. exact (F (S i) d' c' xs' H1 H2 H3).
Qed.
Lemma flatten_into_ok ds : forall (cs : list val) (xss : list (list R)) pre rest, length cs = length ds -> length xss = length ds -> length rest = total_of ds ->
  (forall i d c xs, nth_error ds i = Some d -> nth_error cs i = Some c -> nth_error xss i = Some xs -> fits_comp d c xs) ->
  flatten_into cs (mkspans (length pre) ds) (pre ++ rest) = Ok (pre ++ concat xss).
Proof.
  induction ds as [|d ds IH]; intros [|c cs] [|xs xss] pre rest L1 L2 LR F; try discriminate; [destruct rest; [reflexivity|discriminate]|].
  assert (F0 := F 0 d c xs eq_refl eq_refl eq_refl). destruct (@fits_comp_flat _ _ _ F0) as (E & L). cbn [flatten_into mkspans concat]. rewrite E. cbn [bind]. unfold assign_slice.
  replace (length pre + comp_size d - length pre) with (comp_size d) by lia. rewrite L, Nat.eqb_refl. cbn [bind].
  rewrite firstn_app, Nat.sub_diag, firstn_O, app_nil_r, firstn_all. rewrite skipn_app, skipn_all2 by lia. replace (length pre + comp_size d - length pre) with (comp_size d) by lia. cbn [app].
  specialize (IH cs xss (pre ++ xs) (skipn (comp_size d) rest)). rewrite app_length, L, <- !app_assoc in IH. apply IH; [cbn in *; lia|cbn in *; lia| |intros i d' c' xs' H1 H2 H3; exact (F (S i) d' c' xs' H1 H2 H3)].
  rewrite skipn_length, LR. unfold total_of. cbn [map list_sum fold_right]. change (fold_right Nat.add 0 (map comp_size ds)) with (list_sum (map comp_size ds)). lia.
Qed.

Lemma fits_lengths (op : matvecop R) v xss : fits op v xss -> o_discrs op <> [] -> map (@length R) xss = map comp_size (o_discrs op).
Proof.
  unfold fits. destruct (o_discrs op) as [|d [|d2 ds]]; intros F N; [congruence| |].
  - destruct xss as [|xs [|]]; try contradiction. destruct (@fits_comp_flat _ _ _ F) as (_ & L). cbn. rewrite L. reflexivity.
  - destruct F as (l & _ & L1 & L2 & F). remember (d :: d2 :: ds) as ds' eqn:E. clear E N. apply nth_error_ext'. intros i. rewrite !nth_error_map.
    destruct (Nat.lt_ge_cases i (length ds')) as [I|I].
    + destruct (nth_error ds' i) as [d0|] eqn:E1; [|apply nth_error_None in E1; lia]. destruct (nth_error l i) as [c|] eqn:E2; [|apply nth_error_None in E2; lia].
      destruct (nth_error xss i) as [xs|] eqn:E3; [|apply nth_error_None in E3; lia]. destruct (@fits_comp_flat _ _ _ (F i d0 c xs E1 E2 E3)) as (_ & L). cbn. rewrite L. reflexivity.
    + rewrite !(proj2 (nth_error_None _ _)) by lia. reflexivity.
Qed.
Lemma map_length_sum (xss : list (list R)) : length (concat xss) = list_sum (map (@length R) xss).
Proof. induction xss as [|x xss IH]; [reflexivity|]. cbn [concat map]. rewrite app_length, IH. reflexivity. Qed.

Lemma op_unflatten_ok (op : matvecop R) xss : op_ok op -> map (@length R) xss = map comp_size (o_discrs op) ->
  exists v, op_unflatten op (concat xss) = Ok v /\ fits op v xss.
Proof.
  intros OK E. destruct (op_ok_spans OK) as (S & _). destruct (unflatten_comps_ok _ _ [] E) as (cs & U & L & F). cbn [length app] in U.
  unfold op_unflatten. rewrite S, U. cbn [bind]. unfold uses_obj_array, fits. destruct OK as (N & _).
  destruct (o_discrs op) as [|d [|d2 ds]] eqn:ED; [congruence| |].
  - destruct cs as [|c [|]]; try discriminate. destruct xss as [|xs [|]]; try discriminate. exists c. split; [reflexivity|]. apply (F 0); reflexivity.
  - exists (VObj cs). split; [reflexivity|]. exists cs. split; [reflexivity|]. split; [exact L|]. split; [|exact F]. apply (f_equal (@length nat)) in E. rewrite !map_length in E. exact E.
Qed.
Lemma op_unflatten_fits (op : matvecop R) v xss : op_ok op -> fits op v xss -> op_unflatten op (concat xss) = Ok v.
Proof.
  intros OK F. destruct (op_ok_spans OK) as (S & _). pose proof OK as (N & _). unfold op_unflatten. rewrite S. unfold uses_obj_array, fits in *.
  destruct (o_discrs op) as [|d [|d2 ds]] eqn:ED; [congruence| |].
  - destruct xss as [|xs [|]]; try contradiction.
    pose proof (@unflatten_comps_inv [d] [v] [xs] [] eq_refl eq_refl) as U. cbn [length app] in U. rewrite U; [reflexivity|]. intros [|[|i]] d' c' xs' H1 H2 H3; cbn in H1, H2, H3; try discriminate. congruence.
  - destruct F as (l & -> & L1 & L2 & F). pose proof (@unflatten_comps_inv (d :: d2 :: ds) l xss [] L1 L2 F) as U. cbn [length app] in U. cbn [length]. rewrite U. reflexivity.
Qed.
Lemma op_flatten_fits (op : matvecop R) v xss : op_ok op -> fits op v xss -> op_flatten zero op v = Ok (concat xss).
Proof.
  intros OK F. destruct (op_ok_spans OK) as (S & T). pose proof OK as (N & _). unfold op_flatten. rewrite S, T. unfold uses_obj_array, fits in *.
  destruct (o_discrs op) as [|d [|d2 ds]] eqn:ED; [congruence| |].
  - destruct xss as [|xs [|]]; try contradiction. cbn [length Nat.ltb Nat.leb bind].
    apply (@flatten_into_ok [d] [v] [xs] [] (repeat zero (total_of [d])) eq_refl eq_refl); [apply repeat_length|]. intros [|[|i]] d' c' xs' H1 H2 H3; cbn in H1, H2, H3; try discriminate. congruence.
  - destruct F as (l & -> & L1 & L2 & F). cbn [length Nat.ltb Nat.leb bind iterate].
    apply (@flatten_into_ok (d :: d2 :: ds) l xss [] (repeat zero (total_of (d :: d2 :: ds))) L1 L2); [apply repeat_length|exact F].
Qed.
Lemma split_by (l : list R) (ns : list nat) : length l = list_sum ns -> exists xss, l = concat xss /\ map (@length R) xss = ns.
Proof.
  revert l. induction ns as [|n ns IH]; intros l L.
  - exists []. destruct l; [auto|discriminate].
  - cbn [list_sum fold_right] in L. change (length l = n + list_sum ns) in L. destruct (IH (skipn n l)) as (xss & E & F); [rewrite skipn_length; lia|].
    exists (firstn n l :: xss). split; [cbn [concat]; rewrite <- E; symmetry; apply firstn_skipn|]. cbn [map]. rewrite F, firstn_length. f_equal. lia.
Qed.

Lemma spans_slice ds : forall (xss : list (list R)) pre i a b, map (@length R) xss = map comp_size ds ->
  nth_error (mkspans (length pre) ds) i = Some (a, b) -> nth_error xss i = Some (slice (pre ++ concat xss) a b).
Proof.
  induction ds as [|d ds IH]; intros [|xs xss] pre i a b LL E; try discriminate; [destruct i; discriminate|].
  cbn [map] in LL. injection LL as L0 L1. destruct i as [|i]; cbn [mkspans nth_error] in E |- *.
  - injection E as <- <-. cbn [concat]. rewrite slice_mid by exact L0. reflexivity.
  - specialize (IH xss (pre ++ xs) i a b L1). rewrite app_length, L0, <- app_assoc in IH. exact (IH E).
Qed.

(** Flattening and unflattening are inverse to each other: a flat array of the right size is
    unflattened to a value of the argument's shape, and back; values of the argument's shape are
    flattened component by component, group by group, element by element, and back. *)
Theorem flatten_unflatten (op : matvecop R) l : op_ok op -> length l = o_total op ->
  exists v xss, op_unflatten op l = Ok v /\ fits op v xss /\ l = concat xss /\ op_flatten zero op v = Ok l.
Proof.
  intros OK L. destruct (op_ok_spans OK) as (_ & T). destruct (split_by l (map comp_size (o_discrs op))) as (xss & -> & E); [rewrite L, T; reflexivity|].
  destruct (op_unflatten_ok _ OK E) as (v & U & F). exists v, xss. split; [exact U|]. split; [exact F|]. split; [reflexivity|]. apply op_flatten_fits; assumption.
Qed.
Theorem unflatten_flatten (op : matvecop R) v xss : op_ok op -> fits op v xss ->
  op_flatten zero op v = Ok (concat xss) /\ length (concat xss) = o_total op /\ op_unflatten op (concat xss) = Ok v
  /\ forall i a b, nth_error (o_spans op) i = Some (a, b) -> nth_error xss i = Some (slice (concat xss) a b).
Proof.
  intros OK F. pose proof OK as (N & _). destruct (op_ok_spans OK) as (S & T). pose proof (@fits_lengths _ _ _ F N) as LL.
  split; [apply op_flatten_fits; assumption|]. split; [rewrite map_length_sum, LL, T; reflexivity|]. split; [apply op_unflatten_fits; assumption|].
  rewrite S. intros i a b E. exact (@spans_slice _ _ [] i a b LL E).
Qed.
End Flat.
Print Assumptions flatten_unflatten.
Print Assumptions unflatten_flatten.

(** * Application *)

(** Structured arguments are passed through; flat ones are given to the operator in the
    argument's shape, under the argument's name in addition to the extra arguments, and the result
    comes back in the same representation; everything else is refused. *)
Definition called_with R (op : matvecop R) (v : val R) (args : list (string * val R)) : Prop :=
  forall name, dget String.eqb args name = if String.eqb name (o_arg op) then Some v else dget String.eqb (o_extra op) name.
Lemma called_with_dset R (op : matvecop R) v : called_with op v (dset String.eqb (o_extra op) (o_arg op) v).
Proof.
  intros name. unfold called_with. generalize (o_extra op) (o_arg op). intros d k. induction d as [|[k' v'] d IH]; cbn [dset dget].
  - destruct (String.eqb name k) eqn:E; reflexivity.
  - destruct (String.eqb k k') eqn:E1; cbn [dget].
    + apply String.eqb_eq in E1. subst k'. destruct (String.eqb name k) eqn:E; reflexivity.
    + destruct (String.eqb name k') eqn:E2; [|exact IH]. apply String.eqb_eq in E2. subst k'. rewrite String.eqb_sym, E1. reflexivity.
Qed.
Theorem matvec_spec R zero apply (op : matvecop R) : op_ok op ->
  (forall x, (exists gs, x = VDof gs) \/ (exists l, x = VObj l) ->
     exists args, called_with op x args /\ matvec zero apply op x = apply args)
  /\ (forall l, length l = o_total op -> exists v xss args, fits op v xss /\ l = concat xss /\ called_with op v args
     /\ (forall r yss, apply args = Ok r -> fits op r yss ->
           matvec zero apply op (VFlat l) = Ok (VFlat (concat yss)) /\ matvec zero apply op (VHost l) = Ok (VHost (concat yss)))
     /\ (forall e, apply args = Err e -> matvec zero apply op (VFlat l) = Err e /\ matvec zero apply op (VHost l) = Err e))
  /\ (forall l, length l <> o_total op -> matvec zero apply op (VFlat l) = Err AssertionError /\ matvec zero apply op (VHost l) = Err AssertionError)
  /\ matvec zero apply op VOther = Err ValueError
  /\ (forall x y, matvec zero apply op x = Ok y ->
        match x with VFlat _ => exists l, y = VFlat l | VHost _ => exists l, y = VHost l | VDof _ | VObj _ => True | _ => False end).
Proof.
  intros OK. split; [|split; [|split; [|split]]].
  - intros x H. eexists. split; [apply called_with_dset|]. destruct H as [(gs & ->)|(l & ->)]; reflexivity.
  - intros l L. destruct (@flatten_unflatten R zero op l OK L) as (v & xss & U & F & E & _). exists v, xss. eexists. split; [exact F|]. split; [exact E|]. split; [apply called_with_dset|]. split.
    + intros r yss A FR. cbn [matvec]. rewrite L, Nat.eqb_refl. cbn [negb]. rewrite U. cbn [bind]. rewrite A. cbn [bind]. rewrite (@op_flatten_fits R zero op r yss OK FR). cbn [bind]. auto.
    + intros e A. cbn [matvec]. rewrite L, Nat.eqb_refl. cbn [negb]. rewrite U. cbn [bind]. rewrite A. cbn [bind]. auto.
  - intros l L. cbn [matvec]. apply Nat.eqb_neq in L. rewrite L. cbn [negb]. auto.
  - reflexivity.
  - intros x y H. destruct x as [gs|l|l|l|s|]; cbn [matvec] in H; try exact I; try discriminate.
    + destruct (negb _); [discriminate|]. apply bind_Ok in H. destruct H as (u & _ & H). apply bind_Ok in H. destruct H as (r & _ & H). apply bind_Ok in H. destruct H as (f & _ & H). injection H as <-. eauto.
    + destruct (negb _); [discriminate|]. apply bind_Ok in H. destruct H as (u & _ & H). apply bind_Ok in H. destruct H as (r & _ & H). apply bind_Ok in H. destruct H as (f & _ & H). injection H as <-. eauto.
Qed.
Print Assumptions matvec_spec.

(** A concrete operator: two components, the second on a mesh with two groups. *)
Definition ex_gd (g : gid) (s : option stage) : result dshape :=
  match g, s with
  | Some (GName "a"), None => Ok [(2, 1)]
  | Some (GName "b"), Some STAGE2 => Ok [(1, 2); (2, 1)]
  | _, _ => Err KeyError
  end.
Definition ex_auto : dofdesc := DD (Some (GName "a")) None NODE.
Definition ex_doms : domains_arg := DomSeq [LGeom (GName "a"); LDesc (DD (Some (GName "b")) (Some STAGE2) NODE)].
Definition ex_op : matvecop nat := MVO "x" 6 [Some [(2, 1)]; Some [(1, 2); (2, 1)]] [(0, 2); (2, 6)] [("k"%string, VOther)].
Example ex_scipy_op : scipy_op ex_gd ex_auto (Some 2) "x" ex_doms [("k"%string, VOther)] = Ok ex_op.
Proof. reflexivity. Qed.
Example ex_op_ok : op_ok ex_op.
Proof. eapply scipy_op_ok; [|exact ex_scipy_op]. cbn. discriminate. Qed.
(** An operator swapping the two components' leading entries. *)
Definition ex_apply (args : list (string * val nat)) : result (val nat) :=
  match dget String.eqb args "x" with
  | Some (VObj [VDof [[[a]; [b]]]; VDof [[[c; d]]; [[e]; [f]]]]) => Ok (VObj [VDof [[[b]; [a]]]; VDof [[[d; c]]; [[f]; [e]]]])
  | _ => Err TypeError
  end.
Example ex_matvec : op_unflatten ex_op [1; 2; 3; 4; 5; 6] = Ok (VObj [VDof [[[1]; [2]]]; VDof [[[3; 4]]; [[5]; [6]]]])
  /\ matvec 0 ex_apply ex_op (VHost [1; 2; 3; 4; 5; 6]) = Ok (VHost [2; 1; 4; 3; 6; 5])
  /\ matvec 0 ex_apply ex_op (VFlat [1; 2; 3; 4; 5]) = Err AssertionError.
Proof. repeat split; vm_compute; reflexivity. Qed.
Example ex_fits : fits ex_op (VObj [VDof [[[1]; [2]]]; VDof [[[3; 4]]; [[5]; [6]]]]) [[1; 2]; [3; 4; 5; 6]].
Proof.
  eexists. split; [reflexivity|]. split; [reflexivity|]. split; [reflexivity|].
  intros [|[|i]] d c xs H1 H2 H3; cbn in H1, H2, H3; try (destruct i; discriminate); injection H1 as <-; injection H2 as <-; injection H3 as <-; (split; [|reflexivity]); repeat constructor.
Qed.

(** * C59: scalar components *)

(** No operator ever has a scalar component, whatever the domains; ... *)
Theorem scalar_components_refuted R :
  ~ exists gd auto rl arg doms extra (op : matvecop R) i, scipy_op gd auto rl arg doms extra = Ok op /\ nth_error (o_discrs op) i = Some None.
Proof.
  intros (gd & auto & rl & arg & doms & extra & op & i & H & E). apply scipy_op_spec in H. destruct H as (dds & shs & _ & _ & _ & _ & D & _).
  rewrite D, nth_error_map in E. destruct (nth_error shs i); discriminate.
Qed.
Print Assumptions scalar_components_refuted.
(** ... a domain of None makes it raise, unless the collection has a geometry of that name. *)
Theorem none_domain_raises_refuted R gd auto rl arg l extra e :
  In LNone l -> gd None None = Err e -> exists e', scipy_op (R := R) gd auto rl arg (DomSeq l) extra = Err e'.
Proof.
  intros I G. destruct (scipy_op gd auto rl arg (DomSeq l) extra) as [op|e'] eqn:H; [|eauto]. apply scipy_op_spec in H. destruct H as (dds & shs & P & F & _).
  inversion P as [| |? ? _ FD]; subst. destruct (Forall2_In_l FD I) as (d & Id & Ed). cbn in Ed. injection Ed as <-.
  destruct (Forall2_In_l F Id) as (sh & _ & Es). cbn in Es. congruence.
Qed.
Print Assumptions none_domain_raises_refuted.
Example none_domain_example : scipy_op (R := nat) ex_gd ex_auto (Some 2) "x" (DomSeq [LGeom (GName "a"); LNone]) [] = Err KeyError.
Proof. reflexivity. Qed.

(** * C60: object arrays as arguments *)

(** An operator whose result is an object array of at least two entries gets an object array of
    that length from flat arguments; ... *)
Theorem obj_array_argument_partial R (zero : R) gd auto n arg doms extra (op : matvecop R) l v :
  2 <= n -> scipy_op gd auto (Some n) arg doms extra = Ok op -> length l = o_total op -> op_unflatten op l = Ok v ->
  exists cs, v = VObj cs /\ length cs = n.
Proof.
  intros N H L U. assert (OK : op_ok op) by (eapply scipy_op_ok; [|exact H]; cbn; lia). destruct (@flatten_unflatten R zero op l OK L) as (v' & xss & U' & F & _). assert (v' = v) by congruence. subst v'.
  assert (LD : length (o_discrs op) = n).
  { apply scipy_op_spec in H. destruct H as (dds & shs & P & FS & _ & _ & D & _). rewrite D, map_length.
    assert (FL : forall A B (Q : A -> B -> Prop) l l', Forall2 Q l l' -> length l = length l') by (intros A B Q l1 l2 G; induction G; cbn; congruence).
    rewrite <- (FL _ _ _ _ _ FS). inversion P as [| |? ? LL G]; subst; try apply repeat_length. symmetry. apply (FL _ _ _ _ _ G). }
  unfold fits in F. destruct (o_discrs op) as [|d [|d2 ds]]; cbn in LD; try lia. destruct F as (cs & -> & LC & _). exists cs. split; [reflexivity|]. cbn in LC. lia.
Qed.
Print Assumptions obj_array_argument_partial.
(** ... one with an object array of a single entry gets the bare entry. *)
Theorem obj_array_argument_refuted :
  ~ (forall gd auto n arg doms extra (op : matvecop nat) l v,
       1 <= n -> scipy_op gd auto (Some n) arg doms extra = Ok op -> length l = o_total op -> op_unflatten op l = Ok v ->
       exists cs, v = VObj cs /\ length cs = n).
Proof.
  intros H. destruct (H ex_gd ex_auto 1 "x"%string DomNone [] (MVO "x" 2 [Some [(2, 1)]] [(0, 2)] []) [7; 8] (VDof [[[7]; [8]]])) as (cs & E & _); try reflexivity. discriminate.
Qed.
Print Assumptions obj_array_argument_refuted.

(** * C61: iterative inverses *)
Definition exact_solver R (gmres : (val R -> result (val R)) -> val R -> result (val R)) : Prop :=
  forall A b x, gmres A b = Ok x -> A x = Ok b.
(** The value of an inverse is never the solution but the solver's result record. *)
Theorem inverse_value_refuted :
  ~ (forall gd auto apply gmres rl var extra (rhs y : val nat), exact_solver gmres ->
       map_inverse 0 gd auto apply gmres rl var extra rhs = Ok y ->
       apply (dset String.eqb extra var y) = Ok rhs).
Proof.
  set (app := fun args : list (string * val nat) => match dget String.eqb args "x" with Some (VDof g) => Ok (VDof g) | _ => Err TypeError end).
  set (gm := fun (A : val nat -> result (val nat)) (b : val nat) =>
         match b, A b with VDof [[[1]]], Ok (VDof [[[1]]]) => Ok b | _, _ => Err RuntimeError end).
  intros H. assert (X : exact_solver gm).
  { unfold exact_solver, gm. intros A b x E.
    repeat match type of E with context [match ?y with _ => _ end] => destruct y eqn:?; try discriminate E end. congruence. }
  specialize (H ex_gd ex_auto app gm None "x"%string [] (VDof [[[1]]]) (VSolver (VDof [[[1]]])) X eq_refl). discriminate H.
Qed.
Print Assumptions inverse_value_refuted.
(** What it does contain. *)
Theorem inverse_solution_partial R zero gd auto apply gmres rl var extra (rhs y : val R) :
  exact_solver gmres -> map_inverse zero gd auto apply gmres rl var extra rhs = Ok y ->
  exists sol, y = VSolver sol /\ ((exists gs, sol = VDof gs) \/ (exists l, sol = VObj l) -> apply (dset String.eqb extra var sol) = Ok rhs).
Proof.
  unfold map_inverse. intros X H. apply bind_Ok in H. destruct H as (op & S & H). apply bind_Ok in H. destruct H as (sol & G & H). injection H as <-. exists sol. split; [reflexivity|].
  apply X in G. apply scipy_op_spec in S. destruct S as (_ & _ & _ & _ & <- & <- & _). intros [(gs & ->)|(l & ->)]; exact G.
Qed.
Print Assumptions inverse_solution_partial.

(** * C62: the array context *)
Inductive occurs (c : actx) : aval -> Prop :=
| Occ_here : occurs c (ADof (Some c))
| Occ_in v l : In v l -> occurs c v -> occurs c (AObj l).
Fixpoint aval_ind' (P : aval -> Prop) (H1 : forall o, P (ADof o)) (H2 : forall l, Forall P l -> P (AObj l)) (H3 : P AOther) (v : aval) : P v :=
  match v with
  | ADof o => H1 o
  | AOther => H3
  | AObj l => H2 l ((fix go (l : list aval) : Forall P l :=
      match l with [] => Forall_nil _ | x :: l' => Forall_cons _ (@aval_ind' P H1 H2 H3 x) (go l') end) l)
  end.
Lemma look_spec c v : In c (look_for_array_contexts v) <-> occurs c v.
Proof.
  induction v as [o|l FL|] using aval_ind'; cbn [look_for_array_contexts].
  - destruct o as [c'|]; split.
    + intros [-> | []]. constructor.
    + intros H. inversion H; subst. left. reflexivity.
    + intros [].
    + intros H. inversion H.
  - assert (A : In c (flat_map look_for_array_contexts l) <-> exists v, In v l /\ occurs c v).
    { induction FL as [|v l IH FL IHl]; cbn [flat_map].
      - split; [intros []|intros (v & [] & _)].
      - rewrite in_app_iff, IH, IHl. split.
        + intros [H|(w & I & O)]; [exists v; split; [left; reflexivity|exact H]|exists w; split; [right; exact I|exact O]].
        + intros (w & [-> | I] & O); [left; exact O|right; exists w; auto]. }
    rewrite A. split; [intros (v & I & O); econstructor; eauto|intros H; inversion H; subst; eauto].
  - split; [intros []|intros H; inversion H].
Qed.
Lemma actx_eqb_eq a b : actx_eqb a b = true <-> a = b.
Proof. destruct a, b; cbn; try rewrite Nat.eqb_eq; split; try congruence; discriminate. Qed.
(** It is the one PyOpenCL context that the explicit argument (if any) and all DOF arrays,
    however deeply nested in object arrays, agree on; and there has to be one. *)
Theorem find_array_context_spec args sup c :
  find_array_context args sup = Ok c <->
  (exists n, c = Pyopencl n) /\ (forall c', sup = Some c' -> c' = c)
  /\ (forall k v c', In (k, v) args -> occurs c' v -> c' = c)
  /\ (sup = Some c \/ exists k v, In (k, v) args /\ occurs c v).
Proof.
  assert (IN : forall c', In c' (flat_map (fun kv : string * aval => look_for_array_contexts (snd kv)) args) <-> exists k v, In (k, v) args /\ occurs c' v).
  { intros c'. rewrite in_flat_map. split.
    - intros ([k v] & I & L). apply look_spec in L. eauto.
    - intros (k & v & I & O). exists (k, v). split; [exact I|]. apply look_spec. exact O. }
  unfold find_array_context. set (fs := flat_map _ args) in *.
  assert (CORE : forall pre, (match pre ++ fs with [] => Err TypeError | c0 :: cs => if forallb (actx_eqb c0) cs then match c0 with Pyopencl _ => Ok c0 | OtherContext _ => Err TypeError end else Err ValueError end = Ok c)
     <-> (exists n, c = Pyopencl n) /\ (forall c', In c' (pre ++ fs) -> c' = c) /\ In c (pre ++ fs)).
  { intros pre. destruct (pre ++ fs) as [|c0 cs]; [split; [discriminate|intros (_ & _ & [])]|]. split.
    - destruct (forallb (actx_eqb c0) cs) eqn:F; [|discriminate]. destruct c0 as [n|n]; [|discriminate]. intros H. injection H as <-. split; [eauto|]. split; [|left; reflexivity].
      intros c' [<- | I]; [reflexivity|]. rewrite forallb_forall in F. apply F in I. apply actx_eqb_eq in I. symmetry. exact I.
    - intros ((n & ->) & A & _). assert (c0 = Pyopencl n) by (apply A; left; reflexivity). subst c0.
      assert (F : forallb (actx_eqb (Pyopencl n)) cs = true) by (apply forallb_forall; intros x I; apply actx_eqb_eq; symmetry; apply A; right; exact I). rewrite F. reflexivity. }
  destruct sup as [[n|n]|]; cbn [bind].
  - rewrite (CORE [Pyopencl n]). cbn [app In]. split.
    + intros (P & A & B). split; [exact P|]. assert (E : Pyopencl n = c) by (apply A; left; reflexivity). split; [intros c' H; congruence|]. split; [|left; congruence].
      intros k v c' I O. apply A. right. apply IN. eauto.
    + intros (P & S & A & B). split; [exact P|]. split; [|left; apply S; reflexivity]. intros c' [<- | I]; [apply S; reflexivity|]. apply IN in I. destruct I as (k & v & I & O). eapply A; eauto.
  - split; [discriminate|]. intros ((m & ->) & S & _). specialize (S _ eq_refl). discriminate.
  - rewrite (CORE []). cbn [app]. split.
    + intros (P & A & B). split; [exact P|]. split; [intros; discriminate|]. split; [intros k v c' I O; apply A; apply IN; eauto|]. right. apply IN. exact B.
    + intros (P & _ & A & [B|B]); [discriminate|]. split; [exact P|]. split; [|apply IN; exact B]. intros c' I. apply IN in I. destruct I as (k & v & I & O). eapply A; eauto.
Qed.
Print Assumptions find_array_context_spec.
(** Disagreement is an error, nothing to go by another. *)
Theorem find_array_context_errors args sup e :
  find_array_context args sup = Err e ->
  (e = TypeError \/ e = ValueError)
  /\ (e = ValueError -> exists c c', c <> c' /\ (sup = Some c \/ exists k v, In (k, v) args /\ occurs c v) /\ exists k v, In (k, v) args /\ occurs c' v).
Proof.
  unfold find_array_context. assert (IN : forall c', In c' (flat_map (fun kv : string * aval => look_for_array_contexts (snd kv)) args) -> exists k v, In (k, v) args /\ occurs c' v).
  { intros c' I. apply in_flat_map in I. destruct I as ([k v] & I & L). apply look_spec in L. eauto. }
  set (fs := flat_map _ args) in *.
  assert (NE : forall c0 cs, forallb (actx_eqb c0) cs = false -> exists c', In c' cs /\ c0 <> c').
  { intros c0 cs. induction cs as [|c1 cs IHc]; cbn; [discriminate|]. destruct (actx_eqb c0 c1) eqn:E; cbn.
    - intros H. destruct (IHc H) as (c' & I & N). exists c'. auto.
    - intros _. exists c1. split; [auto|]. intros ->. rewrite (proj2 (actx_eqb_eq c1 c1) eq_refl) in E. discriminate. }
  destruct sup as [[n|n]|]; cbn [bind app].
  - destruct (forallb _ fs) eqn:F; [discriminate|]. intros H. injection H as <-. split; [auto|]. intros _. destruct (NE _ _ F) as (c' & I & N). exists (Pyopencl n), c'. split; [exact N|]. split; [auto|]. exact (IN _ I).
  - intros H. injection H as <-. split; [auto|discriminate].
  - destruct fs as [|c0 cs]; [intros H; injection H as <-; split; [auto|discriminate]|]. destruct (forallb _ cs) eqn:F.
    + destruct c0; [discriminate|]. intros H. injection H as <-. split; [auto|discriminate].
    + intros H. injection H as <-. split; [auto|]. intros _. destruct (NE _ _ F) as (c' & I & N). exists c0, c'. split; [exact N|]. split; [right; apply IN; left; reflexivity|apply IN; right; exact I].
Qed.
Print Assumptions find_array_context_errors.
Example find_example : find_array_context [("a"%string, AOther); ("b"%string, AObj [ADof None; AObj [ADof (Some (Pyopencl 3))]])] (Some (Pyopencl 3)) = Ok (Pyopencl 3)
  /\ find_array_context [("b"%string, AObj [ADof (Some (Pyopencl 2)); AObj [ADof (Some (Pyopencl 3))]])] None = Err ValueError
  /\ find_array_context [] None = Err TypeError.
Proof. repeat split. Qed.
