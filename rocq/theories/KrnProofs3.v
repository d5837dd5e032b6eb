From Coq Require Import QArith Permutation.
From Verif Require Import Base RefineModel AssocModel FmmModel FmmSpec FmmProofs FmmProofs2 FmlModel FmlSpec FmlProofs2 FmlProofs3 FmlProofs4 KrnModel KrnSpec KrnProofs KrnProofs2.
Set Implicit Arguments.
Open Scope string_scope. Open Scope list_scope. Open Scope nat_scope.

Lemma launches_iff A R (f : A -> list R -> list R -> Prop) (g : A -> list R -> list R) (P : A -> Prop) n xs :
  (forall x m r, P x -> length m = n -> (f x m r <-> r = g x m)) -> (forall x m, P x -> length m = n -> length (g x m) = n) ->
  (forall x, In x xs -> P x) -> forall m r, length m = n -> (launches f xs m r <-> r = fold_left (fun m x => g x m) xs m).
Proof.
  intros F G. induction xs as [|x xs IH]; intros HP m r L; cbn [fold_left].
  - split; [intros H; inversion H; reflexivity|intros ->; constructor].
  - assert (Px : P x) by (apply HP; left; reflexivity).
    assert (IH' := IH (fun y I => HP y (or_intror I)) (g x m) r (G x m Px L)). rewrite <- IH'. split.
    + intros H. inversion_clear H as [|? ? ? m1 ? Hf Hl]. apply (F x m m1 Px L) in Hf. rewrite <- Hf. assumption.
    + intros H. econstructor; [|exact H]. apply F; auto.
Qed.
Lemma fold_seq_nth A B (G : A -> B -> B) (d : A) L : forall b, fold_left (fun b l => G (nth l L d) b) (seq 0 (length L)) b = fold_left (fun b x => G x b) L b.
Proof.
  assert (H : forall L k pre b, length pre = k -> fold_left (fun b l => G (nth l (pre ++ L) d) b) (seq k (length L)) b = fold_left (fun b x => G x b) L b).
  { clear L. induction L as [|x L IH]; intros k pre b E; cbn [length seq fold_left]; [reflexivity|].
    rewrite app_nth2 by lia. replace (k - length pre) with 0 by lia. cbn [nth].
    replace (pre ++ x :: L) with ((pre ++ [x]) ++ L) by (rewrite <- app_assoc; reflexivity). apply IH. rewrite app_length. cbn. lia. }
  intros b. apply (H L 0 [] b eq_refl).
Qed.

Lemma map_const_repeat_ A (z : A) n : map (fun _ => z) (seq 0 n) = repeat z n.
Proof. generalize 0 as s. induction n as [|n IH]; intros s; cbn; [reflexivity|]. rewrite IH. reflexivity. Qed.

Section Drive.
Variable junk : nat.
Variable T : ftree.
Variable V : ftrav.
Variable nc : nat.
Variable ttc : list Z.
Variable w : list nat.
Variable bs bt : boxes.
Variable nknl : nat.
Hypothesis OK : fmm_ok T V.
Hypothesis LO : levels_ok T V.
Hypothesis HT : ttc_ok nc (ft_ntgt T) ttc.
Hypothesis AO : arrays_ok T V bs bt.
Hypothesis LW : length w = ft_nsrc T.
Notation gc := (global_centers nc ttc).
Notation ctb := (center_to_target_box T V nc).
Notation n := (ft_ntgt T).

Definition tag_rel (a : list (list term)) (e : list (list (nat * nat))) : Prop :=
  length a = nc /\ length e = nc /\ forall c, c < nc -> nth c a [] = tagged (qbx_frame c) (nth c e []).
Lemma tag_rel_zero : tag_rel (expansion_zeros nc) (repeat [] nc).
Proof. unfold tag_rel, expansion_zeros. rewrite !repeat_length. repeat split. intros c Hc. rewrite !nth_rep. reflexivity. Qed.

Lemma m2q_step lev a e : tag_rel a e -> tag_rel (m2q_final T V nc w lev a)
  (map (fun '(e, m) => match m with Some m => e ++ flat_map (mpole T w) (snd lev m) | None => e end) (combine e (center_to_list3 T V nc lev))).
Proof.
  intros (La & Le & H). unfold tag_rel, m2q_final. rewrite !map_length, seq_length, combine_length, list3_length, Le, Nat.min_id. repeat split.
  intros c Hc. rewrite (@nth_map_d _ _ _ (seq 0 nc) c 0 []) by (rewrite seq_length; exact Hc). rewrite seq_nth by exact Hc. cbn [plus].
  rewrite (@nth_map_d _ _ _ (combine e (center_to_list3 T V nc lev)) c ([], None) []) by (rewrite combine_length, list3_length, Le, Nat.min_id; exact Hc).
  rewrite combine_nth by (rewrite list3_length; exact Le). rewrite (H c Hc). unfold boxes_of.
  destruct (nth c (center_to_list3 T V nc lev) None) as [m|]; [rewrite tagged_app; reflexivity|]. cbn. apply app_nil_r.
Qed.
Definition m2q_all : list (list term) :=
  fold_left (fun a x => m2q_final T V nc w (snd x) a) (combine (seq 0 (length (tr_smaller V))) (tr_smaller V)) (expansion_zeros nc).
Lemma m2q_all_rel : tag_rel m2q_all (m2qbxl T V nc w).
Proof.
  unfold m2q_all, m2qbxl.
  assert (H : forall L k a e, tag_rel a e -> tag_rel (fold_left (fun a x => m2q_final T V nc w (snd x) a) (combine (seq k (length L)) L) a)
    (fold_left (fun a lev => map (fun '(e, m) => match m with Some m => e ++ flat_map (mpole T w) (snd lev m) | None => e end) (combine a (center_to_list3 T V nc lev))) L e)).
  { induction L as [|x L IH]; intros k a e R; cbn [length seq combine fold_left]; [exact R|]. apply IH. cbn [snd]. apply m2q_step. exact R. }
  apply H. apply tag_rel_zero.
Qed.
Lemma In_numbered A (L : list A) : forall k x l, In (l, x) (combine (seq k (length L)) L) -> k <= l /\ nth_error L (l - k) = Some x.
Proof.
  induction L as [|y L IH]; intros k x l I; cbn in I; [contradiction|]. destruct I as [E|I].
  - injection E as -> ->. rewrite Nat.sub_diag. auto.
  - destruct (IH _ _ _ I) as (A1 & A2). split; [lia|]. replace (l - k) with (S (l - S k)) by lia. exact A2.
Qed.
Lemma m2q_iff r : dev_m2q junk T V nc w ctb r <-> r = m2q_all.
Proof.
  unfold dev_m2q. destruct (nc =? 0) eqn:E.
  - apply Nat.eqb_eq in E. destruct m2q_all_rel as (L & _). replace m2q_all with (expansion_zeros nc); [reflexivity|].
    unfold expansion_zeros. rewrite E in L |- *. destruct m2q_all; [reflexivity|discriminate].
  - apply Nat.eqb_neq in E.
    apply launches_iff with (f := m2q_level junk T V nc w ctb) (g := fun x a => m2q_final T V nc w (snd x) a) (P := fun x => nth_error (tr_smaller V) (fst x) = Some (snd x)) (n := nc).
    + intros (l, lev) m r' Px Lm. apply m2q_level_iff with (ttc := ttc); auto. lia.
    + intros x m _ _. unfold m2q_final. rewrite map_length. apply seq_length.
    + intros (l, lev) I. destruct (In_numbered _ _ _ _ I) as (_ & X). rewrite Nat.sub_0_r in X. exact X.
    + apply repeat_length.
Qed.

Definition l2q_step (x : nat * nat) (a : list (list term)) : list (list term) :=
  map (fun c => nth c a [] ++ (if (fst x <=? box_of T V nc c) && (box_of T V nc c <? fst x + snd x)
                               then tagged (qbx_frame c) (locals T V w (box_of T V nc c)) else [])) (seq 0 nc).
Definition l2q_all : list (list term) := fold_left (fun a l => l2q_final T V nc w l a) (seq 0 (length (ft_levels T))) (expansion_zeros nc).
Lemma l2q_all_rel : tag_rel l2q_all (l2qbxl T V nc w).
Proof.
  unfold l2q_all, l2qbxl.
  replace (fold_left (fun a l => l2q_final T V nc w l a) (seq 0 (length (ft_levels T))) (expansion_zeros nc))
    with (fold_left (fun a x => l2q_step x a) (ft_levels T) (expansion_zeros nc)) by (symmetry; exact (fold_seq_nth l2q_step (0, 0) (ft_levels T) (expansion_zeros nc))).
  assert (H : forall L a e, tag_rel a e -> tag_rel (fold_left (fun a x => l2q_step x a) L a)
    (fold_left (fun a '(start, n) => map (fun '(e, k) => let b := nth k (tr_target_boxes V) 0 in if (start <=? b) && (b <? start + n) then e ++ locals T V w b else e) (combine a ctb)) L e)).
  { induction L as [|(s, m) L IH]; intros a e R; cbn [fold_left]; [exact R|]. apply IH. destruct R as (La & Le & H).
    unfold tag_rel, l2q_step. cbn [fst snd]. rewrite !map_length, seq_length, combine_length, ctb_length, Le, Nat.min_id. repeat split.
    intros c Hc. rewrite (@nth_map_d _ _ _ (seq 0 nc) c 0 []) by (rewrite seq_length; exact Hc). rewrite seq_nth by exact Hc. cbn [plus].
    rewrite (@nth_map_d _ _ _ (combine e ctb) c ([], 0) []) by (rewrite combine_length, ctb_length, Le, Nat.min_id; exact Hc).
    rewrite combine_nth by (rewrite ctb_length; exact Le). rewrite (H c Hc). fold (box_of T V nc c). cbv zeta.
    destruct ((s <=? box_of T V nc c) && (box_of T V nc c <? s + m)); [rewrite tagged_app; reflexivity|apply app_nil_r]. }
  apply H. apply tag_rel_zero.
Qed.
Lemma l2q_iff r : dev_l2q junk T V nc w ctb r <-> r = l2q_all.
Proof.
  unfold dev_l2q. destruct (nc =? 0) eqn:E.
  - apply Nat.eqb_eq in E. destruct l2q_all_rel as (L & _). replace l2q_all with (expansion_zeros nc); [reflexivity|].
    unfold expansion_zeros. rewrite E in L |- *. destruct l2q_all; [reflexivity|discriminate].
  - apply Nat.eqb_neq in E.
    apply launches_iff with (f := l2q_level junk T V nc w ctb) (g := fun l a => l2q_final T V nc w l a) (P := fun l => l < length (ft_levels T)) (n := nc).
    + intros l m r' Px Lm. apply l2q_level_iff with (ttc := ttc); auto. lia.
    + intros x m _ _. unfold l2q_final. rewrite map_length. apply seq_length.
    + intros l I. apply in_seq in I. lia.
    + apply repeat_length.
Qed.

(** ** The expansions *)
Definition dev_exps : list (list term) := add_exps (add_exps (form_final T V nc ttc w) m2q_all) l2q_all.
Lemma dev_exps_nth c : In c gc -> nth_error dev_exps c = Some (tagged (qbx_frame c) (nth c (qbx_expansions T V nc ttc w) [])).
Proof.
  intros I. assert (Lc : c < nc) by (eapply gc_lt; exact I).
  assert (Lf : length (form_final T V nc ttc w) = nc) by (unfold form_final; rewrite map_length; apply seq_length).
  destruct m2q_all_rel as (Lm & Lm' & Hm). destruct l2q_all_rel as (Ll & Ll' & Hl).
  assert (La : length (add_exps (form_final T V nc ttc w) m2q_all) = nc) by (apply add_exps_length; assumption).
  assert (Ld : length dev_exps = nc) by (apply add_exps_length; assumption).
  rewrite (@nth_error_nth' _ dev_exps c []) by (rewrite Ld; exact Lc). f_equal. unfold dev_exps.
  rewrite (add_exps_nth (nc := nc)), (add_exps_nth (nc := nc)) by assumption. rewrite Hm, Hl by exact Lc.
  unfold form_final. rewrite (@nth_map_d _ _ _ (seq 0 nc) c 0 []) by (rewrite seq_length; exact Lc). rewrite seq_nth by exact Lc. cbn [plus].
  rewrite (proj2 (is_gc_iff nc ttc c) I). rewrite <- !tagged_app. f_equal.
  unfold qbx_expansions. rewrite (@nth_map_d _ _ _ (combine (combine (form_global_qbx_locals T V nc ttc w) (m2qbxl T V nc w)) (l2qbxl T V nc w)) c (([], []), []) [])
    by (rewrite !combine_length, form_length, m2qbxl_length, l2qbxl_length, !Nat.min_id; exact Lc).
  rewrite !combine_nth by (rewrite ?combine_length, ?form_length, ?m2qbxl_length, ?l2qbxl_length, ?Nat.min_id; reflexivity).
  rewrite (form_nth T V ttc w I Lc). reflexivity.
Qed.

(** ** QBXL2P *)
Definition vrow (t : nat) : list (list (option contr)) := map (fun k => map Some (nth t (eval_qbx_expansions T V nc ttc w k) [])) (seq 0 nknl).
Definition eval_final : list (list (list (option contr))) := map vrow (seq 0 n).
Notation q2p := (qbxl2p junk nknl gc (csr_starts (ctt_rows T nc ttc)) (csr_lists (ctt_rows T nc ttc)) (flat_centers nc) (flat_expansion_radii nc) dev_exps (tgt_points T)).
Notation zero_pot := (repeat (repeat (@nil (option contr)) nknl) n).
Lemma set_partial A (Vv : list A) (z d : A) i : i < length Vv -> set_nth (firstn i Vv ++ repeat z (length Vv - i)) i (nth i Vv d) = firstn (S i) Vv ++ repeat z (length Vv - S i).
Proof.
  revert i; induction Vv as [|x Vv IH]; intros [|i] L; cbn [length] in L; try lia.
  - cbn. rewrite Nat.sub_0_r. reflexivity.
  - cbn [length nth Nat.sub]. rewrite !firstn_cons. cbn [app set_nth]. f_equal. apply IH. lia.
Qed.
Lemma q2p_item i p : i < length gc -> wp (fun t => In t (center_targets T ttc (nth i gc 0))) (k_body q2p) (assign_var p (k_iname q2p) (VNum i)) zero_pot
  (fun _ m' => forall x, In x (center_targets T ttc (nth i gc 0)) -> nth_error m' x = nth_error eval_final x).
Proof.
  intros L. destruct (gc_item nc ttc L) as (Ei & I & Lc). set (c := nth i gc 0) in *.
  set (row := center_targets T ttc c).
  assert (Er : nth c (ctt_rows T nc ttc) [] = row).
  { unfold ctt_rows. rewrite (@nth_map_d nat _ (center_targets T ttc) _ c 0 []) by (rewrite seq_length; exact Lc). rewrite seq_nth by exact Lc. reflexivity. }
  destruct (@csr_row (ctt_rows T nc ttc) c) as (s & Es & Es1 & El); [unfold ctt_rows; rewrite map_length, seq_length; exact Lc|].
  rewrite Er in Es1, El.
  assert (ND : NoDup row) by apply center_targets_NoDup.
  assert (Rt : forall t, In t row -> t < n /\ nth (ft_tgt_pt T t) ttc 0%Z = Z.of_nat c) by (intros t It; apply (In_center_targets OK HT); exact It).
  assert (Vt : forall t, In t row -> vrow t = map (fun k => taeval k (AtCenter c) (Radius c) (tagged (qbx_frame c) (nth c (qbx_expansions T V nc ttc w) [])) (Via c) (ft_tgt_pt T t)) (seq 0 nknl)).
  { intros t It. destruct (Rt t It) as (Lt & Et). unfold vrow. apply map_ext. intros k. rewrite taeval_tagged.
    rewrite (eval_qbx_some OK HT w k c Lt Et I). reflexivity. }
  assert (LV : forall t, length (vrow t) = nknl) by (intros t; unfold vrow; rewrite map_length; apply seq_length).
  unfold qbxl2p; cbn [k_body k_iname Block].
  apply wl with (v := VNum c); [rd; apply num_at_eq; exact Ei|].
  apply wl with (v := VNum s); [rd; apply num_at_eq; exact Es|].
  apply wl with (v := VNum (s + length row)); [rd; apply num_at_eq; exact Es1|].
  apply wl with (v := VPlace (AtCenter c)); [rd; unfold flat_centers; rewrite map_seq_error by exact Lc; reflexivity|].
  apply wl with (v := VScale (Radius c)); [rd; unfold flat_expansion_radii; rewrite map_seq_error by exact Lc; reflexivity|].
  apply wp_seq.
  set (zrow := repeat (@nil (option contr)) nknl).
  eapply wp_for with (I := fun q p1 m1 => p1 "src_icenter" = VNum c /\ p1 "center" = VPlace (AtCenter c) /\ p1 "rscale" = VScale (Radius c)
    /\ forall j, j < length row -> nth_error m1 (nth j row 0) = Some (if j <? q - s then vrow (nth j row 0) else zrow)).
  - rd. lia.
  - rd. rewrite Nat.sub_diag. repeat split. intros j Hj. cbn [Nat.ltb Nat.leb]. destruct (Rt (nth j row 0) (nth_In _ _ Hj)) as (Lt & _).
    rewrite (@nth_error_nth' _ zero_pot _ zrow) by (rewrite repeat_length; exact Lt). unfold zrow. rewrite nth_rep. destruct j; reflexivity.
  - rd. intros q p1 m1 Hq (P1 & P2 & P3 & P4).
    set (t := nth (q - s) row 0). assert (It : In t row) by (apply nth_In; lia). destruct (Rt t It) as (Lt & _).
    apply wl with (v := VNum t); [rd; apply num_at_eq; replace q with (s + (q - s)) by lia; apply El; lia|].
    apply wl with (v := VExpn (tagged (qbx_frame c) (nth c (qbx_expansions T V nc ttc w) []))); [rd; rewrite P1; unfold expn_at; rewrite (@dev_exps_nth c I); reflexivity|].
    apply wl with (v := VNum (ft_tgt_pt T t)); [rd; apply num_at_eq; apply map_seq_error; exact Lt|].
    apply wl with (v := VPots (vrow t)); [rd; rewrite P2, P3, (Vt t It); reflexivity|].
    apply wp_seq.
    eapply wp_for with (I := fun k p1 m1 => p1 "src_icenter" = VNum c /\ p1 "center" = VPlace (AtCenter c) /\ p1 "rscale" = VScale (Radius c) /\ p1 "itgt" = VNum t /\ p1 "result_temp" = VPots (vrow t)
      /\ forall j, j < length row -> nth_error m1 (nth j row 0) = Some (if j <? q - s then vrow (nth j row 0) else if j =? q - s then firstn k (vrow t) ++ repeat [] (length (vrow t) - k) else zrow)).
    + lia.
    + rd. repeat split; try assumption. intros j Hj. rewrite P4 by exact Hj. f_equal. destruct (j <? q - s); [reflexivity|]. destruct (j =? q - s); [|reflexivity].
      cbn [firstn app]. rewrite LV, Nat.sub_0_r. reflexivity.
    + intros k p2 m2 Hk (Q1 & Q2 & Q3 & Q4 & Q5 & Q6).
      apply wp_store; [rd; rewrite Q4; exact It|]. rd. rewrite Q1, Q2, Q3, Q4, Q5. repeat split.
      intros j Hj. rewrite write_cell_nth. destruct (nth j row 0 =? t) eqn:Ej.
      * apply Nat.eqb_eq in Ej. assert (j = q - s) as -> by (apply (NoDup_nth_inj ND); [exact Hj|lia|exact Ej]).
        rewrite Q6 by exact Hj. rewrite Nat.ltb_irrefl, Nat.eqb_refl. cbn [option_map]. f_equal. apply set_partial. rewrite LV. lia.
      * apply Nat.eqb_neq in Ej. rewrite Q6 by exact Hj. destruct (j =? q - s) eqn:Ejq; [|reflexivity].
        apply Nat.eqb_eq in Ejq. subst j. destruct Ej. reflexivity.
    + intros p2 m2 (Q1 & Q2 & Q3 & Q4 & Q5 & Q6). apply wp_skip. repeat split; try assumption. intros j Hj. rewrite Q6 by exact Hj. f_equal.
      destruct (j <? q - s) eqn:B.
      * apply Nat.ltb_lt in B. destruct (Nat.ltb_spec j (S q - s)); [reflexivity|lia].
      * apply Nat.ltb_ge in B. destruct (j =? q - s) eqn:B2.
        -- apply Nat.eqb_eq in B2. destruct (Nat.ltb_spec j (S q - s)); [|lia]. subst j. rewrite LV, Nat.sub_diag. cbn [repeat]. rewrite app_nil_r. rewrite <- (LV t) at 1. apply firstn_all.
        -- apply Nat.eqb_neq in B2. destruct (Nat.ltb_spec j (S q - s)); [lia|reflexivity].
  - rd. intros p1 m1 (P1 & P2 & P3 & P4). apply wp_skip. intros x Ix. destruct (In_nth _ _ 0 Ix) as (j & Hj & Ej). rewrite <- Ej.
    rewrite P4 by exact Hj. destruct (Nat.ltb_spec j (s + length row - s)); [|lia].
    unfold eval_final. rewrite map_seq_error; [reflexivity|]. destruct (Rt (nth j row 0)) as (Lt & _); [apply nth_In; exact Hj|exact Lt].
Qed.
Lemma zero_nth t : t < n -> nth_error zero_pot t = Some (repeat [] nknl).
Proof. intros Lt. rewrite (@nth_error_nth' _ zero_pot t (repeat [] nknl)) by (rewrite repeat_length; exact Lt). rewrite nth_rep. reflexivity. Qed.
Lemma vrow_none t : t < n -> (forall i, i < length gc -> ~ In t (center_targets T ttc (nth i gc 0))) -> vrow t = repeat [] nknl.
Proof.
  intros Lt N. unfold vrow. rewrite <- (map_const_repeat_ [] nknl). apply map_ext. intros k.
  destruct (tgt_pt_inv OK Lt) as (Lu & _). destruct HT as (Ln & Hnc & Hc & Ht).
  assert (E : nth (ft_tgt_pt T t) ttc 0%Z = (-1)%Z).
  { destruct (Nat.ltb_spec (ft_tgt_pt T t) nc) as [Hu|Hu]; [apply Hc; exact Hu|].
    destruct (Ht _ Hu Lu) as [E|(c & Lc & E)]; [exact E|]. exfalso.
    assert (I : In c gc) by (apply (In_global_centers T HT); eauto).
    destruct (In_nth _ _ 0 I) as (i & Li & Ei). apply (N i Li). rewrite Ei. apply (In_center_targets OK HT). auto. }
  rewrite (eval_qbx_none OK HT w k Lt E). reflexivity.
Qed.
Lemma eval_iff q : dev_eval junk T nc ttc nknl gc dev_exps q <-> q = eval_final.
Proof.
  unfold dev_eval. destruct (length gc =? 0) eqn:E.
  - apply Nat.eqb_eq in E. replace eval_final with zero_pot; [reflexivity|].
    apply nth_error_ext; [unfold eval_final; rewrite repeat_length, map_length, seq_length; reflexivity|].
    intros t Lt. rewrite repeat_length in Lt. rewrite (zero_nth Lt). unfold eval_final. rewrite map_seq_error by exact Lt. f_equal. symmetry. apply vrow_none; [exact Lt|]. intros i Li. lia.
  - apply Nat.eqb_neq in E. apply launch_iff with (cells := fun i t => In t (center_targets T ttc (nth i gc 0))).
    + intros i j x Hi Hj A B. apply (In_center_targets OK HT) in A. apply (In_center_targets OK HT) in B.
      apply (@gc_inj nc ttc i j Hi Hj). destruct A as (_ & A), B as (_ & B). rewrite A in B. lia.
    + intros i x. apply in_dec. apply Nat.eq_dec.
    + unfold eval_final. rewrite map_length, seq_length, repeat_length. reflexivity.
    + intros i p Hi. exact (q2p_item p Hi).
    + intros t N. destruct (Nat.ltb_spec t n) as [Lt|Lt].
      * rewrite (zero_nth Lt). unfold eval_final. rewrite map_seq_error by exact Lt. f_equal. apply vrow_none; assumption.
      * rewrite !(proj2 (nth_error_None _ _)); [reflexivity|rewrite repeat_length; lia|unfold eval_final; rewrite map_length, seq_length; lia].
    + left. lia.
Qed.
End Drive.
