From Coq Require Import QArith Permutation.
From Verif Require Import Base SymProofs SymProofs2 RefineModel AssocModel FmmModel FmmSpec FmmProofs FmmProofs2 FmlModel FmlSpec FmlProofs FmlProofs2 FmlProofs3.
Set Implicit Arguments.
Open Scope nat_scope.

Lemma flat_map_one A (f : nat -> list A) c : forall l, NoDup l -> In c l -> (forall c', In c' l -> c' <> c -> f c' = []) -> flat_map f l = f c.
Proof.
  induction l as [|x l IH]; intros N I H; [contradiction|]. inversion N as [|? ? N1 N2]; subst. cbn [flat_map]. destruct I as [->|I].
  - rewrite flat_map_nil; [apply app_nil_r|]. intros y J. apply H; [right; exact J|]. intros ->. contradiction.
  - rewrite (H x); [|left; reflexivity|intros ->; contradiction]. cbn [app]. apply IH; auto. intros y J. apply H. right. exact J.
Qed.
Lemma existsb_In x l : existsb (Nat.eqb x) l = true <-> In x l.
Proof. rewrite existsb_exists. split; [intros (y & I & E); apply Nat.eqb_eq in E; subst; exact I|intros I; exists x; split; [exact I|apply Nat.eqb_refl]]. Qed.
Lemma row_center A (v : nat -> list A) ts : NoDup ts -> forall row, (forall t, In t ts -> t < length row) ->
  let r := fold_left (fun row t => fancy_add row [t] [v t]) ts row in
  length r = length row /\ forall t, nth t r [] = nth t row [] ++ (if existsb (Nat.eqb t) ts then v t else []).
Proof.
  induction ts as [|x ts IH]; intros N row R; cbn zeta; cbn [fold_left].
  - split; [reflexivity|]. intros t. symmetry. apply app_nil_r.
  - inversion N as [|? ? N1 N2]; subst. assert (X : x < length row) by (apply R; left; reflexivity).
    destruct (IH N2 (fancy_add row [x] [v x])) as (L & H); [intros t I; rewrite fancy_add_length; apply R; right; exact I|].
    split; [rewrite L; apply fancy_add_length|]. intros t. rewrite H, fancy_add_one, nth_set_nth by exact X. cbn [existsb].
    destruct (t =? x) eqn:E.
    + apply Nat.eqb_eq in E. subst t. assert (X' : x <? length row = true) by (apply Nat.ltb_lt; exact X). rewrite X'. cbn [andb orb].
      destruct (existsb (Nat.eqb x) ts) eqn:E'; [apply existsb_In in E'; contradiction|]. apply app_nil_r.
    + cbn [andb orb]. reflexivity.
Qed.
Lemma row_all A (v : nat -> nat -> list A) (tg : nat -> list nat) cs : (forall c, NoDup (tg c)) -> forall row, (forall c t, In t (tg c) -> t < length row) ->
  let r := fold_left (fun row c => fold_left (fun row t => fancy_add row [t] [v c t]) (tg c) row) cs row in
  length r = length row /\ forall t, nth t r [] = nth t row [] ++ flat_map (fun c => if existsb (Nat.eqb t) (tg c) then v c t else []) cs.
Proof.
  intros N. induction cs as [|c cs IH]; intros row R; cbn zeta; cbn [fold_left flat_map].
  - split; [reflexivity|]. intros t. symmetry. apply app_nil_r.
  - destruct (row_center (v c) (N c) row (R c)) as (L & H). cbn zeta in L, H. set (r1 := fold_left (fun row t => fancy_add row [t] [v c t]) (tg c) row) in *.
    destruct (IH r1) as (L2 & H2); [intros c' t I; rewrite L; exact (R c' t I)|]. split; [congruence|]. intros t. rewrite H2, H, app_assoc. reflexivity.
Qed.

Section Eval.
Variable T : ftree.
Variable V : ftrav.
Variable nc : nat.
Variable ttc : list Z.
Variable w : list nat.
Variable ti : tid.
Variable wr : wrangler.
Hypothesis OK : fmm_ok T V.
Hypothesis LO : levels_ok T V.
Hypothesis HT : ttc_ok nc (ft_ntgt T) ttc.
Hypothesis Hgrad : ti_ifgrad ti = existsb (fun o : option nat => match o with Some _ => true | None => false end) (outputs ti).
Hypothesis Haxis : forall a, In (Some a) (outputs ti) -> a < ti_dim ti.
Notation gc := (gcenters nc ttc).
Notation n := (ft_ntgt T).

Lemma add_potgrad_ok (F : option nat -> list pot) ixs p g (vals : nat -> list pot) :
  (In None (outputs ti) -> p = Some (vals 0)) ->
  (forall a, In (Some a) (outputs ti) -> exists g', g = GArray g' /\ nth_error g' a = Some (vals (S a))) ->
  add_potgrad ti (map F (outputs ti)) ixs p g = Ok (map (fun o => fancy_add (F o) ixs (vals (label_of o))) (outputs ti)).
Proof.
  intros HP HG. unfold add_potgrad. clear Hgrad Haxis. induction (outputs ti) as [|o os IH]; [reflexivity|]. cbn [map combine mapM].
  assert (IH' := IH (fun I => HP (or_intror I)) (fun a I => HG a (or_intror I))). destruct o as [a|].
  - destruct (HG a (or_introl eq_refl)) as (g' & Eg & E). subst g. rewrite E. cbn [bind label_of]. rewrite IH'. reflexivity.
  - assert (Ep := HP (or_introl eq_refl)). subst p. cbn [bind label_of]. rewrite IH'. reflexivity.
Qed.
Lemma zeros_eq : full_output_zeros T ti = map (fun _ => repeat [] n) (outputs ti).
Proof. reflexivity. Qed.
Lemma grad_on a : In (Some a) (outputs ti) -> ti_ifgrad ti = true.
Proof. intros I. rewrite Hgrad. apply existsb_exists. exists (Some a). auto. Qed.

Definition value (exps : list (list term)) (lab c t : nat) : pot := taeval lab (AtCenter c) (Radius c) (nth c exps []) (Via c) (ft_tgt_pt T t).
Definition eval_row (exps : list (list term)) (lab : nat) (cs : list nat) (row : list pot) : list pot :=
  fold_left (fun row c => fold_left (fun row t => fancy_add row [t] [value exps lab c t]) (center_targets T ttc c) row) cs row.
Lemma fml_eval_eq exps : fml_eval_qbx_expansions T nc ttc ti exps = Ok (map (fun o => eval_row exps (label_of o) gc (repeat [] n)) (outputs ti)).
Proof.
  unfold fml_eval_qbx_expansions. rewrite zeros_eq. set (F0 := fun _ : option nat => repeat (@nil (option contr)) n).
  change (map (fun o => eval_row exps (label_of o) gc (repeat [] n)) (outputs ti)) with (map (fun o => eval_row exps (label_of o) gc (F0 o)) (outputs ti)).
  generalize F0. clear F0. induction gc as [|c cs IH]; intros F0; cbn [foldM eval_row fold_left]; [reflexivity|].
  assert (G : forall ts F, foldM (fun out t => let value0 lab := taeval lab (AtCenter c) (Radius c) (nth c exps []) (Via c) (ft_tgt_pt T t) in
       add_potgrad ti out [t] (Some [value0 0]) (if ti_ifgrad ti then GArray (map (fun axis => [value0 (S axis)]) (seq 0 (ti_dim ti))) else GZero)) (map F (outputs ti)) ts
     = Ok (map (fun o => fold_left (fun row t => fancy_add row [t] [value exps (label_of o) c t]) ts (F o)) (outputs ti))).
  { induction ts as [|t ts IHt]; intros F; cbn [foldM fold_left]; [reflexivity|]. cbv zeta.
    rewrite (@add_potgrad_ok F [t] _ _ (fun lab => [value exps lab c t])).
    - cbn [bind]. cbv zeta in IHt. rewrite IHt. reflexivity.
    - reflexivity.
    - intros a I. rewrite (grad_on _ I). eexists. split; [reflexivity|]. rewrite nth_error_map.
      rewrite (nth_error_nth' (seq 0 (ti_dim ti)) 0) by (rewrite seq_length; apply Haxis; exact I). rewrite seq_nth by (apply Haxis; exact I). reflexivity. }
  rewrite G. cbn [bind]. rewrite IH. reflexivity.
Qed.
Lemma center_targets_lt c t : In t (center_targets T ttc c) -> t < n.
Proof. intros I. apply (In_center_targets OK HT) in I. apply I. Qed.
Lemma eval_row_some exps lab t c : t < n -> nth (ft_tgt_pt T t) ttc 0%Z = Z.of_nat c -> In c gc -> nth t (eval_row exps lab gc (repeat [] n)) [] = value exps lab c t.
Proof.
  intros H E I. destruct (@row_all _ (fun c t => value exps lab c t) (center_targets T ttc) gc (fun c => center_targets_NoDup T ttc c) (repeat [] n)) as (_ & R).
  { intros c' t' J. rewrite repeat_length. exact (center_targets_lt _ _ J). }
  unfold eval_row. rewrite R, nth_rep. cbn [app]. rewrite (@flat_map_one _ _ c gc (gc_NoDup nc ttc) I).
  - assert (X : existsb (Nat.eqb t) (center_targets T ttc c) = true) by (apply existsb_In; apply (In_center_targets OK HT); auto). rewrite X. reflexivity.
  - intros c' _ N. destruct (existsb (Nat.eqb t) (center_targets T ttc c')) eqn:X; [|reflexivity]. apply existsb_In in X. apply (In_center_targets OK HT) in X. exfalso. apply N. lia.
Qed.
Lemma eval_row_none exps lab t : t < n -> nth (ft_tgt_pt T t) ttc 0%Z = (-1)%Z -> nth t (eval_row exps lab gc (repeat [] n)) [] = [].
Proof.
  intros H E. destruct (@row_all _ (fun c t => value exps lab c t) (center_targets T ttc) gc (fun c => center_targets_NoDup T ttc c) (repeat [] n)) as (_ & R).
  { intros c' t' J. rewrite repeat_length. exact (center_targets_lt _ _ J). }
  unfold eval_row. rewrite R, nth_rep. cbn [app]. apply flat_map_nil. intros c _.
  destruct (existsb (Nat.eqb t) (center_targets T ttc c)) eqn:X; [|reflexivity]. apply existsb_In in X. apply (In_center_targets OK HT) in X. lia.
Qed.
Lemma eval_row_length exps lab : length (eval_row exps lab gc (repeat [] n)) = n.
Proof.
  destruct (@row_all _ (fun c t => value exps lab c t) (center_targets T ttc) gc (fun c => center_targets_NoDup T ttc c) (repeat [] n)) as (L & _).
  { intros c' t' J. rewrite repeat_length. exact (center_targets_lt _ _ J). }
  unfold eval_row. etransitivity; [exact L|apply repeat_length].
Qed.

(** ** Target-specific expansions *)
Definition ts_wr (lab : nat) (p : nat * nat) : option (nat * pot) :=
  Some (snd p, map Some (eval lab (near_parts T V w (nth (fst p) (center_to_target_box T V nc) 0)) (Via (fst p)) (ft_tgt_pt T (snd p)))).
Lemma ts_values_eq lab : ts_values T V nc ttc w lab = fold_left (write_step (ts_wr lab)) (qbx_pairs T nc ttc) (repeat [] n).
Proof.
  unfold ts_values, qbx_pairs, gcenters. generalize (repeat (@nil (option contr)) n). induction (global_centers nc ttc) as [|c l IH]; intros a; cbn [fold_left flat_map]; [reflexivity|].
  rewrite IH, fold_left_app. f_equal. clear IH. revert a. induction (center_targets T ttc c) as [|i l0 IH0]; intros a0; cbn [fold_left map]; [reflexivity|].
  rewrite IH0. f_equal.
Qed.
Lemma ts_values_some lab t c : t < n -> nth (ft_tgt_pt T t) ttc 0%Z = Z.of_nat c -> In c gc ->
  nth t (ts_values T V nc ttc w lab) [] = map Some (eval lab (near_parts T V w (nth c (center_to_target_box T V nc) 0)) (Via c) (ft_tgt_pt T t)).
Proof.
  intros H E C. rewrite ts_values_eq. apply writes_some; [rewrite repeat_length; exact H| |].
  - intros [c' i'] v I W. apply (In_qbx_pairs OK HT) in I. destruct I as (_ & _ & E'). unfold ts_wr in W. cbn [fst snd] in W. injection W as -> <-.
    assert (c' = c) by lia. subst c'. reflexivity.
  - right. exists (c, t). split; [apply (In_qbx_pairs OK HT); auto|reflexivity].
Qed.
Lemma ts_values_none lab t : t < n -> nth (ft_tgt_pt T t) ttc 0%Z = (-1)%Z -> nth t (ts_values T V nc ttc w lab) [] = [].
Proof.
  intros H E. rewrite ts_values_eq, writes_none; [apply nth_rep|]. intros [c i'] v I W. apply (In_qbx_pairs OK HT) in I. destruct I as (_ & _ & E').
  unfold ts_wr in W. cbn [fst snd] in W. injection W as -> _. lia.
Qed.
Lemma ts_values_length lab : length (ts_values T V nc ttc w lab) = n.
Proof. rewrite ts_values_eq, writes_length. apply repeat_length. Qed.
Definition ts_row (lab : nat) : list pot := if using_tsqbx ti then ts_values T V nc ttc w lab else repeat [] n.
Hypothesis Hdip : using_tsqbx ti = true -> ti_ifgrad ti = true -> w_dipole wr = None.
Lemma fml_ts_eq : fml_eval_ts T V nc ttc w ti wr = Ok (map (fun o => ts_row (label_of o)) (outputs ti)).
Proof.
  unfold fml_eval_ts, ts_row. destruct (using_tsqbx ti) eqn:U; cbn [negb]; [|reflexivity].
  assert (D : (match w_dipole wr with None => false | Some _ => true end) && ti_ifgrad ti = false).
  { destruct (ti_ifgrad ti) eqn:G; [|apply andb_false_r]. rewrite Hdip by auto. reflexivity. }
  rewrite D, zeros_eq. rewrite (@add_potgrad_ok (fun _ => repeat [] n) (seq 0 n) _ _ (ts_values T V nc ttc w)).
  - f_equal. apply map_ext. intros o. apply fancy_add_all. apply ts_values_length.
  - intros I. assert (E : existsb (fun o : option nat => match o with None => true | Some _ => false end) (outputs ti) = true) by (apply existsb_exists; exists None; auto).
    rewrite E. reflexivity.
  - intros a I. rewrite (grad_on _ I). eexists. split; [reflexivity|]. rewrite nth_error_map.
    rewrite (nth_error_nth' (seq 0 (ti_dim ti)) 0) by (rewrite seq_length; apply Haxis; exact I). rewrite seq_nth by (apply Haxis; exact I). reflexivity.
Qed.

(** ** Everything *)
Lemma add_pots_nth a b i : length a = n -> length b = n -> nth i (add_pots a b) [] = nth i a [] ++ nth i b [].
Proof.
  intros A B. unfold add_pots. destruct (Nat.lt_ge_cases i n) as [H|H].
  - rewrite (@nth_map_d _ _ _ (combine a b) i ([], []) []) by (rewrite combine_length; lia). rewrite combine_nth by lia. reflexivity.
  - rewrite !nth_overflow; try lia; [reflexivity|]. rewrite map_length, combine_length. lia.
Qed.
Lemma add_pots_length a b : length a = n -> length b = n -> length (add_pots a b) = n.
Proof. intros A B. unfold add_pots. rewrite map_length, combine_length. lia. Qed.
Lemma combine_map2 A B C (f : A -> B) (g : A -> C) l : combine (map f l) (map g l) = map (fun a => (f a, g a)) l.
Proof. induction l as [|x l IH]; cbn; [reflexivity|]. rewrite IH. reflexivity. Qed.
Lemma combine_map1 A B (f : A -> B) l : combine (map f l) l = map (fun a => (f a, a)) l.
Proof. induction l as [|x l IH]; cbn; [reflexivity|]. rewrite IH. reflexivity. Qed.
Lemma scatter_map A B (f : A -> B) ixs : forall vs a, scatter (map f a) ixs (map f vs) = map f (scatter a ixs vs).
Proof.
  assert (S : forall (a : list A) i v, set_nth (map f a) i (f v) = map f (set_nth a i v)) by (induction a as [|x a IH]; intros [|i] v; cbn; try reflexivity; rewrite IH; reflexivity).
  unfold scatter. induction ixs as [|i ixs IH]; intros [|v vs] a; cbn; try reflexivity. rewrite S. apply IH.
Qed.
Definition fml_row (exps : list (list term)) (lab : nat) : list pot :=
  map (fun i => nth i (add_pots (map (map Some) (nonqbx_all T V nc ttc w lab)) (add_pots (eval_row exps lab gc (repeat [] n)) (ts_row lab))) []) (ft_sorted T).
Lemma fml_potentials_eq : exists m2q, fml_m2qbxl T V nc ttc w = Ok m2q /\
  fml_potentials T V nc ttc w ti wr = Ok (map (fun o => fml_row (add_exps (add_exps (fml_form_global_qbx_locals T V nc ttc w ti) m2q) (fml_l2qbxl T V nc ttc w)) (label_of o)) (outputs ti)).
Proof.
  destruct (fml_m2qbxl_ok w OK LO HT) as (m2q & E & _). exists m2q. split; [exact E|]. unfold fml_potentials. rewrite E. cbn [bind]. cbv zeta. rewrite fml_eval_eq. cbn [bind]. rewrite fml_ts_eq. cbn [bind].
  f_equal. rewrite combine_map2, zeros_eq, combine_map1, !map_map, combine_map2, !map_map. apply map_ext. intros o. unfold fml_row. apply map_ext. intros i.
  f_equal. f_equal. unfold nonqbx_all, fml_non_qbx. rewrite <- scatter_map. f_equal. clear. induction n as [|m IH]; cbn; [reflexivity|]. rewrite <- IH. reflexivity.
Qed.
Lemma map_Some_nil_nth (l : list (list contr)) i : nth i (map (map (@Some contr)) l) [] = map Some (nth i l []).
Proof. change (@nil (option contr)) with (map (@Some contr) []). apply map_nth. Qed.
Lemma nonqbx_length lab : length (nonqbx_all T V nc ttc w lab) = n.
Proof. unfold nonqbx_all. rewrite scatter_length. apply repeat_length. Qed.
Lemma ts_row_length lab : length (ts_row lab) = n.
Proof. unfold ts_row. destruct (using_tsqbx ti); [apply ts_values_length|apply repeat_length]. Qed.
Lemma fml_row_nth exps lab u : u < n -> nth u (fml_row exps lab) [] =
  map Some (nth (nth u (ft_sorted T) 0) (nonqbx_all T V nc ttc w lab) []) ++ nth (nth u (ft_sorted T) 0) (eval_row exps lab gc (repeat [] n)) [] ++ nth (nth u (ft_sorted T) 0) (ts_row lab) [].
Proof.
  intros H. unfold fml_row. rewrite (@nth_map_d _ _ _ (ft_sorted T) u 0 []) by (rewrite (sorted_length OK); exact H).
  rewrite add_pots_nth; [|rewrite map_length; apply nonqbx_length|apply add_pots_length; [apply eval_row_length|apply ts_row_length]].
  rewrite add_pots_nth; [|apply eval_row_length|apply ts_row_length]. rewrite map_Some_nil_nth. reflexivity.
Qed.
Lemma fml_row_center exps lab u : u < nc -> nth u (fml_row exps lab) [] = [].
Proof.
  intros H. destruct HT as (_ & NL & HC & _). assert (Hu : u < n) by lia. rewrite fml_row_nth by exact Hu. assert (SL := sorted_lt OK Hu).
  assert (Z : nth (ft_tgt_pt T (nth u (ft_sorted T) 0)) ttc 0%Z = (-1)%Z) by (rewrite (fo_tgt_pt OK Hu); apply HC; exact H).
  rewrite nonqbx_all_out, eval_row_none by assumption || (intros I; apply (In_non_qbx OK HT) in I; rewrite (fo_tgt_pt OK Hu) in I; lia).
  cbn [map app]. unfold ts_row. destruct (using_tsqbx ti); [apply ts_values_none; assumption|apply nth_rep].
Qed.
Lemma fml_row_target m2q lab u : fml_m2qbxl T V nc ttc w = Ok m2q -> nc <= u -> u < n -> exists k, k < length (tr_target_boxes V) /\
  Permutation (nth u (fml_row (add_exps (add_exps (fml_form_global_qbx_locals T V nc ttc w ti) m2q) (fml_l2qbxl T V nc ttc w)) lab) [])
    (map Some (eval lab (map (part T w) (srcs T V k)) (route_of (nth u ttc 0%Z)) u)).
Proof.
  intros Em H Hu. rewrite fml_row_nth by exact Hu. assert (SL := sorted_lt OK Hu). set (t := nth u (ft_sorted T) 0) in *. assert (TU : ft_tgt_pt T t = u) by apply (fo_tgt_pt OK Hu).
  pose proof HT as (_ & _ & _ & HA). destruct (HA u H Hu) as [E|(c & C & E)].
  - rewrite (nonqbx_all_in OK HT) by (apply (In_non_qbx OK HT); rewrite TU; auto). rewrite eval_row_none by (rewrite ?TU; assumption). cbn [app].
    assert (N : nth t (ts_row lab) [] = []) by (unfold ts_row; destruct (using_tsqbx ti); [apply ts_values_none; rewrite ?TU; assumption|apply nth_rep]).
    rewrite N, app_nil_r. destruct (nonqbx_entry_eq OK w lab SL) as (k & K & F). exists k. split; [exact K|]. fold t in F. rewrite F, TU, E. apply Permutation_refl.
  - assert (G : In c gc) by (eapply In_global_centers; [exact HT|]; exists u; auto).
    rewrite nonqbx_all_out by (intros I; apply (In_non_qbx OK HT) in I; rewrite TU in I; lia). rewrite (@eval_row_some _ lab t c) by (rewrite ?TU; assumption). cbn [map app].
    destruct (fml_m2qbxl_ok w OK LO HT) as (m2q' & Em' & Lm & Nm). assert (m2q' = m2q) by congruence. subst m2q'.
    destruct (fml_l2qbxl_ok w OK LO HT) as (Ll & Nl). pose proof (fml_form_length T V nc ttc w ti) as Lf.
    unfold value. rewrite (@add_exps_nth nc) by auto using add_exps_length. rewrite (@add_exps_nth nc) by auto. rewrite (@fml_form_nth T V nc ttc w ti c G), (Nm c G), (Nl c G).
    destruct (ctb_spec OK HT C) as (k & K & Ek & _). exists k. split; [exact K|]. rewrite Ek, TU, E.
    assert (RO : route_of (Z.of_nat c) = Via c) by (unfold route_of; assert (X : (Z.of_nat c =? -1)%Z = false) by (apply Z.eqb_neq; lia); rewrite X, Nat2Z.id; reflexivity). rewrite RO.
    unfold srcs. rewrite !map_app, <- near_eq, <- smaller_eq, <- far_eq. unfold ts_row. destruct (using_tsqbx ti).
    + cbn [app]. rewrite <- tagged_app, taeval_tagged. rewrite (@ts_values_some lab t c) by (rewrite ?TU; assumption). rewrite Ek, TU, <- map_app, eval_app.
      apply Permutation_map. apply Permutation_map. apply Permutation_app_comm.
    + rewrite <- tagged_app, <- tagged_app, taeval_tagged, nth_rep, app_nil_r, <- app_assoc. apply Permutation_refl.
Qed.
End Eval.
