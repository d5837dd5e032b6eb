From Coq Require Import QArith Qcanon Permutation.
From Verif Require Import Base RefineModel AssocModel FmmModel FmmSpec FmmProofs FmmProofs2 FmlModel FmlSpec FmlProofs2 FmlProofs3 FmlProofs4 MatModel CostModel CostSpec CostProofs
  KrnModel KrnSpec KrnProofs KrnProofs2 KrnProofs3 KrnProofs4 AkModel AkProofs DkModel.
Set Implicit Arguments.
Open Scope string_scope. Open Scope list_scope. Open Scope nat_scope.

Ltac drd := cbv [num int pla sca exn_ pots assign_var]; cbn [String.eqb Ascii.eqb Bool.eqb andb].

Lemma Q2Qc_this (q : Qc) : Q2Qc (this q) = q.
Proof. apply Qc_is_canon. apply Qred_correct. Qed.

(** *** fill *)
Lemma filled_length (v : nat) idx : forall a, length (fold_left (fun a i => set_nth a i v) idx a) = length a.
Proof. induction idx as [|i idx IH]; intros a; cbn [fold_left]; [reflexivity|]. rewrite IH. apply set_nth_length. Qed.
Lemma filled_nth (v : nat) idx x : forall a, nth_error (fold_left (fun a i => set_nth a i v) idx a) x
  = if existsb (Nat.eqb x) idx then (if x <? length a then Some v else None) else nth_error a x.
Proof.
  induction idx as [|i idx IH]; intros a; cbn [fold_left existsb]; [reflexivity|].
  rewrite IH, set_nth_length, nth_error_set_nth. destruct (x =? i) eqn:E; cbn [orb].
  - apply Nat.eqb_eq in E. subst. destruct (existsb (Nat.eqb i) idx); reflexivity.
  - reflexivity.
Qed.
Lemma fill_iff junk idx v m0 r : launch (fill_knl junk idx v) (length idx) m0 r <-> r = fold_left (fun a i => set_nth a i v) idx m0.
Proof.
  apply ww_launch_iff with (v := fun _ => v) (ok := fun _ _ => True) (W := fun i => [nth i idx 0]).
  - intros i p Hi. unfold fill_knl; cbn [k_body k_iname Block].
    apply ww_lets with (u := VNum (nth i idx 0)); [drd; apply num_at_eq; apply nth_error_nth'; exact Hi|].
    apply ww_seq. apply ww_store; [reflexivity|]. apply ww_skip. drd. reflexivity.
  - auto.
  - auto.
  - apply filled_length.
  - intros i x Hi [<-|[]] Lx. rewrite filled_nth. replace (existsb _ _) with true; [apply Nat.ltb_lt in Lx; rewrite Lx; reflexivity|].
    symmetry. apply existsb_exists. exists (nth i idx 0). split; [apply nth_In; exact Hi|apply Nat.eqb_refl].
  - intros x N. rewrite filled_nth. destruct (existsb (Nat.eqb x) idx) eqn:E; [|reflexivity]. exfalso.
    apply existsb_exists in E. destruct E as (y & I & Ey). apply Nat.eqb_eq in Ey. subst y. destruct (In_nth _ _ 0 I) as (i & Hi & Ei).
    apply (N i Hi). left. exact Ei.
  - reflexivity.
Qed.

Section Cost.
Variable junk : nat.
Variable T : ftree.
Variable V : ftrav.
Variable level : nat -> nat.
Variable nc : nat.
Variable ttc : list Z.
Variable bs bt : boxes.
Hypothesis OK : fmm_ok T V.
Hypothesis HT : ttc_ok nc (ft_ntgt T) ttc.
Hypothesis AO : arrays_ok T V bs bt.
Notation ntb := (length (tr_target_boxes V)).
Notation gc := (global_centers nc ttc).

(** *** count *)
Definition counts (w : list nat) : list nat := map (fun b => fold_left (fun s i => s + nth i w 0) (ft_box_tgt T b) 0) (tr_target_boxes V).
Lemma fold_sum_S (w : list nat) a j : fold_left (fun s i => s + nth i w 0) (seq a (S j)) 0 = fold_left (fun s i => s + nth i w 0) (seq a j) 0 + nth (a + j) w 0.
Proof. rewrite seq_S, fold_left_app. reflexivity. Qed.
Lemma count_item w i p m0 : length w = ft_ntgt T -> i < ntb -> length m0 = ntb ->
  wp (eq i) (k_body (count_knl junk w (tr_target_boxes V) bt)) (assign_var p (k_iname (count_knl junk w (tr_target_boxes V) bt)) (VNum i)) m0
    (fun _ m' => forall x, i = x -> nth_error m' x = nth_error (counts w) x).
Proof.
  intros Lw Hi L0. set (b := nth i (tr_target_boxes V) 0).
  assert (Lb : b < ft_nboxes T) by (apply (fo_target_boxes OK); apply nth_In; exact Hi).
  destruct (ao_tgt AO Lb) as (a & m & Ea & Em & Eb).
  unfold count_knl; cbn [k_body k_iname Block].
  apply wl with (v := VNum b); [drd; apply num_at_eq; apply nth_error_nth'; exact Hi|].
  apply wl with (v := VNum a); [drd; apply num_at_eq; exact Ea|].
  apply wl with (v := VNum m); [drd; apply num_at_eq; exact Em|].
  apply wl with (v := VNum (a + m)); [drd; reflexivity|].
  apply wl with (v := VNum 0); [reflexivity|].
  apply wp_seq.
  apply wp_for with (I := fun k p1 m1 => p1 "i" = VNum i /\ m1 = m0 /\ p1 "nqbx_centers" = VNum (fold_left (fun s i => s + nth i w 0) (seq a (k - a)) 0)).
  - drd. lia.
  - drd. rewrite Nat.sub_diag. auto.
  - drd. intros k p1 m1 Hk (P1 & -> & P3).
    assert (Lk : k < length w). { rewrite Lw. apply (fo_box_tgt OK) with (b := b); [exact Lb|]. rewrite Eb. apply in_seq. lia. }
    apply wl with (v := VNum (nth k w 0)); [drd; apply num_at_eq; apply nth_error_nth'; exact Lk|].
    apply wl with (v := VNum (fold_left (fun s i => s + nth i w 0) (seq a (k - a)) 0 + nth k w 0)); [drd; rewrite P3; reflexivity|].
    apply wp_skip. drd. repeat split; [exact P1|]. replace (S k - a) with (S (k - a)) by lia. rewrite fold_sum_S. do 3 f_equal. lia.
  - drd. intros p1 m1 (P1 & -> & P3). apply wp_seq. apply wp_store; [drd; rewrite P1; reflexivity|]. apply wp_skip. drd. rewrite P1, P3.
    intros x <-. rewrite write_cell_nth, Nat.eqb_refl. rewrite (@nth_error_nth' _ m0 i 0) by lia. cbn [option_map].
    unfold counts. rewrite nth_error_map, (@nth_error_nth' _ (tr_target_boxes V) i 0) by exact Hi. fold b. cbn [option_map]. rewrite Eb.
    replace (a + m - a) with m by lia. reflexivity.
Qed.
Lemma count_iff w r : length w = ft_ntgt T -> (launch (count_knl junk w (tr_target_boxes V) bt) ntb (repeat 0 ntb) r <-> r = counts w).
Proof.
  intros Lw. apply launch_iff with (cells := fun i x => i = x).
  - intros i j x _ _ -> ->. reflexivity.
  - intros i x. apply Nat.eq_dec.
  - unfold counts. rewrite map_length, repeat_length. reflexivity.
  - intros i p Hi. exact (@count_item w i p (repeat 0 ntb) Lw Hi (repeat_length _ _)).
  - intros x N. rewrite !(proj2 (nth_error_None _ _)); [reflexivity| |].
    + rewrite repeat_length. destruct (Nat.ltb_spec x ntb) as [L|L]; [destruct (N x L eq_refl)|exact L].
    + unfold counts. rewrite map_length. destruct (Nat.ltb_spec x ntb) as [L|L]; [destruct (N x L eq_refl)|exact L].
  - right. reflexivity.
Qed.

Lemma center_weight_length ws : length (center_weight T nc ttc ws) = ft_ntgt T.
Proof. unfold center_weight. destruct ws; [rewrite scatter_length|]; rewrite filled_length; apply repeat_length. Qed.
Lemma nqbx_iff ws a : dev_nqbx junk T V nc ttc bt ws a <-> a = nqbx_centers_per_tgt_box T V nc ttc ws.
Proof.
  unfold dev_nqbx. cbv zeta. change (nqbx_centers_per_tgt_box T V nc ttc ws) with (counts (center_weight T nc ttc ws)).
  rewrite <- count_iff by apply center_weight_length. split.
  - intros (g & f & G & F & C). apply (global_iff junk T HT) in G. subst g.
    rewrite <- (map_length (fun c => nth c (ft_sorted T) 0) gc) in F. apply fill_iff in F. subst f. exact C.
  - intros C. exists gc. eexists. split; [apply (global_iff junk T HT); reflexivity|]. split; [|exact C].
    rewrite <- (map_length (fun c => nth c (ft_sorted T) 0) gc) at 1. apply fill_iff. reflexivity.
Qed.
Lemma nqbx_ex ws (P : list nat -> Prop) : (exists n, dev_nqbx junk T V nc ttc bt ws n /\ P n) <-> P (nqbx_centers_per_tgt_box T V nc ttc ws).
Proof.
  split; [intros (n & D & H); apply nqbx_iff in D; subst; exact H|]. intros H. eexists. split; [apply nqbx_iff; reflexivity|exact H].
Qed.

(** *** m2qbxl *)
Lemma add_at_nth (a : list QcR) i v x : nth_error (add_at QcR a i v) x = if x =? i then (if i <? length a then Some (radd QcR (nth i a (r0 QcR)) v) else None) else nth_error a x.
Proof. unfold add_at. apply nth_error_set_nth. Qed.
Lemma add_at_length (a : list QcR) i v : length (add_at QcR a i v) = length a.
Proof. apply set_nth_length. Qed.
Section Level.
Variable lev : list nat * (nat -> list nat).
Variable cost : QcR.
Variable n : list nat.
Hypothesis In_lev : In lev (tr_smaller V).
Hypothesis Ln : length n = ntb.
Notation knl := (m2qbxl_cost_knl junk (fst lev) n (csr_starts (level_rows lev)) cost).
Notation idx := (fst lev).
Definition inc (i : nat) : QcR := rmul QcR (rnat QcR (nth (nth i idx 0) n 0 * length (snd lev i))) cost.
Lemma lev_lt i : i < length idx -> nth i idx 0 < ntb.
Proof. intros L. apply (fo_smaller OK _ In_lev). apply nth_In. exact L. Qed.
Lemma lev_inj i j : i < length idx -> j < length idx -> nth i idx 0 = nth j idx 0 -> i = j.
Proof. apply NoDup_nth_inj. apply (fo_smaller OK _ In_lev). Qed.
Lemma level_fold_length l : forall a, length (fold_left (fun a i => add_at QcR a (nth i idx 0) (inc i)) l a) = length a.
Proof. induction l as [|i l IH]; intros a; cbn [fold_left]; [reflexivity|]. rewrite IH. apply add_at_length. Qed.
Lemma level_fold_other l x : (forall i, In i l -> nth i idx 0 <> x) -> forall a, nth_error (fold_left (fun a i => add_at QcR a (nth i idx 0) (inc i)) l a) x = nth_error a x.
Proof.
  intros N. revert N. induction l as [|i l IH]; intros N a; cbn [fold_left]; [reflexivity|]. rewrite IH by (intros j J; apply N; right; exact J).
  rewrite add_at_nth. destruct (x =? nth i idx 0) eqn:E; [|reflexivity]. apply Nat.eqb_eq in E. destruct (N i (or_introl eq_refl)). symmetry. exact E.
Qed.
Lemma level_fold_at l i : NoDup l -> (forall j, In j l -> j < length idx) -> In i l -> forall a, length a = ntb ->
  nth_error (fold_left (fun a i => add_at QcR a (nth i idx 0) (inc i)) l a) (nth i idx 0) = Some (radd QcR (nth (nth i idx 0) a (r0 QcR)) (inc i)).
Proof.
  induction l as [|j l IH]; intros ND Hl I a La; [destruct I|]. cbn [fold_left]. inversion ND as [|? ? Nj ND']; subst.
  destruct (Nat.eq_dec i j) as [->|N].
  - rewrite level_fold_other.
    + rewrite add_at_nth, Nat.eqb_refl. assert (L := lev_lt (Hl j (or_introl eq_refl))). rewrite La. apply Nat.ltb_lt in L. rewrite L. reflexivity.
    + intros k Hk E. apply Nj. rewrite <- (lev_inj (Hl k (or_intror Hk)) (Hl j (or_introl eq_refl)) E). exact Hk.
  - assert (Ii : In i l) by (destruct I as [->|I]; [destruct N; reflexivity|exact I]).
    rewrite IH; [|exact ND'|intros k Hk; apply Hl; right; exact Hk|exact Ii|rewrite add_at_length; exact La].
    f_equal. f_equal. unfold add_at. apply nth_diff. intros E. apply N. apply lev_inj; [apply Hl; exact I|apply Hl; left; reflexivity|exact E].
Qed.
Lemma level_row_csr i : i < length idx -> exists s, num_at (csr_starts (level_rows lev)) i = VNum s /\ num_at (csr_starts (level_rows lev)) (i + 1) = VNum (s + length (snd lev i)).
Proof.
  intros Hi. destruct (@csr_row (level_rows lev) i) as (s & A & B & _).
  - unfold level_rows. rewrite map_length, seq_length. exact Hi.
  - exists s. split; [apply num_at_eq; exact A|]. apply num_at_eq. rewrite B. do 3 f_equal.
    unfold level_rows. rewrite (@nth_map_d nat _ (snd lev) _ i 0 []) by (rewrite seq_length; exact Hi). rewrite seq_nth by exact Hi. reflexivity.
Qed.
Lemma cost_item i p m0 : i < length idx -> length m0 = ntb ->
  wp (eq (nth i idx 0)) (k_body knl) (assign_var p (k_iname knl) (VNum i)) m0
    (fun _ m' => forall x, nth i idx 0 = x -> nth_error m' x = Some (radd QcR (nth x m0 (r0 QcR)) (inc i))).
Proof.
  intros Hi L0. assert (Lk := lev_lt Hi). destruct (level_row_csr Hi) as (s & E1 & E2).
  unfold m2qbxl_cost_knl; cbn [k_body k_iname Block].
  apply wl with (v := VNum (nth i idx 0)); [drd; apply num_at_eq; apply nth_error_nth'; exact Hi|].
  apply wl with (v := VNum (nth (nth i idx 0) n 0)); [drd; apply num_at_eq; apply nth_error_nth'; lia|].
  apply wl with (v := VNum (s + length (snd lev i))); [drd; exact E2|].
  apply wl with (v := VNum s); [drd; exact E1|].
  apply wl with (v := VNum (length (snd lev i))); [drd; f_equal; lia|].
  apply wp_seq. apply wp_load; [drd; reflexivity|].
  apply wp_seq. apply wp_store; [drd; reflexivity|]. apply wp_skip. drd. intros x <-.
  rewrite write_cell_nth, Nat.eqb_refl. rewrite (@nth_error_nth' _ m0 (nth i idx 0) (r0 QcR)) by lia. cbn [option_map].
  unfold inc. cbn [radd rmul QcR]. rewrite Q2Qc_this. reflexivity.
Qed.
Lemma m2q_cost_level_iff m0 r : length m0 = ntb -> (launch knl (length idx) m0 r <-> r = vec_m2qbxl_level QcR n lev cost m0).
Proof.
  intros L0. change (vec_m2qbxl_level QcR n lev cost m0) with (fold_left (fun a i => add_at QcR a (nth i idx 0) (inc i)) (seq 0 (length idx)) m0).
  apply launch_iff with (cells := fun i x => nth i idx 0 = x).
  - intros i j x Hi Hj <- E. symmetry. apply lev_inj; assumption.
  - intros i x. apply Nat.eq_dec.
  - apply level_fold_length.
  - intros i p Hi. destruct (@cost_item i p m0 Hi L0) as (p' & m' & E & F). exists p', m'. split; [exact E|].
    intros x Ex. rewrite (F x Ex). subst x. symmetry. apply level_fold_at; [apply seq_NoDup| |apply in_seq; lia|exact L0]. intros j J. apply in_seq in J. lia.
  - intros x N. apply level_fold_other. intros i I E. apply in_seq in I. apply (N i); [lia|exact E].
  - right. reflexivity.
Qed.
Lemma vec_level_length m0 : length (vec_m2qbxl_level QcR n lev cost m0) = length m0.
Proof. change (vec_m2qbxl_level QcR n lev cost m0) with (fold_left (fun a i => add_at QcR a (nth i idx 0) (inc i)) (seq 0 (length idx)) m0). apply level_fold_length. Qed.
End Level.

Lemma launches_iff (A R : Type) (f : A -> list R -> list R -> Prop) (g : A -> list R -> list R) (inv : list R -> Prop) l :
  (forall x m m', In x l -> inv m -> (f x m m' <-> m' = g x m)) -> (forall x m, In x l -> inv m -> inv (g x m)) ->
  forall m m', inv m -> (launches f l m m' <-> m' = fold_left (fun m x => g x m) l m).
Proof.
  induction l as [|x l IH]; intros F G m m' I.
  - cbn. split; [intros H; inversion H; reflexivity|intros ->; constructor].
  - cbn [fold_left]. rewrite <- (IH (fun y m m' Hy => F y m m' (or_intror Hy)) (fun y m Hy => G y m (or_intror Hy))) by (apply G; [left; reflexivity|exact I]).
    split.
    + intros H. inversion H as [|? ? ? m1 ? H1 H2]; subst. apply F in H1; [|left; reflexivity|exact I]. subst m1. exact H2.
    + intros H. econstructor; [|exact H]. apply F; [left; reflexivity|exact I|reflexivity].
Qed.
Lemma m2q_cost_iff cost r : dev_m2q_cost junk T V nc ttc bt cost r <-> r = vec_m2qbxl QcR T V nc ttc cost.
Proof.
  unfold dev_m2q_cost. rewrite nqbx_ex. set (n := nqbx_centers_per_tgt_box T V nc ttc None). unfold vec_m2qbxl. fold n.
  assert (Ln : length n = ntb) by apply nqbx_length.
  rewrite (@launches_iff _ _ _ (fun (x : nat * (list nat * (nat -> list nat))) a => let '(l, lev) := x in vec_m2qbxl_level QcR n lev (rnth QcR cost l) a) (fun m => length m = ntb)).
  - reflexivity.
  - intros (l, lev) m m' I Lm. apply m2q_cost_level_iff; [apply in_combine_r in I; exact I|exact Ln|exact Lm].
  - intros (l, lev) m I Lm. rewrite vec_level_length. exact Lm.
  - apply repeat_length.
Qed.

(** All methods. *)
Lemma device_backend_iff B : device_backend junk T V level nc ttc bt B <->
  (forall cost nd, p_form B cost nd = p_form (vec_backend QcR T V level nc ttc) cost nd)
  /\ (forall cost, p_m2q B cost = p_m2q (vec_backend QcR T V level nc ttc) cost)
  /\ (forall cost, p_l2q B cost = p_l2q (vec_backend QcR T V level nc ttc) cost)
  /\ (forall cost, p_eval B cost = p_eval (vec_backend QcR T V level nc ttc) cost)
  /\ (forall cost nd, p_eval_ts B cost nd = p_eval_ts (vec_backend QcR T V level nc ttc) cost nd).
Proof.
  unfold device_backend. cbn [p_form p_m2q p_l2q p_eval p_eval_ts vec_backend].
  assert (A : forall cost nd r, dev_form_cost junk T V nc ttc bt cost nd r <-> r = vec_form_qbxl QcR T V nc ttc cost nd) by (intros; unfold dev_form_cost; rewrite nqbx_ex; reflexivity).
  assert (C : forall cost r, dev_l2q_cost junk T V level nc ttc bt cost r <-> r = vec_l2qbxl QcR T V level nc ttc cost) by (intros; unfold dev_l2q_cost; rewrite nqbx_ex; reflexivity).
  assert (D : forall cost r, dev_eval_cost junk T V nc ttc bt cost r <-> r = vec_eval_qbxl QcR T V nc ttc cost) by (intros; unfold dev_eval_cost; rewrite nqbx_ex; reflexivity).
  assert (E : forall cost nd r, dev_eval_ts_cost junk T V nc ttc bt cost nd r <-> r = vec_eval_ts_qbxl QcR T V nc ttc cost nd) by (intros; unfold dev_eval_ts_cost; rewrite nqbx_ex; reflexivity).
  split; intros (H1 & H2 & H3 & H4 & H5); repeat split; intros.
  - apply A, H1. - apply m2q_cost_iff, H2. - apply C, H3. - apply D, H4. - apply E, H5.
  - apply A, H1. - apply m2q_cost_iff, H2. - apply C, H3. - apply D, H4. - apply E, H5.
Qed.
End Cost.
