From Coq Require Import Reals Lra.
From Coquelicot Require Import Coquelicot.
From Verif Require Import Base DofModel RedModel RedSpec RedProofs.
Set Implicit Arguments.
Open Scope string_scope. Open Scope list_scope. Open Scope nat_scope.

(** ** Sums *)
Lemma csum_map_seq n F : csum (map F (seq 0 n)) = csum_n n F.
Proof. unfold csum_n, csum. generalize (seq 0 n). intros l. induction l as [|i l IH]; [reflexivity|]. cbn [map fold_right]. rewrite IH. reflexivity. Qed.
Lemma csum_n_real n f : csum_n n (fun i => RtoC (f i)) = RtoC (rsum n f).
Proof.
  unfold csum_n, rsum. generalize (seq 0 n). intros l. induction l as [|i l IH]; [reflexivity|]. cbn [fold_right]. rewrite IH, RtoC_plus. reflexivity.
Qed.
Lemma csum_n_ext n f g : (forall i, i < n -> f i = g i) -> csum_n n f = csum_n n g.
Proof.
  intros H. unfold csum_n. assert (G : forall i, In i (seq 0 n) -> f i = g i) by (intros i Hi; apply H; apply in_seq in Hi; lia).
  revert G. generalize (seq 0 n). intros l G. induction l as [|i l IH]; [reflexivity|]. cbn [fold_right].
  rewrite (G i (or_introl eq_refl)), IH; [reflexivity|]. intros; apply G; right; assumption.
Qed.
Lemma rsum_ext n f g : (forall i, i < n -> f i = g i) -> rsum n f = rsum n g.
Proof.
  intros H. unfold rsum. assert (G : forall i, In i (seq 0 n) -> f i = g i) by (intros i Hi; apply H; apply in_seq in Hi; lia).
  revert G. generalize (seq 0 n). intros l G. induction l as [|i l IH]; [reflexivity|]. cbn [fold_right].
  rewrite (G i (or_introl eq_refl)), IH; [reflexivity|]. intros; apply G; right; assumption.
Qed.
Section Lsum.
Open Scope R_scope.
Definition lsum (l : list nat) (f : nat -> R) : R := fold_right (fun i acc => f i + acc) 0 l.
Lemma lsum_nonneg l f : (forall i, In i l -> 0 <= f i) -> 0 <= lsum l f.
Proof. induction l as [|i l IH]; intros H; cbn [lsum fold_right]; [lra|]. apply Rplus_le_le_0_compat; [apply H; left; reflexivity|apply IH; intros; apply H; right; assumption]. Qed.
Lemma lsum_le l f g : (forall i, In i l -> f i <= g i) -> lsum l f <= lsum l g.
Proof. induction l as [|i l IH]; intros H; cbn [lsum fold_right]; [lra|]. apply Rplus_le_compat; [apply H; left; reflexivity|apply IH; intros; apply H; right; assumption]. Qed.
Lemma lsum_scal l c f : lsum l (fun i => c * f i) = c * lsum l f.
Proof. induction l as [|i l IH]; cbn [lsum fold_right]; [lra|]. unfold lsum in IH. rewrite IH. lra. Qed.
Lemma lsum_zero l f : (forall i, In i l -> 0 <= f i) -> lsum l f = 0 -> forall i, In i l -> f i = 0.
Proof.
  induction l as [|j l IH]; intros H E i Hi; [destruct Hi|]. cbn [lsum fold_right] in E. fold (lsum l f) in E.
  assert (H1 : 0 <= f j) by (apply H; left; reflexivity). assert (H2 : 0 <= lsum l f) by (apply lsum_nonneg; intros; apply H; right; assumption).
  destruct Hi as [<-|Hi]; [lra|]. apply IH; [intros; apply H; right; assumption|lra|exact Hi].
Qed.
Lemma lsum_all_zero l f : (forall i, In i l -> f i = 0) -> lsum l f = 0.
Proof. induction l as [|i l IH]; intros H; cbn [lsum fold_right]; [reflexivity|]. fold (lsum l f). rewrite IH by (intros; apply H; right; assumption). rewrite H by (left; reflexivity). lra. Qed.
(** Minkowski's inequality. *)
Lemma minkowski l W A B : (forall i, In i l -> 0 <= W i) ->
  sqrt (lsum l (fun i => W i * (A i + B i) ^ 2)) <= sqrt (lsum l (fun i => W i * A i ^ 2)) + sqrt (lsum l (fun i => W i * B i ^ 2)).
Proof.
  induction l as [|i l IH]; intros H; cbn [lsum fold_right]; [rewrite sqrt_0; lra|].
  fold (lsum l (fun i => W i * (A i + B i) ^ 2)). fold (lsum l (fun i => W i * A i ^ 2)). fold (lsum l (fun i => W i * B i ^ 2)).
  assert (Hl : forall F, 0 <= lsum l (fun i => W i * F i ^ 2)).
  { intros F. apply lsum_nonneg. intros j Hj. apply Rmult_le_pos; [apply H; right; exact Hj|apply pow2_ge_0]. }
  specialize (IH ltac:(intros; apply H; right; assumption)). assert (Hi : 0 <= W i) by (apply H; left; reflexivity).
  set (SA := lsum l (fun i => W i * A i ^ 2)) in *. set (SB := lsum l (fun i => W i * B i ^ 2)) in *.
  set (SS := lsum l (fun i => W i * (A i + B i) ^ 2)) in *.
  assert (PA : 0 <= SA) by apply Hl. assert (PB : 0 <= SB) by apply Hl. assert (PS : 0 <= SS) by (apply (Hl (fun i => A i + B i))).
  pose proof (Cmod_triangle (sqrt (W i) * A i, sqrt SA) (sqrt (W i) * B i, sqrt SB)) as T. unfold Cmod, Cplus in T. cbn [fst snd] in T.
  replace ((sqrt (W i) * A i) ^ 2 + sqrt SA ^ 2) with (W i * A i ^ 2 + SA) in T by (rewrite Rpow_mult_distr, !pow2_sqrt by assumption; reflexivity).
  replace ((sqrt (W i) * B i) ^ 2 + sqrt SB ^ 2) with (W i * B i ^ 2 + SB) in T by (rewrite Rpow_mult_distr, !pow2_sqrt by assumption; reflexivity).
  eapply Rle_trans; [|exact T]. apply sqrt_le_1_alt.
  replace (sqrt (W i) * A i + sqrt (W i) * B i) with (sqrt (W i) * (A i + B i)) by ring. rewrite Rpow_mult_distr, pow2_sqrt by assumption.
  apply Rplus_le_compat_l. rewrite <- (pow2_sqrt SS PS). apply pow_incr. split; [apply sqrt_pos|exact IH].
Qed.
End Lsum.
Lemma rsum_lsum n f : rsum n f = lsum (seq 0 n) f. Proof. reflexivity. Qed.

(** ** Integrals *)
Lemma fst_RtoC r : fst (RtoC r) = r. Proof. reflexivity. Qed.
Lemma real_is x : snd x = 0%R -> x = RtoC (fst x).
Proof. intros H. destruct x as [a b]. cbn in *. subst b. reflexivity. Qed.
Lemma has_real a s : shape a = s -> cplx a = false -> proper a -> has s false (fun i => RtoC (fst (value_at a i))) (VArr a).
Proof.
  intros Hs Hb Hp. rewrite <- Hb. eapply has_ext; [|apply has_arr; exact Hs]. intros i Hi. apply real_is. apply (Hp Hb).
  unfold value_at. apply nth_In. rewrite entries_len, Hs. exact Hi.
Qed.
Lemma has_sum s b F v : has s b F v -> node_reduce RSum v = Ok (VNum b (csum_n (size s) F)).
Proof.
  intros (a & -> & Hs & Hb & He). unfold node_reduce. rewrite Hb.
  assert (Rs : forall l, reduce RSum b l = Ok (csum l)) by (intros [|? ?]; reflexivity).
  assert (E : mapM (fun g => reduce RSum b (concat g)) (groups a) = Ok (map csum (map (@concat C) (groups a)))).
  { generalize (groups a). intros l. induction l as [|g l IH]; [reflexivity|]. cbn [mapM map bind]. rewrite Rs, IH. reflexivity. }
  rewrite E. cbn [bind]. rewrite Rs.
  cbn [bind]. rewrite csum_concat. change (concat (map (concat (A:=C)) (groups a))) with (entries a). rewrite He, csum_map_seq. reflexivity.
Qed.
Lemma integral_expr d s name x e b F : discretization d s ->
  (exists v, evaluate d name x e = Ok v /\ has s b F v) ->
  evaluate d name x (x_integral dd0 e) = Ok (VNum b (csum_n (size s) (fun i => Cmult (RtoC (measure_at d i)) (F i)))).
Proof.
  intros (Hw & Ha & Cw & Ca & Pw & Pa) (v & Ev & Hv). unfold evaluate, x_integral in *. cbn [ev mapM bind]. rewrite Ev. cbn [bind foldM1].
  destruct (has_num Cmult false (RtoC 1) (has_real Ha Ca Pa)) as (v1 & E1 & H1). rewrite E1. cbn [bind].
  destruct (has_bin Cmult H1 (has_real Hw Cw Pw)) as (v2 & E2 & H2). rewrite E2. cbn [bind].
  destruct (has_bin Cmult H2 Hv) as (v3 & E3 & H3). rewrite E3. cbn [bind]. rewrite (has_sum H3). cbn [orb]. f_equal. f_equal.
  apply csum_n_ext. intros i _. unfold measure_at. rewrite RtoC_mult. ring.
Qed.

(** ** Norms *)
Section Norms.
Variables (d : discr) (s : list (list nat)).
Hypothesis Hd : discretization d s.

Definition norm2 (xs : list arr) : R := sqrt (rsum (size s) (fun i => (measure_at d i * sq xs i)%R)).

Lemma conj_mult z : Cmult (Cconj z) z = RtoC (Cmod z ^ 2).
Proof.
  unfold Cmod. rewrite pow2_sqrt by (apply Rplus_le_le_0_compat; apply pow2_ge_0). destruct z as [a b].
  unfold Cconj, Cmult, RtoC. cbn [fst snd]. f_equal; ring.
Qed.
Lemma dot_eval l : Forall (fun a => shape a = s) l ->
  forall pre name acc b0 F0, has s b0 F0 acc ->
  exists vs v, mapM (ev (fun _ _ => Ok d) (fun y => if String.eqb y name then Some (VObj (map VArr (pre ++ l))) else None))
    (map (fun p => XProd [XCall FConj (fst p); snd p]) (combine (map (XComp name) (seq (length pre) (length l))) (map (XComp name) (seq (length pre) (length l))))) = Ok vs /\
  foldM1 (vbin Cplus) acc vs = Ok v /\ exists b, has s b (fun i => Cplus (F0 i) (RtoC (sq l i))) v.
Proof.
  induction l as [|a l IH]; intros Hl pre name acc b0 F0 Hacc.
  - exists [], acc. split; [reflexivity|]. split; [reflexivity|]. exists b0. eapply has_ext; [|exact Hacc]. intros i _. cbn [sq fold_right]. rewrite Cplus_0_r. reflexivity.
  - pose proof (Forall_inv Hl) as Ha; pose proof (Forall_inv_tail Hl) as Hl'. cbv beta in Ha. cbn [length seq map combine fst snd]. cbn [mapM ev].
    rewrite String.eqb_refl. rewrite map_app. rewrite nth_error_app2 by (rewrite map_length; lia). rewrite map_length, Nat.sub_diag. cbn [map nth_error bind].
    destruct (has_map (fn_apply FConj) (fn_cplx FConj) (has_arr a Ha)) as (w & Ew & Hw). rewrite Ew. cbn [bind foldM1].
    destruct (has_num Cmult false (RtoC 1) Hw) as (v1 & E1 & H1). rewrite E1. cbn [bind].
    destruct (has_bin Cmult H1 (has_arr a Ha)) as (v2 & E2 & H2). rewrite E2. cbn [bind].
    destruct (has_bin Cplus Hacc H2) as (acc' & E3 & H3).
    destruct (IH Hl' (pre ++ [a]) name acc' _ _ H3) as (vs & v & Evs & Ev & b & Hv).
    rewrite app_length in Evs. cbn [length] in Evs. rewrite Nat.add_1_r in Evs. rewrite <- app_assoc in Evs. cbn [app] in Evs. rewrite map_app in Evs. cbn [map] in Evs.
    exists (v2 :: vs), v. split; [rewrite Evs; reflexivity|]. split; [cbn [foldM1]; rewrite E3; exact Ev|].
    exists b. eapply has_ext; [|exact Hv]. intros i _. cbn [sq fold_right fn_apply]. rewrite Cmult_1_l, conj_mult, <- Cplus_assoc, <- RtoC_plus. reflexivity.
Qed.
Lemma norm2_value x xs : field s x xs -> norm d x P2 = Ok (VNum false (RtoC (norm2 xs))).
Proof.
  intros Hf. unfold norm. destruct Hf as [a Ha|l Hne Hl].
  - rewrite (@integral_expr d s "integrand" (VArr a) _ false (fun i => RtoC (Cmod (value_at a i) ^ 2)) Hd).
    + cbn [bind vsqrt]. unfold norm2. rewrite (@csum_n_ext (size s) _ (fun i => RtoC (measure_at d i * sq [a] i)%R)).
      * rewrite csum_n_real, fst_RtoC. reflexivity.
      * intros i _. rewrite <- RtoC_mult. cbn [sq fold_right]. rewrite Rplus_0_r. reflexivity.
    + unfold evaluate, norm2_integrand. cbn [ev]. rewrite String.eqb_refl. cbn [bind].
      destruct (has_map (fn_apply FAbs) (fn_cplx FAbs) (has_arr a Ha)) as (w & Ew & Hw). rewrite Ew. cbn [bind].
      destruct (has_map (fun c => cpow c 2) (fun b => b) Hw) as (w2 & Ew2 & Hw2). rewrite Ew2. exists w2. split; [reflexivity|].
      eapply has_ext; [|exact Hw2]. intros i _. cbn [cpow fn_apply]. rewrite Cmult_1_r, <- RtoC_mult. f_equal. ring.
  - rewrite map_length. rewrite (@integral_expr d s "integrand" (VObj (map VArr l)) _ false (fun i => RtoC (sq l i)) Hd).
    + cbn [bind vsqrt]. unfold norm2. rewrite (@csum_n_ext (size s) _ (fun i => RtoC (measure_at d i * sq l i)%R)).
      * rewrite csum_n_real, fst_RtoC. reflexivity.
      * intros i _. rewrite <- RtoC_mult. reflexivity.
    + unfold evaluate, norm2_integrand, components, x_dot. cbn [ev]. destruct l as [|a l]; [congruence|].
      pose proof (Forall_inv Hl) as Ha; pose proof (Forall_inv_tail Hl) as Hl'. cbv beta in Ha. cbn [length seq map combine fst snd mapM ev]. rewrite String.eqb_refl. cbn [nth_error bind].
      destruct (has_map (fn_apply FConj) (fn_cplx FConj) (has_arr a Ha)) as (w & Ew & Hw). rewrite Ew. cbn [bind foldM1].
      destruct (has_num Cmult false (RtoC 1) Hw) as (v1 & E1 & H1). rewrite E1. cbn [bind].
      destruct (has_bin Cmult H1 (has_arr a Ha)) as (v2 & E2 & H2). rewrite E2. cbn [bind].
      destruct (has_num Cplus false (RtoC 0) H2) as (v3 & E3 & H3).
      destruct (@dot_eval l Hl' [a] "integrand" v3 _ _ H3) as (vs & v & Evs & Ev & b & Hv). cbn [length app map] in Evs.
      rewrite Evs. cbn [bind foldM1]. rewrite E3. cbn [bind]. rewrite Ev. cbn [bind].
      destruct (has_map (fn_apply FReal) (fn_cplx FReal) Hv) as (u & Eu & Hu). rewrite Eu. exists u. split; [reflexivity|].
      eapply has_ext; [|exact Hu]. intros i _. cbn [fn_apply sq fold_right]. rewrite Cmult_1_l, conj_mult, Cplus_0_l, <- RtoC_plus, fst_RtoC. reflexivity.
Qed.

(** Maximum norm. *)
Lemma abs_max a : shape a = s -> no_empty_group s ->
  exists m, node_reduce RMax (VArr (Arr false (map (map (map (fn_apply FAbs))) (groups a)))) = Ok (VNum false (RtoC m)) /\
  (exists i, i < size s /\ m = Cmod (value_at a i)) /\ forall i, i < size s -> (Cmod (value_at a i) <= m)%R.
Proof.
  intros Ha Hne. set (u := Arr false (map (map (map (fn_apply FAbs))) (groups a))).
  assert (Eu : entries u = map (fn_apply FAbs) (entries a)) by apply entries_map.
  destruct (@node_reduce_ok RMax u) as (m & Em & [Hin Hup] & Hs).
  { intros _ x Hx. rewrite Eu in Hx. apply in_map_iff in Hx. destruct Hx as (y & <- & _). reflexivity. }
  { right. split; [reflexivity|]. unfold u. rewrite shape_map, Ha. exact Hne. }
  rewrite Eu in Hin, Hup. cbn [cplx u] in *. exists (fst m). rewrite Em. split; [rewrite <- (real_is m (Hs eq_refl)); reflexivity|]. split.
  - apply in_map_iff in Hin. destruct Hin as (y & <- & Hy). destruct (In_nth _ _ (RtoC 0) Hy) as (i & Hi & E). exists i.
    rewrite entries_len, Ha in Hi. split; [exact Hi|]. unfold value_at. rewrite E. reflexivity.
  - intros i Hi. specialize (Hup (fn_apply FAbs (value_at a i))). cbn [fn_apply fst RtoC] in Hup. apply Hup. apply in_map_iff.
    exists (value_at a i). split; [reflexivity|]. unfold value_at. apply nth_In. rewrite entries_len, Ha. exact Hi.
Qed.
Lemma comps_max l : Forall (fun a => shape a = s) l -> no_empty_group s -> forall pre,
  exists vs rs, mapM (fun e => evaluate d "arg" (VObj (map VArr (pre ++ l))) (XNode RMax (XCall FAbs e))) (map (XComp "arg") (seq (length pre) (length l))) = Ok vs /\
    nums vs = Ok rs /\ Forall2 (fun a m => (exists i, i < size s /\ m = Cmod (value_at a i)) /\ forall i, i < size s -> (Cmod (value_at a i) <= m)%R) l rs.
Proof.
  intros Hl Hne. induction l as [|a l IH]; intros pre; [exists [], []; repeat split; constructor|].
  pose proof (Forall_inv Hl) as Ha; pose proof (Forall_inv_tail Hl) as Hl'. cbv beta in Ha. destruct (IH Hl' (pre ++ [a])) as (vs & rs & E & En & H).
  rewrite app_length in E. cbn [length] in E. rewrite Nat.add_1_r in E. rewrite <- app_assoc in E. cbn [app] in E.
  destruct (@abs_max a Ha Hne) as (m & Em & Hm). exists (VNum false (RtoC m) :: vs), (m :: rs). cbn [length seq map mapM]. unfold evaluate at 1. cbn [ev].
  rewrite String.eqb_refl. rewrite (map_app VArr pre (a :: l)) at 1. rewrite nth_error_app2 by (rewrite map_length; lia). rewrite map_length, Nat.sub_diag. cbn [map nth_error bind vmap fn_cplx].
  rewrite Em. cbn [bind]. rewrite E. cbn [bind nums]. rewrite En. cbn [bind]. split; [reflexivity|]. split; [reflexivity|]. constructor; assumption.
Qed.
Lemma norminf_value x xs : field s x xs -> no_empty_group s -> exists m, norm d x PInf = Ok (VNum false (RtoC m)) /\ is_maxnorm s xs m.
Proof.
  intros Hf Hne. destruct Hf as [a Ha|l Hln Hl]; unfold norm.
  - destruct (@abs_max a Ha Hne) as (m & Em & (i & Hi & Ei) & Hup). exists m. split.
    + unfold evaluate. cbn [ev]. rewrite String.eqb_refl. cbn [bind vmap fn_cplx]. exact Em.
    + split; [exists a, i; repeat split; [left; reflexivity|exact Hi|exact Ei]|]. intros b j [<-|[]] Hj. apply Hup. exact Hj.
  - rewrite map_length. destruct (@comps_max l Hl Hne []) as (vs & rs & E & En & H). cbn [app length] in E. unfold components. rewrite E. cbn [bind]. rewrite En. cbn [bind].
    destruct H as [|a r l rs H1 H2]; [congruence|]. exists (rext Rmax r rs). split; [reflexivity|].
    destruct (rext_max r rs) as [G1 G2]. assert (H : Forall2 (fun a m => (exists i, i < size s /\ m = Cmod (value_at a i)) /\ forall i, i < size s -> (Cmod (value_at a i) <= m)%R) (a :: l) (r :: rs)) by (constructor; assumption).
    generalize dependent (rext Rmax r rs). intros m G1 G2. clear H1 H2 Hl E En Hln. split.
    + clear G2. induction H as [|a' r' l' rs' H1 H2 IH]; [destruct G1|]. destruct G1 as [<-|G1].
      * destruct H1 as [(i & Hi & Ei) _]. exists a', i. repeat split; [left; reflexivity|exact Hi|exact Ei].
      * destruct (IH G1) as (a2 & i & Ha2 & Hr). exists a2, i. split; [right; exact Ha2|exact Hr].
    + intros a2 i Ha2 Hi. clear G1. induction H as [|a' r' l' rs' H1 H2 IH]; [destruct Ha2|]. destruct Ha2 as [<-|Ha2].
      * eapply Rle_trans; [apply H1; exact Hi|]. apply G2. left. reflexivity.
      * apply IH; [|exact Ha2]. intros; apply G2; right; assumption.
Qed.
End Norms.

(** ** Norm axioms *)
Section Axioms.
Variables (d : discr) (s : list (list nat)).
Hypothesis Hm : nonneg_measure d s.
Lemma sq_nonneg xs i : (0 <= sq xs i)%R.
Proof. induction xs as [|x xs IH]; cbn [sq fold_right]; [lra|]. apply Rplus_le_le_0_compat; [apply pow2_ge_0|exact IH]. Qed.
Lemma norm2_zero xs : positive_measure d s -> (norm2 d s xs = 0%R <-> vanishes s xs).
Proof.
  intros Hp. unfold norm2. rewrite rsum_lsum.
  assert (Hnn : forall i, In i (seq 0 (size s)) -> (0 <= measure_at d i * sq xs i)%R).
  { intros i Hi. apply Rmult_le_pos; [apply Hm; apply in_seq in Hi; lia|apply sq_nonneg]. }
  split.
  - intros E. apply sqrt_eq_0 in E; [|apply lsum_nonneg; exact Hnn]. intros x Hx i Hi.
    pose proof (lsum_zero _ _ Hnn E i ltac:(apply in_seq; lia)) as Z.
    assert (Z2 : sq xs i = 0%R). { specialize (Hp i Hi). apply Rmult_integral in Z. destruct Z as [Z|Z]; [lra|exact Z]. }
    clear - Hx Z2. induction xs as [|y xs IH]; [destruct Hx|]. cbn [sq fold_right] in Z2. fold (sq xs i) in Z2.
    pose proof (pow2_ge_0 (Cmod (value_at y i))). pose proof (sq_nonneg xs i). destruct Hx as [<-|Hx]; [|apply IH; [exact Hx|lra]].
    apply Cmod_eq_0. assert (E : (Cmod (value_at y i) ^ 2 = 0)%R) by lra. replace (Cmod (value_at y i) ^ 2)%R with (Cmod (value_at y i) * Cmod (value_at y i))%R in E by ring.
    apply Rmult_integral in E. destruct E; assumption.
  - intros V. rewrite lsum_all_zero; [apply sqrt_0|]. intros i Hi. apply in_seq in Hi. replace (sq xs i) with 0%R; [lra|].
    clear - V Hi. induction xs as [|y xs IH]; [reflexivity|]. cbn [sq fold_right]. fold (sq xs i). rewrite <- IH by (intros z Hz; apply V; right; exact Hz).
    rewrite (V y (or_introl eq_refl) i) by lia. rewrite Cmod_0. ring.
Qed.
Lemma sq_triangle xs ys zs i : i < size s -> pointwise s Cplus xs ys zs -> (sqrt (sq zs i) <= sqrt (sq xs i) + sqrt (sq ys i))%R.
Proof.
  intros Hi (Lx & Ly & H).
  assert (G : forall ws, sq ws i = lsum (seq 0 (length ws)) (fun c => (1 * Cmod (value_at (nth c ws (Arr false [])) i) ^ 2)%R)).
  { clear. intros ws. assert (G : forall b pre, length pre = b -> sq ws i = lsum (seq b (length ws)) (fun c => (1 * Cmod (value_at (nth c (pre ++ ws) (Arr false [])) i) ^ 2)%R)).
    { induction ws as [|w ws IH]; intros b pre E; [reflexivity|]. cbn [sq fold_right length seq lsum]. fold (sq ws i).
      rewrite app_nth2 by lia. rewrite E, Nat.sub_diag. cbn [nth]. rewrite (IH (Datatypes.S b) (pre ++ [w])) by (rewrite app_length; cbn [length]; lia).
      rewrite <- app_assoc. cbn [app]. unfold lsum. rewrite Rmult_1_l. reflexivity. }
    exact (G 0 [] eq_refl). }
  rewrite (G xs), (G ys), (G zs), Lx, Ly. set (n := length zs) in *.
  eapply Rle_trans; [|apply (minkowski (seq 0 n) (fun _ => 1%R)); intros; lra].
  apply sqrt_le_1_alt. apply lsum_le. intros c Hc. apply in_seq in Hc. rewrite !Rmult_1_l. apply pow_incr. split; [apply Cmod_ge_0|].
  rewrite (H c (nth c xs (Arr false [])) (nth c ys (Arr false [])) (nth c zs (Arr false []))) by (try apply nth_error_nth'; lia). apply Cmod_triangle.
Qed.
Lemma norm2_triangle xs ys zs : pointwise s Cplus xs ys zs -> (norm2 d s zs <= norm2 d s xs + norm2 d s ys)%R.
Proof.
  intros H. unfold norm2. rewrite !rsum_lsum.
  assert (W : forall i, In i (seq 0 (size s)) -> (0 <= measure_at d i)%R) by (intros i Hi; apply Hm; apply in_seq in Hi; lia).
  assert (G : forall ws, lsum (seq 0 (size s)) (fun i => (measure_at d i * sq ws i)%R) = lsum (seq 0 (size s)) (fun i => (measure_at d i * sqrt (sq ws i) ^ 2)%R)).
  { clear. intros ws. unfold lsum. induction (seq 0 (size s)) as [|i l IH]; [reflexivity|]. cbn [fold_right]. rewrite IH, pow2_sqrt by apply sq_nonneg. reflexivity. }
  rewrite (G xs), (G ys), (G zs). eapply Rle_trans; [|apply minkowski; exact W]. apply sqrt_le_1_alt. apply lsum_le. intros i Hi.
  apply Rmult_le_compat_l; [apply W; exact Hi|]. apply pow_incr. split; [apply sqrt_pos|]. apply sq_triangle; [apply in_seq in Hi; lia|exact H].
Qed.
Lemma norm2_scale c xs zs : pointwise s (fun x _ => Cmult c x) xs xs zs -> norm2 d s zs = (Cmod c * norm2 d s xs)%R.
Proof.
  intros (Lx & _ & H). unfold norm2. rewrite !rsum_lsum. rewrite <- (sqrt_pow2 (Cmod c)) at 1 by apply Cmod_ge_0. rewrite <- sqrt_mult; [| apply pow2_ge_0|].
  2:{ apply lsum_nonneg. intros i Hi. apply Rmult_le_pos; [apply Hm; apply in_seq in Hi; lia|apply sq_nonneg]. }
  f_equal. rewrite <- lsum_scal. rewrite <- !rsum_lsum. apply rsum_ext. intros i Hi.
  assert (E : sq zs i = (Cmod c ^ 2 * sq xs i)%R); [|rewrite E; ring].
  revert zs Lx H. induction xs as [|x xs IH]; intros [|z zs] Lx H; try discriminate; [cbn; ring|].
  cbn [sq fold_right]. fold (sq xs i) (sq zs i). rewrite (IH zs).
  - rewrite (H 0 x x z eq_refl eq_refl eq_refl i Hi), Cmod_mult. ring.
  - cbn in Lx. lia.
  - intros k a b e Ha Hb He. apply (H (Datatypes.S k) a b e Ha Hb He).
Qed.
Lemma max_unique xs m m' : is_maxnorm s xs m -> is_maxnorm s xs m' -> m = m'.
Proof.
  intros [(a & i & Ha & Hi & E) U] [(a' & i' & Ha' & Hi' & E') U']. apply Rle_antisym; [rewrite E; apply U'|rewrite E'; apply U]; assumption.
Qed.
Lemma max_zero xs m : is_maxnorm s xs m -> (m = 0%R <-> vanishes s xs).
Proof.
  intros [(a & i & Ha & Hi & E) U]. split.
  - intros -> x Hx j Hj. apply Cmod_eq_0. apply Rle_antisym; [apply U; assumption|apply Cmod_ge_0].
  - intros V. rewrite E, (V a Ha i Hi). apply Cmod_0.
Qed.
Lemma max_triangle xs ys zs mx my mz : pointwise s Cplus xs ys zs -> is_maxnorm s xs mx -> is_maxnorm s ys my -> is_maxnorm s zs mz -> (mz <= mx + my)%R.
Proof.
  intros (Lx & Ly & H) [_ Ux] [_ Uy] [(z & i & Hz & Hi & E) _]. destruct (In_nth_error _ _ Hz) as (c & Hc).
  assert (Lc : c < length zs) by (apply nth_error_Some; congruence).
  destruct (nth_error xs c) as [x|] eqn:Ex; [|apply nth_error_None in Ex; lia]. destruct (nth_error ys c) as [y|] eqn:Ey; [|apply nth_error_None in Ey; lia].
  rewrite E, (H c x y z Ex Ey Hc i Hi). eapply Rle_trans; [apply Cmod_triangle|]. apply Rplus_le_compat; [apply Ux|apply Uy]; try assumption; eapply nth_error_In; eassumption.
Qed.
Lemma max_scale c xs zs m : pointwise s (fun x _ => Cmult c x) xs xs zs -> is_maxnorm s xs m -> is_maxnorm s zs (Cmod c * m)%R.
Proof.
  intros (Lx & _ & H) [(x & i & Hx & Hi & E) U]. split.
  - destruct (In_nth_error _ _ Hx) as (k & Hk). assert (Lc : k < length xs) by (apply nth_error_Some; congruence).
    destruct (nth_error zs k) as [z|] eqn:Ez; [|apply nth_error_None in Ez; lia]. exists z, i. split; [eapply nth_error_In; exact Ez|]. split; [exact Hi|].
    rewrite (H k x x z Hk Hk Ez i Hi), Cmod_mult, E. reflexivity.
  - intros z j Hz Hj. destruct (In_nth_error _ _ Hz) as (k & Hk). assert (Lc : k < length zs) by (apply nth_error_Some; congruence).
    destruct (nth_error xs k) as [y|] eqn:Ey; [|apply nth_error_None in Ey; lia]. rewrite (H k y y z Ey Ey Hk j Hj), Cmod_mult.
    apply Rmult_le_compat_l; [apply Cmod_ge_0|]. apply U; [eapply nth_error_In; exact Ey|exact Hj].
Qed.
End Axioms.
