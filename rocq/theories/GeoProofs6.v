From Coq Require Import Reals Lra Psatz Sorted.
From Verif Require Import Base DofModel GeoModel GeoSpec GeoProofs GeoProofs2 GeoProofs3 GeoProofs4 GeoProofs5.
Set Implicit Arguments.
Open Scope R_scope.

Lemma hyper_indep adim dim W d k : hypersurface adim dim -> gram_det W adim dim d k <> 0 -> independent adim dim (tangent W d k).
Proof.
  intros H Hg x Hx. hs H.
  - pose proof (Hx 0%nat ltac:(lia)) as A. pose proof (Hx 1%nat ltac:(lia)) as B. cbn [sumR] in A, B.
    intros [|l] Hl; [|lia]. unfold gram_det, gram, dot in Hg. cbn [sumR] in Hg.
    apply Rmult_eq_reg_r with (tangent W d k 0 0 * tangent W d k 0 0 + tangent W d k 0 1 * tangent W d k 0 1); [|lra].
    transitivity (tangent W d k 0 0 * (0 + x 0%nat * tangent W d k 0 0) + tangent W d k 0 1 * (0 + x 0%nat * tangent W d k 0 1)); [ring|].
    rewrite A, B. ring.
  - pose proof (Hx 0%nat ltac:(lia)) as A. pose proof (Hx 1%nat ltac:(lia)) as B. pose proof (Hx 2%nat ltac:(lia)) as C.
    cbn [sumR] in A, B, C. unfold gram_det in Hg. set (E := gram W 3 d k 0 0) in *. set (F := gram W 3 d k 0 1) in *.
    set (G := gram W 3 d k 1 1) in *. assert (Sy : gram W 3 d k 1 0 = F) by (unfold F, gram, dot; cbn [sumR]; ring). rewrite Sy in Hg.
    assert (R0 : x 0%nat * E + x 1%nat * F = 0).
    { transitivity (tangent W d k 0 0 * (0 + x 0%nat * tangent W d k 0 0 + x 1%nat * tangent W d k 1 0)
        + tangent W d k 0 1 * (0 + x 0%nat * tangent W d k 0 1 + x 1%nat * tangent W d k 1 1)
        + tangent W d k 0 2 * (0 + x 0%nat * tangent W d k 0 2 + x 1%nat * tangent W d k 1 2)).
      - unfold E, F, gram, dot. cbn [sumR]. ring.
      - rewrite A, B, C. ring. }
    assert (R1 : x 0%nat * F + x 1%nat * G = 0).
    { transitivity (tangent W d k 1 0 * (0 + x 0%nat * tangent W d k 0 0 + x 1%nat * tangent W d k 1 0)
        + tangent W d k 1 1 * (0 + x 0%nat * tangent W d k 0 1 + x 1%nat * tangent W d k 1 1)
        + tangent W d k 1 2 * (0 + x 0%nat * tangent W d k 0 2 + x 1%nat * tangent W d k 1 2)).
      - unfold G, F, gram, dot. cbn [sumR]. ring.
      - rewrite A, B, C. ring. }
    intros [|[|l]] Hl; [| |lia].
    + apply Rmult_eq_reg_r with (E * G - F * F); [|exact Hg].
      transitivity (G * (x 0%nat * E + x 1%nat * F) - F * (x 0%nat * F + x 1%nat * G)); [ring|]. rewrite R0, R1. ring.
    + apply Rmult_eq_reg_r with (E * G - F * F); [|exact Hg].
      transitivity (E * (x 0%nat * F + x 1%nat * G) - F * (x 0%nat * E + x 1%nat * F)); [ring|]. rewrite R0, R1. ring.
Qed.

(** *** Projection *)
Lemma fold_gzip_add W k n cs : (forall c, In c cs -> length c = n) -> forall c0, length c0 = n ->
  length (fold_left (gzip GAdd) cs c0) = n /\
  forall a, (a < n)%nat -> vat W (fold_left (gzip GAdd) cs c0) k a = vat W c0 k a + sumR (length cs) (fun i => vat W (nth i cs []) k a).
Proof.
  induction cs as [|c cs IH] using rev_ind; intros Hc c0 L0.
  - cbn [fold_left length sumR]. split; [exact L0|]. intros; ring.
  - destruct (IH ltac:(intros x Hx; apply Hc, in_or_app; left; exact Hx) c0 L0) as [IL IV].
    rewrite fold_left_app. cbn [fold_left]. set (q := fold_left (gzip GAdd) cs c0) in *.
    assert (Lc : length c = n) by (apply Hc, in_or_app; right; left; reflexivity).
    destruct (@gzip_at GAdd q c) as [ZL ZV]; [lia|]. split; [lia|]. intros a Ha.
    unfold vat at 1. rewrite ZV by lia. cbn [gev]. change (gev W (nth a q (gz 0)) k) with (vat W q k a). rewrite IV by exact Ha.
    rewrite app_length. cbn [length]. rewrite Nat.add_comm. cbn [Nat.add sumR].
    rewrite app_nth2, Nat.sub_diag by lia. cbn [nth].
    rewrite (@sumR_ext (length cs) (fun i => vat W (nth i (cs ++ [c]) []) k a) (fun i => vat W (nth i cs []) k a)).
    + unfold vat. ring.
    + intros i Hi. rewrite app_nth1 by exact Hi. reflexivity.
Qed.

Lemma sumR_S_l n f : sumR (S n) f = f 0%nat + sumR n (fun i => f (S i)).
Proof. induction n; [cbn; ring|]. cbn [sumR] in *. rewrite IHn. ring. Qed.

Lemma project_ok adim dd d v W k : (2 <= adim)%nat -> length v = adim -> as_dofdesc dd = Ok d ->
  independent adim (adim - 1) (tangent W d k) ->
  exists t p, tangential_onb adim None dd = Ok t /\ length t = (adim - 1)%nat /\ inv W k adim (adim - 1) (tangent W d k) t
   /\ (exists u, xyz_to_tangential v dd = Ok u /\ length u = (adim - 1)%nat
        /\ forall i, (i < adim - 1)%nat -> vat W u k i = dot adim (vat W (nth i t []) k) (vat W v k))
   /\ project_to_tangential v dd = Ok p /\ length p = adim
   /\ forall a, (a < adim)%nat -> vat W p k a
       = sumR (adim - 1) (fun i => dot adim (vat W (nth i t []) k) (vat W v k) * vat W (nth i t []) k a).
Proof.
  intros H2 Lv Hd Hi.
  destruct (@onb_ok adim (adim - 1) None dd d W k ltac:(lia) ltac:(right; split; reflexivity) Hd Hi) as [t [Et [Lt It]]].
  exists t. unfold project_to_tangential, xyz_to_tangential. rewrite Lv, Et. cbn [bind].
  set (u := map (fun i => gdot (nth i t []) v) (seq 0 (adim - 1))).
  assert (Lu : length u = (adim - 1)%nat) by (unfold u; rewrite map_length, seq_length; reflexivity).
  assert (Vu : forall i, (i < adim - 1)%nat -> vat W u k i = dot adim (vat W (nth i t []) k) (vat W v k)).
  { intros i Hi'. unfold vat at 1, u. rewrite (nth_indep _ (gz 0) (gdot (nth 0 t []) v)) by (rewrite map_length, seq_length; exact Hi').
    rewrite (map_nth (fun i => gdot (nth i t []) v)), seq_nth by exact Hi'. cbn [Nat.add].
    assert (Ln : length (nth i t []) = adim) by (apply It, nth_In; lia).
    rewrite gdot_ev by lia. rewrite Ln. reflexivity. }
  unfold tangential_to_xyz. unfold cse_ev. rewrite map_length, Lu. replace (adim - 1 + 1)%nat with adim by lia.
  rewrite Et. cbn [bind].
  set (F := fun i => map (fun x => GMul x (nth i (map (cse_eval "") u) (gz 0))) (nth i t [])).
  assert (VF : forall i a, (i < adim - 1)%nat -> (a < adim)%nat -> vat W (F i) k a = dot adim (vat W (nth i t []) k) (vat W v k) * vat W (nth i t []) k a).
  { intros i a Hi' Ha. assert (Ln : length (nth i t []) = adim) by (apply It, nth_In; lia).
    unfold vat at 1, F. rewrite map_vat by lia. cbn [gev]. rewrite map_vat by lia. unfold cse_eval. cbn [gev].
    change (gev W (nth i u (gz 0)) k) with (vat W u k i). rewrite Vu by exact Hi'. unfold vat. ring. }
  assert (LF : forall i, (i < adim - 1)%nat -> length (F i) = adim).
  { intros i Hi'. unfold F. rewrite map_length. apply It, nth_In. lia. }
  destruct (adim - 1)%nat as [|m] eqn:Em; [lia|]. cbn [seq map].
  destruct (@fold_gzip_add W k adim (map F (seq 1 m))) with (c0 := F 0%nat) as [PL PV].
  { intros c Hc. apply in_map_iff in Hc. destruct Hc as [i [<- Hi']]. apply in_seq in Hi'. apply LF. lia. }
  { apply LF. lia. }
  eexists. split; [reflexivity|]. split; [exact Lt|]. split; [exact It|]. split; [exists u; auto|]. split; [reflexivity|]. split; [exact PL|].
  intros a Ha. rewrite PV by exact Ha. rewrite map_length, seq_length, sumR_S_l, VF by lia. f_equal.
  apply sumR_ext. intros i Hi'. rewrite (nth_indep _ [] (F 0%nat)) by (rewrite map_length, seq_length; lia).
  rewrite (map_nth F), seq_nth by lia. rewrite VF by lia. reflexivity.
Qed.

(** What is left is orthogonal to the tangents. *)
Lemma project_orth adim dim W k T t v (p : nat -> R) : inv W k adim dim T t -> length t = dim ->
  (forall a, (a < adim)%nat -> p a = sumR dim (fun i => dot adim (vat W (nth i t []) k) v * vat W (nth i t []) k a)) ->
  (forall j, (j < dim)%nat -> dot adim (fun a => v a - p a) (T j) = 0)
  /\ in_span adim dim T p.
Proof.
  intros (I1 & I2 & I3 & I4) L Hp. rewrite L in *.
  set (b := fun i => vat W (nth i t []) k) in *.
  assert (O : forall i, (i < dim)%nat -> dot adim (fun a => v a - p a) (b i) = 0).
  { intros i Hi. rewrite (@dot_ext adim _ _ (fun a => v a + (-1) * sumR dim (fun i => dot adim (b i) v * b i a)) (b i)).
    - rewrite dot_lin, dot_sum.
      rewrite (@sumR_ext dim _ (fun j => (if Nat.eqb j i then 1 else 0) * dot adim (b j) v)).
      + rewrite sumR_delta by exact Hi. rewrite (@dot_comm adim v). ring.
      + intros j Hj. unfold b at 2 3. rewrite I2 by assumption. ring.
    - intros a Ha. rewrite Hp by exact Ha. fold (b 0%nat). unfold b. ring.
    - reflexivity. }
  split.
  - intros j Hj. destruct (I4 j Hj) as [c [_ Hc]].
    rewrite (@dot_ext adim _ _ (fun a => v a - p a) (fun a => sumR dim (fun l => c l * b l a))) by (auto; intros; apply Hc; assumption).
    rewrite dot_comm, dot_sum. rewrite (@sumR_ext dim _ (fun _ => 0)); [apply sumR_zero|].
    intros l Hl. rewrite dot_comm, O by exact Hl. ring.
  - assert (S : forall r, (r <= dim)%nat -> exists c, forall a, (a < adim)%nat ->
        sumR r (fun i => dot adim (b i) v * b i a) = sumR dim (fun l => c l * T l a)).
    { induction r; intros Hr.
      - exists (fun _ => 0). intros a Ha. cbn [sumR]. rewrite (@sumR_ext dim _ (fun _ => 0)); [rewrite sumR_zero; reflexivity|]. intros; ring.
      - destruct IHr as [c Hc]; [lia|]. destruct (I3 r ltac:(lia)) as [z [_ Hz]].
        exists (fun l => c l + dot adim (b r) v * z l). intros a Ha. cbn [sumR]. rewrite Hc by exact Ha.
        change (b r a) with (vat W (nth r t []) k a). rewrite Hz by exact Ha. rewrite <- sumR_scal, <- sumR_add. apply sumR_ext. intros; ring. }
    destruct (S dim (le_n _)) as [c Hc]. exists c. intros a Ha. rewrite Hp by exact Ha. apply Hc. exact Ha.
Qed.

(** In the hypersurface cases a vector orthogonal to tangents and normal vanishes. *)
Lemma hyper_complete adim dim W d k u : hypersurface adim dim -> gram_det W adim dim d k <> 0 ->
  (forall j, (j < dim)%nat -> dot adim u (tangent W d k j) = 0) -> dot adim u (ncomp adim dim W d k) = 0 ->
  forall a, (a < adim)%nat -> u a = 0.
Proof.
  intros H Hg Ht Hn. pose proof (ncomp_oriented W d k H Hg) as Hv.
  destruct (sqrt_pos_nz (gram_det_nonneg W d k H) Hg) as [SN _].
  revert Hn Hv. generalize (ncomp adim dim W d k). intros n Hn Hv. rewrite <- Hv in SN. clear Hv Hg. hs H.
  - specialize (Ht 0%nat ltac:(lia)). unfold volume, det2 in SN. unfold dot in Ht, Hn. cbn [sumR] in Ht, Hn.
    revert SN Ht Hn. generalize (tangent W d k 0 0) (tangent W d k 0 1) (n 0%nat) (n 1%nat). intros s0 s1 n0 n1 SN Ht Hn.
    intros [|[|a]] Ha; [| |lia].
    + apply Rmult_eq_reg_r with (n0 * s1 - n1 * s0); [|exact SN].
      transitivity (s1 * (0 + u 0%nat * n0 + u 1%nat * n1) - n1 * (0 + u 0%nat * s0 + u 1%nat * s1)); [ring|]. rewrite Hn, Ht. ring.
    + apply Rmult_eq_reg_r with (n0 * s1 - n1 * s0); [|exact SN].
      transitivity (n0 * (0 + u 0%nat * s0 + u 1%nat * s1) - s0 * (0 + u 0%nat * n0 + u 1%nat * n1)); [ring|]. rewrite Hn, Ht. ring.
  - pose proof (Ht 0%nat ltac:(lia)) as H0. pose proof (Ht 1%nat ltac:(lia)) as H1. clear Ht.
    unfold volume, det3 in SN. unfold dot in H0, H1, Hn. cbn [sumR] in H0, H1, Hn.
    revert SN H0 H1 Hn. generalize (tangent W d k 0 0) (tangent W d k 0 1) (tangent W d k 0 2)
      (tangent W d k 1 0) (tangent W d k 1 1) (tangent W d k 1 2) (n 0%nat) (n 1%nat) (n 2%nat).
    intros s0 s1 s2 t0 t1 t2 n0 n1 n2 SN H0 H1 Hn.
    set (D := n0 * (s1 * t2 - s2 * t1) - n1 * (s0 * t2 - s2 * t0) + n2 * (s0 * t1 - s1 * t0)) in *.
    intros [|[|[|a]]] Ha; [| | |lia]; (apply Rmult_eq_reg_r with D; [|exact SN]).
    + transitivity ((s1 * t2 - s2 * t1) * (0 + u 0%nat * n0 + u 1%nat * n1 + u 2%nat * n2)
        + (t1 * n2 - t2 * n1) * (0 + u 0%nat * s0 + u 1%nat * s1 + u 2%nat * s2)
        + (n1 * s2 - n2 * s1) * (0 + u 0%nat * t0 + u 1%nat * t1 + u 2%nat * t2)); [unfold D; ring|]. rewrite Hn, H0, H1. ring.
    + transitivity ((s2 * t0 - s0 * t2) * (0 + u 0%nat * n0 + u 1%nat * n1 + u 2%nat * n2)
        + (t2 * n0 - t0 * n2) * (0 + u 0%nat * s0 + u 1%nat * s1 + u 2%nat * s2)
        + (n2 * s0 - n0 * s2) * (0 + u 0%nat * t0 + u 1%nat * t1 + u 2%nat * t2)); [unfold D; ring|]. rewrite Hn, H0, H1. ring.
    + transitivity ((s0 * t1 - s1 * t0) * (0 + u 0%nat * n0 + u 1%nat * n1 + u 2%nat * n2)
        + (t0 * n1 - t1 * n0) * (0 + u 0%nat * s0 + u 1%nat * s1 + u 2%nat * s2)
        + (n0 * s1 - n1 * s0) * (0 + u 0%nat * t0 + u 1%nat * t1 + u 2%nat * t2)); [unfold D; ring|]. rewrite Hn, H0, H1. ring.
Qed.

(** *** Cross products *)
Definition crossR (u v : nat -> R) (a : nat) : R :=
  match a with
  | 0%nat => u 1%nat * v 2%nat - u 2%nat * v 1%nat
  | 1%nat => u 2%nat * v 0%nat - u 0%nat * v 2%nat
  | _ => u 0%nat * v 1%nat - u 1%nat * v 0%nat
  end.
Lemma cross_ok a b : length a = 3%nat -> length b = 3%nat ->
  exists c, cross a b = Ok c /\ length c = 3%nat
   /\ forall W k i, (i < 3)%nat -> vat W c k i = crossR (vat W a k) (vat W b k) i.
Proof.
  intros La Lb. unfold cross. rewrite La, Lb. cbn [Nat.eqb andb]. eexists; split; [reflexivity|]. split; [reflexivity|].
  intros W k i Hi.
  destruct a as [|a0 [|a1 [|a2 [|]]]]; try discriminate. destruct b as [|b0 [|b1 [|b2 [|]]]]; try discriminate.
  destruct i as [|[|[|i]]]; [| | |lia]; unfold vat; cbn [seq map flat_map nth app gsum fold_left crossR gev];
    unfold gz; cbn [gev]; 
    repeat match goal with |- context [levi_civita ?x ?y ?z] => let v := eval vm_compute in (levi_civita x y z) in change (levi_civita x y z) with v end;
    field.
Qed.

(** *** Validation of derivative axes *)
Lemma axes_eqb_eq a b : axes_eqb a b = true <-> a = b.
Proof.
  revert b. induction a as [|[i j] a IH]; intros [|[x y] b]; cbn; split; intros H; try discriminate; auto.
  - apply andb_prop in H. destruct H as [H1 H2]. apply andb_prop in H1. destruct H1 as [H0 H1].
    apply Z.eqb_eq in H0, H1. apply IH in H2. congruence.
  - injection H as -> -> ->. rewrite !Z.eqb_refl. cbn. apply IH. reflexivity.
Qed.
Lemma dict_keys_len l ks : NoDup ks -> length (dict_keys l ks) = (length ks + length l)%nat <-> NoDup (map fst l) /\ forall x, In x ks -> ~ In x (map fst l).
Proof.
  revert ks. induction l as [|[x y] l IH]; intros ks N; cbn [dict_keys map length fst].
  - split; [intros _; split; [constructor | intros x _ []] | intros _; lia].
  - assert (U : forall l ks, (length (dict_keys l ks) <= length ks + length l)%nat).
    { clear. induction l as [|[x y] l IH]; intros ks; cbn [dict_keys length]; [lia|].
      specialize (IH (if existsb (Z.eqb x) ks then ks else x :: ks)). destruct (existsb (Z.eqb x) ks); cbn [length] in *; lia. }
    destruct (existsb (Z.eqb x) ks) eqn:E.
    + apply existsb_exists in E. destruct E as [z [Hz Ez]]. apply Z.eqb_eq in Ez. subst z.
      split; [intros H; specialize (U l ks); lia | intros [_ H]; exfalso; apply (H x Hz); left; reflexivity].
    + assert (Nx : ~ In x ks). { intros Hx. assert (existsb (Z.eqb x) ks = true); [|congruence]. apply existsb_exists. exists x. split; [exact Hx|apply Z.eqb_refl]. }
      rewrite Nat.add_succ_r, <- Nat.add_succ_l. change (S (length ks)) with (length (x :: ks)).
      rewrite IH by (constructor; assumption). split.
      * intros [A B]. split; [constructor; [apply B; left; reflexivity | exact A]|].
        intros z Hz [->|Hin]; [exact (Nx Hz)|]. apply (B z); [right; exact Hz | exact Hin].
      * intros [A B]. inversion A; subst. split; [assumption|]. intros z [<-|Hz] Hin; [contradiction|]. apply (B z Hz). right. exact Hin.
Qed.

Definition le2 (a b : Z * Z) : Prop := pair_ltb b a = false.
Lemma le2_trans a b c : le2 a b -> le2 b c -> le2 a c.
Proof.
  unfold le2, pair_ltb. rewrite !orb_false_iff, !andb_false_iff, !Z.ltb_ge, !Z.eqb_neq. lia.
Qed.
Lemma ins_sorted x l : StronglySorted le2 l -> StronglySorted le2 (ins x l) /\ forall y, In y (ins x l) -> y = x \/ In y l.
Proof.
  induction l as [|z l IH]; intros H; cbn [ins].
  - split; [repeat constructor | intros y [<-|[]]; auto].
  - inversion H as [|? ? Hs Hf]; subst. destruct (pair_ltb z x) eqn:E.
    + destruct (IH Hs) as [A B]. split.
      * constructor; [exact A|]. apply Forall_forall. intros y Hy. destruct (B y Hy) as [->|Hin].
        -- unfold le2, pair_ltb in *. apply orb_prop in E. rewrite orb_false_iff, andb_false_iff, !Z.ltb_ge, Z.eqb_neq.
           destruct E as [E|E]; [apply Z.ltb_lt in E; lia|]. apply andb_prop in E. destruct E as [E1 E2]. apply Z.eqb_eq in E1. apply Z.ltb_lt in E2. lia.
        -- rewrite Forall_forall in Hf. apply Hf. exact Hin.
      * intros y [<-|Hy]; [right; left; reflexivity|]. destruct (B y Hy); auto. right; right; assumption.
    + split; [|intros y [<-|Hy]; auto]. constructor; [exact H|]. constructor; [exact E|].
      rewrite Forall_forall in *. intros y Hy. apply le2_trans with z; [exact E | apply Hf; exact Hy].
Qed.
Lemma sorted_sorted l : StronglySorted le2 (sorted l).
Proof. induction l as [|x l IH]; cbn [sorted]; [constructor|]. apply ins_sorted. exact IH. Qed.
Lemma sorted_fix l : StronglySorted le2 l -> sorted l = l.
Proof.
  induction 1 as [|x l Hs IH Hf]; cbn [sorted]; [reflexivity|]. rewrite IH. destruct l as [|y l]; [reflexivity|]. cbn [ins].
  inversion Hf as [|? ? Hy]; subst. unfold le2 in Hy. rewrite Hy. reflexivity.
Qed.
Lemma axes_valid l : (axes_eqb (sorted l) l = true /\ length (dict_keys l []) = length l) <-> StronglySorted Z.lt (map fst l).
Proof.
  rewrite axes_eqb_eq. rewrite (dict_keys_len l (NoDup_nil Z)). split.
  - intros [A [B _]]. pose proof (sorted_sorted l) as S. rewrite A in S. clear A.
    induction S as [|x l S IH F]; cbn [map]; constructor.
    + apply IH. inversion B; assumption.
    + apply Forall_forall. intros z Hz. apply in_map_iff in Hz. destruct Hz as [y [<- Hy]].
      rewrite Forall_forall in F. specialize (F y Hy). inversion B as [|? ? Nx _]; subst.
      assert (fst x <> fst y) by (intros E; apply Nx; rewrite E; apply in_map; exact Hy).
      unfold le2, pair_ltb in F. apply orb_false_elim in F. destruct F as [F _]. apply Z.ltb_ge in F. lia.
  - intros S. split.
    + apply sorted_fix. remember (map fst l) as ks eqn:E. revert l E. induction S as [|x ks S IH F]; intros [|y l] E; try discriminate; constructor.
      * apply IH. injection E; auto.
      * apply Forall_forall. intros z Hz. injection E as -> ->. rewrite Forall_forall in F. specialize (F (fst z) (in_map fst _ _ Hz)).
        unfold le2, pair_ltb. rewrite orb_false_iff, andb_false_iff, !Z.ltb_ge, Z.eqb_neq. lia.
    + split; [|intros x []]. induction S as [|x ks S IH F]; constructor; [|exact IH].
      intros Hx. rewrite Forall_forall in F. specialize (F x Hx). lia.
Qed.
