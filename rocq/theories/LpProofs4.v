(** Lemmas for LpProps.v, part 4: multivectors with nabla, vector calculus. *)
From Coq Require Import Setoid Ring InitialRing Permutation.
From Verif Require Import Base DofModel GeoModel CtorModel SymSpec LpModel LpSpec LpProofs LpProofs2 LpProofs3.
Set Implicit Arguments.

(** ** Blades *)
Lemma testbit_pow i j : Nat.testbit (2 ^ i) j = Nat.eqb i j.
Proof. rewrite Nat.pow2_bits_eqb. reflexivity. Qed.
Lemma pow_inj i j : 2 ^ i = 2 ^ j -> i = j.
Proof. intros H. apply (Nat.pow_inj_r 2); [lia|exact H]. Qed.
Lemma pow_eqb i j : Nat.eqb (2 ^ i) (2 ^ j) = Nat.eqb i j.
Proof.
  destruct (Nat.eqb_spec i j); [subst; apply Nat.eqb_refl|]. apply Nat.eqb_neq. intros H. apply pow_inj in H. contradiction.
Qed.
Lemma filter_ext_in' (A : Type) (f g : A -> bool) l : (forall a, In a l -> f a = g a) -> filter f l = filter g l.
Proof.
  induction l as [|a l IH]; intros H; cbn [filter]; [reflexivity|].
  rewrite (H a (or_introl eq_refl)), IH by (intros; apply H; right; assumption). reflexivity.
Qed.
Lemma filter_none (A : Type) (f : A -> bool) l : (forall a, In a l -> f a = false) -> filter f l = [].
Proof.
  induction l as [|a l IH]; intros H; cbn [filter]; [reflexivity|].
  rewrite (H a (or_introl eq_refl)). apply IH. intros; apply H; right; assumption.
Qed.
Lemma filter_seq_one i s n : s <= i < s + n -> filter (Nat.eqb i) (seq s n) = [i].
Proof.
  revert s. induction n as [|n IH]; intros s H; [lia|]. cbn [seq filter].
  destruct (Nat.eqb_spec i s).
  - subst. rewrite filter_none; [reflexivity|]. intros a Ha. apply in_seq in Ha. apply Nat.eqb_neq. lia.
  - apply IH. lia.
Qed.
Lemma bitlist_pow adim i : i < adim -> bitlist adim (2 ^ i) = [i].
Proof.
  intros H. unfold bitlist. rewrite (filter_ext_in' (Nat.testbit (2 ^ i)) (Nat.eqb i)).
  - apply filter_seq_one. lia.
  - intros a _. apply testbit_pow.
Qed.
Lemma bitlist_0 adim : bitlist adim 0 = [].
Proof. apply filter_none. intros a _. apply Nat.bits_0. Qed.
Lemma rsign_same adim i : i < adim -> rsign adim (2 ^ i) (2 ^ i) = 1%Z.
Proof.
  intros H. unfold rsign, swaps. rewrite bitlist_pow by exact H. cbn [map fold_left filter].
  rewrite Nat.ltb_irrefl. reflexivity.
Qed.
Lemma rsign_0l adim b : rsign adim 0 b = 1%Z.
Proof. unfold rsign, swaps. rewrite bitlist_0. reflexivity. Qed.
Lemma rsign_0r adim b : rsign adim b 0 = 1%Z.
Proof.
  unfold rsign, swaps. rewrite bitlist_0. cbn [filter length].
  assert (G : forall l : list nat, fold_left Nat.add (map (fun _ => 0) l) 0 = 0) by (induction l; [reflexivity|cbn; exact IHl]).
  rewrite G. reflexivity.
Qed.
Lemma land_pow i j : Nat.land (2 ^ i) (2 ^ j) = if Nat.eqb i j then 2 ^ i else 0.
Proof.
  apply Nat.bits_inj. intros k. rewrite Nat.land_spec, !testbit_pow.
  destruct (Nat.eqb_spec i j).
  - subst. rewrite testbit_pow. destruct (j =? k); reflexivity.
  - rewrite Nat.bits_0. destruct (Nat.eqb_spec i k); [|reflexivity]. subst. cbn [andb]. apply Nat.eqb_neq. congruence.
Qed.
Lemma pow_nz i : 2 ^ i <> 0. Proof. apply Nat.pow_nonzero. lia. Qed.
Lemma lxor_eqb a b : Nat.eqb (Nat.lxor a b) 0 = Nat.eqb a b.
Proof.
  destruct (Nat.eqb_spec a b).
  - subst. rewrite Nat.lxor_nilpotent. reflexivity.
  - apply Nat.eqb_neq. intros H. apply Nat.lxor_eq in H. contradiction.
Qed.

Lemma combine_map (A B D : Type) (f : A -> B) (g : A -> D) l : combine (map f l) (map g l) = map (fun a => (f a, g a)) l.
Proof. induction l as [|a l IH]; [reflexivity|]. cbn [map combine]. rewrite IH. reflexivity. Qed.
Lemma mvec_map (f : nat -> ex) n : mvec (map f (seq 0 n)) = map (fun i => (2 ^ i, f i)) (seq 0 n).
Proof. unfold mvec. rewrite map_length, seq_length. apply combine_map. Qed.

(** ** Products as lists of items *)
Definition item (dims : nat) (xb yb : nat * ex) : nat * ex :=
  (Nat.lxor (fst xb) (fst yb), emul (emul (EQ (rsign dims (fst xb) (fst yb))) (snd xb)) (snd yb)).
Definition items (keep : nat -> nat -> bool) (dims : nat) (x y : emv) : emv :=
  flat_map (fun xb => map (item dims xb) (filter (fun yb => keep (fst xb) (fst yb)) y)) x.
Lemma mprod_items keep dims x y :
  mprod keep dims x y = fold_left (fun acc t => madd1 acc (fst t) (snd t)) (items keep dims x y) [].
Proof.
  unfold mprod, items. generalize (@nil (nat * ex)) as acc.
  induction x as [|xb x IH]; intros acc; cbn [fold_left flat_map]; [reflexivity|].
  rewrite fold_left_app, IH. f_equal. clear.
  revert acc. induction y as [|yb y IH]; intros acc; cbn [fold_left filter]; [reflexivity|].
  destruct (keep (fst xb) (fst yb)); cbn [map fold_left item fst snd]; apply IH.
Qed.
Lemma eadd_0l e : eadd (EQ 0) e = e.
Proof. unfold eadd. destruct e; cbn; try reflexivity. Qed.
Lemma mget_absent m b : ~ In b (map fst m) -> mget m b = EQ 0.
Proof.
  induction m as [|[b' c] m IH]; intros H; [reflexivity|]. cbn [mget]. destruct (Nat.eqb_spec b' b).
  - exfalso. apply H. left. exact e.
  - apply IH. intros X. apply H. right. exact X.
Qed.
Lemma mset_absent m b c : ~ In b (map fst m) -> mset m b c = m ++ [(b, c)].
Proof.
  induction m as [|[b' c'] m IH]; intros H; [reflexivity|]. cbn [mset app]. destruct (Nat.eqb_spec b' b).
  - exfalso. apply H. left. exact e.
  - f_equal. apply IH. intros X. apply H. right. exact X.
Qed.
Lemma fold_madd_distinct its : NoDup (map fst its) -> Forall (fun t => is_num 0 (snd t) = false) its ->
  fold_left (fun acc t => madd1 acc (fst t) (snd t)) its [] = its.
Proof.
  intros Hn Hz. change its with ([] ++ its) at 2.
  assert (G : forall acc, NoDup (map fst (acc ++ its)) ->
     fold_left (fun acc t => madd1 acc (fst t) (snd t)) its acc = acc ++ its); [|exact (G [] Hn)].
  clear Hn. induction its as [|[b c] its IH]; intros acc H; cbn [fold_left]; [rewrite app_nil_r; reflexivity|].
  cbn [fst snd]. rewrite map_app in H. cbn [map fst] in H.
  assert (Hb : ~ In b (map fst acc)).
  { intros X. apply NoDup_remove_2 in H. apply H. apply in_app_iff. left. exact X. }
  unfold madd1 at 2. rewrite mget_absent, eadd_0l by exact Hb.
  pose proof (Forall_inv Hz) as Hc. cbn [snd] in Hc. rewrite Hc, mset_absent by exact Hb.
  rewrite IH; [rewrite <- app_assoc; reflexivity|exact (Forall_inv_tail Hz)|].
  rewrite <- app_assoc. cbn [app]. rewrite map_app. exact H.
Qed.
Lemma fold_madd_scalar its : Forall (fun t => fst t = 0) its ->
  let m := fold_left (fun acc t => madd1 acc (fst t) (snd t)) its [] in
  (m = [] \/ exists c, m = [(0, c)]).
Proof.
  intros H. cbv zeta.
  assert (G : forall acc : emv, (acc = [] \/ exists c, acc = [(0, c)]) ->
     let m := fold_left (fun acc t => madd1 acc (fst t) (snd t)) its acc in (m = [] \/ exists c, m = [(0, c)])).
  2:{ apply G. left. reflexivity. }
  cbv zeta. induction its as [|[b c] its IH]; intros acc Ha; cbn [fold_left]; [exact Ha|].
  apply IH; [exact (Forall_inv_tail H)|]. pose proof (Forall_inv H) as Hb. cbn [fst] in Hb. subst b. cbn [fst snd].
  unfold madd1. destruct Ha as [->|[c' ->]]; cbn [mget Nat.eqb].
  - destruct (is_num 0 (eadd (EQ 0) c)); [left; reflexivity|right; eexists; reflexivity].
  - destruct (is_num 0 (eadd c' c)); [left; reflexivity|right; eexists; reflexivity].
Qed.

(** ** Directional derivatives *)
Lemma dnabla_map id adim : dnabla id adim = map (fun i => (2 ^ i, ENab id i)) (seq 0 adim).
Proof. unfold dnabla. apply mvec_map. Qed.
Definition blades (cs : list (ex * nat)) : emv := map (fun t => (2 ^ snd t, fst t)) cs.
Lemma contrib_scal id adim c j : j < adim ->
  contrib Nat.eqb adim 0 (2 ^ j, c) (dnabla (Some id) adim) = [T id (c, j)].
Proof.
  intros H. unfold contrib. rewrite dnabla_map. cbn [fst snd].
  assert (G : forall l, filter (fun yb : nat * ex => Nat.eqb (2 ^ j) (fst yb) && Nat.eqb (Nat.lxor (2 ^ j) (fst yb)) 0)
              (map (fun i => (2 ^ i, ENab (Some id) i)) l) = map (fun i => (2 ^ i, ENab (Some id) i)) (filter (Nat.eqb j) l)).
  { induction l as [|a l IH]; [reflexivity|]. cbn [map filter fst]. rewrite lxor_eqb, pow_eqb, andb_diag.
    destruct (j =? a); cbn [map]; rewrite IH; reflexivity. }
  rewrite G, filter_seq_one by lia. cbn [map fst snd]. rewrite rsign_same, emul_1l by exact H. reflexivity.
Qed.
Lemma mscal_dirn id adim cs : Forall (fun t => snd t < adim) cs ->
  mget (mscal adim (blades cs) (dnabla (Some id) adim)) 0 = dirn id cs.
Proof.
  intros H. unfold mscal. rewrite mprod_get. unfold dirn. f_equal.
  induction H as [|[c j] cs Hj H IH]; [reflexivity|]. cbn [blades map flat_map fst snd].
  rewrite contrib_scal by exact Hj. cbn [app]. f_equal. exact IH.
Qed.

Definition takable (e : ex) : Prop := forall a' ax, resolve e = Ok a' -> exists c, take ax a' = Ok c.

Section V.
Variable C : calculus.
Notation R := (dr_car (cr C)).
Notation r0 := (dr_0 (cr C)).
Notation r1 := (dr_1 (cr C)).
Notation "x +! y" := (dr_add (cr C) x y) (at level 50, left associativity).
Notation "x *! y" := (dr_mul (cr C) x y) (at level 40, left associativity).
Notation d := (dr_d (cr C)).
Add Ring Rr4 : (dr_ring (cr C)).

Lemma dirn_zero id cs : Forall (fun t => atom (fst t)) cs -> nzc cs = [] -> dirn id cs = EQ 0.
Proof. intros H E. rewrite dirn_shape, E by exact H. reflexivity. Qed.
Lemma nzc_zero cs (f : nat -> R) nu : nzc cs = [] -> rsum C (map (fun t => val C nu (fst t) *! f (snd t)) cs) = r0.
Proof.
  intros H. apply rsum_zero. intros [c j] Ht. cbn [fst snd].
  destruct (nonzero c) eqn:E.
  - exfalso. assert (X : In (c, j) (nzc cs)) by (apply filter_In; split; [exact Ht|exact E]). rewrite H in X. exact X.
  - unfold nonzero in E. apply negb_false_iff in E. apply is_num_eq in E. subst c. cbn [val]. rewrite int_0. ring.
Qed.
Lemma emul_split e f : (forall z, e <> EQ z) -> is_num 0 e = false -> is_num 1 e = false ->
  (forall z, f <> EQ z) -> emul e f = EProd (factors e ++ factors f).
Proof.
  intros H1 H2 H3 H4. unfold emul.
  assert (Hf : forall z, is_num z f = false).
  { intros z. destruct (is_num z f) eqn:E; [|reflexivity]. apply is_num_eq in E. exfalso. exact (H4 z E). }
  destruct e; try (rewrite H2, H3, !Hf; reflexivity).
  exfalso. exact (H1 z eq_refl).
Qed.
(** [n . nabla e] *)
Lemma deriv_val id cs e r nu : Forall (fun t => atom (fst t)) cs -> pure e ->
  resolve (emul (dirn id cs) (EDsrc id e)) = Ok r ->
  pure r /\ val C nu r = rsum C (map (fun t => val C nu (fst t) *! d (snd t) (val C nu e)) cs).
Proof.
  intros Ha Pe Hr. destruct (nzc cs) as [|t0 l0] eqn:En.
  - rewrite dirn_zero in Hr by assumption. cbn in Hr. injection Hr as <-. split; [exact I|].
    rewrite (@nzc_zero cs (fun j => d j (val C nu e)) nu) by exact En. reflexivity.
  - assert (Hn : nzc cs <> []) by (rewrite En; discriminate). clear En.
    destruct (factors_dirn id Ha Hn) as (F1 & F2 & F3 & _).
    rewrite emul_split in Hr by (try assumption; discriminate). cbn [factors] in Hr.
    destruct (@dirder C id [] [] cs e r nu (Forall_nil _) (Forall_nil _) Ha Hn Pe Hr) as [P V].
    split; [exact P|]. rewrite V. cbn [map]. rewrite !rprod_nil. ring.
Qed.
Lemma deriv_ok id cs e : Forall (fun t => atom (fst t)) cs -> pure e -> takable e ->
  exists r, resolve (emul (dirn id cs) (EDsrc id e)) = Ok r.
Proof.
  intros Ha Pe Ht. destruct (nzc cs) as [|t0 l0] eqn:En.
  - rewrite dirn_zero by assumption. eexists. reflexivity.
  - assert (Hn : nzc cs <> []) by (rewrite En; discriminate). clear En.
    destruct (factors_dirn id Ha Hn) as (F1 & F2 & F3 & _).
    rewrite emul_split by (try assumption; discriminate). cbn [factors].
    exact (@dirder_ok C id [] [] cs e (Forall_nil _) (Forall_nil _) Ha Hn Pe Ht).
Qed.
Lemma pot_takable tk sks dens lim src tgt args : pure (EPot tk sks dens lim src tgt args) ->
  takable (EPot tk sks dens lim src tgt args).
Proof.
  intros P a' ax E. destruct (@resolve_pot C tk sks dens lim src tgt args P) as (dens' & args' & E').
  rewrite E' in E. injection E as <-. eexists. reflexivity.
Qed.

(** ** [dd_axis] *)
Definition unit_cs (axis adim : nat) : list (ex * nat) :=
  map (fun i => (EQ (if Nat.eqb i axis then 1 else 0), i)) (seq 0 adim).
Lemma unit_blades axis adim :
  mvec (map (fun i => EQ (if Nat.eqb i axis then 1 else 0)) (seq 0 adim)) = blades (unit_cs axis adim).
Proof. rewrite mvec_map. unfold blades, unit_cs. rewrite map_map. reflexivity. Qed.
Lemma dd_axis_eq id axis adim e : axis < adim ->
  dd_axis id axis adim e = resolve (emul (dirn id (unit_cs axis adim)) (EDsrc id e)).
Proof.
  intros H. unfold dd_axis. apply Nat.ltb_lt in H. rewrite H, unit_blades, mscal_dirn; [reflexivity|].
  unfold unit_cs. rewrite Forall_map. apply Forall_forall. intros i Hi. apply in_seq in Hi. cbn [snd]. lia.
Qed.
Lemma unit_atoms axis adim : Forall (fun t => atom (fst t)) (unit_cs axis adim).
Proof. unfold unit_cs. rewrite Forall_map. apply Forall_forall. intros i _. exact I. Qed.
Lemma dd_axis_val id axis adim e r nu : pure e -> dd_axis id axis adim e = Ok r ->
  pure r /\ val C nu r = d axis (val C nu e).
Proof.
  intros Pe H. destruct (lt_dec axis adim) as [Ha|Ha].
  2:{ unfold dd_axis in H. destruct (Nat.ltb_spec axis adim); [contradiction|discriminate]. }
  rewrite dd_axis_eq in H by exact Ha.
  destruct (@deriv_val id _ e r nu (unit_atoms axis adim) Pe H) as [P V]. split; [exact P|]. rewrite V.
  rewrite <- (@sum_delta C axis (fun ax => d ax (val C nu e)) adim Ha). unfold sum_axes, unit_cs. rewrite map_map.
  f_equal. apply map_ext. intros i. cbn [fst snd val]. rewrite (Nat.eqb_sym axis i).
  destruct (i =? axis); cbn [c_int]; rewrite ?int_0, ?int_1; reflexivity.
Qed.
Lemma dd_axis_ok id axis adim e : axis < adim -> pure e -> takable e -> exists r, dd_axis id axis adim e = Ok r.
Proof. intros Ha Pe Ht. rewrite dd_axis_eq by exact Ha. apply deriv_ok; [apply unit_atoms|exact Pe|exact Ht]. Qed.

(** ** [grad] *)
Definition nabprod (id : nat) (e : ex) (i : nat) : ex := EProd [ENab (Some id) i; EDsrc id e].
Lemma grad_items id adim e :
  mgeo adim (dnabla (Some id) adim) (mscalar (EDsrc id e)) = map (fun i => (2 ^ i, nabprod id e i)) (seq 0 adim).
Proof.
  unfold mgeo. rewrite mprod_items.
  assert (E : items (fun _ _ => true) adim (dnabla (Some id) adim) (mscalar (EDsrc id e))
              = map (fun i => (2 ^ i, nabprod id e i)) (seq 0 adim)).
  { unfold items. rewrite dnabla_map. generalize (seq 0 adim). induction l as [|a l IH]; [reflexivity|].
    cbn [map flat_map mscalar filter app]. f_equal; [|exact IH].
    unfold item. cbn [fst snd]. rewrite Nat.lxor_0_r, rsign_0r. reflexivity. }
  rewrite E. apply fold_madd_distinct.
  - rewrite map_map. apply FinFun.Injective_map_NoDup; [|apply seq_NoDup]. intros a b H. apply pow_inj. exact H.
  - rewrite Forall_map. apply Forall_forall. intros i _. reflexivity.
Qed.
Lemma nabprod_dirn id e i : nabprod id e i = emul (dirn id [(EQ 1, i)]) (EDsrc id e).
Proof. reflexivity. Qed.
Lemma nabprod_val id e i r nu : pure e -> resolve (nabprod id e i) = Ok r ->
  pure r /\ val C nu r = d i (val C nu e).
Proof.
  intros Pe H. rewrite nabprod_dirn in H.
  destruct (@deriv_val id [(EQ 1, i)] e r nu) as [P V]; [constructor; [exact I|constructor]|exact Pe|exact H|].
  split; [exact P|]. rewrite V. cbn [map fst snd val]. rewrite rsum_cons, rsum_nil, int_1. ring.
Qed.
Lemma nabprod_ok id e i : pure e -> takable e -> exists r, resolve (nabprod id e i) = Ok r.
Proof.
  intros Pe Ht. rewrite nabprod_dirn. apply deriv_ok; [constructor; [exact I|constructor]|exact Pe|exact Ht].
Qed.
Lemma mapM_keys (f : ex -> result ex) (g : nat -> ex) l m :
  mmapM f (map (fun i => (2 ^ i, g i)) l) = Ok m ->
  exists rs, length rs = length l /\ m = combine (map (fun i => 2 ^ i) l) rs
    /\ forall k i, nth_error l k = Some i -> exists r, nth_error rs k = Some r /\ f (g i) = Ok r.
Proof.
  unfold mmapM. revert m. induction l as [|a l IH]; intros m; cbn [map mapM fst snd].
  - intros H. injection H as <-. exists []. split; [reflexivity|]. split; [reflexivity|]. intros [|k] i; discriminate.
  - destruct (f (g a)) as [r|] eqn:Er; cbn [bind]; [|discriminate].
    destruct (mapM _ (map (fun i => (2 ^ i, g i)) l)) as [m'|] eqn:Em; cbn [bind]; [|discriminate].
    intros H. injection H as <-. destruct (IH m' eq_refl) as (rs & L & E & G).
    exists (r :: rs). split; [cbn [length]; rewrite L; reflexivity|].
    split; [cbn [map combine]; rewrite E; reflexivity|].
    intros [|k] i Hk; cbn [nth_error] in *; [injection Hk as <-; exists r; split; [reflexivity|exact Er]|apply G; exact Hk].
Qed.
Lemma mget_combine l rs : NoDup l -> length rs = length l ->
  forall k i r, nth_error l k = Some i -> nth_error rs k = Some r -> mget (combine (map (fun i => 2 ^ i) l) rs) (2 ^ i) = r.
Proof.
  revert rs. induction l as [|a l IH]; intros rs Hn Hl [|k] i r Hi Hr; try discriminate.
  - cbn [nth_error] in *. destruct rs as [|r' rs]; [discriminate|]. injection Hi as <-. injection Hr as <-.
    cbn [map combine mget]. rewrite Nat.eqb_refl. reflexivity.
  - destruct rs as [|r' rs]; [discriminate|]. cbn [nth_error] in *. cbn [map combine mget].
    inversion Hn; subst. rewrite pow_eqb. destruct (Nat.eqb_spec a i).
    + subst. exfalso. apply H1. apply nth_error_In in Hi. exact Hi.
    + apply IH with k; try assumption. cbn in Hl. lia.
Qed.
Lemma seq_nth_error n k : k < n -> nth_error (seq 0 n) k = Some k.
Proof. intros H. rewrite (nth_error_nth' (seq 0 n) 0) by (rewrite seq_length; exact H). rewrite seq_nth by exact H. reflexivity. Qed.
Lemma grade_pow adim i : i < adim -> grade adim (2 ^ i) = 1.
Proof. intros H. unfold grade. rewrite bitlist_pow by exact H. reflexivity. Qed.
Lemma in_combine_seq adim rs : Forall (fun t => exists i, i < adim /\ fst t = 2 ^ i) (combine (map (fun i => 2 ^ i) (seq 0 adim)) rs : emv).
Proof.
  apply Forall_forall. intros [b c] H. apply in_combine_l in H. apply in_map_iff in H. destruct H as (i & E & Hi).
  apply in_seq in Hi. exists i. split; [lia|]. cbn [fst]. symmetry. exact E.
Qed.
Lemma as_vector_combine adim rs : length rs = adim ->
  as_vector adim (combine (map (fun i => 2 ^ i) (seq 0 adim)) rs) = Ok rs.
Proof.
  intros H. unfold as_vector.
  assert (E : forallb (fun t : nat * ex => grade adim (fst t) =? 1) (combine (map (fun i => 2 ^ i) (seq 0 adim)) rs) = true).
  { apply forallb_forall. pose proof (in_combine_seq adim rs) as G. rewrite Forall_forall in G.
    intros t Ht. destruct (G t Ht) as (i & Hi & ->). rewrite grade_pow by exact Hi. reflexivity. }
  rewrite E. f_equal. apply nth_ext with (EQ 0) (EQ 0); [rewrite map_length, seq_length; lia|].
  rewrite map_length, seq_length. intros k Hk.
  set (f := fun i => mget (combine (map (fun i => 2 ^ i) (seq 0 adim)) rs) (2 ^ i)).
  rewrite (nth_indep _ (EQ 0) (f 0)) by (rewrite map_length, seq_length; exact Hk).
  rewrite (map_nth f), seq_nth by exact Hk. unfold f. cbn [Nat.add].
  apply mget_combine with k.
  - apply seq_NoDup.
  - rewrite seq_length. exact H.
  - apply seq_nth_error. exact Hk.
  - apply nth_error_nth'. lia.
Qed.
Lemma grad_spec id adim e l : pure e -> grad id adim e = Ok l ->
  length l = adim /\ forall i nu, i < adim -> exists r, nth_error l i = Some r
     /\ resolve (nabprod id e i) = Ok r /\ pure r /\ val C nu r = d i (val C nu e).
Proof.
  intros Pe H. unfold grad, grad_mv in H. rewrite grad_items in H.
  destruct (mmapM resolve (map (fun i => (2 ^ i, nabprod id e i)) (seq 0 adim))) as [m|] eqn:E; cbn [bind] in H; [|discriminate].
  destruct (mapM_keys _ _ _ E) as (rs & L & -> & G). rewrite seq_length in L.
  rewrite as_vector_combine in H by exact L. injection H as <-. split; [exact L|].
  intros i nu Hi. destruct (G i i (seq_nth_error Hi)) as (r & Hr & Er). exists r.
  destruct (@nabprod_val id e i r nu Pe Er). repeat split; assumption.
Qed.
Lemma grad_mv_ok id adim e : pure e -> takable e ->
  exists m, mmapM resolve (mgeo adim (dnabla (Some id) adim) (mscalar (EDsrc id e))) = Ok m.
Proof.
  intros Pe Ht. rewrite grad_items. unfold mmapM. apply mapM_total. intros t H. apply in_map_iff in H.
  destruct H as (i & <- & _). cbn [fst snd]. destruct (nabprod_ok id i Pe Ht) as [r ->]. eexists. reflexivity.
Qed.
Lemma grad_ok id adim e : pure e -> takable e -> exists l, grad id adim e = Ok l.
Proof.
  intros Pe Ht. unfold grad, grad_mv. destruct (grad_mv_ok id adim Pe Ht) as [m E]. rewrite E. cbn [bind].
  rewrite grad_items in E. destruct (mapM_keys _ _ _ E) as (rs & L & -> & _). rewrite seq_length in L.
  rewrite as_vector_combine by exact L. eexists. reflexivity.
Qed.
End V.
