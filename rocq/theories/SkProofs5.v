(** The error measures. *)
From Coq Require Import Ring.
From Verif Require Import Base IndexModel IndexSpec IndexProofs IndexProofs2 IndexProps MatModel MatProofs SymProofs SymProofs2 SkModel SkSpec SkProofs SkProofs2 SkProofs3 SkProofs4.
Set Implicit Arguments.
Open Scope nat_scope.

Lemma mapM_nth_ok (A B : Type) (f : A -> result B) l :
  (forall x, In x l -> exists y, f x = Ok y) -> exists r, mapM f l = Ok r.
Proof.
  induction l as [|x l IH]; intros H; cbn; [eauto|].
  destruct (H x) as (y & Hy); [left; reflexivity|]. rewrite Hy. cbn.
  destruct IH as (r & Hr); [intros z Hz; apply H; right; exact Hz|]. rewrite Hr. cbn. eauto.
Qed.
Lemma mapM_nth' (A B : Type) (f : A -> result B) l : forall r i x, mapM f l = Ok r -> nth_error l i = Some x ->
  exists y, nth_error r i = Some y /\ f x = Ok y.
Proof.
  intros r i x H Hx. destruct (mapM_nth _ _ H) as [Hl Hn].
  destruct (@nth_error_lt _ r i) as (y & Hy); [rewrite Hl; apply nth_error_Some; congruence|].
  exists y. split; [exact Hy|]. destruct (Hn _ _ Hy) as (x' & Hx' & Hf). congruence.
Qed.
Lemma zrange_nth_error n i : i < n -> nth_error (zrange (Z.of_nat n)) i = Some (Z.of_nat i).
Proof.
  intros H. unfold zrange. rewrite nth_error_map, Nat2Z.id, (nth_error_nth' _ 0) by (rewrite seq_length; exact H).
  rewrite seq_nth by exact H. reflexivity.
Qed.
Lemma zrange_len' n : length (zrange (Z.of_nat n)) = n.
Proof. unfold zrange. rewrite map_length, seq_length. lia. Qed.
Lemma zrange_In' n z : In z (zrange (Z.of_nat n)) -> exists i, z = Z.of_nat i /\ i < n.
Proof. unfold zrange. rewrite in_map_iff. intros (i & <- & Hi). apply in_seq in Hi. exists i. split; [reflexivity|lia]. Qed.

Section P5.
Variable R : rops.
Variable Rth : ring_theory (r0 R) (r1 R) (radd R) (rmul R) (rsub R) (ropp R) eq.
Add Ring Rr5 : Rth.
Variables (tcs scs : list (list Z)) (sk : skel_result R) (vs : list choice).
Hypothesis Hsk : is_skeleton tcs scs sk vs.
Variable A : Z -> Z -> R.

Lemma sk_n : ts_n (sk_index sk) = Z.of_nat (length tcs).
Proof. destruct Hsk as (H & _). unfold ts_n. apply (clusters_n H). Qed.

(** All parts belonging to a cluster number. *)
Lemma sk_parts i : i < length tcs -> exists tcl scl v L Rm,
  nth_error tcs i = Some tcl /\ nth_error scs i = Some scl /\ nth_error vs i = Some v /\
  nth_error (sk_L sk) i = Some L /\ nth_error (sk_R sk) i = Some Rm /\
  cluster_indices (targets (sk_index sk)) (Z.of_nat i) = Ok tcl /\
  cluster_indices (sources (sk_index sk)) (Z.of_nat i) = Ok scl /\
  cluster_indices (targets (sk_skel sk)) (Z.of_nat i) = Ok (c_tsk v) /\
  cluster_indices (sources (sk_skel sk)) (Z.of_nat i) = Ok (c_ssk v) /\
  pyget (sk_L sk) (Z.of_nat i) = Ok L /\ pyget (sk_R sk) (Z.of_nat i) = Ok Rm /\
  cluster_skeleton R tcl scl (c_tp v) (c_sp v) (c_tsk v) (c_ssk v) L Rm.
Proof.
  intros Hi. destruct Hsk as (H1 & H2 & H3 & H4 & L1 & L2 & L3 & L4 & HC).
  destruct (@nth_error_lt _ tcs i) as (tcl & Et); [lia|]. destruct (@nth_error_lt _ scs i) as (scl & Es); [lia|].
  destruct (@nth_error_lt _ vs i) as (v & Ev); [lia|]. destruct (@nth_error_lt _ (sk_L sk) i) as (L & EL); [lia|].
  destruct (@nth_error_lt _ (sk_R sk) i) as (Rm & ER); [lia|].
  exists tcl, scl, v, L, Rm. repeat (split; [assumption|]).
  split; [apply (clusters_get _ H1 Et)|]. split; [apply (clusters_get _ H2 Es)|].
  split; [apply (clusters_get _ H3); rewrite nth_error_map, Ev; reflexivity|].
  split; [apply (clusters_get _ H4); rewrite nth_error_map, Ev; reflexivity|].
  split; [apply pyget_entry; exact EL|]. split; [apply pyget_entry; exact ER|]. eapply HC; eauto.
Qed.

Lemma cs_len tcl scl tp sp tsk ssk L Rm : cluster_skeleton R tcl scl tp sp tsk ssk L Rm ->
  length tsk = length tp /\ length ssk = length sp.
Proof. intros (H1 & H2 & _). split; [apply (sub_selection_nth H1)|apply (sub_selection_nth H2)]. Qed.

Section Norm.
Variables (V : Type) (norm : mat R -> V) (vdiv : V -> V -> V) (vzero : V).
Hypothesis Hext : extensional R norm.

Lemma pair_ok relative i j tcl scl vi vj L Rm : i <> j ->
  nth_error tcs i = Some tcl -> nth_error scs j = Some scl ->
  nth_error vs i = Some vi -> nth_error vs j = Some vj ->
  nth_error (sk_L sk) i = Some L -> nth_error (sk_R sk) j = Some Rm ->
  pair_errors norm vdiv vzero relative A sk (Z.of_nat i) (Z.of_nat j)
  = Ok (mnorm R norm vdiv relative (mat_ix A tcl scl) (Mt (length tcl) (length scl) (LT R A L (c_tsk vi) scl)),
        mnorm R norm vdiv relative (mat_ix A tcl scl) (Mt (length tcl) (length scl) (SRm R A Rm tcl (c_ssk vj)))).
Proof.
  intros Hij Et Es Evi Evj EL ER. unfold pair_errors.
  destruct (Z.eqb_spec (Z.of_nat i) (Z.of_nat j)); [lia|].
  assert (Hi : i < length tcs) by (apply nth_error_Some; congruence).
  assert (Hj : j < length tcs). { destruct Hsk as (_ & _ & _ & _ & <- & _). apply nth_error_Some. congruence. }
  destruct (sk_parts Hi) as (tcl' & scl' & v' & L' & R' & P1 & P2 & P3 & P4 & P5 & P6 & P7 & P8 & P9 & P10 & P11 & P12).
  destruct (sk_parts Hj) as (tcl2 & scl2 & v2 & L2 & R2 & Q1 & Q2 & Q3 & Q4 & Q5 & Q6 & Q7 & Q8 & Q9 & Q10 & Q11 & Q12).
  assert (tcl' = tcl) as -> by congruence. assert (scl2 = scl) as -> by congruence.
  assert (v' = vi) as -> by congruence. assert (v2 = vj) as -> by congruence.
  assert (L' = L) as -> by congruence. assert (R2 = Rm) as -> by congruence.
  rewrite P6, Q7, P8, Q9, P10, Q11. cbn [bind].
  destruct (cs_len P12) as [Lt _]. destruct (cs_len Q12) as [_ Ls].
  destruct P12 as (_ & _ & _ & _ & M1 & M2 & _). destruct Q12 as (_ & _ & _ & _ & _ & _ & M3 & M4 & _).
  rewrite mmul_ok by (cbn [mat_ix mr]; congruence). cbn [bind].
  rewrite mmul_ok by (cbn [mat_ix mc]; congruence). cbn [bind].
  cbn [mat_ix mr mc el]. rewrite M1, M2, M4, <- Lt. reflexivity.
Qed.

Lemma errors_ok relative : exists te se, cluster_errors norm vdiv vzero relative A sk = Ok (te, se) /\
  length te = length tcs /\ length se = length tcs /\
  forall i j, i < length tcs -> j < length tcs -> exists rt rs et es,
    nth_error te i = Some rt /\ nth_error se i = Some rs /\ length rt = length tcs /\ length rs = length tcs /\
    nth_error rt j = Some et /\ nth_error rs j = Some es /\
    pair_errors norm vdiv vzero relative A sk (Z.of_nat i) (Z.of_nat j) = Ok (et, es).
Proof.
  unfold cluster_errors. rewrite sk_n.
  assert (Hp : forall i j, i < length tcs -> j < length tcs ->
    exists r, pair_errors norm vdiv vzero relative A sk (Z.of_nat i) (Z.of_nat j) = Ok r).
  { intros i j Hi Hj. destruct (Nat.eq_dec i j) as [->|Hn].
    - unfold pair_errors. rewrite Z.eqb_refl. eauto.
    - destruct (sk_parts Hi) as (tcl' & scl' & v' & L' & R' & P1 & P2 & P3 & P4 & P5 & _).
      destruct (sk_parts Hj) as (tcl2 & scl2 & v2 & L2 & R2 & Q1 & Q2 & Q3 & Q4 & Q5 & _).
      rewrite (@pair_ok relative i j tcl' scl2 v' v2 L' R2); eauto. }
  destruct (@mapM_nth_ok _ _ (fun i => mapM (pair_errors norm vdiv vzero relative A sk i) (zrange (Z.of_nat (length tcs))))
    (zrange (Z.of_nat (length tcs)))) as (rows & Hrows).
  { intros z Hz. apply zrange_In' in Hz. destruct Hz as (i & -> & Hi). apply mapM_nth_ok.
    intros y Hy. apply zrange_In' in Hy. destruct Hy as (j & -> & Hj). apply Hp; assumption. }
  rewrite Hrows. cbn [bind]. do 2 eexists. split; [reflexivity|]. rewrite !map_length.
  destruct (mapM_nth _ _ Hrows) as [Hlr _]. rewrite zrange_len' in Hlr. split; [exact Hlr|]. split; [exact Hlr|].
  intros i j Hi Hj.
  destruct (mapM_nth' _ _ i Hrows (zrange_nth_error Hi)) as (row & Hrow & Hfi).
  destruct (mapM_nth _ _ Hfi) as [Hl2 _]. rewrite zrange_len' in Hl2.
  destruct (mapM_nth' _ _ j Hfi (zrange_nth_error Hj)) as ([et es] & He & Hfj).
  exists (map fst row), (map snd row), et, es. rewrite !nth_error_map, Hrow, He, !map_length.
  cbn [option_map fst snd]. repeat (split; [first [reflexivity|assumption]|]). exact Hfj.
Qed.

(** ** the reconstructed matrix *)
Definition covered (l : list (nat * nat)) (r c : Z) (i j p q : nat) : Prop :=
  In (i, j) l /\ i <> j /\ exists tcl scl, nth_error tcs i = Some tcl /\ nth_error scs j = Some scl /\
  nth_error tcl p = Some r /\ nth_error scl q = Some c.
Definition block_value (i j p q : nat) (x : R) : Prop :=
  exists vi vj L Rm, nth_error vs i = Some vi /\ nth_error vs j = Some vj /\
  nth_error (sk_L sk) i = Some L /\ nth_error (sk_R sk) j = Some Rm /\
  x = LSR R A L Rm (c_tsk vi) (c_ssk vj) p q.

Lemma step_ok i j M : i < length tcs -> j < length tcs ->
  exists M', skel_step A sk M (Z.of_nat i, Z.of_nat j) = Ok M' /\
  forall r c, (exists p q, covered [(i, j)] r c i j p q /\ block_value i j p q (M' r c)) \/
              ((forall p q, ~ covered [(i, j)] r c i j p q) /\ M' r c = M r c).
Proof.
  intros Hi Hj. unfold skel_step. destruct (Z.eqb_spec (Z.of_nat i) (Z.of_nat j)) as [He|Hn].
  - exists M. split; [reflexivity|]. intros r c. right. split; [|reflexivity]. intros p q (_ & Hne & _). lia.
  - destruct (sk_parts Hi) as (tcl & scl' & vi & L & R' & P1 & P2 & P3 & P4 & P5 & P6 & P7 & P8 & P9 & P10 & P11 & P12).
    destruct (sk_parts Hj) as (tcl2 & scl & vj & L2 & Rm & Q1 & Q2 & Q3 & Q4 & Q5 & Q6 & Q7 & Q8 & Q9 & Q10 & Q11 & Q12).
    rewrite P6, Q7, P8, Q9, P10, Q11. cbn [bind].
    destruct (cs_len P12) as [Lt _]. destruct (cs_len Q12) as [_ Ls].
    destruct P12 as (_ & _ & _ & _ & M1 & M2 & _). destruct Q12 as (_ & _ & _ & _ & _ & _ & M3 & M4 & _).
    rewrite mmul_ok by (cbn [mat_ix mr]; congruence). cbn [bind].
    rewrite mmul_ok by (cbn [mat_ix mc mr]; congruence). cbn [bind].
    eexists. split; [reflexivity|]. intros r c. unfold set_ix.
    pose proof (last_pos_spec r tcl) as H1. pose proof (last_pos_spec c scl) as H2.
    destruct (last_pos r tcl) as [p|]; [|right; split; [|reflexivity]].
    + destruct (last_pos c scl) as [q|]; [|right; split; [|reflexivity]].
      * left. exists p, q. destruct H1 as [H1 <-], H2 as [H2 <-]. split.
        -- split; [left; reflexivity|]. split; [lia|]. exists tcl, scl. repeat (split; [assumption|]).
           split; apply nth_error_nth'; assumption.
        -- exists vi, vj, L, Rm. repeat (split; [assumption|]). cbn [mat_ix mr mc el].
           unfold LSR, LT. rewrite M2, <- Lt. reflexivity.
      * intros p' q' (_ & _ & tcl' & scl'' & E1 & E2 & E3 & E4). assert (scl'' = scl) as -> by congruence.
        apply H2. eapply nth_error_In; eauto.
    + intros p' q' (_ & _ & tcl' & scl'' & E1 & E2 & E3 & E4). assert (tcl' = tcl) as -> by congruence.
      apply H1. eapply nth_error_In; eauto.
Qed.

Lemma steps_ok l : (forall i j, In (i, j) l -> i < length tcs /\ j < length tcs) -> forall M,
  exists M', skel_steps A sk M (map (fun ij => (Z.of_nat (fst ij), Z.of_nat (snd ij))) l) = Ok M' /\
  forall r c, (exists i j p q, covered l r c i j p q /\ block_value i j p q (M' r c)) \/
              ((forall i j p q, ~ covered l r c i j p q) /\ M' r c = M r c).
Proof.
  induction l as [|[i j] l IH]; intros Hl M; cbn [map skel_steps].
  { exists M. split; [reflexivity|]. intros r c. right. split; [|reflexivity]. intros i j p q ([] & _). }
  destruct (Hl i j) as [Hi Hj]; [left; reflexivity|].
  destruct (@step_ok i j M Hi Hj) as (M1 & HM1 & H1). cbn [fst snd]. rewrite HM1. cbn [bind].
  destruct (IH (fun i' j' h => Hl i' j' (or_intror h)) M1) as (M' & HM' & H2). exists M'. split; [exact HM'|].
  intros r c. destruct (H2 r c) as [(i' & j' & p & q & (C1 & C2) & Hv)|[Hno HM]].
  - left. exists i', j', p, q. split; [split; [right; exact C1|exact C2]|exact Hv].
  - destruct (H1 r c) as [(p & q & (C1 & C2) & Hv)|[Hno1 HM0]].
    + left. exists i, j, p, q. split; [split; [left; reflexivity|exact C2]|]. rewrite HM. exact Hv.
    + right. split; [|congruence]. intros i' j' p q ([He|C1] & C2).
      * injection He; intros <- <-. apply (Hno1 p q). split; [left; reflexivity|exact C2].
      * apply (Hno i' j' p q). split; assumption.
Qed.

Definition all_pairs : list (nat * nat) := list_prod (seq 0 (length tcs)) (seq 0 (length tcs)).
Lemma all_pairs_In i j : In (i, j) all_pairs <-> i < length tcs /\ j < length tcs.
Proof. unfold all_pairs. rewrite in_prod_iff, !in_seq. lia. Qed.
Lemma recon_ok : exists M', reconstructed A sk = Ok M' /\
  forall r c, (exists i j p q, covered all_pairs r c i j p q /\ block_value i j p q (M' r c)) \/
              ((forall i j p q, ~ covered all_pairs r c i j p q) /\ M' r c = A r c).
Proof.
  unfold reconstructed. rewrite sk_n.
  assert (E : list_prod (zrange (Z.of_nat (length tcs))) (zrange (Z.of_nat (length tcs)))
     = map (fun ij => (Z.of_nat (fst ij), Z.of_nat (snd ij))) all_pairs).
  { unfold all_pairs, zrange. rewrite Nat2Z.id.
    assert (G : forall (l : list nat) (l' : list nat), list_prod (map Z.of_nat l) (map Z.of_nat l')
       = map (fun ij => (Z.of_nat (fst ij), Z.of_nat (snd ij))) (list_prod l l')).
    { induction l as [|x l IH]; intros l'; [reflexivity|]. cbn [map list_prod]. rewrite map_app, IH, !map_map. reflexivity. }
    apply G. }
  rewrite E. apply steps_ok. intros i j H. apply all_pairs_In. exact H.
Qed.
End Norm.
End P5.
