From Coq Require Import QArith Permutation.
From Verif Require Import Base RefineModel RefineSpec RefineProofs AssocModel AssocSpec.
Set Implicit Arguments.
Open Scope nat_scope.

Lemma nth_pt_src S C Ts s : s < length S -> nth_pt (particles S C Ts) s = nth_pt S s.
Proof. intros H. unfold nth_pt, particles. apply app_nth1. exact H. Qed.
Lemma nth_pt_ctr S C Ts c : c < length C -> nth_pt (particles S C Ts) (length S + c) = nth_pt C c.
Proof.
  intros H. unfold nth_pt, particles. rewrite app_nth2 by lia. replace (length S + c - length S) with c by lia. apply app_nth1. exact H.
Qed.
Lemma nth_pt_tgt S C Ts i : nth_pt (particles S C Ts) (length S + length C + i) = nth_pt (concat Ts) i.
Proof.
  unfold nth_pt, particles. rewrite app_nth2 by lia. rewrite app_nth2 by lia. f_equal. lia.
Qed.
Lemma particles_length S C Ts : length (particles S C Ts) = length S + length C + list_sum (map (@length pt) Ts).
Proof.
  unfold particles. rewrite !app_length. rewrite <- Nat.add_assoc. f_equal. f_equal.
  induction Ts as [|t Ts IH]; cbn; [reflexivity|]. rewrite app_length, IH. reflexivity.
Qed.
Lemma concat_length' (Ts : list (list pt)) : length (concat Ts) = list_sum (map (@length pt) Ts).
Proof. induction Ts as [|t Ts IH]; cbn; [reflexivity|]. rewrite app_length, IH. reflexivity. Qed.

(** A class list holds exactly the particles of the class in the box. *)
Lemma box_class_spec P T lo n b k : tree_ok P T -> lo + n <= length P ->
  (In k (box_class T lo n b) <-> k < n /\ bt_box_of T (nth_pt P (lo + k)) = b).
Proof.
  intros HT HL. unfold box_class. rewrite in_map_iff. split.
  - intros (u & E & I). apply filter_In in I. destruct I as [I F]. apply andb_true_iff in F. destruct F as [F1 F2].
    apply Nat.leb_le in F1. apply Nat.ltb_lt in F2.
    apply in_map_iff in I. destruct I as (j & Ej & I). apply (to_leaf HT) in I. destruct I as [J B].
    destruct (to_user HT J) as [U1 U2]. split; [lia|]. replace (lo + k) with u by lia. subst u.
    rewrite <- (to_coords HT U1), U2. exact B.
  - intros [K B]. exists (lo + k). split; [lia|]. apply filter_In. split.
    + apply in_map_iff. exists (bt_sorted T (lo + k)).
      destruct (to_sorted HT) with (u := lo + k) as [S1 S2]; [lia|]. split; [exact S2|]. apply (to_leaf HT).
      split; [exact S1|]. rewrite (to_coords HT) by lia. exact B.
    + apply andb_true_iff. split; [apply Nat.leb_le; lia|apply Nat.ltb_lt; lia].
Qed.
Lemma filter_NoDup' (f : nat -> bool) l : NoDup l -> NoDup (filter f l).
Proof. intros H. apply NoDup_filter. exact H. Qed.

Section Ok.
Variable D : device.
Variable near : pt -> pt -> Q.
Variables S C : list pt.
Variable Ts : list (list pt).
Variable T : btree.
Hypothesis HT : tree_ok (particles S C Ts) T.
Hypothesis HQ : queries_ok D near (particles S C Ts) T.
Let q := QT T (length S) (length C) (list_sum (map (@length pt) Ts)).
Let P := particles S C Ts.
Let TG := concat Ts.

Lemma source_pt_ok s : s < length S -> source_pt q s = nth_pt S s.
Proof.
  intros H. unfold source_pt, src_start, q. cbn [qt]. rewrite (to_coords HT) by (rewrite particles_length; lia).
  apply nth_pt_src. exact H.
Qed.
Lemma center_pt_ok c : c < length C -> center_pt q c = nth_pt C c.
Proof.
  intros H. unfold center_pt, ctr_start, q. cbn [qt q_nsrc]. rewrite (to_coords HT) by (rewrite particles_length; lia).
  apply nth_pt_ctr. exact H.
Qed.
Lemma target_pt_ok i : i < length TG -> target_pt q i = nth_pt TG i.
Proof.
  intros H. unfold target_pt, tgt_start, q. cbn [qt q_nsrc q_nctr]. unfold TG in *. rewrite concat_length' in H.
  rewrite (to_coords HT) by (rewrite particles_length; lia). apply nth_pt_tgt.
Qed.
Lemma In_box_sources b s : In s (box_sources q b) <-> s < length S /\ bt_box_of T (nth_pt S s) = b.
Proof.
  unfold box_sources, src_start, q. cbn [qt q_nsrc]. rewrite (@box_class_spec P T) by (try exact HT; unfold P; rewrite particles_length; lia).
  cbn [plus]. split; intros [A B]; (split; [exact A|]); [rewrite <- (@nth_pt_src S C Ts s A)|unfold P; rewrite (@nth_pt_src S C Ts s A)]; exact B.
Qed.
Lemma In_box_centers b c : In c (box_centers q b) <-> c < length C /\ bt_box_of T (nth_pt C c) = b.
Proof.
  unfold box_centers, ctr_start, q. cbn [qt q_nsrc q_nctr]. rewrite (@box_class_spec P T) by (try exact HT; unfold P; rewrite particles_length; lia).
  split; intros [A B]; (split; [exact A|]); [rewrite <- (@nth_pt_ctr S C Ts c A)|unfold P; rewrite (@nth_pt_ctr S C Ts c A)]; exact B.
Qed.
Lemma In_box_targets b i : In i (box_targets q b) <-> i < length TG /\ bt_box_of T (nth_pt TG i) = b.
Proof.
  unfold box_targets, tgt_start, q. cbn [qt q_nsrc q_nctr q_ntgt]. rewrite (@box_class_spec P T) by (try exact HT; unfold P; rewrite particles_length; lia).
  unfold P. rewrite nth_pt_tgt. unfold TG. rewrite concat_length'. reflexivity.
Qed.

(** If target [i] lies in ball [(x, r)] around user particle [u], the box of [u] is visited. *)
Lemma visits balls u r i : In (nth_pt P u, r) balls -> u < length P -> i < length TG ->
  (dv_dist D (nth_pt TG i) (nth_pt P u) <= r)%Q ->
  In (bt_box_of T (nth_pt P u)) (visited D q (dv_invader D T balls) i).
Proof.
  intros HB HU HI HD. unfold visited. rewrite target_pt_ok by exact HI. unfold q. cbn [qt].
  assert (UI : length S + length C + i < length P).
  { unfold P. rewrite particles_length. unfold TG in HI. rewrite concat_length' in HI. lia. }
  destruct (to_sorted HT UI) as [SI _]. destruct (to_sorted HT HU) as [SU _].
  assert (EI : bt_coords T (bt_sorted T (length S + length C + i)) = nth_pt TG i) by (rewrite (to_coords HT UI); apply nth_pt_tgt).
  assert (EU : bt_coords T (bt_sorted T u) = nth_pt P u) by (apply (to_coords HT HU)).
  rewrite <- EU. apply (qo_visit HQ); [exact SU|]. rewrite EU. rewrite <- EI.
  apply (qo_invader HQ) with (r := r); [exact HB|exact SI|]. rewrite EI. exact HD.
Qed.

Lemma In_invader_sources tunnel s : s < length S -> In (nth_pt P s, tunnel s) (invader_sources q tunnel).
Proof.
  intros H. unfold invader_sources. apply in_map_iff. exists s. split.
  - f_equal. fold (source_pt q s). rewrite (source_pt_ok H). unfold P. symmetry. apply nth_pt_src. exact H.
  - apply in_seq. unfold q. cbn [q_nsrc]. lia.
Qed.
Lemma In_invader_centers radius c : c < length C -> In (nth_pt P (length S + c), radius c) (invader_centers q radius).
Proof.
  intros H. unfold invader_centers. apply in_map_iff. exists c. split.
  - f_equal. fold (center_pt q c). rewrite (center_pt_ok H). unfold P. symmetry. apply nth_pt_ctr. exact H.
  - apply in_seq. unfold q. cbn [q_nctr]. lia.
Qed.

Hypothesis Hsym : forall x y, (dv_dist D x y == dv_dist D y x)%Q.

Lemma marked_spec tunnel i : i < length TG -> (marked D q tunnel i = true <-> close (dv_dist D) S TG tunnel i).
Proof.
  intros HI. unfold marked, close. rewrite existsb_exists. split.
  - intros (b & _ & E). apply existsb_exists in E. destruct E as (s & I & L). apply In_box_sources in I.
    exists s. split; [apply I|]. rewrite (source_pt_ok (proj1 I)), (target_pt_ok HI) in L. apply Qle_bool_iff. exact L.
  - intros (s & Hs & L). exists (bt_box_of T (nth_pt S s)). split.
    + rewrite <- (@nth_pt_src S C Ts s Hs). fold P. apply visits with (r := tunnel s).
      * apply In_invader_sources. exact Hs.
      * unfold P. rewrite particles_length. lia.
      * exact HI.
      * unfold P. rewrite (@nth_pt_src S C Ts s Hs). rewrite Hsym. exact L.
    + apply existsb_exists. exists s. split; [apply In_box_sources; auto|]. rewrite (source_pt_ok Hs), (target_pt_ok HI).
      apply Qle_bool_iff. exact L.
Qed.

Variable radius : nat -> Q.
Variable tol : Q.
Variable flag : nat -> Z.
Let rad := fun c => (radius (c / 2)%nat * (1 + tol))%Q.
Hypothesis Hrad : forall c, (0 < reach radius tol c)%Q.

Lemma center_side_ok c : center_side c = side_of c.
Proof.
  unfold center_side, side_of. assert (H := Nat.div_mod c 2 ltac:(lia)).
  destruct (Nat.even c) eqn:E.
  - apply Nat.even_spec in E. destruct E as [k ->]. replace (Z.of_nat (2 * k)) with (Z.of_nat k * 2)%Z by lia. rewrite Z.mod_mul by lia. reflexivity.
  - assert (O : Nat.odd c = true) by (unfold Nat.odd; rewrite E; reflexivity). apply Nat.odd_spec in O. destruct O as [k ->].
    replace (Z.of_nat (2 * k + 1)) with (1 + Z.of_nat k * 2)%Z by lia. rewrite Z.mod_add by lia. reflexivity.
Qed.

Let adm i c := admissible (dv_dist D) C TG radius tol flag i c.
Let rel i c := rel_dist (dv_dist D) C TG radius tol i c.
Let dst i c := dv_dist D (nth_pt TG i) (nth_pt C c).

Lemma rel_le_1 i c : ((rel i c <= 1)%Q <-> (dst i c <= reach radius tol c)%Q).
Proof.
  unfold rel, rel_dist, dst. split; intros H.
  - apply (Qmult_le_compat_r _ _ (reach radius tol c)) in H; [|apply Qlt_le_weak, Hrad].
    rewrite Qmult_1_l in H. unfold Qdiv in H. rewrite <- Qmult_assoc, (Qmult_comm (/ _)), Qmult_inv_r, Qmult_1_r in H; [exact H|].
    intros E. assert (X := Hrad c). rewrite E in X. apply (Qlt_irrefl 0). exact X.
  - apply Qle_shift_div_r; [apply Hrad|]. rewrite Qmult_1_l. exact H.
Qed.

(** The winner of a side among the centers [L] seen so far. *)
Definition best_of (i : nat) (sd : Z) (L : list nat) (b : best) : Prop :=
  match b with
  | None => forall c, In c L -> adm i c -> side_of c <> sd
  | Some (r, d, c) => In c L /\ adm i c /\ side_of c = sd /\ r = rel i c /\ d = dst i c
      /\ forall c', In c' L -> adm i c' -> side_of c' = sd -> (rel i c <= rel i c')%Q
  end.

Lemma side_cases c : side_of c = 1%Z \/ side_of c = (-1)%Z.
Proof. unfold side_of. destruct (Nat.even c); auto. Qed.

Lemma best_of_skip i sd L b c : best_of i sd L b -> ~ (adm i c /\ side_of c = sd) -> best_of i sd (L ++ [c]) b.
Proof.
  intros H N. destruct b as [[[r d] c0]|].
  - destruct H as (A & B & E & F & G & K). split; [apply in_or_app; left; exact A|]. split; [exact B|]. split; [exact E|].
    split; [exact F|]. split; [exact G|].
    intros c' I A' S'. apply in_app_or in I. destruct I as [I|[<- | []]]; [apply K; assumption|]. exfalso. apply N. auto.
  - cbn in *. intros c' I A' S'. apply in_app_or in I. destruct I as [I|[<- | []]]; [exact (H c' I A' S')|]. apply N. auto.
Qed.
Lemma best_of_take i sd L b c : best_of i sd L b -> adm i c -> side_of c = sd ->
  best_of i sd (L ++ [c]) (if improves (rel i c) b then Some (rel i c, dst i c, c) else b).
Proof.
  intros H A E. destruct b as [[[r d] c0]|]; cbn [improves].
  - destruct H as (A0 & B0 & E0 & F0 & G0 & K0). subst r d. destruct (Qle_bool (rel i c0) (rel i c)) eqn:Q0; cbn [negb].
    + split; [apply in_or_app; auto|]. split; [exact B0|]. split; [exact E0|]. split; [reflexivity|]. split; [reflexivity|].
      intros c' I A' S'. apply in_app_or in I. destruct I as [I|[<- | []]]; [apply K0; assumption|]. apply Qle_bool_iff. exact Q0.
    + apply Qle_bool_false in Q0. split; [apply in_or_app; right; left; reflexivity|]. split; [exact A|]. split; [exact E|]. split; [reflexivity|]. split; [reflexivity|].
      intros c' I A' S'. apply in_app_or in I. destruct I as [I|[<- | []]]; [|apply Qle_refl].
      apply Qlt_le_weak. eapply Qlt_le_trans; [exact Q0|]. apply K0; assumption.
  - split; [apply in_or_app; right; left; reflexivity|]. split; [exact A|]. split; [exact E|]. split; [reflexivity|]. split; [reflexivity|].
    intros c' I A' S'. apply in_app_or in I. destruct I as [I|[<- | []]]; [|apply Qle_refl]. exfalso. exact (H c' I A' S').
Qed.

Definition state_ok (i : nat) (L : list nat) (st : fstate) : Prop :=
  best_of i 1 L (f_plus st) /\ best_of i (-1) L (f_minus st).

Lemma consider_spec i L st c : i < length TG -> c < length C -> state_ok i L st ->
  state_ok i (L ++ [c]) (consider D q rad (flag i) i st c).
Proof.
  intros HI HC [HP HM]. unfold consider. rewrite center_side_ok.
  assert (ADM : adm i c <-> (0 <= side_of c * flag i)%Z /\ (dst i c <= reach radius tol c)%Q).
  { unfold adm, admissible, allowed, dst. tauto. }
  destruct (side_of c * flag i <? 0)%Z eqn:SF.
  { apply Z.ltb_lt in SF. assert (N : ~ adm i c) by (rewrite ADM; lia). split; apply best_of_skip; auto; tauto. }
  apply Z.ltb_ge in SF. rewrite (target_pt_ok HI), (center_pt_ok HC). fold (dst i c).
  change (dst i c / rad c)%Q with (rel i c).
  destruct (Qle_bool (rel i c) 1) eqn:R1; cbn [negb].
  2: { assert (N : ~ adm i c).
       { rewrite ADM. intros [_ X]. apply rel_le_1 in X. apply Qle_bool_iff in X. congruence. }
       split; apply best_of_skip; auto; tauto. }
  apply Qle_bool_iff in R1. apply rel_le_1 in R1. assert (A : adm i c) by (apply ADM; auto).
  destruct (side_cases c) as [E|E]; rewrite E; cbn [Z.ltb Z.compare].
  - assert (X := @best_of_take i 1 L (f_plus st) c HP A E). destruct (improves (rel i c) (f_plus st)); split; cbn [f_plus f_minus]; auto;
      apply best_of_skip; auto; intros [_ Y]; congruence.
  - assert (X := @best_of_take i (-1) L (f_minus st) c HM A E). destruct (improves (rel i c) (f_minus st)); split; cbn [f_plus f_minus]; auto;
      apply best_of_skip; auto; intros [_ Y]; congruence.
Qed.
Lemma consider_center i st c : f_center (consider D q rad (flag i) i st c) = f_center st.
Proof.
  unfold consider. repeat match goal with |- context [if ?x then _ else _] => destruct x end; reflexivity.
Qed.
Lemma consider_all i : i < length TG -> forall cs L st, (forall c, In c cs -> c < length C) -> state_ok i L st ->
  state_ok i (L ++ cs) (fold_left (consider D q rad (flag i) i) cs st).
Proof.
  intros HI. induction cs as [|c cs IH]; intros L st HC HS; cbn [fold_left].
  - rewrite app_nil_r. exact HS.
  - replace (L ++ c :: cs) with ((L ++ [c]) ++ cs) by (rewrite <- app_assoc; reflexivity). apply IH.
    + intros c' I. apply HC. right. exact I.
    + apply consider_spec; auto. apply HC. left. reflexivity.
Qed.
Definition decided (st : fstate) : Prop :=
  f_center st = if closer (f_plus st) (f_minus st) then winner (f_plus st) else winner (f_minus st).
Lemma leaves_spec i : i < length TG -> forall bs L st, state_ok i L st -> decided st ->
  state_ok i (L ++ flat_map (box_centers q) bs) (fold_left (leaf_step D q rad (flag i) i) bs st)
  /\ decided (fold_left (leaf_step D q rad (flag i) i) bs st).
Proof.
  intros HI. induction bs as [|b bs IH]; intros L st HS HD; cbn [fold_left flat_map].
  - rewrite app_nil_r. auto.
  - rewrite app_assoc. apply IH; [|reflexivity]. unfold leaf_step, decide_center.
    assert (X := @consider_all i HI (box_centers q b) L st (fun c I => proj1 (proj1 (In_box_centers b c) I)) HS).
    exact X.
Qed.

(** Correctness of the center finder for one target. *)
Lemma find_center_spec i : i < length TG ->
  match f_center (find_center D q rad (flag i) i) with
  | Some c => chosen (dv_dist D) C TG radius tol flag i c /\ found (find_center D q rad (flag i) i) = true
  | None => (forall c, ~ adm i c) /\ found (find_center D q rad (flag i) i) = false
  end.
Proof.
  intros HI. set (bs := visited D q (dv_invader D (qt q) (invader_centers q rad)) i).
  assert (S0 : state_ok i [] (FS None None None)) by (split; intros c []).
  assert (D0 : decided (FS None None None)) by reflexivity.
  destruct (@leaves_spec i HI bs [] _ S0 D0) as [[HP HM] HD]. cbn [app] in HP, HM.
  assert (ALL : forall c, adm i c -> In c (flat_map (box_centers q) bs)).
  { intros c A. destruct A as (Hc & _ & Hd). apply in_flat_map. exists (bt_box_of T (nth_pt C c)). split.
    - rewrite <- (@nth_pt_ctr S C Ts c Hc). fold P. unfold bs. apply visits with (r := rad c).
      + apply In_invader_centers. exact Hc.
      + unfold P. rewrite particles_length. lia.
      + exact HI.
      + unfold P. rewrite (@nth_pt_ctr S C Ts c Hc). exact Hd.
    - apply In_box_centers. auto. }
  assert (EQ : find_center D q rad (flag i) i = fold_left (leaf_step D q rad (flag i) i) bs (FS None None None)) by reflexivity.
  rewrite EQ. clear EQ. set (st := fold_left (leaf_step D q rad (flag i) i) bs (FS None None None)) in *.
  unfold decided in HD. unfold found.
  assert (BEST : forall sd c r d, best_of i sd (flat_map (box_centers q) bs) (Some (r, d, c)) ->
     side_best (dv_dist D) C TG radius tol flag i c /\ side_of c = sd /\ d = dst i c).
  { intros sd c r d (_ & A & E & _ & G & K). split; [|split; [exact E|exact G]]. split; [exact A|].
    intros c' A' E'. apply K; [apply ALL; exact A'|exact A'|congruence]. }
  destruct (f_plus st) as [[[rp dp] cp]|] eqn:EP, (f_minus st) as [[[rm dm] cm]|] eqn:EM; cbn [closer winner] in HD.
  - destruct (BEST _ _ _ _ HP) as (BP & SP & DP), (BEST _ _ _ _ HM) as (BM & SM & DM). subst dp dm.
    destruct (Qle_bool (dst i cm) (dst i cp)) eqn:LE; cbn [negb] in HD; rewrite HD; (split; [|reflexivity]).
    + split; [exact BM|]. intros _. exists cp. split; [exact BP|]. split; [congruence|]. apply Qle_bool_iff. exact LE.
    + split; [exact BP|]. intros _. exists cm. split; [exact BM|]. split; [congruence|]. apply Qle_bool_false in LE. apply Qlt_le_weak. exact LE.
  - destruct (BEST _ _ _ _ HP) as (BP & SP & DP). rewrite HD. split; [|reflexivity]. split; [exact BP|].
    intros (c' & A' & N'). exfalso. destruct (side_cases c') as [E|E]; [congruence|]. exact (HM c' (ALL c' A') A' E).
  - destruct (BEST _ _ _ _ HM) as (BM & SM & DM). rewrite HD. split; [|reflexivity]. split; [exact BM|].
    intros (c' & A' & N'). exfalso. destruct (side_cases c') as [E|E]; [|congruence]. exact (HP c' (ALL c' A') A' E).
  - rewrite HD. split; [|reflexivity]. intros c A. destruct (side_cases c) as [E|E]; [exact (HP c (ALL c A) A E)|exact (HM c (ALL c A) A E)].
Qed.

(** Elements flagged on behalf of target [i]. *)
Lemma elements_near_spec d tunnel i e : i < length TG -> ndofs d = length S -> proper d ->
  In e (elements_near D q d tunnel i) ->
  exists s, on_element d e s /\ (dv_dist D (nth_pt TG i) (nth_pt S s) <= tunnel s)%Q.
Proof.
  intros HI HN HP I. unfold elements_near in I. apply in_flat_map in I. destruct I as (b & _ & I).
  apply in_flat_map in I. destruct I as (s & Is & I). apply In_box_sources in Is. destruct Is as [Hs _].
  rewrite (target_pt_ok HI), (source_pt_ok Hs) in I.
  destruct (Qle_bool _ _) eqn:L; [|destruct I]. destruct I as [<- | []]. exists s. split; [|apply Qle_bool_iff; exact L].
  destruct (owns_total HP) with (n := s) as [e E]; [unfold ndofs in HN; lia|].
  rewrite (@owner_of_node d e s E). exact E.
Qed.
Lemma elements_near_complete d tunnel i e s : i < length TG -> 
  (forall u, u < length S -> bt_user T u = bt_sorted T u) ->
  on_element d e s -> s < length S -> (dv_dist D (nth_pt TG i) (nth_pt S s) <= tunnel s)%Q ->
  In e (elements_near D q d tunnel i).
Proof.
  intros HI HV HE Hs HD. unfold elements_near. apply in_flat_map. exists (bt_box_of T (nth_pt S s)). split.
  - rewrite <- (@nth_pt_src S C Ts s Hs). fold P. apply visits with (r := tunnel s).
    + unfold invader_refine. apply in_map_iff. exists s. split; [|apply in_seq; unfold q; cbn [q_nsrc]; lia].
      f_equal. unfold q, src_start. cbn [qt plus]. rewrite (HV s Hs). unfold P. apply (to_coords HT). rewrite particles_length. lia.
    + unfold P. rewrite particles_length. lia.
    + exact HI.
    + unfold P. rewrite (@nth_pt_src S C Ts s Hs). exact HD.
  - apply in_flat_map. exists s. split; [apply In_box_sources; auto|]. rewrite (target_pt_ok HI), (source_pt_ok Hs).
    apply Qle_bool_iff in HD. rewrite HD. left. apply owner_of_node. exact HE.
Qed.
End Ok.

Lemma target_flags_spec l : match target_flags (map (fun t : list pt * sides => (length (fst t), snd t)) l) with
  | Ok f => sides_fit l /\ f = request_of l
  | Err e => e = AssertionError /\ ~ sides_fit l
  end.
Proof.
  induction l as [|[t s] l IH]; cbn [map fst snd target_flags].
  - split; [constructor|reflexivity].
  - unfold sides_fit, request_of in *. cbn [flat_map fst snd].
    destruct s as [z|a].
    + cbn [bind]. destruct (target_flags _) as [f|e]; cbn [bind].
      * destruct IH as [A ->]. split; [constructor; [exact I|exact A]|reflexivity].
      * destruct IH as [-> N]. split; [reflexivity|]. intros X. inversion X; subst. auto.
    + destruct (length a =? length t) eqn:L; cbn [bind].
      * apply Nat.eqb_eq in L. destruct (target_flags _) as [f|e]; cbn [bind].
        -- destruct IH as [A ->]. split; [constructor; [exact L|exact A]|reflexivity].
        -- destruct IH as [-> N]. split; [reflexivity|]. intros X. inversion X; subst. auto.
      * apply Nat.eqb_neq in L. split; [reflexivity|]. intros X. inversion X; subst. auto.
Qed.

Lemma set_flags_spec hits : forall fl e, e < length fl ->
  length (fold_left set_flag hits fl) = length fl /\ (nth e (fold_left set_flag hits fl) false = true <-> nth e fl false = true \/ In e hits).
Proof.
  induction hits as [|h hits IH]; intros fl e He; cbn [fold_left].
  - split; [reflexivity|]. cbn. tauto.
  - destruct (IH (set_flag fl h) e) as [A B]; [rewrite set_flag_length; exact He|]. split; [rewrite A; apply set_flag_length|].
    rewrite B, set_flag_nth by exact He. cbn [In]. destruct (e =? h) eqn:E.
    + apply Nat.eqb_eq in E. subst. tauto.
    + apply Nat.eqb_neq in E. split; [tauto|]. intros [X|[X|X]]; [tauto|congruence|tauto].
Qed.
