From Coq Require Import Reals Lra Rgeom.
From Verif Require Import Base IndexModel IndexSpec IndexProofs PgModel PgSpec PgProofs PgProofs2 PgGeoModel PgGeoSpec.
Set Implicit Arguments.
Open Scope R_scope.

(** *** The Euclidean distance is a metric *)
Definition sq (c x : point) : R := rsum (map (fun ab => (fst ab - snd ab) ^ 2) (combine c x)).
Lemma sq_nonneg c : forall x, 0 <= sq c x.
Proof.
  induction c as [|a c IH]; intros [|b x]; try (unfold sq; simpl; lra).
  specialize (IH x). change (0 <= (a - b) ^ 2 + sq c x). pose proof (pow2_ge_0 (a - b)). lra.
Qed.
Lemma dist_nonneg c x : 0 <= dist c x.
Proof. apply sqrt_pos. Qed.
Lemma sq_sym c : forall x, sq c x = sq x c.
Proof. induction c as [|a c IH]; intros [|b x]; try (unfold sq; simpl; lra).
  specialize (IH x). change ((a - b) ^ 2 + sq c x = (b - a) ^ 2 + sq x c). rewrite IH. ring. Qed.
Lemma dist_sym c x : dist c x = dist x c.
Proof. unfold dist. fold (sq c x) (sq x c). rewrite sq_sym. reflexivity. Qed.
Lemma dist_cons a b c x : dist (a :: c) (b :: x) = sqrt ((a - b) ^ 2 + (dist c x) ^ 2).
Proof.
  unfold dist. f_equal. fold (sq c x). cbn [combine map rsum fold_right fst snd]. f_equal.
  rewrite <- Rsqr_pow2. rewrite Rsqr_sqrt by apply sq_nonneg. reflexivity.
Qed.
Lemma sqrt_plane a b c d : 0 <= a -> 0 <= b -> 0 <= c -> 0 <= d ->
  sqrt ((a + b) ^ 2 + (c + d) ^ 2) <= sqrt (a ^ 2 + c ^ 2) + sqrt (b ^ 2 + d ^ 2).
Proof.
  intros Ha Hb Hc Hd. pose proof (triangle (a + b) (c + d) 0 0 a c) as T. unfold dist_euc in T.
  rewrite !Rsqr_minus in T. unfold Rsqr in T. replace (sqrt ((a + b) ^ 2 + (c + d) ^ 2)) with
    (sqrt ((a + b) * (a + b) + 0 * 0 - 2 * (a + b) * 0 + ((c + d) * (c + d) + 0 * 0 - 2 * (c + d) * 0)))
    by (f_equal; ring).
  replace (sqrt (a ^ 2 + c ^ 2)) with (sqrt (a * a + 0 * 0 - 2 * a * 0 + (c * c + 0 * 0 - 2 * c * 0))) by (f_equal; ring).
  replace (sqrt (b ^ 2 + d ^ 2)) with (sqrt ((a + b) * (a + b) + a * a - 2 * (a + b) * a + ((c + d) * (c + d) + c * c - 2 * (c + d) * c)))
    by (f_equal; ring). lra.
Qed.
Lemma dist_triangle : forall x y z, length x = length y -> length y = length z -> dist x z <= dist x y + dist y z.
Proof.
  induction x as [|a x IH]; intros [|b y] [|c z] H1 H2; try discriminate.
  - unfold dist. simpl. rewrite sqrt_0. lra.
  - rewrite !dist_cons. injection H1 as H1. injection H2 as H2. specialize (IH y z H1 H2).
    pose proof (dist_nonneg x y). pose proof (dist_nonneg y z). pose proof (dist_nonneg x z).
    eapply Rle_trans; [|pose proof (@sqrt_plane (Rabs (a - b)) (Rabs (b - c)) (dist x y) (dist y z)) as Q;
      rewrite !pow2_abs in Q; apply Q; auto using Rabs_pos].
    apply sqrt_le_1_alt. assert (Rabs (a - c) <= Rabs (a - b) + Rabs (b - c)).
    { replace (a - c) with ((a - b) + (b - c)) by ring. apply Rabs_triang. }
    rewrite <- (pow2_abs (a - c)). pose proof (Rabs_pos (a - c)).
    apply Rplus_le_compat; apply pow_incr; lra.
Qed.

(** *** Reductions *)
Lemma fold_max : forall l x, (x <= fold_left Rmax l x /\ forall y, In y l -> y <= fold_left Rmax l x) /\
  (fold_left Rmax l x = x \/ In (fold_left Rmax l x) l).
Proof.
  induction l as [|y l IH]; intros x; simpl; [split; [split; [lra|tauto]|auto]|].
  destruct (IH (Rmax x y)) as [[H1 H2] H3]. split.
  - split; [eapply Rle_trans; [apply Rmax_l|exact H1]|]. intros z [<-|Hz]; [|auto].
    eapply Rle_trans; [apply Rmax_r|exact H1].
  - destruct H3 as [->|H3]; [|auto]. unfold Rmax. destruct (Rle_dec x y); auto.
Qed.
Lemma fold_min : forall l x, (fold_left Rmin l x <= x /\ forall y, In y l -> fold_left Rmin l x <= y) /\
  (fold_left Rmin l x = x \/ In (fold_left Rmin l x) l).
Proof.
  induction l as [|y l IH]; intros x; simpl; [split; [split; [lra|tauto]|auto]|].
  destruct (IH (Rmin x y)) as [[H1 H2] H3]. split.
  - split; [eapply Rle_trans; [exact H1|apply Rmin_l]|]. intros z [<-|Hz]; [|auto].
    eapply Rle_trans; [exact H1|apply Rmin_r].
  - destruct H3 as [->|H3]; [|auto]. unfold Rmin. destruct (Rle_dec x y); auto.
Qed.
Lemma rmax_spec l m : rmax l = Some m -> greatest l m.
Proof.
  destruct l as [|x l]; intros H; [discriminate|]. injection H as <-. destruct (fold_max l x) as [[H1 H2] H3].
  split; [destruct H3 as [->|H3]; simpl; auto|]. intros y [<-|Hy]; auto.
Qed.
Lemma rmin_spec l m : rmin l = Some m -> least l m.
Proof.
  destruct l as [|x l]; intros H; [discriminate|]. injection H as <-. destruct (fold_min l x) as [[H1 H2] H3].
  split; [destruct H3 as [->|H3]; simpl; auto|]. intros y [<-|Hy]; auto.
Qed.
Lemma rmax_some l : l <> [] -> exists m, rmax l = Some m.
Proof. destruct l; [congruence|]. simpl. eauto. Qed.
Lemma rmin_some l : l <> [] -> exists m, rmin l = Some m.
Proof. destruct l; [congruence|]. simpl. eauto. Qed.

Lemma opt_all_spec (A : Type) : forall (l : list (option A)) xs, opt_all l = Some xs <-> l = map Some xs.
Proof.
  induction l as [|o l IH]; intros xs; simpl.
  - split; [intros H; injection H as <-; reflexivity|]. destruct xs; [reflexivity|discriminate].
  - destruct o as [x|].
    + destruct (opt_all l) as [ys|].
      * split; [intros H; injection H as <-; simpl; f_equal; apply IH; reflexivity|].
        destruct xs as [|y xs]; [discriminate|]. simpl. intros H. injection H as -> H. apply IH in H.
        injection H as ->. reflexivity.
      * split; [discriminate|]. destruct xs as [|y xs]; [discriminate|]. simpl. intros H.
        injection H as -> H. apply IH in H. discriminate.
    + split; [discriminate|]. destruct xs; discriminate.
Qed.
Lemma map_Some_entry (A B : Type) (f : A -> option B) l xs i a : map f l = map Some xs -> entry l i a ->
  exists b, entry xs i b /\ f a = Some b.
Proof.
  intros E H. apply (entry_map f) in H. rewrite E in H. apply entry_map_inv in H.
  destruct H as (b & Hb & ->). eauto.
Qed.
Lemma map_Some_len (A B : Type) (f : A -> option B) l xs : map f l = map Some xs -> length xs = length l.
Proof. intros E. apply (f_equal (@length _)) in E. rewrite !map_length in E. auto. Qed.

(** *** Centers *)
Lemma center_len nt d pts c : center nt d pts = Some c -> length c = d.
Proof.
  unfold center. intros H. apply opt_all_spec in H. apply map_Some_len in H. rewrite seq_length in H. exact H.
Qed.
Lemma seq_entry d k : (k < d)%nat -> entry (seq 0 d) (Z.of_nat k) k.
Proof.
  intros H. split; [lia|]. rewrite Nat2Z.id. rewrite (nth_error_nth' _ 0%nat) by (rewrite seq_length; lia).
  rewrite seq_nth by lia. reflexivity.
Qed.
Lemma center_coord nt d pts c k : center nt d pts = Some c -> (k < d)%nat ->
  center1 nt (map (coord k) pts) = Some (coord k c).
Proof.
  unfold center. intros H Hk. apply opt_all_spec in H.
  destruct (map_Some_entry _ _ H (seq_entry Hk)) as (b & Hb & E). rewrite E. f_equal.
  unfold coord. symmetry. rewrite <- (Nat2Z.id k). apply entry_nth. exact Hb.
Qed.
Lemma center_total nt d pts : pts <> [] -> exists c, center nt d pts = Some c.
Proof.
  intros Hp. unfold center. generalize (seq 0 d). intros ks. induction ks as [|k ks [c IH]]; simpl; [eauto|].
  assert (exists x, center1 nt (map (coord k) pts) = Some x) as [x ->].
  { assert (Hm : map (coord k) pts <> []) by (destruct pts; [congruence|discriminate]).
    destruct nt; simpl.
    - destruct (map (coord k) pts); [congruence|]. eauto.
    - destruct (rmax_some Hm) as [M ->]. destruct (rmin_some Hm) as [m ->]. eauto. }
  rewrite IH. eauto.
Qed.

(** *** Placed points *)
Lemma place_coord r c ref k : length ref = length c -> (k < length c)%nat ->
  coord k (place_point r c ref) = r * coord k ref + coord k c.
Proof.
  revert c k. induction ref as [|a ref IH]; intros [|b c] k Hl Hk; simpl in *; try lia; try discriminate.
  destruct k; [reflexivity|]. change (coord k (place_point r c ref) = r * coord k ref + coord k c). apply IH; lia.
Qed.
Lemma place_len r c ref : length ref = length c -> length (place_point r c ref) = length c.
Proof. intros H. unfold place_point. rewrite map_length, combine_length. lia. Qed.
Lemma place_sq r : forall ref c, length ref = length c ->
  sq c (place_point r c ref) = r ^ 2 * sq (repeat 0 (length ref)) ref.
Proof.
  induction ref as [|a ref IH]; intros [|b c] H; try discriminate; [unfold sq; simpl; ring|].
  injection H as H.
  change ((b - (r * a + b)) ^ 2 + sq c (place_point r c ref) = r ^ 2 * ((0 - a) ^ 2 + sq (repeat 0 (length ref)) ref)).
  rewrite IH by exact H. ring.
Qed.
Lemma place_dist r c ref : length ref = length c -> 0 <= r -> dist (repeat 0 (length ref)) ref = 1 ->
  dist c (place_point r c ref) = r.
Proof.
  intros Hl Hr H1. unfold dist. fold (sq c (place_point r c ref)). rewrite place_sq by exact Hl.
  assert (E : sq (repeat 0 (length ref)) ref = 1).
  { unfold dist in H1. fold (sq (repeat 0 (length ref)) ref) in H1.
    rewrite <- (Rsqr_sqrt _ (sq_nonneg _ _)), H1. unfold Rsqr. ring. }
  rewrite E, Rmult_1_r. rewrite <- Rsqr_pow2. apply sqrt_Rsqr. exact Hr.
Qed.
Lemma unit_circle_unit n p : In p (unit_circle n) -> length p = 2%nat /\ dist (repeat 0 2) p = 1.
Proof.
  unfold unit_circle. rewrite in_map_iff. intros (k & <- & _). split; [reflexivity|].
  unfold dist. simpl. set (t := INR k * _).
  replace ((0 - cos t) * ((0 - cos t) * 1) + ((0 - sin t) * ((0 - sin t) * 1) + 0)) with
    (Rsqr (sin t) + Rsqr (cos t)) by (unfold Rsqr; ring).
  rewrite sin2_cos2. apply sqrt_1.
Qed.
