From Coq Require Import QArith Permutation.
From Verif Require Import Base RefineModel RefineSpec RefineProofs AssocModel AssocSpec AssocProofs FmmModel FmmSpec FmmProofs FmmProofs2 KrnModel KrnProofs KrnProofs2 AkModel.
Set Implicit Arguments.
Open Scope string_scope. Open Scope list_scope. Open Scope nat_scope.

(** ** Executions that do not read the array, with the cells they write *)
Section Ww.
Variable R : Type.
Variable v : nat -> R.
Variable ok : nat -> R -> Prop.
Inductive exd : list (cmd R) -> env -> list nat -> env -> Prop :=
| DNil p : exd [] p [] p
| DSkip k p W p' : exd k p W p' -> exd (Skip :: k) p W p'
| DLet x (e : env -> value) k p W p' : exd k (assign_var p x (e p)) W p' -> exd (Let x e :: k) p W p'
| DStore (a : env -> nat) (f : env -> R -> R) k p W p' : (forall r, ok (a p) r -> f p r = v (a p)) -> exd k p W p' -> exd (Store a f :: k) p (a p :: W) p'
| DSeq c1 c2 k p W p' : exd (c1 :: c2 :: k) p W p' -> exd (Seq c1 c2 :: k) p W p'
| DFor x (lo hi : env -> nat) c k p W p' : exd (map (iteration x c) (seq (lo p) (hi p - lo p)) ++ k) p W p' -> exd (For x lo hi c :: k) p W p'
| DIf (t : env -> bool) c k p W p' : exd (if t p then c :: k else k) p W p' -> exd (If t c :: k) p W p'.

Lemma exd_app k1 k2 p W p1 W2 p2 : exd k1 p W p1 -> exd k2 p1 W2 p2 -> exd (k1 ++ k2) p (W ++ W2) p2.
Proof.
  intros E E2. induction E; cbn [app]; try (constructor; auto; fail).
  - exact E2.
  - constructor. rewrite <- app_assoc in IHE. auto.
  - constructor. destruct (t p); cbn [app] in IHE; auto.
Qed.
Lemma exd_exw k1 k2 p W p1 W2 : exd k1 p W p1 -> exw v ok k2 p1 W2 -> exw v ok (k1 ++ k2) p (W ++ W2).
Proof.
  intros E E2. induction E; cbn [app]; try (constructor; auto; fail).
  - exact E2.
  - constructor. rewrite <- app_assoc in IHE. auto.
  - constructor. destruct (t p); cbn [app] in IHE; auto.
Qed.

Definition ww (c : cmd R) (p : env) (Post : list nat -> env -> Prop) : Prop := exists W p', exd [c] p W p' /\ Post W p'.
Implicit Types (Post : list nat -> env -> Prop).
Lemma ww_skip p Post : Post [] p -> ww Skip p Post.
Proof. intros H. exists [], p. split; [do 2 constructor|exact H]. Qed.
Lemma ww_let x e p Post : Post [] (assign_var p x (e p)) -> ww (Let x e) p Post.
Proof. intros H. eexists. eexists. split; [do 2 constructor|exact H]. Qed.
Lemma ww_store (a : env -> nat) (f : env -> R -> R) p Post : (forall r, ok (a p) r -> f p r = v (a p)) -> Post [a p] p -> ww (Store a f) p Post.
Proof. intros F H. eexists. eexists. split; [constructor; [exact F|constructor]|exact H]. Qed.
Lemma ww_seq c1 c2 p Post : ww c1 p (fun V1 p1 => ww c2 p1 (fun V2 p2 => Post (V1 ++ V2) p2)) -> ww (Seq c1 c2) p Post.
Proof.
  intros (W1 & p1 & E1 & W2 & p2 & E2 & H). exists (W1 ++ W2), p2. split; [|exact H]. constructor. apply (exd_app E1 E2).
Qed.
Lemma ww_lets x u (e : env -> value) c2 p Post : e p = u -> ww c2 (assign_var p x u) Post -> ww (Seq (Let x e) c2) p Post.
Proof. intros <- H. apply ww_seq. apply ww_let. exact H. Qed.
Lemma ww_if (t : env -> bool) c p Post : (t p = true -> ww c p Post) -> (t p = false -> Post [] p) -> ww (If t c) p Post.
Proof.
  intros A B. destruct (t p) eqn:E.
  - destruct (A eq_refl) as (W & p' & X & H). exists W, p'. split; [|exact H]. constructor. rewrite E. exact X.
  - exists [], p. split; [|apply B; reflexivity]. constructor. rewrite E. constructor.
Qed.
Lemma ww_mono c p (Post Post' : list nat -> env -> Prop) : (forall W p', Post W p' -> Post' W p') -> ww c p Post -> ww c p Post'.
Proof. intros M (W & p' & E & H). exists W, p'. auto. Qed.
Lemma ww_for x (lo hi : env -> nat) c p (I : nat -> list nat -> env -> Prop) Post :
  lo p <= hi p -> I (lo p) [] p ->
  (forall k W p1, lo p <= k < hi p -> I k W p1 -> ww c (assign_var p1 x (VNum k)) (fun V p2 => I (S k) (W ++ V) p2)) ->
  (forall W p1, I (hi p) W p1 -> Post W p1) ->
  ww (For x lo hi c) p Post.
Proof.
  intros L I0 St Po.
  assert (G : forall n j W p1, lo p <= j -> j + n = hi p -> I j W p1 ->
    exists V p', exd (map (iteration x c) (seq j n)) p1 V p' /\ I (hi p) (W ++ V) p').
  { induction n as [|n IH]; intros j W p1 Lj E Ij.
    - exists [], p1. split; [constructor|]. rewrite app_nil_r. replace (hi p) with j by lia. exact Ij.
    - destruct (St j W p1) as (V & p2 & E2 & I2); [lia|exact Ij|].
      destruct (IH (S j) (W ++ V) p2) as (V' & p' & E' & I'); [lia|lia|exact I2|].
      exists (V ++ V'), p'. split; [|rewrite app_assoc; exact I']. cbn [seq map].
      apply (@exd_app [iteration x c j] _ _ V p2); [|exact E'].
      unfold iteration. constructor. constructor. exact E2. }
  destruct (G (hi p - lo p) (lo p) [] p) as (V & p' & E & I'); [lia|lia|exact I0|].
  exists V, p'. split; [|apply Po; exact I']. constructor. rewrite app_nil_r. exact E.
Qed.
(** A loop over the entries of a list, each of which makes its own writes. *)
Lemma ww_list x (lo hi : env -> nat) c p (l : list nat) (g : nat -> list nat) (Inv : env -> Prop) Post :
  hi p = lo p + length l -> Inv p ->
  (forall j p1, j < length l -> Inv p1 -> ww c (assign_var p1 x (VNum (lo p + j))) (fun V p2 => V = g (nth j l 0) /\ Inv p2)) ->
  (forall p1, Inv p1 -> Post (flat_map g l) p1) ->
  ww (For x lo hi c) p Post.
Proof.
  intros Hh I0 St Po. apply ww_for with (I := fun k W p1 => W = flat_map g (firstn (k - lo p) l) /\ Inv p1).
  - lia.
  - rewrite Nat.sub_diag. auto.
  - intros k W p1 Hk (-> & I1). assert (Hj : k - lo p < length l) by lia. pose proof (St (k - lo p) p1 Hj I1) as X.
    replace (lo p + (k - lo p)) with k in X by lia. eapply ww_mono; [|exact X]. cbv beta. intros V p2 (-> & I2). split; [|exact I2].
    replace (S k - lo p) with (S (k - lo p)) by lia. symmetry. apply flat_firstn_S. exact Hj.
  - intros W p1 (-> & I1). rewrite Hh. replace (lo p + length l - lo p) with (length l) by lia. rewrite firstn_all. apply Po. exact I1.
Qed.

(** A kernel whose items make only such writes. *)
Lemma ww_launch_iff (K : kernel R) n (m0 final : list R) (W : nat -> list nat) r :
  (forall i p, i < n -> ww (k_body K) (assign_var p (k_iname K) (VNum i)) (fun V _ => V = W i)) ->
  (forall i x, i < n -> In x (W i) -> ok x (v x)) ->
  (forall x r, nth_error m0 x = Some r -> ok x r) ->
  length final = length m0 ->
  (forall i x, i < n -> In x (W i) -> x < length m0 -> nth_error final x = Some (v x)) ->
  (forall x, (forall i, i < n -> ~ In x (W i)) -> nth_error final x = nth_error m0 x) ->
  k_assume K = false -> (launch K n m0 r <-> r = final).
Proof.
  intros It Ov Om L Fi Fo A. apply const_launch_iff with (v := v) (ok := ok) (W := W); auto.
  intros i p k V Hi HV. destruct (It i p Hi) as (W' & p' & E & ->). change (k_body K :: k) with ([k_body K] ++ k). eapply exd_exw; [exact E|apply HV].
Qed.
End Ww.

(** Reading private variables. *)
Ltac ard := cbv [num int rat xrat ptv assign_var]; cbn [String.eqb Ascii.eqb Bool.eqb andb].
Ltac ardin H := cbv [num int rat xrat ptv assign_var] in H; cbn [String.eqb Ascii.eqb Bool.eqb andb] in H.
Lemma rat_at_map (f : nat -> Q) n i : i < n -> rat_at (map f (seq 0 n)) i = VRat (f i).
Proof. intros L. unfold rat_at. rewrite map_seq_error by exact L. reflexivity. Qed.
Lemma pt_at_map (f : nat -> pt) n i : i < n -> pt_at (map f (seq 0 n)) i = VPt (f i).
Proof. intros L. unfold pt_at. rewrite map_seq_error by exact L. reflexivity. Qed.
Lemma load_eq (f : nat -> nat) (g : nat -> pt) n o i : o + i < n -> f (o + i) < n ->
  load_particle (map f (seq 0 n)) (map g (seq 0 n)) o i = VPt (g (f (o + i))).
Proof. intros L L'. unfold load_particle. rewrite map_seq_error by exact L. apply pt_at_map. exact L'. Qed.
Lemma box_row nb (f : nat -> list nat) b : b < nb -> nth b (box_rows nb f) [] = f b.
Proof. intros L. unfold box_rows. rewrite (@nth_map_d nat _ f _ b 0 []) by (rewrite seq_length; exact L). rewrite seq_nth by exact L. reflexivity. Qed.
Lemma box_rows_length nb f : length (box_rows nb f) = nb.
Proof. unfold box_rows. rewrite map_length. apply seq_length. Qed.
(** The row of a box in a CSR list. *)
Lemma csr_box nb f b : b < nb -> exists s, num_at (csr_starts (box_rows nb f)) b = VNum s
  /\ num_at (csr_starts (box_rows nb f)) (b + 1) = VNum (s + length (f b))
  /\ forall j, j < length (f b) -> num_at (csr_lists (box_rows nb f)) (s + j) = VNum (nth j (f b) 0).
Proof.
  intros L. destruct (@csr_row (box_rows nb f) b) as (s & A & B & C); [rewrite box_rows_length; exact L|].
  rewrite (box_row _ L) in B, C. exists s. split; [apply num_at_eq; exact A|]. split; [apply num_at_eq; exact B|].
  intros j Hj. apply num_at_eq. apply C. exact Hj.
Qed.

Section Area.
Variable junk : nat.
Variable R : Type.
Variable v : nat -> R.
Variable ok : nat -> R -> Prop.
Lemma area_ww (visit : pt -> Q -> list nat) (ball leaf : cmd R) p (g : nat -> list nat) (Inv : env -> Prop) c r :
  ww v ok ball p (fun V p1 => V = [] /\ Inv p1) ->
  (forall p1, Inv p1 -> p1 "ball_center" = VPt c /\ p1 "ball_radius" = VRat r) ->
  (forall p1 k, Inv p1 -> Inv (assign_var p1 "ileaf" (VNum k))) ->
  (forall p1 b, Inv p1 -> In b (visit c r) -> ww v ok leaf (assign_var p1 "leaf_box_id" (VNum b)) (fun V p2 => V = g b /\ Inv p2)) ->
  ww v ok (area_query junk visit ball leaf) p (fun V _ => V = flat_map g (visit c r)).
Proof.
  intros B Iv Il L. unfold area_query; cbn [Block]. apply ww_seq. eapply ww_mono; [|exact B]. cbv beta. intros V p1 (-> & I1). cbn [app].
  destruct (Iv p1 I1) as (Ec & Er).
  apply ww_seq. apply ww_list with (l := visit c r) (g := g) (Inv := Inv).
  - ard. rewrite Ec, Er. reflexivity.
  - exact I1.
  - intros j p2 Hj I2. destruct (Iv p2 I2) as (Ec2 & Er2).
    apply ww_lets with (u := VNum (nth j (visit c r) 0)).
    { ard. rewrite Ec2, Er2. apply num_at_eq. apply nth_error_nth'. exact Hj. }
    apply ww_seq. eapply ww_mono; [|apply (L (assign_var p2 "ileaf" (VNum (0 + j)))); [apply Il; exact I2|apply nth_In; exact Hj]].
    cbv beta. intros V p3 (-> & I3). apply ww_skip. rewrite app_nil_r. auto.
  - intros p2 I2. apply ww_skip. rewrite app_nil_r. reflexivity.
Qed.
Section AreaWp.
Variable S : nat -> Prop.
Lemma area_wp (visit : pt -> Q -> list nat) (ball leaf : cmd R) p m (I : nat -> list R -> Prop) (Inv : env -> Prop) c r (Post : list R -> Prop) :
  wp S ball p m (fun p1 m1 => m1 = m /\ Inv p1) ->
  (forall p1, Inv p1 -> p1 "ball_center" = VPt c /\ p1 "ball_radius" = VRat r) ->
  (forall p1 k, Inv p1 -> Inv (assign_var p1 "ileaf" (VNum k))) ->
  I 0 m ->
  (forall j p1 m1, Inv p1 -> j < length (visit c r) -> I j m1 ->
     wp S leaf (assign_var p1 "leaf_box_id" (VNum (nth j (visit c r) 0))) m1 (fun p2 m2 => I (j + 1) m2 /\ Inv p2)) ->
  (forall m1, I (length (visit c r)) m1 -> Post m1) ->
  wp S (area_query junk visit ball leaf) p m (fun _ m1 => Post m1).
Proof.
  intros (p1 & m1 & E1 & -> & I1) Iv Il I0 L Po. unfold area_query; cbn [Block]. apply wp_seq. exists p1, m. split; [exact E1|].
  destruct (Iv p1 I1) as (Ec & Er).
  apply wp_seq. apply wp_for with (I := fun j p2 m2 => I j m2 /\ Inv p2).
  - lia.
  - auto.
  - ard. rewrite Ec, Er. intros j p2 m2 Hj (Ij & I2). destruct (Iv p2 I2) as (Ec2 & Er2).
    apply wl with (v := VNum (nth j (visit c r) 0)).
    { ard. rewrite Ec2, Er2. apply num_at_eq. apply nth_error_nth'. lia. }
    apply wp_seq. destruct (L j (assign_var p2 "ileaf" (VNum j)) m2) as (p3 & m3 & E3 & I3 & I3'); [apply Il; exact I2|lia|exact Ij|].
    exists p3, m3. split; [exact E3|]. apply wp_skip. rewrite Nat.add_1_r in I3. auto.
  - ard. rewrite Ec, Er. intros p2 m2 (I2 & _). apply wp_skip. apply Po. exact I2.
Qed.
End AreaWp.
End Area.
