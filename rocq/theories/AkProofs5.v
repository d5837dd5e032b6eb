From Coq Require Import QArith Permutation.
From Verif Require Import Base RefineModel RefineSpec RefineProofs AssocModel AssocSpec AssocProofs FmmModel FmmProofs KrnModel KrnProofs KrnProofs2 AkModel AkSpec AkProofs AkProofs2.
Set Implicit Arguments.
Open Scope string_scope. Open Scope list_scope. Open Scope nat_scope.

Notation any := (fun (_ : nat) (_ : bool) => True).
(** ** Kernels that set flags *)
Lemma run_kernel_length order hit flags : length (fst (run_kernel order hit flags)) = length flags.
Proof. apply run_kernel_spec. Qed.
Lemma nth_error_flag (l : list bool) x b : x < length l -> (nth x l false = true <-> b = true) -> nth_error l x = Some b.
Proof. intros L E. rewrite (@nth_error_nth' _ l x false L). f_equal. destruct (nth x l false), b; tauto || (symmetry; tauto) || (exfalso; destruct E; discriminate (H eq_refl) || discriminate (H0 eq_refl)). Qed.
Lemma flags_iff (K : kernel bool) n (W : nat -> list nat) (hit : nat -> option nat) order flags r found :
  Permutation order (seq 0 n) ->
  (forall i p, i < n -> ww (fun _ => true) any (k_body K) (assign_var p (k_iname K) (VNum i)) (fun V _ => V = W i)) ->
  (forall i x, i < n -> (In x (W i) <-> exists e, hit i = Some e /\ (x = 1 + e \/ x = 0))) ->
  k_assume K = false ->
  (launch K n (false :: flags) (found :: r) <-> (r, found) = run_kernel order hit flags).
Proof.
  intros HO It HW KA. assert (HIn : forall i, In i order <-> i < n).
  { intros i. split; intros I; [apply (Permutation_in _ HO) in I; apply in_seq in I; lia|]. apply (Permutation_in _ (Permutation_sym HO)). apply in_seq. lia. }
  destruct (run_kernel_spec order hit flags) as (L & F & V). destruct (run_kernel order hit flags) as (rf, vf) eqn:ER. cbn [fst snd] in *.
  transitivity (found :: r = vf :: rf); [|split; [intros [= <- <-]; reflexivity|intros [= -> ->]; reflexivity]].
  apply ww_launch_iff with (v := fun _ => true) (ok := any) (W := W); auto.
  - cbn [length]. rewrite L. reflexivity.
  - intros i [|x] Hi I Lx; apply (HW i _ Hi) in I; destruct I as (e & Hh & X); cbn [nth_error].
    + f_equal. apply V. exists i, e. rewrite HIn. auto.
    + destruct X as [[= ->]|[=]]. cbn [length] in Lx. apply nth_error_flag; [rewrite L; lia|]. split; [auto|]. intros _. apply (F e); [lia|]. right. exists i. rewrite HIn. auto.
  - intros [|x] N; cbn [nth_error].
    + f_equal. destruct vf; [|reflexivity]. exfalso. destruct (proj1 V eq_refl) as (i & e & Io & Hh). apply HIn in Io. apply (N i Io). apply HW; [exact Io|]. eauto.
    + destruct (Nat.ltb_spec x (length flags)) as [Lx|Lx].
      * rewrite (@nth_error_nth' _ flags x false Lx). apply nth_error_flag; [lia|]. split.
        { intros X. apply (F x Lx) in X. destruct X as [X|(i & Io & Hh)]; [exact X|]. apply HIn in Io. exfalso. apply (N i Io). apply HW; [exact Io|]. eauto. }
        intros X. apply (F x Lx). left. exact X.
      * rewrite !(proj2 (nth_error_None _ _)); [reflexivity|lia|lia].
Qed.

Lemma threshold_iff junk E n prop th flags r found : schedules_ok E ->
  (dev_threshold junk n prop th flags r found <-> (r, found) = check_prop E n prop th flags).
Proof.
  intros HS. unfold dev_threshold, check_prop.
  apply flags_iff with (W := fun i => if Qle_bool (prop i) th then [] else [1 + i; 0]).
  - apply HS.
  - intros i p Hi. unfold threshold_knl; cbn [k_body k_iname Block].
    apply ww_lets with (u := VRat (prop i)). { ard. apply rat_at_map. exact Hi. }
    apply ww_seq. apply ww_if.
    + intros Q. ardin Q. apply negb_true_iff in Q. apply ww_seq. apply ww_store; [reflexivity|]. apply ww_seq. apply ww_store; [reflexivity|].
      apply ww_skip. apply ww_skip. rewrite Q. ard. reflexivity.
    + intros Q. ardin Q. apply negb_false_iff in Q. apply ww_skip. rewrite Q. reflexivity.
  - intros i x Hi. destruct (Qle_bool (prop i) th).
    + split; [intros []|intros (e & [=] & _)].
    + split; [intros [<-|[<-|[]]]; eauto|intros (e & [= <-] & [->| ->]); cbn; auto].
  - reflexivity.
Qed.

Section Refiner.
Variable junk : nat.
Variable D : device.
Variable nb : nat.
Variables Sr C : list pt.
Variable T : btree.
Hypothesis HT : tree_ok (particles Sr C []) T.
Hypothesis HB : boxes_ok D nb T.
Notation q := (QT T (length Sr) (length C) 0).

(** A loop that stops at the first hit. *)
Lemma existsb_firstn_S (f : nat -> bool) l j : j < length l -> existsb f (firstn (S j) l) = existsb f (firstn j l) || f (nth j l 0).
Proof.
  revert j. induction l as [|a l IH]; intros j Hj; [cbn in Hj; lia|]. destruct j as [|j]; [cbn; apply orb_false_r|].
  cbn in Hj. cbn [firstn existsb nth]. rewrite <- orb_assoc. f_equal. apply IH. lia.
Qed.
Definition broken (b : bool) : value := VNum (if b then 1 else 0).
Lemma ww_break (x : string) (lo hi : env -> nat) (body : cmd bool) p (l : list nat) (close : nat -> bool) (w : list nat) (Inv : env -> Prop) (Post : list nat -> env -> Prop) :
  hi p = lo p + length l -> Inv p -> p "broken" = VNum 0 -> x <> "broken" ->
  (forall p1 k, Inv p1 -> Inv (assign_var p1 x (VNum k))) ->
  (forall j p1, j < length l -> Inv p1 -> p1 "broken" = VNum 0 ->
     ww (fun _ => true) any body (assign_var p1 x (VNum (lo p + j)))
       (fun V p2 => V = (if close (nth j l 0) then w else []) /\ p2 "broken" = broken (close (nth j l 0)) /\ Inv p2)) ->
  (forall p1, Inv p1 -> Post (if existsb close l then w else []) p1) ->
  ww (fun _ => true) any (For x lo hi (If (fun p => num junk p "broken" =? 0) body)) p Post.
Proof.
  intros Hh I0 B0 Nx Il St Po.
  apply ww_for with (I := fun k W p1 => W = (if existsb close (firstn (k - lo p) l) then w else []) /\ p1 "broken" = broken (existsb close (firstn (k - lo p) l)) /\ Inv p1).
  - lia.
  - rewrite Nat.sub_diag. auto.
  - intros k W p1 Hk (-> & B1 & I1). assert (Hj : k - lo p < length l) by lia.
    replace (S k - lo p) with (S (k - lo p)) by lia. rewrite (existsb_firstn_S _ _ Hj).
    assert (Eb : forall v, assign_var p1 x v "broken" = p1 "broken").
    { intros v. unfold assign_var. destruct (String.eqb "broken" x) eqn:E; [|reflexivity]. apply String.eqb_eq in E. congruence. }
    apply ww_if.
    + intros Q. unfold num in Q. rewrite Eb, B1 in Q. destruct (existsb close (firstn (k - lo p) l)); [cbn in Q; discriminate|]. cbn [orb app].
      pose proof (St (k - lo p) p1 Hj I1 B1) as X. replace (lo p + (k - lo p)) with k in X by lia. exact X.
    + intros Q. unfold num in Q. rewrite Eb, B1 in Q. destruct (existsb close (firstn (k - lo p) l)); [|cbn in Q; discriminate]. cbn [orb].
      rewrite app_nil_r. split; [reflexivity|]. split; [rewrite Eb; exact B1|apply Il; exact I1].
  - intros W p1 (-> & _ & I1). rewrite Hh. replace (lo p + length l - lo p) with (length l) by lia. rewrite firstn_all. apply Po. exact I1.
Qed.
Lemma leaf_writes (visit : list nat) (f : nat -> bool) (e : nat) x :
  In x (flat_map (fun b => if f b then [1 + e; 0] else []) visit)
  <-> exists e', (if existsb f visit then Some e else None) = Some e' /\ (x = 1 + e' \/ x = 0).
Proof.
  rewrite in_flat_map. split.
  - intros (b & Ib & I). destruct (f b) eqn:F; [|contradiction]. exists e.
    replace (existsb f visit) with true by (symmetry; apply existsb_exists; eauto). split; [reflexivity|]. destruct I as [<-|[<-|[]]]; auto.
  - intros (e' & E & X). destruct (existsb f visit) eqn:F; [|discriminate]. injection E as <-. apply existsb_exists in F. destruct F as (b & Ib & F).
    exists b. split; [exact Ib|]. rewrite F. destruct X as [->| ->]; cbn; auto.
Qed.

Section Disks.
Variable starts : list nat.
Variable radius : nat -> Q.
Variable tol : Q.
Notation disks := (disks_knl junk (dv_dist D) (dv_visit D T) (csr_starts (source_rows nb q)) (csr_lists (source_rows nb q))
            starts (src_start q) (ctr_start q) (sorted_ids q) (map radius (seq 0 (length C))) tol (coords q)).
Notation rad i := ((1 - tol) * radius i)%Q.
Definition disk_close (i s : nat) : bool := Qle_bool (dv_dist D (center_pt q i) (source_pt q s)) (rad i).
Definition disk_writes (i : nat) : list nat :=
  flat_map (fun b => if existsb (disk_close i) (box_sources q b) then [1 + bsearch starts i; 0] else []) (dv_visit D T (center_pt q i) (rad i)).
Definition at_disk (i : nat) (p : env) : Prop :=
  p "i" = VNum i /\ p "icenter" = VNum i /\ p "ball_center" = VPt (center_pt q i) /\ p "ball_radius" = VRat (rad i).
Lemma disk_item i p : i < length C -> ww (fun _ => true) any (k_body disks) (assign_var p (k_iname disks) (VNum i)) (fun V _ => V = disk_writes i).
Proof.
  intros Hi. unfold disks_knl; cbn [k_body k_iname].
  eapply area_ww with (Inv := at_disk i).
  - cbn [Block]. apply ww_lets with (u := VNum i). { ard. reflexivity. }
    apply ww_lets with (u := VPt (center_pt q i)). { ard. apply (load_ctr Sr C [] HT). exact Hi. }
    apply ww_lets with (u := VRat (radius i)). { ard. apply rat_at_map. exact Hi. }
    apply ww_lets with (u := VRat (rad i)). { ard. reflexivity. }
    apply ww_skip. split; [reflexivity|]. unfold at_disk. ard. auto.
  - intros p1 (_ & _ & A & B). auto.
  - intros p1 k A. unfold at_disk in *. ard. exact A.
  - intros p1 b (A1 & A2 & A3 & A4) Ib. cbn [Block].
    assert (Lb : b < nb) by (apply HB in Ib; exact Ib).
    destruct (@csr_box nb (box_sources q) b Lb) as (s0 & Es & Ee & El).
    apply ww_lets with (u := VNum s0). { ard. exact Es. }
    apply ww_lets with (u := VNum (s0 + length (box_sources q b))). { ard. exact Ee. }
    apply ww_lets with (u := VNum 0). { reflexivity. }
    apply ww_seq. apply ww_break with (l := box_sources q b) (close := disk_close i) (w := [1 + bsearch starts i; 0]) (Inv := at_disk i).
    + ard. reflexivity.
    + unfold at_disk. ard. auto.
    + ard. reflexivity.
    + discriminate.
    + intros p2 k I2. unfold at_disk in *. ard. exact I2.
    + intros j p2 Hj (B1 & B2 & B3 & B4) Bk.
      assert (Ls : nth j (box_sources q b) 0 < length Sr) by (apply (src_in Sr C [] HT) with (b := b); apply nth_In; exact Hj).
      apply ww_lets with (u := VNum (nth j (box_sources q b) 0)). { ard. apply El. exact Hj. }
      apply ww_lets with (u := VNum (bsearch starts i)). { ard. rewrite B2. reflexivity. }
      apply ww_lets with (u := VPt (source_pt q (nth j (box_sources q b) 0))). { ard. apply (load_src Sr C [] HT). exact Ls. }
      apply ww_lets with (u := VRat (radius i)). { ard. rewrite B2. apply rat_at_map. exact Hi. }
      apply ww_seq. unfold disk_close. apply ww_if.
      * intros Q. ardin Q. rewrite B3 in Q. rewrite Q.
        apply ww_seq. apply ww_store; [intros r _; apply orb_true_r|]. apply ww_seq. apply ww_store; [intros r _; apply orb_true_r|].
        apply ww_seq. apply ww_let. apply ww_skip. apply ww_skip. split; [ard; reflexivity|]. split; [ard; reflexivity|]. unfold at_disk. ard. auto.
      * intros Q. ardin Q. rewrite B3 in Q. rewrite Q.
        apply ww_skip. split; [reflexivity|]. split; [ard; exact Bk|]. unfold at_disk. ard. auto.
    + intros p2 I2. apply ww_skip. rewrite app_nil_r. split; [|exact I2]. reflexivity.
Qed.
Lemma disks_launch order flags r found : Permutation order (seq 0 (length C)) ->
  (launch disks (length C) (false :: flags) (found :: r) <->
   (r, found) = run_kernel order (fun i => if existsb (fun b => existsb (disk_close i) (box_sources q b)) (dv_visit D T (center_pt q i) (rad i))
                                           then Some (bsearch starts i) else None) flags).
Proof.
  intros HO. apply flags_iff with (W := disk_writes); [exact HO|exact disk_item| |reflexivity].
  intros i x Hi. apply leaf_writes.
Qed.
End Disks.

Section Quad.
Variable starts : list nat.
Variable danger : nat -> Q.
Variable ne : nat.
Hypothesis Hne : forall i, i < length Sr -> bsearch starts i < ne.
Notation quad := (quad_knl junk (dv_dist D) (dv_visit D T) (csr_starts (center_rows nb q)) (csr_lists (center_rows nb q))
            starts (src_start q) (ctr_start q) (sorted_ids q) (map danger (seq 0 ne)) (coords q)).
Notation rad i := (danger (bsearch starts i)).
Definition quad_close (i c : nat) : bool := Qle_bool (dv_dist D (source_pt q i) (center_pt q c)) (rad i).
Definition quad_writes (i : nat) : list nat :=
  flat_map (fun b => if existsb (quad_close i) (AssocModel.box_centers q b) then [1 + bsearch starts i; 0] else []) (dv_visit D T (source_pt q i) (rad i)).
Definition at_quad (i : nat) (p : env) : Prop :=
  p "i" = VNum i /\ p "current_element" = VNum (bsearch starts i) /\ p "ball_center" = VPt (source_pt q i) /\ p "ball_radius" = VRat (rad i).
Lemma quad_item i p : i < length Sr -> ww (fun _ => true) any (k_body quad) (assign_var p (k_iname quad) (VNum i)) (fun V _ => V = quad_writes i).
Proof.
  intros Hi. unfold quad_knl; cbn [k_body k_iname].
  eapply area_ww with (Inv := at_quad i).
  - cbn [Block]. apply ww_lets with (u := VNum (bsearch starts i)). { ard. reflexivity. }
    apply ww_lets with (u := VPt (source_pt q i)). { ard. apply (load_src Sr C [] HT). exact Hi. }
    apply ww_lets with (u := VRat (rad i)). { ard. apply rat_at_map. apply Hne. exact Hi. }
    apply ww_skip. split; [reflexivity|]. unfold at_quad. ard. auto.
  - intros p1 (_ & _ & A & B). auto.
  - intros p1 k A. unfold at_quad in *. ard. exact A.
  - intros p1 b (A1 & A2 & A3 & A4) Ib. cbn [Block].
    assert (Lb : b < nb) by (apply HB in Ib; exact Ib).
    destruct (@csr_box nb (AssocModel.box_centers q) b Lb) as (s0 & Es & Ee & El).
    apply ww_lets with (u := VNum s0). { ard. exact Es. }
    apply ww_lets with (u := VNum (s0 + length (AssocModel.box_centers q b))). { ard. exact Ee. }
    apply ww_lets with (u := VNum 0). { reflexivity. }
    apply ww_seq. apply ww_break with (l := AssocModel.box_centers q b) (close := quad_close i) (w := [1 + bsearch starts i; 0]) (Inv := at_quad i).
    + ard. reflexivity.
    + unfold at_quad. ard. auto.
    + ard. reflexivity.
    + discriminate.
    + intros p2 k I2. unfold at_quad in *. ard. exact I2.
    + intros j p2 Hj (B1 & B2 & B3 & B4) Bk.
      assert (Ls : nth j (AssocModel.box_centers q b) 0 < length C) by (apply (ctr_in Sr C [] HT) with (b := b); apply nth_In; exact Hj).
      apply ww_lets with (u := VNum (nth j (AssocModel.box_centers q b) 0)). { ard. apply El. exact Hj. }
      apply ww_lets with (u := VPt (center_pt q (nth j (AssocModel.box_centers q b) 0))). { ard. apply (load_ctr Sr C [] HT). exact Ls. }
      apply ww_lets with (u := VRat (rad i)). { ard. rewrite B2. apply rat_at_map. apply Hne. exact Hi. }
      apply ww_seq. unfold quad_close. apply ww_if.
      * intros Q. ardin Q. rewrite B3 in Q. rewrite Q.
        apply ww_seq. apply ww_store; [intros r _; apply orb_true_r|]. apply ww_seq. apply ww_store; [intros r _; apply orb_true_r|].
        apply ww_seq. apply ww_let. apply ww_skip. apply ww_skip. split; [ard; rewrite B2; reflexivity|]. split; [ard; reflexivity|]. unfold at_quad. ard. auto.
      * intros Q. ardin Q. rewrite B3 in Q. rewrite Q.
        apply ww_skip. split; [reflexivity|]. split; [ard; exact Bk|]. unfold at_quad. ard. auto.
    + intros p2 I2. apply ww_skip. rewrite app_nil_r. split; [|exact I2]. reflexivity.
Qed.
Lemma quad_launch order flags r found : Permutation order (seq 0 (length Sr)) ->
  (launch quad (length Sr) (false :: flags) (found :: r) <->
   (r, found) = run_kernel order (fun i => if existsb (fun b => existsb (quad_close i) (AssocModel.box_centers q b)) (dv_visit D T (source_pt q i) (rad i))
                                           then Some (bsearch starts i) else None) flags).
Proof.
  intros HO. apply flags_iff with (W := quad_writes); [exact HO|exact quad_item| |reflexivity].
  intros i x Hi. apply leaf_writes.
Qed.
End Quad.
End Refiner.
