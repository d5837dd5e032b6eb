From Coq Require Import QArith Permutation.
From Verif Require Import Base RefineModel RefineSpec RefineProofs RefineProps AssocModel AssocSpec AssocProofs FmmModel FmmProofs KrnModel KrnProofs KrnProofs2 AkModel AkSpec AkProofs AkProofs2 AkProofs5.
Set Implicit Arguments.
Open Scope list_scope. Open Scope nat_scope.

Lemma run_kernel_ext order hit hit' : (forall i, In i order -> hit i = hit' i) -> forall flags, run_kernel order hit flags = run_kernel order hit' flags.
Proof.
  intros H flags. unfold run_kernel. generalize (flags, false). induction order as [|i order IH]; intros (fl, fo); cbn [fold_left]; [reflexivity|].
  rewrite IH by (intros j I; apply H; right; exact I). rewrite (H i) by (left; reflexivity). reflexivity.
Qed.
Lemma existsb_ext' A (f g : A -> bool) l : (forall x, In x l -> f x = g x) -> existsb f l = existsb g l.
Proof. induction l as [|a l IH]; intros H; cbn; [reflexivity|]. rewrite IH by (intros x I; apply H; right; exact I). rewrite (H a) by (left; reflexivity). reflexivity. Qed.

Section Dev.
Variable junk : nat.
Variable D : device.
Variable nb : btree -> nat.
Variable E : RefineModel.env.
Hypothesis HD : e_dist E = dv_dist D.
Hypothesis HS : schedules_ok E.

Lemma nodes_length d : length (nodes E d) = ndofs d.
Proof. unfold nodes. rewrite map_length. apply seq_length. Qed.
Lemma ctrs_length d : length (ctrs E d) = 2 * ndofs d.
Proof. unfold ctrs. rewrite map_length. apply seq_length. Qed.
Lemma nodes_nth d i : i < ndofs d -> nth_pt (nodes E d) i = e_node E d i.
Proof.
  intros L. unfold nth_pt, nodes. rewrite (nth_indep _ [] (e_node E d 0)) by (rewrite map_length, seq_length; exact L).
  rewrite map_nth, seq_nth by exact L. reflexivity.
Qed.
Lemma ctrs_nth d i : i < 2 * ndofs d -> nth_pt (ctrs E d) i = e_center E d i.
Proof.
  intros L. unfold nth_pt, ctrs. rewrite (nth_indep _ [] (e_center E d 0)) by (rewrite map_length, seq_length; exact L).
  rewrite map_nth, seq_nth by exact L. reflexivity.
Qed.

Section One.
Variables d1 dq : discr.
Variable T : btree.
Hypothesis HT : tree_ok (particles (nodes E dq) (ctrs E d1) []) T.
Notation q0 := (QT T (length (nodes E dq)) (length (ctrs E d1)) 0).
Lemma q0_eq : qtree2 T d1 dq = q0.
Proof. unfold qtree2. rewrite nodes_length, ctrs_length. reflexivity. Qed.
Lemma q0_src s : s < ndofs dq -> source_pt q0 s = e_node E dq s.
Proof. intros L. rewrite <- nodes_nth by exact L. apply (source_pt_ok _ _ _ HT). rewrite nodes_length. exact L. Qed.
Lemma q0_ctr c : c < 2 * ndofs d1 -> center_pt q0 c = e_center E d1 c.
Proof. intros L. rewrite <- ctrs_nth by exact L. apply (center_pt_ok _ _ _ HT). rewrite ctrs_length. exact L. Qed.
End One.

Lemma disks_iff T d tol flags r found :
  tree_ok (particles (nodes E d) (ctrs E d) []) T -> boxes_ok D (nb T) T ->
  (dev_disks junk D nb E T d tol flags r found <-> (r, found) = check_disks E d (tree1_of D E tol T d) tol flags).
Proof.
  intros HT HB. unfold dev_disks, check_disks, tree1_of. cbn [t_visit t_sources].
  change (qtree1 T d) with (qtree2 T d d). rewrite (q0_eq d d T). rewrite <- (ctrs_length d). cbn [q_nctr].
  rewrite (disks_launch junk _ _ HT HB (element_to_center_starts d) (fun c => e_radius E d (c / 2)) tol (order := e_order E (length (ctrs E d)))) by apply HS.
  match goal with |- _ = ?A <-> _ = ?B => replace A with B; [tauto|] end.
  apply run_kernel_ext. intros i Io. apply (In_order _ i HS) in Io. rewrite ctrs_length in Io.
  rewrite (q0_ctr _ _ HT) by exact Io.
  match goal with |- (if ?a then _ else _) = (if ?b then _ else _) => replace a with b; [reflexivity|] end.
  apply existsb_ext'. intros b _. apply existsb_ext'. intros s Is. apply (src_in _ _ _ HT) in Is. rewrite nodes_length in Is.
  unfold disk_close. rewrite (q0_ctr _ _ HT) by exact Io. rewrite (q0_src _ _ HT) by exact Is. rewrite HD. reflexivity.
Qed.

Lemma quad_iff T d1 d2 dq flags r found :
  tree_ok (particles (nodes E dq) (ctrs E d1) []) T -> boxes_ok D (nb T) T -> proper dq -> nelements dq = nelements d2 ->
  (dev_quad junk D nb E T d1 d2 dq flags r found <-> (r, found) = check_quad E d1 d2 dq (tree2_of D E T d1 d2 dq) flags).
Proof.
  intros HT HB HP HN. unfold dev_quad, check_quad, tree2_of. cbn [t_visit t_centers].
  rewrite (q0_eq d1 dq T). rewrite <- (nodes_length dq). cbn [q_nsrc].
  assert (Hne : forall i, i < length (nodes E dq) -> bsearch (element_to_source_starts dq) i < nelements d2).
  { intros i Hi. rewrite nodes_length in Hi. destruct (owns_total HP (n := i) Hi) as (e & He). change (on_element dq e i) in He.
    rewrite (owner_of_node _ _ _ He), <- HN. apply (on_element_lt _ _ _ He). }
  rewrite (quad_launch junk _ _ HT HB (element_to_source_starts dq) (e_danger E d2) Hne (order := e_order E (length (nodes E dq)))) by apply HS.
  match goal with |- _ = ?A <-> _ = ?B => replace A with B; [tauto|] end.
  apply run_kernel_ext. intros i Io. apply (In_order _ i HS) in Io. rewrite nodes_length in Io.
  rewrite (q0_src _ _ HT) by exact Io.
  match goal with |- (if ?a then _ else _) = (if ?b then _ else _) => replace a with b; [reflexivity|] end.
  apply existsb_ext'. intros b _. apply existsb_ext'. intros c Ic. apply (ctr_in _ _ _ HT) in Ic. rewrite ctrs_length in Ic.
  unfold quad_close. rewrite (q0_ctr _ _ HT) by exact Ic. rewrite (q0_src _ _ HT) by exact Io. rewrite HD. reflexivity.
Qed.

(** The loops. *)
Lemma loop_iff mode checks (f : nat -> discr -> list bool * bool) (inv : discr -> Prop) :
  (forall clk d r v, inv d -> (checks clk d r v <-> (r, v) = f clk d)) ->
  (forall clk d fl d', inv d -> e_refine E clk d fl = Ok d' -> inv d') ->
  forall fuel clk d out, inv d -> (dev_loop E mode checks fuel clk d out <-> out = refine_loop E mode f fuel clk d).
Proof.
  intros HC HR. induction fuel as [|fuel IH]; intros clk d out Hd; cbn [dev_loop refine_loop]; [tauto|].
  destruct (f clk d) as (fl, v) eqn:F.
  assert (EX : forall P : list bool -> bool -> Prop, (exists flags violated, checks clk d flags violated /\ P flags violated) <-> P fl v).
  { intros P. split.
    - intros (a & b & H & X). apply (HC clk d a b Hd) in H. rewrite F in H. injection H as -> ->. exact X.
    - intros X. exists fl, v. split; [|exact X]. apply (HC clk d fl v Hd). symmetry. exact F. }
  rewrite EX. clear EX. destruct v; [|tauto]. 
  assert (R : match e_refine E clk d fl with
     | Ok d' => exists r, dev_loop E mode checks fuel (S clk) d' r /\ out = match r with Ok o => Ok (RefineModel.Out (o_discr o) (RefConn d d' fl :: o_links o) (o_warn o) (o_clk o)) | Err e => Err e end
     | Err e => out = Err e end <-> out = (do d' <- e_refine E clk d fl; do o <- refine_loop E mode f fuel (S clk) d'; Ok (RefineModel.Out (o_discr o) (RefConn d d' fl :: o_links o) (o_warn o) (o_clk o)))).
  { destruct (e_refine E clk d fl) as [d'|e] eqn:Er; cbn [bind]; [|tauto].
    assert (I' : inv d') by eauto. split.
    - intros (r & X & ->). apply (IH _ _ _ I') in X. subst r. destruct (refine_loop E mode f fuel (S clk) d'); reflexivity.
    - intros ->. exists (refine_loop E mode f fuel (S clk) d'). split; [apply IH; auto|]. destruct (refine_loop E mode f fuel (S clk) d'); reflexivity. }
  destruct mode; [exact R|exact R|tauto].
Qed.

(** As [refine_loop_spec], for targets that depend on the round. *)
Lemma loop_spec mode f (target : nat -> discr -> nat -> Prop) (good : nat -> discr -> Prop) (inv : discr -> Prop) :
  (forall clk d flags v, inv d -> f clk d = (flags, v) ->
     length flags = nelements d /\ (forall e, e < nelements d -> (flagged flags e <-> target clk d e)) /\ (v = false <-> good clk d)) ->
  (forall clk d fl d', inv d -> e_refine E clk d fl = Ok d' -> inv d') ->
  forall fuel clk d o, inv d -> refine_loop E mode f fuel clk d = Ok o ->
  inv (o_discr o) /\ links_from d (o_links o) (o_discr o) /\ length (o_links o) <= fuel
  /\ o_clk o = clk + length (o_links o)
  /\ Forall (fun ln => exists n, exact_round (target n) ln) (o_links o)
  /\ (o_warn o = false -> good (o_clk o) (o_discr o))
  /\ (o_warn o = true -> length (o_links o) = fuel).
Proof.
  intros HC HR. induction fuel as [|fuel IH]; intros clk d o Hd H; cbn [refine_loop] in H.
  - assert (o = RefineModel.Out d [] true clk) by congruence. subst o. cbn [o_discr o_links o_clk o_warn length].
    repeat split; auto; try lia; try constructor; try discriminate.
  - destruct (f clk d) as [flags v] eqn:X. destruct (HC _ _ _ _ Hd X) as (L & F & V).
    destruct v.
    + destruct mode; [| |discriminate];
      (destruct (e_refine E clk d flags) as [d'|] eqn:R; cbn [bind] in H; [|discriminate];
       destruct (refine_loop E _ f fuel (S clk) d') as [o'|] eqn:Y; cbn [bind] in H; [|discriminate];
       match type of H with Ok ?rhs = _ => assert (o = rhs) by congruence end; subst o;
       destruct (IH (S clk) d' o' ltac:(eauto) Y) as (A & B & C & D' & G & I & J);
       cbn [o_discr o_links o_clk o_warn length];
       (repeat split); [exact A|constructor; [reflexivity|exact B]|lia|lia|constructor; [exists clk, d, d', flags; auto|exact G]|exact I|intros W; rewrite (J W); reflexivity]).
    + assert (o = RefineModel.Out d [] false clk) by congruence. subst o. cbn [o_discr o_links o_clk o_warn length].
      repeat split; auto; try lia; try constructor; try discriminate. intros _. apply V. reflexivity.
Qed.

(** Trees from the tree builder satisfy the contracts of the checks. *)
Variable near : pt -> pt -> Q.
Hypothesis HN : forall x y, (near x y <= dv_dist D x y)%Q.
Lemma visit_sees P T c r u : tree_ok P T -> queries_ok D near P T -> u < length P ->
  (dv_dist D c (nth_pt P u) <= r)%Q -> In (bt_box_of T (nth_pt P u)) (dv_visit D T c r).
Proof.
  intros HT HQ L H. assert (Ls := to_sorted HT L). rewrite <- (to_coords HT L) in *. apply (qo_visit HQ); [apply Ls|].
  eapply Qle_trans; [apply HN|exact H].
Qed.
Lemma tree1_of_ok T d tol : tree_ok (particles (nodes E d) (ctrs E d) []) T -> queries_ok D near (particles (nodes E d) (ctrs E d) []) T ->
  tree1_ok E tol d (tree1_of D E tol T d).
Proof.
  intros HT HQ. unfold tree1_of. change (qtree1 T d) with (qtree2 T d d). rewrite (q0_eq d d T). split; cbn [t_sources t_visit].
  - intros b s I. apply (src_in _ _ _ HT) in I. rewrite nodes_length in I. exact I.
  - intros c s Hc Hs H. exists (bt_box_of T (e_node E d s)). rewrite HD in H.
    assert (Eu : nth_pt (particles (nodes E d) (ctrs E d) []) s = e_node E d s).
    { rewrite nth_pt_src by (rewrite nodes_length; exact Hs). apply nodes_nth. exact Hs. }
    split.
    + rewrite <- Eu. apply (visit_sees _ HT HQ); [rewrite particles_length, nodes_length; lia|]. rewrite Eu. exact H.
    + apply (In_box_sources _ _ _ HT). rewrite nodes_length, nodes_nth by exact Hs. auto.
Qed.
Lemma tree2_of_ok T d1 d2 dq : tree_ok (particles (nodes E dq) (ctrs E d1) []) T -> queries_ok D near (particles (nodes E dq) (ctrs E d1) []) T ->
  tree2_ok E d1 d2 dq (tree2_of D E T d1 d2 dq).
Proof.
  intros HT HQ. unfold tree2_of. rewrite (q0_eq d1 dq T). split; cbn [t_centers t_visit].
  - intros b c I. apply (ctr_in _ _ _ HT) in I. rewrite ctrs_length in I. exact I.
  - intros s c e He Hc H. rewrite (owner_of_node _ _ _ He). exists (bt_box_of T (e_center E d1 c)). rewrite HD in H.
    assert (Eu : nth_pt (particles (nodes E dq) (ctrs E d1) []) (length (nodes E dq) + c) = e_center E d1 c).
    { rewrite nth_pt_ctr by (rewrite ctrs_length; exact Hc). apply ctrs_nth. exact Hc. }
    split.
    + rewrite <- Eu. apply (visit_sees _ HT HQ); [rewrite particles_length, ctrs_length; lia|]. rewrite Eu. exact H.
    + apply (In_box_centers _ _ _ HT). rewrite ctrs_length, ctrs_nth by exact Hc. auto.
Qed.
End Dev.
