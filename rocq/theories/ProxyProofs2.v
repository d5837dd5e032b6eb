From Verif Require Import Base DofModel DofProps SymModel SymSpec SymProofs SymProofs2 ProxyModel ProxySpec ProxyProofs.
From Coq Require Import QArith_base.
Set Implicit Arguments.

Lemma kern_eqb_eq a : forall b, kern_eqb a b = true <-> a = b.
Proof.
  induction a as [x|x k IH|x k IH|x k IH|x k IH]; intros [y|y l|y l|y l|y l]; simpl;
    try (split; congruence); rewrite ?andb_true_iff, ?Nat.eqb_eq, ?String.eqb_eq, ?IH;
    (split; [intros H; repeat match goal with X : _ /\ _ |- _ => destruct X end; subst; reflexivity|intros E; injection E; auto]).
Qed.
Lemma kerns_eqb_eq a : forall b, kerns_eqb a b = true <-> a = b.
Proof.
  induction a as [|x a IH]; intros [|y b]; simpl; try (split; congruence).
  rewrite andb_true_iff, kern_eqb_eq, IH. split; [intros [-> ->]; reflexivity|].
  intros E. injection E. auto.
Qed.

Lemma strip_target_ok k : has_target_derivative (strip_target k) = false
  /\ base_kernel (strip_target k) = base_kernel k
  /\ (has_source_derivative k = false -> strip_target k = KBase (base_kernel k)).
Proof.
  induction k as [x|x k (A & B & C)|x k (A & B & C)|x k (A & B & C)|x k (A & B & C)]; simpl; auto;
    repeat split; auto; discriminate.
Qed.
Lemma strip_source_ok k : has_source_derivative (strip_source k) = false
  /\ base_kernel (strip_source k) = base_kernel k
  /\ (has_target_derivative k = false -> strip_source k = KBase (base_kernel k)).
Proof.
  induction k as [x|x k (A & B & C)|x k (A & B & C)|x k (A & B & C)|x k (A & B & C)]; simpl; auto;
    repeat split; auto; discriminate.
Qed.

Lemma sequence_Ok {A} (l : list (result A)) ys : sequence l = Ok ys -> Forall2 (fun r y => r = Ok y) l ys.
Proof.
  revert ys. induction l as [|x l IH]; simpl; intros ys E.
  - assert (ys = []) by congruence. subst. constructor.
  - destruct x as [y|]; simpl in E; [|discriminate]. destruct (sequence l) as [r|]; simpl in E; [|discriminate].
    assert (ys = y :: r) by congruence. subst. constructor; auto.
Qed.
Lemma sequence_all {A} (l : list (result A)) : (forall x, In x l -> exists y, x = Ok y) -> exists ys, sequence l = Ok ys.
Proof.
  induction l as [|x l IH]; simpl; intros H; [eauto|].
  destruct (H x) as [y ->]; auto. destruct IH as [ys ->]; auto. simpl. eauto.
Qed.

Lemma filter_combine_map {A B C} (f : A -> bool) (g : B -> C) (l : list A) (m : list B) :
  filter (fun p => f (fst p)) (combine l (map g m))
  = map (fun p => (fst p, g (snd p))) (filter (fun p => f (fst p)) (combine l m)).
Proof.
  revert m. induction l as [|a l IH]; intros [|b m]; simpl; try reflexivity.
  destruct (f a); simpl; rewrite IH; reflexivity.
Qed.
Lemma Forall2_map_l {A B C} (f : A -> B) (R : B -> C -> Prop) l m :
  Forall2 R (map f l) m <-> Forall2 (fun a c => R (f a) c) l m.
Proof.
  revert m. induction l as [|a l IH]; intros m; simpl; split; intros H; inversion H; subst; constructor; auto; apply IH; auto.
Qed.

(** What becomes of a layer potential. *)
Definition kept_args (g : intg) (cs : list sexpr) : list (string * sexpr) :=
  filter (fun p => negb (inb (fst p) (flat_map source_args (g_sks g)))) (combine (g_kargs g) (skipn (g_nd g) cs)).
Lemma remove_intg bargs g cs e' : remove_transf bargs (Node (HIntG g) cs) = Ok e' ->
  exists g' cs', e' = Node (HIntG g') cs'
    /\ g_tk g' = strip_target (g_tk g) /\ g_sks g' = map strip_source (g_sks g)
    /\ g_nd g' = g_nd g /\ g_lim g' = g_lim g /\ g_src g' = g_src g /\ g_tgt g' = g_tgt g
    /\ ((strip_target (g_tk g) = g_tk g /\ map strip_source (g_sks g) = g_sks g /\ g' = g /\ cs' = cs)
        \/ exists ds ks, cs' = ds ++ ks
            /\ Forall2 (fun c c' => remove_transf bargs c = Ok c') (firstn (g_nd g) cs) ds
            /\ g_kargs g' = map fst (kept_args g cs)
            /\ Forall2 (fun p c' => remove_transf bargs (snd p) = Ok c') (kept_args g cs) ks).
Proof.
  cbn [remove_transf]. destruct (kern_eqb _ _ && kerns_eqb _ _) eqn:K.
  - intros E. apply andb_true_iff in K. destruct K as [K1 K2].
    apply kern_eqb_eq in K1. apply kerns_eqb_eq in K2.
    exists g, cs. assert (e' = Node (HIntG g) cs) by congruence. subst.
    repeat split; auto.
  - rewrite skipn_map.
    assert (FC := filter_combine_map (fun n => negb (inb n (flat_map source_args (g_sks g))))
                    (remove_transf bargs) (g_kargs g) (skipn (g_nd g) cs)). cbv beta in FC.
    rewrite FC. fold (kept_args g cs).
    rewrite map_map. cbn [snd]. rewrite firstn_map, map_map. cbn [fst].
    destruct (sequence _) as [ks|] eqn:Ek; cbn [bind]; [|discriminate].
    destruct (sequence (map (remove_transf bargs) _)) as [ds|] eqn:Ed; cbn [bind]; [|discriminate].
    match goal with |- (if ?c then _ else _) = _ -> _ => destruct c; [|discriminate] end.
    intros E. eexists _, (ds ++ ks). split; [inversion E; reflexivity|]. cbn [g_tk g_sks g_nd g_lim g_src g_tgt].
    repeat split. right. exists ds, ks. split; [reflexivity|].
    apply sequence_Ok in Ed, Ek. apply Forall2_map_l in Ed, Ek. cbn [g_kargs]. auto.
Qed.

Lemma remove_other bargs h cs : (forall g, h <> HIntG g) ->
  remove_transf bargs (Node h cs) = do cs' <- sequence (map (remove_transf bargs) cs); Ok (Node h cs').
Proof. destruct h; try reflexivity. intros H. exfalso. eapply H. reflexivity. Qed.

(** The value of the prepared expression. *)
Section Val.
Variable R : cring.
Variable J : head -> list (cr R) -> cr R.
Variables (bargs : nat -> list string) (ds dt : dofdesc).
Variable leaf : sexpr -> cr R.
Hypothesis leaf_ok : forall g cs e', remove_transf bargs (Node (HIntG g) cs) = Ok e' ->
  leaf (Node (HIntG g) cs) = value J (replace_dd ds dt e').
Lemma remove_value e : good e = true -> forall e2, remove_transf bargs e = Ok e2 ->
  value J (replace_dd ds dt e2) = leaf_value R J leaf e.
Proof.
  induction e as [h cs IH] using sexpr_ind'. rewrite Forall_forall in IH. intros G e2 E.
  assert (K : forall h, (forall g, h <> HIntG g) -> (forall d1 d2, replace_head d1 d2 h = h) ->
     (forall c, In c cs -> good c = true) -> remove_transf bargs (Node h cs) = Ok e2 ->
     value J (replace_dd ds dt e2) = J h (map (leaf_value R J leaf) cs)).
  { intros h0 Hn Hr Hg E0. rewrite remove_other in E0 by exact Hn.
    destruct (sequence _) as [cs'|] eqn:S; cbn [bind] in E0; [|discriminate].
    assert (X : e2 = Node h0 cs') by congruence. subst e2. cbn [replace_dd value]. rewrite Hr. f_equal.
    apply sequence_Ok in S. apply Forall2_map_l in S. clear - S IH Hg.
    induction S as [|c c' cs cs' A B IHS]; [reflexivity|]. cbn [map]. f_equal.
    - apply IH; [left; reflexivity|apply Hg; left; reflexivity|exact A].
    - apply IHS; intros; [apply IH|apply Hg]; try (right; assumption); assumption. }
  destruct h; try discriminate G.
  - destruct cs; [|discriminate G]. apply K; [congruence|reflexivity|contradiction|exact E].
  - cbn [good] in G. rewrite forallb_forall in G. apply K; [congruence|reflexivity|exact G|exact E].
  - cbn [good] in G. rewrite forallb_forall in G. apply K; [congruence|reflexivity|exact G|exact E].
  - destruct cs as [|x [|]]; try discriminate G. cbn [good] in G.
    apply K; [congruence|reflexivity|intros c [<-|[]]; exact G|exact E].
  - cbn [leaf_value]. symmetry. apply leaf_ok. exact E.
Qed.
End Val.

(** Success. *)
Section Success.
Variable bargs : nat -> list string.
Lemma kernel_args_src k : has_target_derivative k = false -> kernel_args bargs k = bargs (base_kernel k).
Proof. induction k; simpl; intros; auto; discriminate. Qed.
Lemma kernel_args_tgt k : has_dir_target k = false -> kernel_args bargs k = bargs (base_kernel k).
Proof. induction k; simpl; intros; auto; discriminate. Qed.
Lemma source_args_none k : has_source_derivative k = false -> source_args k = [].
Proof. induction k; simpl; intros; auto; discriminate. Qed.

Lemma map_fst_filter_combine (f : string -> bool) (l : list string) {B} (m : list B) :
  length l = length m ->
  map fst (filter (fun p => f (fst p)) (combine l m)) = filter f l.
Proof.
  revert m. induction l as [|a l IH]; intros [|b m] H; try discriminate; [reflexivity|].
  simpl. destruct (f a); simpl; rewrite IH; auto.
Qed.

Lemma strip_kargs_ok g : strippable bargs g -> has_dir_target (g_tk g) = false ->
  check_kargs bargs (IntG (strip_target (g_tk g)) (map strip_source (g_sks g)) (g_nd g) (g_lim g) (g_src g)
    (g_tgt g) (filter (fun x => negb (inb x (flat_map source_args (g_sks g)))) (g_kargs g))) = true.
Proof.
  intros (C & S & T & B & D) DT. unfold check_kargs in *. apply andb_true_iff in C. destruct C as [C1 C2].
  rewrite subset_spec in C1, C2. cbn [g_sks g_tk g_kargs].
  rewrite Forall_forall in T.
  destruct (strip_target_ok (g_tk g)) as (_ & Bt & St). rewrite (St S).
  assert (N : forall x, In x (flat_map (fun k => kernel_args bargs k ++ source_args k)
     (map strip_source (g_sks g) ++ [KBase (base_kernel (g_tk g))])) <-> In x (bargs (base_kernel (g_tk g)))).
  { intros x. rewrite flat_map_app, in_app_iff. cbn [flat_map kernel_args source_args]. rewrite !app_nil_r. split.
    - intros [H|H]; [|exact H]. apply in_flat_map in H. destruct H as (k & Hk & Hx).
      apply in_map_iff in Hk. destruct Hk as (k0 & <- & Hk0).
      destruct (strip_source_ok k0) as (_ & _ & Ss). rewrite Ss in Hx by auto.
      cbn in Hx. rewrite app_nil_r in Hx. rewrite B in Hx by exact Hk0. exact Hx.
    - auto. }
  apply andb_true_iff. split; apply subset_spec; intros x Hx.
  - apply N in Hx. apply filter_In. split.
    + apply C1. rewrite flat_map_app, in_app_iff. right. cbn [flat_map].
      rewrite (kernel_args_tgt _ DT). rewrite !in_app_iff. auto.
    + apply negb_true_iff, inb_false. intros H. exact (D _ H Hx).
  - apply filter_In in Hx. destruct Hx as [Hx Hn]. apply negb_true_iff in Hn. apply inb_false in Hn.
    apply N. apply C2 in Hx. rewrite flat_map_app, in_app_iff in Hx. destruct Hx as [Hx|Hx].
    + apply in_flat_map in Hx. destruct Hx as (k & Hk & Hx). apply in_app_iff in Hx. destruct Hx as [Hx|Hx].
      * rewrite kernel_args_src in Hx by auto. rewrite B in Hx by exact Hk. exact Hx.
      * exfalso. apply Hn. apply in_flat_map. eauto.
    + cbn [flat_map] in Hx. rewrite app_nil_r, (source_args_none _ S), app_nil_r, kernel_args_tgt in Hx by exact DT. exact Hx.
Qed.

Lemma In_firstn {A} n (l : list A) x : In x (firstn n l) -> In x l.
Proof. revert l. induction n; intros [|a l]; simpl; try contradiction. intros [->|H]; auto. Qed.
Lemma In_skipn {A} n (l : list A) x : In x (skipn n l) -> In x l.
Proof. revert l. induction n; intros [|a l]; simpl; auto. Qed.

Lemma remove_ok e :
  (forall g cs, occurs e (Node (HIntG g) cs) ->
     strippable bargs g /\ has_dir_target (g_tk g) = false /\ length (g_kargs g) = length (skipn (g_nd g) cs)) ->
  exists e', remove_transf bargs e = Ok e'.
Proof.
  induction e as [h cs IH] using sexpr_ind'. rewrite Forall_forall in IH. intros H.
  assert (K : forall c, In c cs -> exists c', remove_transf bargs c = Ok c').
  { intros c Hc. apply IH; [exact Hc|]. intros g cs' Ho. apply H. eapply occurs_child; eauto. }
  assert (D : forall h, (forall g, h <> HIntG g) -> exists e', remove_transf bargs (Node h cs) = Ok e').
  { intros h0 Hn. rewrite remove_other by exact Hn.
    destruct (@sequence_all _ (map (remove_transf bargs) cs)) as [ys ->].
    - intros x Hx. apply in_map_iff in Hx. destruct Hx as (c & <- & Hc). auto.
    - cbn. eauto. }
  destruct h; try (apply D; congruence).
  destruct (H g cs (occ_here _)) as (S & DT & L).
  cbn [remove_transf]. destruct (kern_eqb _ _ && kerns_eqb _ _) eqn:E; [eauto|].
  assert (FC := @map_fst_filter_combine (fun n => negb (inb n (flat_map source_args (g_sks g)))) (g_kargs g)
                  _ (skipn (g_nd g) (map (remove_transf bargs) cs))). cbv beta in FC.
  rewrite FC by (rewrite skipn_map, map_length; exact L).
  rewrite (strip_kargs_ok S DT).
  destruct (@sequence_all _ (map snd (filter (fun p : string * result sexpr =>
       negb (inb (fst p) (flat_map source_args (g_sks g)))) (combine (g_kargs g) (skipn (g_nd g) (map (remove_transf bargs) cs)))))) as [ks ->].
  { intros x Hx. apply in_map_iff in Hx. destruct Hx as ((n & r) & <- & Hx). apply filter_In in Hx.
    destruct Hx as [Hx _]. apply in_combine_r in Hx. apply In_skipn in Hx.
    apply in_map_iff in Hx. destruct Hx as (c & <- & Hc). cbn. auto. }
  destruct (@sequence_all _ (firstn (g_nd g) (map (remove_transf bargs) cs))) as [ds ->].
  { intros x Hx. apply In_firstn in Hx. apply in_map_iff in Hx. destruct Hx as (c & <- & Hc). auto. }
  cbn. eauto.
Qed.
End Success.

(** Layer potentials after collecting were there before. *)
Lemma flat_sum_in n : forall q d x, In x (flat_sum n q d) -> exists y, In y (d ++ q) /\ occurs y x.
Proof.
  induction n as [|n IH]; intros q d x Hx; cbn [flat_sum] in Hx.
  { exists x. split; [exact Hx|apply occ_here]. }
  destruct q as [|y q]; [exists x; rewrite app_nil_r; split; [exact Hx|apply occ_here]|].
  destruct (is_zero y).
  { destruct (IH _ _ _ Hx) as (z & Hz & Ho). exists z. split; [|exact Ho].
    apply in_app_iff in Hz. apply in_app_iff. cbn. tauto. }
  assert (G : In x (flat_sum n q (d ++ [y])) -> exists y0, In y0 (d ++ y :: q) /\ occurs y0 x).
  { intros H. destruct (IH _ _ _ H) as (z & Hz & Ho). exists z. split; [|exact Ho].
    rewrite <- app_assoc in Hz. exact Hz. }
  destruct y as [h cs]; destruct h; try (apply G; exact Hx).
  destruct (IH _ _ _ Hx) as (z & Hz & Ho). apply in_app_iff in Hz. rewrite in_app_iff in Hz.
  destruct Hz as [Hz|[Hz|Hz]].
  - exists z. split; [apply in_app_iff; auto|exact Ho].
  - exists z. split; [apply in_app_iff; right; right; exact Hz|exact Ho].
  - exists (Node HSum cs). split; [apply in_app_iff; right; left; reflexivity|]. eapply occurs_child; eauto.
Qed.
Lemma flat_prod_in n : forall q d r x, flat_prod n q d = Some r -> In x r -> exists y, In y (d ++ q) /\ occurs y x.
Proof.
  induction n as [|n IH]; intros q d r x E Hx; cbn [flat_prod] in E.
  { assert (r = d ++ q) by congruence. subst. exists x. split; [exact Hx|apply occ_here]. }
  destruct q as [|y q].
  { assert (r = d) by congruence. subst. exists x; rewrite app_nil_r; split; [exact Hx|apply occ_here]. }
  destruct (is_zero y); [discriminate|]. destruct (is_one y).
  { destruct (IH _ _ _ _ E Hx) as (z & Hz & Ho). exists z. split; [|exact Ho].
    apply in_app_iff in Hz. apply in_app_iff. cbn. tauto. }
  assert (G : flat_prod n q (d ++ [y]) = Some r -> exists y0, In y0 (d ++ y :: q) /\ occurs y0 x).
  { intros H. destruct (IH _ _ _ _ H Hx) as (z & Hz & Ho). exists z. split; [|exact Ho].
    rewrite <- app_assoc in Hz. exact Hz. }
  destruct y as [h cs]; destruct h; try (apply G; exact E).
  destruct (IH _ _ _ _ E Hx) as (z & Hz & Ho). apply in_app_iff in Hz. rewrite in_app_iff in Hz.
  destruct Hz as [Hz|[Hz|Hz]].
  - exists z. split; [apply in_app_iff; auto|exact Ho].
  - exists z. split; [apply in_app_iff; right; right; exact Hz|exact Ho].
  - exists (Node HProd cs). split; [apply in_app_iff; right; left; reflexivity|]. eapply occurs_child; eauto.
Qed.
Lemma num_occ c g cs : ~ occurs (num c) (Node (HIntG g) cs).
Proof. intros H. apply occurs_inv in H. destruct H as [H|(x & [] & _)]. discriminate. Qed.
Lemma flattened_sum_occ l g cs : occurs (flattened_sum l) (Node (HIntG g) cs) ->
  exists y, In y l /\ occurs y (Node (HIntG g) cs).
Proof.
  unfold flattened_sum. assert (P := flat_sum_in (sizes l) l []). cbn [app] in P.
  destruct (flat_sum (sizes l) l []) as [|x [|y r]]; intros H.
  - exfalso. exact (num_occ H).
  - destruct (P x (or_introl eq_refl)) as (z & Hz & Ho). exists z. split; [exact Hz|]. eapply occurs_trans; eauto.
  - apply occurs_inv in H. destruct H as [H|(c & Hc & H)]; [discriminate|].
    destruct (P c Hc) as (z & Hz & Ho). exists z. split; [exact Hz|]. eapply occurs_trans; eauto.
Qed.
Lemma flattened_product_occ l g cs : occurs (flattened_product l) (Node (HIntG g) cs) ->
  exists y, In y l /\ occurs y (Node (HIntG g) cs).
Proof.
  unfold flattened_product. assert (P := flat_prod_in (sizes l) l []). cbn [app] in P.
  destruct (flat_prod (sizes l) l []) as [[|x [|y r]]|]; intros H; try (exfalso; exact (num_occ H)).
  - destruct (P _ x eq_refl (or_introl eq_refl)) as (z & Hz & Ho). exists z. split; [exact Hz|]. eapply occurs_trans; eauto.
  - apply occurs_inv in H. destruct H as [H|(c & Hc & H)]; [discriminate|].
    destruct (P _ c eq_refl Hc) as (z & Hz & Ho). exists z. split; [exact Hz|]. eapply occurs_trans; eauto.
Qed.

Lemma collect_occurs e : forall e' g cs, collect e = Ok e' -> occurs e' (Node (HIntG g) cs) ->
  occurs e (Node (HIntG g) cs).
Proof.
  induction e as [h cs0 IH] using sexpr_ind'. rewrite Forall_forall in IH. intros e' g cs E Ho.
  assert (D : forall h0 f, (forall c c', In c cs0 -> f c = Ok c' -> c' = c \/ collect c = Ok c') ->
    forall cs', mapM f cs0 = Ok cs' -> forall y, In y cs' -> occurs y (Node (HIntG g) cs) ->
    occurs (Node h0 cs0) (Node (HIntG g) cs)).
  { intros h0 f Hf cs' Em y Hy Hoy. apply mapM_Ok_inv in Em.
    destruct (Forall2_In_r Em Hy) as (c & Hc & Ec). eapply occurs_child; [exact Hc|].
    destruct (Hf _ _ Hc Ec) as [->|X]; [exact Hoy|]. eapply IH; eauto. }
  assert (D' : forall h0, (forall g, h0 <> HIntG g) ->
     (do cs' <- mapM collect cs0; Ok (Node h0 cs')) = Ok e' -> occurs (Node h0 cs0) (Node (HIntG g) cs)).
  { intros h0 Hn E0. destruct (mapM collect cs0) as [cs'|] eqn:Em; cbn [bind] in E0; [|discriminate].
    assert (X : e' = Node h0 cs') by congruence. subst e'. apply occurs_inv in Ho.
    destruct Ho as [Ho|(y & Hy & Ho)]; [exfalso; apply (Hn g); congruence|].
    eapply D; [|exact Em|exact Hy|exact Ho]. auto. }
  destruct h; try (apply D'; [congruence|exact E]).
  - cbn [collect] in E. destruct (mapM collect cs0) as [cs'|] eqn:Em; cbn [bind] in E; [|discriminate].
    assert (X : e' = flattened_sum (filter has_intg cs')) by congruence. subst e'.
    apply flattened_sum_occ in Ho. destruct Ho as (y & Hy & Ho). apply filter_In in Hy.
    eapply D; [|exact Em|apply Hy|exact Ho]. auto.
  - cbn [collect] in E. destruct (mapM _ cs0) as [cs'|] eqn:Em; cbn [bind] in E; [|discriminate].
    destruct (2 <=? _); [discriminate|].
    assert (X : e' = flattened_product (filter is_number cs0 ++ filter has_intg cs')) by congruence. subst e'.
    apply flattened_product_occ in Ho. destruct Ho as (y & Hy & Ho). apply in_app_iff in Hy.
    destruct Hy as [Hy|Hy]; apply filter_In in Hy; destruct Hy as [Hy _].
    + eapply occurs_child; eauto.
    + eapply D; [|exact Em|exact Hy|exact Ho]. intros c c' _ Ec. cbn in Ec.
      destruct (is_number c); [left; congruence|auto].
  - cbn in E. congruence.
Qed.

(** Locations after replacing. *)
Lemma replace_path ds dt e : forall p h cs, at_path e p = Some (Node h cs) ->
  at_path (replace_dd ds dt e) p = Some (Node (replace_head ds dt h) (map (replace_dd ds dt) cs)).
Proof.
  induction e as [h0 cs0 IH] using sexpr_ind'. rewrite Forall_forall in IH. intros [|i p] h cs H; cbn [at_path replace_dd sexpr_children] in *.
  - assert (X : Node h0 cs0 = Node h cs) by congruence. inversion X; subst. reflexivity.
  - rewrite nth_error_map. destruct (nth_error cs0 i) as [c|] eqn:E; [|discriminate].
    cbn [option_map]. apply IH; [eapply nth_error_In; eauto|exact H].
Qed.
