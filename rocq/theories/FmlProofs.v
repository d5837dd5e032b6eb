From Coq Require Import QArith Permutation.
From Verif Require Import Base SymProofs SymProofs2 RefineModel AssocModel FmmModel FmmSpec FmmProofs FmmProofs2 FmlModel FmlSpec.
Set Implicit Arguments.
Open Scope nat_scope.

(** * Kernels *)
Lemma lap_or_helm_iff k dims : is_lap_or_helm k dims = true <-> exists b d, k = BaseKnl b d /\ known_base b /\ In d dims.
Proof.
  split.
  - destruct k as [[|n|] d|a i|v i|i]; cbn; intros H; try discriminate; (apply existsb_exists in H; destruct H as (x & I & E); apply Nat.eqb_eq in E; subst x);
      eexists; eexists; repeat split; eauto; constructor.
  - intros (b & d & -> & [|n] & I); cbn; apply existsb_exists; exists d; (split; [exact I|apply Nat.eqb_refl]).
Qed.
Lemma in23 d : In d [2; 3] <-> d = 2 \/ d = 3.
Proof. cbn. intuition lia. Qed.
Lemma supported_iff k : is_supported_helmknl k = true <-> exists d, no_target k d.
Proof.
  unfold is_supported_helmknl. rewrite lap_or_helm_iff. split.
  - intros (b & d & E & K & I). apply in23 in I. exists d. destruct k; try discriminate; subst; [injection E as -> ->; constructor; auto|].
    constructor; auto.
  - intros (d & [b d' K D|v b d' K D]); exists b, d'; rewrite in23; auto.
Qed.
Lemma ts_supported_iff k : is_supported_for_tsqbx k = true <-> acceptable k /\ ts_applies k.
Proof.
  unfold is_supported_for_tsqbx. rewrite lap_or_helm_iff. split.
  - intros (b & d & E & K & [<-|[]]). destruct k as [b' d'|a i|v i|i]; try discriminate; subst.
    + injection E as -> ->. split; [exists 3; constructor; auto|]. split; cbn; auto.
    + split; [exists 3; constructor; auto|]. split; cbn; auto.
    + split; [exists 3; constructor; auto|]. split; cbn; auto.
  - intros ((d & N) & D & E). destruct k as [b' d'|a i|v i|i]; cbn in *; inversion N; subst; cbn in *; try lia; try (eexists; eexists; repeat split; eauto; cbn; lia).
Qed.
Lemma supported_no_axis k : is_supported_helmknl k = true -> target_axis k = None /\ without_target k = k.
Proof. rewrite supported_iff. intros (d & [? ? ? ?|? ? ? ? ?]); split; reflexivity. Qed.

Lemma digest_step_ok setting use grad outs srcs ks k st :
  digest_step setting (use, grad, outs, srcs, ks) k = Ok st <->
  acceptable k /\ (setting = Some true -> ts_applies k) /\
  st = (if is_supported_for_tsqbx k then use else false, grad || (match target_axis k with Some _ => true | None => false end),
        outs ++ [target_axis k], srcs ++ [source_vector k], ks ++ [wave_number k]).
Proof.
  unfold digest_step.
  assert (A : acceptable k <-> is_supported_helmknl k = true \/ exists a i, k = AxisTarget a i /\ is_supported_helmknl i = true).
  { unfold acceptable. rewrite supported_iff. split.
    - destruct k as [b d|a i|v i|i]; cbn; intros (d' & N); try (left; exists d'; exact N). right. exists a, i. rewrite supported_iff. eauto.
    - intros [(d & N)|(a & i & -> & N)].
      + exists d. destruct N; constructor; auto.
      + apply supported_iff in N. exact N. }
  assert (W : forall x, source_vector k = match without_target k with DirSource v _ => Some v | _ => x end -> True) by auto.
  destruct (is_supported_for_tsqbx k) eqn:Ts.
  - apply ts_supported_iff in Ts. cbn [bind]. destruct Ts as (Ac & Ts). destruct (is_supported_helmknl k) eqn:S.
    + destruct (supported_no_axis _ S) as (E1 & E2). cbn [bind]. rewrite E1, orb_false_r. unfold source_vector, wave_number. rewrite E2. split; [intros [= <-]; auto|intros (_ & _ & ->); reflexivity].
    + destruct (proj1 A Ac) as [X|(a & i & -> & X)]; [congruence|]. rewrite X. cbn [bind target_axis]. rewrite orb_true_r. split; [intros [= <-]; auto|intros (_ & _ & ->); reflexivity].
  - assert (NT : acceptable k -> ~ ts_applies k) by (intros Ac X; assert (Y := proj2 (ts_supported_iff k) (conj Ac X)); congruence).
    assert (G : forall u, (do r <- (if is_supported_helmknl k then Ok (None, k, grad) else match k with AxisTarget a i => if is_supported_helmknl i then Ok (Some a, i, true) else Err ValueError | _ => Err ValueError end);
       let '(o, nt, g) := r in Ok (u, g, outs ++ [o], srcs ++ [match nt with DirSource v _ => Some v | _ => None end], ks ++ [match fst (base_kernel k) with Helmholtz n => Some n | _ => None end])) = Ok st
       <-> acceptable k /\ st = (u, grad || (match target_axis k with Some _ => true | None => false end), outs ++ [target_axis k], srcs ++ [source_vector k], ks ++ [wave_number k])).
    { intros u. destruct (is_supported_helmknl k) eqn:S.
      + destruct (supported_no_axis _ S) as (E1 & E2). cbn [bind]. rewrite E1, orb_false_r. unfold source_vector, wave_number. rewrite E2. rewrite A. split; [intros [= <-]; auto|intros (_ & ->); reflexivity].
      + rewrite A. destruct k as [b d|a i|v i|i]; try (split; [discriminate|intros ([X|(a' & i' & E & _)] & _); discriminate]).
        destruct (is_supported_helmknl i) eqn:X.
        * cbn [bind target_axis]. rewrite orb_true_r. split; [intros [= <-]; split; [right; eauto|reflexivity]|intros (_ & ->); reflexivity].
        * split; [discriminate|]. intros ([Y|(a' & i' & E & Y)] & _); [discriminate|]. injection E as -> ->. congruence. }
    destruct setting as [[|]|]; cbn [bind].
    + split; [discriminate|]. intros (Ac & X & _). destruct (NT Ac (X eq_refl)).
    + rewrite G. split; [intros (Ac & ->); repeat split; auto; discriminate|intros (Ac & _ & ->); auto].
    + rewrite G. split; [intros (Ac & ->); repeat split; auto; discriminate|intros (Ac & _ & ->); auto].
Qed.
Lemma digest_step_err setting st k e : digest_step setting st k = Err e -> e = ValueError.
Proof.
  destruct st as [[[[use grad] outs] srcs] ks]. unfold digest_step. destruct (is_supported_for_tsqbx k), setting as [[|]|]; cbn [bind]; try (intros [= <-]; reflexivity);
  (destruct (is_supported_helmknl k); cbn [bind]; [discriminate|]; destruct k as [b d|a i|v i|i]; cbn [bind]; try (intros [= <-]; reflexivity); destruct (is_supported_helmknl i); cbn [bind]; [discriminate|intros [= <-]; reflexivity]).
Qed.
Lemma foldM_err A S (f : S -> A -> result S) l : (forall s x e, f s x = Err e -> e = ValueError) -> forall s e, foldM f s l = Err e -> e = ValueError.
Proof.
  intros H. induction l as [|x l IH]; intros s e E; cbn in E; [discriminate|]. destruct (f s x) eqn:F; cbn in E; [eapply IH; exact E|]. injection E as <-. eapply H. exact F.
Qed.
Lemma foldM_digest setting ks : forall use grad outs srcs ws st,
  foldM (digest_step setting) (use, grad, outs, srcs, ws) ks = Ok st <->
  (forall k, In k ks -> acceptable k) /\ (setting = Some true -> forall k, In k ks -> ts_applies k) /\
  st = (use && forallb is_supported_for_tsqbx ks, grad || existsb (fun k => match target_axis k with Some _ => true | None => false end) ks,
        outs ++ map target_axis ks, srcs ++ map source_vector ks, ws ++ map wave_number ks).
Proof.
  induction ks as [|k ks IH]; intros use grad outs srcs ws st; cbn [foldM].
  - cbn [forallb existsb map]. rewrite andb_true_r, orb_false_r, !app_nil_r. split; [intros [= <-]; repeat split; intros; contradiction|intros (_ & _ & ->); reflexivity].
  - split.
    + intros H. apply bind_Ok in H. destruct H as (st1 & H1 & H2). apply digest_step_ok in H1. destruct H1 as (A & B & ->). apply IH in H2. destruct H2 as (C & D & ->).
      split; [intros x [<-|I]; auto|]. split; [intros S x [<-|I]; auto|]. cbn [forallb existsb map]. rewrite <- !app_assoc. cbn [app]. rewrite orb_assoc.
      destruct (is_supported_for_tsqbx k); [reflexivity|]. rewrite andb_false_r. reflexivity.
    + intros (A & B & ->). assert (E : exists st1, digest_step setting (use, grad, outs, srcs, ws) k = Ok st1).
      { eexists. apply digest_step_ok. split; [apply A; left; reflexivity|]. split; [intros S; apply B; [exact S|left; reflexivity]|reflexivity]. }
      destruct E as (st1 & E). rewrite E. cbn [bind]. apply digest_step_ok in E. destruct E as (_ & _ & ->). apply IH.
      split; [intros x I; apply A; right; exact I|]. split; [intros S x I; apply B; [exact S|right; exact I]|]. cbn [forallb existsb map]. rewrite <- !app_assoc. cbn [app]. rewrite orb_assoc.
      destruct (is_supported_for_tsqbx k); [reflexivity|]. rewrite andb_false_r. reflexivity.
Qed.
Lemma oeqb_eq a b : oeqb a b = true <-> a = b.
Proof. destruct a, b; cbn; try (split; [discriminate|discriminate || reflexivity]); [rewrite String.eqb_eq; split; [intros ->; reflexivity|intros [= ->]; reflexivity]|tauto]. Qed.
Lemma single_iff A (f : A -> option string) k0 ks : single (map f (k0 :: ks)) = true <-> forall k, In k (k0 :: ks) -> f k = f k0.
Proof.
  cbn [map single]. rewrite forallb_forall. split.
  - intros H k [<-|I]; [reflexivity|]. symmetry. apply oeqb_eq. apply H. apply in_map. exact I.
  - intros H x I. apply in_map_iff in I. destruct I as (k & <- & I). apply oeqb_eq. symmetry. apply H. right. exact I.
Qed.
Definition uses_ts (setting : option bool) (ks : list knl) : bool :=
  (match setting with Some b => b | None => true end) && forallb is_supported_for_tsqbx ks.
Definition any_axis (ks : list knl) : bool := existsb (fun k => match target_axis k with Some _ => true | None => false end) ks.
Definition is_helm (k : knl) : bool := match wave_number k with Some _ => true | None => false end.
Lemma known_wave k : acceptable k -> fst (base_kernel k) = Laplace /\ wave_number k = None \/ exists n, fst (base_kernel k) = Helmholtz n /\ wave_number k = Some n.
Proof.
  intros (d & N). unfold wave_number.
  assert (E : known_base (fst (base_kernel k))) by (destruct k as [b d'|a i|v i|i]; cbn in *; inversion N; subst; cbn; auto).
  destruct E; [left; auto|right; eauto].
Qed.
Lemma digest_iff setting ks ti : digest setting ks = Ok ti <->
  exists k0 ks', ks = k0 :: ks' /\ (forall k, In k ks -> acceptable k) /\ (setting = Some true -> forall k, In k ks -> ts_applies k)
  /\ (forall k, In k ks -> source_vector k = source_vector k0 /\ wave_number k = wave_number k0)
  /\ ti = TI (uses_ts setting ks) (map target_axis ks) (source_vector k0) (wave_number k0) (dim_of k0) (is_helm k0) (any_axis ks).
Proof.
  split.
  - intros H. destruct ks as [|k0 ks']; [discriminate|]. unfold digest in H. apply bind_Ok in H. destruct H as (st & H & H2). apply foldM_digest in H. destruct H as (A & B & ->).
    cbn beta iota in H2. exists k0, ks'. split; [reflexivity|]. split; [exact A|]. split; [exact B|]. cbn [app orb] in H2.
    destruct (single (map source_vector (k0 :: ks'))) eqn:S1; [|discriminate]. destruct (single (map wave_number (k0 :: ks'))) eqn:S2; [|discriminate]. cbn [negb] in H2.
    rewrite single_iff in S1. rewrite single_iff in S2. split; [intros k I; split; auto|]. unfold uses_ts, any_axis, is_helm, dim_of.
    destruct (known_wave (A k0 (or_introl eq_refl))) as [(E & E')|(n & E & E')]; rewrite E in H2; rewrite E'; cbn [bind] in H2; injection H2 as <-; cbn [map hd]; rewrite E'; reflexivity.
  - intros (k0 & ks' & -> & A & B & C & ->). unfold digest.
    rewrite (proj2 (foldM_digest setting (k0 :: ks') _ _ _ _ _ _) (conj A (conj B eq_refl))). cbn [bind app orb].
    rewrite (proj2 (single_iff source_vector k0 ks')) by (intros k I; apply C, I). rewrite (proj2 (single_iff wave_number k0 ks')) by (intros k I; apply C, I). cbn [negb].
    destruct (known_wave (A k0 (or_introl eq_refl))) as [(E & E')|(n & E & E')]; rewrite E; cbn [bind]; unfold is_helm; cbn [map hd]; rewrite E'; reflexivity.
Qed.
