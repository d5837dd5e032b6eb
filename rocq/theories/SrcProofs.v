From Verif Require Import Base SrcModel SrcSpec.
Set Implicit Arguments.
Open Scope list_scope.
Open Scope nat_scope.

Lemma list_eqb_iff (A : Type) (f : A -> A -> bool) (Hf : forall a b, f a b = true <-> a = b) (l l' : list A) :
  list_eqb f l l' = true <-> l = l'.
Proof.
  revert l'; induction l as [|a l IH]; intros [|b l']; simpl; try (split; [discriminate|discriminate]).
  - split; reflexivity.
  - rewrite andb_true_iff, Hf, IH. split; [intros [-> ->]; reflexivity|intros H; inversion H; auto].
Qed.
Lemma base_eqb_iff a b : base_eqb a b = true <-> a = b.
Proof.
  destruct a as [i c], b as [j d]; unfold base_eqb; simpl.
  rewrite andb_true_iff, Nat.eqb_eq, eqb_true_iff.
  split; [intros [-> ->]; reflexivity|intros H; inversion H; auto].
Qed.
Lemma kern_eqb_iff a b : kern_eqb a b = true <-> a = b.
Proof.
  destruct a as [b1 s1 t1 a1 r1], b as [b2 s2 t2 a2 r2]; unfold kern_eqb; simpl.
  rewrite !andb_true_iff, base_eqb_iff.
  rewrite !(list_eqb_iff Nat.eqb Nat.eqb_eq), !(list_eqb_iff String.eqb String.eqb_eq).
  split; [intros ((((-> & ->) & ->) & ->) & ->); reflexivity|intros H; inversion H; auto 10].
Qed.
Lemma p2p_key_eqb_iff (a b : list kern * option (list kern)) : p2p_key_eqb a b = true <-> a = b.
Proof.
  destruct a as [t s], b as [t' s']; unfold p2p_key_eqb; simpl.
  rewrite andb_true_iff, (list_eqb_iff kern_eqb kern_eqb_iff).
  destruct s as [s|], s' as [s'|]; simpl; try rewrite (list_eqb_iff kern_eqb kern_eqb_iff);
    (split; [intros [? ?]; congruence|intros H; inversion H; auto]).
Qed.

(** * The memoized evaluators *)
Definition lookup (a : actx) (k : list kern * option (list kern)) : option p2p :=
  option_map snd (find (fun e => p2p_key_eqb (fst e) k) (memo a)).
Notation call := (psource * (list kern * option (list kern)))%type.
Definition step (c : call) (a : actx) : actx := snd (get_p2p (fst c) (fst (snd c)) (snd (snd c)) a).
Definition final (cs : list call) (a : actx) : actx := fold_left (fun a c => step c a) cs a.

Lemma lookup_cons k P k' m n : lookup (Actx ((k, P) :: m) n) k' = if p2p_key_eqb k k' then Some P else lookup (Actx m n) k'.
Proof. unfold lookup; simpl. destruct (p2p_key_eqb k k'); reflexivity. Qed.
Lemma lookup_next m n n' k : lookup (Actx m n) k = lookup (Actx m n') k.
Proof. reflexivity. Qed.

Lemma make_oid s t sk o P : make_p2p s t sk o = Ok P ->
  exists d, P = P2P t sk false d o /\ forall o', make_p2p s t sk o' = Ok (P2P t sk false d o').
Proof.
  unfold make_p2p. destruct (if existsb _ t then _ else _) as [d|e]; simpl; [|discriminate].
  intros H; inversion H; subst. exists d. split; [reflexivity|]. intros; reflexivity.
Qed.
Lemma make_err s t sk o e : make_p2p s t sk o = Err e -> forall o', make_p2p s t sk o' = Err e.
Proof.
  unfold make_p2p. destruct (if existsb _ t then _ else _) as [d|e']; simpl; [discriminate|auto].
Qed.

Lemma get_cases s t sk a r a' : get_p2p s t sk a = (r, a') ->
  (exists P, lookup a (t, sk) = Some P /\ r = Ok P /\ a' = a) \/
  (lookup a (t, sk) = None /\ exists P, make_p2p s t sk (next_oid a) = Ok P /\ r = Ok P
     /\ a' = Actx (((t, sk), P) :: memo a) (S (next_oid a))) \/
  (lookup a (t, sk) = None /\ exists e, make_p2p s t sk (next_oid a) = Err e /\ r = Err e /\ a' = a).
Proof.
  unfold get_p2p, lookup. destruct (find _ (memo a)) as [e|]; simpl.
  - intros H; inversion H; subst. left. eauto.
  - destruct (make_p2p s t sk (next_oid a)) as [P|e]; intros H; inversion H; subst; right; [left|right]; eauto.
Qed.

Lemma calls_cons c cs a : p2p_calls (c :: cs) a = fst (get_p2p (fst c) (fst (snd c)) (snd (snd c)) a) :: p2p_calls cs (step c a).
Proof. simpl. unfold step. destruct (get_p2p _ _ _ a); reflexivity. Qed.
Lemma calls_length cs a : length (p2p_calls cs a) = length cs.
Proof. revert a; induction cs as [|c cs IH]; intros a; [reflexivity|]. rewrite calls_cons. simpl. rewrite IH. reflexivity. Qed.

Lemma step_keeps c a k P : lookup a k = Some P -> lookup (step c a) k = Some P.
Proof.
  intros H. unfold step. destruct (get_p2p _ _ _ a) as [r a'] eqn:E. simpl.
  destruct (get_cases _ _ _ _ E) as [(Q & _ & _ & ->)|[(HN & Q & _ & _ & ->)|(_ & e & _ & _ & ->)]]; auto.
  rewrite lookup_cons. destruct (p2p_key_eqb _ k) eqn:Ek.
  - apply p2p_key_eqb_iff in Ek. subst k. congruence.
  - destruct a; exact H.
Qed.
Lemma final_keeps cs a k P : lookup a k = Some P -> lookup (final cs a) k = Some P.
Proof. revert a; induction cs as [|c cs IH]; intros a H; [exact H|]. simpl. apply IH, step_keeps, H. Qed.

Lemma result_kept cs a i c P : nth_error cs i = Some c -> nth_error (p2p_calls cs a) i = Some (Ok P) ->
  lookup (final cs a) (snd c) = Some P.
Proof.
  revert a i; induction cs as [|c' cs IH]; intros a [|i] Hc HP; try discriminate.
  - rewrite calls_cons in HP. simpl in Hc, HP. inversion Hc; subst c'. inversion HP as [HP'].
    simpl. apply final_keeps. unfold step.
    destruct (get_p2p _ _ _ a) as [r a'] eqn:E. simpl in *. subst r.
    destruct c as [s [t sk]]; simpl in *.
    destruct (get_cases _ _ _ _ E) as [(Q & H1 & H2 & ->)|[(HN & Q & _ & H2 & ->)|(_ & e & _ & H2 & ->)]]; inversion H2; subst.
    + exact H1.
    + rewrite lookup_cons. replace (p2p_key_eqb (t, sk) (t, sk)) with true; [reflexivity|].
      symmetry. apply p2p_key_eqb_iff. reflexivity.
  - rewrite calls_cons in HP. simpl. exact (IH _ _ Hc HP).
Qed.

(** Identities are fresh. *)
Definition fresh_ok (a : actx) : Prop :=
  (forall k P, lookup a k = Some P -> p_oid P < next_oid a /\ (p_tgt P, p_src P) = k).
Definition inj_ok (a : actx) : Prop :=
  forall k k' P P', lookup a k = Some P -> lookup a k' = Some P' -> p_oid P = p_oid P' -> k = k'.
Lemma step_ok c a : fresh_ok a -> inj_ok a -> fresh_ok (step c a) /\ inj_ok (step c a).
Proof.
  intros HF HI. unfold step. destruct (get_p2p _ _ _ a) as [r a'] eqn:E. simpl.
  destruct (get_cases _ _ _ _ E) as [(Q & _ & _ & ->)|[(HN & Q & HQ & _ & ->)|(_ & e & _ & _ & ->)]]; auto.
  destruct (make_oid _ _ _ _ HQ) as (d & -> & _).
  set (k0 := (fst (snd c), snd (snd c))) in *.
  assert (HF' : fresh_ok (Actx ((k0, P2P (fst (snd c)) (snd (snd c)) false d (next_oid a)) :: memo a) (S (next_oid a)))).
  { intros k P. rewrite lookup_cons. destruct (p2p_key_eqb _ k) eqn:Ek.
    - intros H; inversion H; subst. apply p2p_key_eqb_iff in Ek. simpl. split; [lia|exact Ek].
    - intros H. rewrite (lookup_next _ _ (next_oid a)) in H. destruct a as [m nx]; simpl in *.
      destruct (HF k P H) as [H1 H2]. simpl in H1. split; [lia|exact H2]. }
  split; [exact HF'|].
  intros k k' P P' H H' He.
  destruct (HF' _ _ H) as [_ K1]. destruct (HF' _ _ H') as [_ K2].
  rewrite lookup_cons in H, H'.
  destruct (p2p_key_eqb k0 k) eqn:Ek; destruct (p2p_key_eqb k0 k') eqn:Ek'.
  - apply p2p_key_eqb_iff in Ek, Ek'. congruence.
  - inversion H; subst P; simpl in He. destruct a as [m nx]; simpl in *.
    destruct (HF k' P' H') as [H1 _]. simpl in H1. lia.
  - inversion H'; subst P'; simpl in He. destruct a as [m nx]; simpl in *.
    destruct (HF k P H) as [H1 _]. simpl in H1. lia.
  - destruct a as [m nx]; simpl in *. exact (HI _ _ _ _ H H' He).
Qed.
Lemma final_ok cs a : fresh_ok a -> inj_ok a -> fresh_ok (final cs a) /\ inj_ok (final cs a).
Proof.
  revert a; induction cs as [|c cs IH]; intros a HF HI; [auto|]. simpl.
  destruct (step_ok c HF HI). apply IH; assumption.
Qed.
Lemma empty_fresh : fresh_ok empty_actx.
Proof. intros k P H; discriminate H. Qed.
Lemma empty_inj : inj_ok empty_actx.
Proof. intros k k' P P' H; discriminate H. Qed.

(** What each call returns: the evaluator of the first successful call for its kernels. *)
Lemma nth_calls cs a i c : nth_error cs i = Some c ->
  nth_error (p2p_calls cs a) i = Some (fst (get_p2p (fst c) (fst (snd c)) (snd (snd c)) (final (firstn i cs) a))).
Proof.
  revert a i; induction cs as [|c' cs IH]; intros a [|i] Hc; try discriminate.
  - inversion Hc; subst c'. rewrite calls_cons. reflexivity.
  - rewrite calls_cons. simpl. apply IH. exact Hc.
Qed.
Lemma final_app l l' a : final (l ++ l') a = final l' (final l a).
Proof. unfold final. apply fold_left_app. Qed.

Definition okcall (c : call) : Prop := exists P, make_p2p (fst c) (fst (snd c)) (snd (snd c)) 0 = Ok P.
Lemma okcall_dec c : okcall c \/ exists e, make_p2p (fst c) (fst (snd c)) (snd (snd c)) 0 = Err e.
Proof. unfold okcall. destruct (make_p2p _ _ _ 0); eauto. Qed.

Lemma lookup_final cs k :
  (lookup (final cs empty_actx) k = None /\
   forall h c, nth_error cs h = Some c -> snd c = k -> exists e, make_p2p (fst c) (fst (snd c)) (snd (snd c)) 0 = Err e) \/
  (exists j c P o, lookup (final cs empty_actx) k = Some P /\ nth_error cs j = Some c /\ snd c = k /\
     make_p2p (fst c) (fst (snd c)) (snd (snd c)) o = Ok P /\
     forall h c', h < j -> nth_error cs h = Some c' -> snd c' = k ->
       exists e, make_p2p (fst c') (fst (snd c')) (snd (snd c')) 0 = Err e).
Proof.
  induction cs as [|c cs IH] using rev_ind.
  - left. split; [reflexivity|]. intros [|h] c H; discriminate H.
  - rewrite final_app. simpl. set (a := final cs empty_actx) in *.
    destruct IH as [[HN Hall]|(j & cj & P & o & HL & Hj & Hk & HP & Hall)].
    + unfold step. destruct (get_p2p _ _ _ a) as [r a'] eqn:E. simpl.
      destruct (p2p_key_eqb (snd c) k) eqn:Ek.
      * apply p2p_key_eqb_iff in Ek. destruct c as [s [t sk]]; simpl in *. subst k.
        destruct (get_cases _ _ _ _ E) as [(Q & HQ & _ & ->)|[(_ & Q & HQ & _ & ->)|(_ & e & HQ & _ & ->)]].
        -- congruence.
        -- right. exists (length cs), (s, (t, sk)), Q, (next_oid a). rewrite lookup_cons.
           replace (p2p_key_eqb (t, sk) (t, sk)) with true by (symmetry; apply p2p_key_eqb_iff; reflexivity).
           repeat split; auto.
           ++ rewrite nth_error_app2, Nat.sub_diag by lia. reflexivity.
           ++ intros h c' Hh Hc' Hk'. rewrite nth_error_app1 in Hc' by lia. exact (Hall h c' Hc' Hk').
        -- left. split; [exact HN|]. intros h c' Hc' Hk'.
           destruct (Nat.lt_ge_cases h (length cs)) as [Hh|Hh].
           ++ rewrite nth_error_app1 in Hc' by lia. eauto.
           ++ rewrite nth_error_app2 in Hc' by lia. destruct (h - length cs) as [|x]; [|destruct x; discriminate Hc'].
              inversion Hc'; subst c'. simpl. exists e. exact (make_err _ _ _ _ HQ 0).
      * left. assert (Hne : snd c <> k) by (intros H; apply p2p_key_eqb_iff in H; congruence).
        split.
        -- destruct (get_cases _ _ _ _ E) as [(Q & HQ & _ & ->)|[(_ & Q & HQ & _ & ->)|(_ & e & HQ & _ & ->)]]; auto.
           rewrite lookup_cons. replace (fst (snd c), snd (snd c)) with (snd c) by (destruct c as [s [t sk]]; reflexivity).
           rewrite Ek. destruct a; exact HN.
        -- intros h c' Hc' Hk'. destruct (Nat.lt_ge_cases h (length cs)) as [Hh|Hh].
           ++ rewrite nth_error_app1 in Hc' by lia. eauto.
           ++ rewrite nth_error_app2 in Hc' by lia. destruct (h - length cs) as [|x]; [|destruct x; discriminate Hc'].
              inversion Hc'; subst c'. contradiction.
    + right. assert (Hl : j < length cs) by (apply nth_error_Some; congruence).
      exists j, cj, P, o. repeat split; auto.
      * apply step_keeps. exact HL.
      * rewrite nth_error_app1 by lia. exact Hj.
      * intros h c' Hh Hc' Hk'. rewrite nth_error_app1 in Hc' by lia. eauto.
Qed.

Lemma nth_firstn (A : Type) (l : list A) n h : h < n -> nth_error (firstn n l) h = nth_error l h.
Proof.
  revert l n; induction h as [|h IH]; intros [|x l] [|n] H; try lia; try reflexivity.
  simpl. apply IH. lia.
Qed.

Lemma call_result cs i c : nth_error cs i = Some c ->
  (exists j cj P o, first_success cs i j /\ nth_error cs j = Some cj /\
     make_p2p (fst cj) (fst (snd cj)) (snd (snd cj)) o = Ok P /\
     nth_error (p2p_calls cs empty_actx) i = Some (Ok P)) \/
  ((forall j, ~ first_success cs i j) /\
   exists e, make_p2p (fst c) (fst (snd c)) (snd (snd c)) 0 = Err e /\ nth_error (p2p_calls cs empty_actx) i = Some (Err e)).
Proof.
  intros Hc. rewrite (@nth_calls _ empty_actx _ _ Hc). set (a := final (firstn i cs) empty_actx).
  assert (Hi : i < length cs) by (apply nth_error_Some; congruence).
  assert (Hlen : length (firstn i cs) = i) by (rewrite firstn_length; lia).
  destruct (lookup_final (firstn i cs) (snd c)) as [[HN Hall]|(j & cj & P & o & HL & Hj & Hk & HP & Hall)].
  - change (lookup a (snd c) = None) in HN. destruct (get_p2p _ _ _ a) as [r a'] eqn:E. simpl.
    assert (HN' : lookup a (fst (snd c), snd (snd c)) = None) by (destruct c as [s [t sk]]; exact HN).
    destruct (get_cases _ _ _ _ E) as [(Q & HQ & _ & ->)|[(_ & Q & HQ & -> & _)|(_ & e & HQ & -> & ->)]].
    + congruence.
    + left. exists i, c, Q, (next_oid a). repeat split; auto. exists c, c. repeat split; auto.
      * destruct (make_oid _ _ _ _ HQ) as (d & _ & H). eexists. apply H.
      * intros h ch Hh Hch Hk. apply (Hall h ch); auto. rewrite nth_firstn by exact Hh. exact Hch.
    + right. split; [|exists e; split; [exact (make_err _ _ _ _ HQ 0)|reflexivity]].
      intros j (ci & cj & H1 & H2 & H3 & H4 & (P & HP) & _). rewrite Hc in H1; inversion H1; subst ci.
      destruct (Nat.eq_dec j i) as [->|Hji].
      * rewrite Hc in H2; inversion H2; subst cj. pose proof (make_err _ _ _ _ HQ 0). congruence.
      * destruct (Hall j cj) as [e' He']; [rewrite nth_firstn by lia; exact H2|auto|]. congruence.
  - change (lookup a (snd c) = Some P) in HL. left. assert (Hji : j < i) by (rewrite <- Hlen; apply nth_error_Some; congruence).
    rewrite nth_firstn in Hj by exact Hji.
    exists j, cj, P, o. repeat split; auto.
    + exists c, cj. repeat split; auto; try lia.
      * destruct (make_oid _ _ _ _ HP) as (d & _ & H). eexists. apply H.
      * intros h ch Hh Hch Hk'. apply (Hall h ch); auto. rewrite nth_firstn by lia. exact Hch.
    + unfold get_p2p. replace (fst (snd c), snd (snd c)) with (snd c) by (destruct c as [s [t sk]]; reflexivity).
      unfold lookup in HL. destruct (find _ (memo a)) as [[k P']|]; simpl in *; [|discriminate].
      congruence.
Qed.

Lemma make_suits s p key o P : real_dtype s = RealT p -> make_p2p s (fst key) (snd key) o = Ok P -> suits p key P.
Proof.
  intros Hs H. unfold make_p2p in H. unfold suits.
  destruct (existsb is_complex_valued (fst key)) eqn:E.
  - unfold complex_dtype in H. rewrite Hs in H. apply existsb_exists in E.
    destruct p; simpl in H; inversion H; subst; simpl; repeat split; auto;
      intros Hn; destruct E as (k & Hk & Ck); rewrite (Hn k Hk) in Ck; discriminate.
  - simpl in H. inversion H; subst; simpl. repeat split; auto.
    intros (k & Hk & Ck). assert (existsb is_complex_valued (fst key) = true) by (apply existsb_exists; eauto). congruence.
Qed.
Lemma make_total s p t sk o : real_dtype s = RealT p -> exists P, make_p2p s t sk o = Ok P.
Proof.
  intros Hs. unfold make_p2p, complex_dtype. rewrite Hs. destruct (existsb _ t); [destruct p|]; simpl; eauto.
Qed.

(** * Number types *)
Lemma fmm_dtype_dev s p ks t :
  real_dtype s = RealT p ->
  fmm_dtype s ks (TDev t) = Ok (if existsb is_complex_valued ks || kind_c t then CplxT p else RealT p).
Proof.
  intros Hs. unfold fmm_dtype, complex_dtype. rewrite Hs. simpl.
  destruct (existsb is_complex_valued ks); [destruct p; reflexivity|]. simpl.
  destruct (kind_c t); [destruct p|]; reflexivity.
Qed.
Lemma kind_times p t : kind_c (times_real p t) = kind_c t.
Proof. destruct t; reflexivity. Qed.
Lemma involves_iff i b : (forall k, In k (f_src i ++ f_tgt i) -> k_base k = b) -> f_src i <> [] -> f_tgt i <> [] ->
  (existsb is_complex_valued (f_src i) = b_complex b) /\ (existsb is_complex_valued (f_tgt i) = b_complex b) /\
  (involves_complex i <-> b_complex b = true \/ exists t, In t (f_dens i) /\ kind_c t = true).
Proof.
  intros Hb Hs Ht.
  assert (He : forall l, l <> [] -> (forall k, In k l -> In k (f_src i ++ f_tgt i)) -> existsb is_complex_valued l = b_complex b).
  { intros l Hl Hin. destruct l as [|k l]; [congruence|].
    destruct (b_complex b) eqn:E.
    - simpl. unfold is_complex_valued at 1. rewrite (Hb k), E; [reflexivity|]. apply Hin. left. reflexivity.
    - destruct (existsb _ (k :: l)) eqn:E'; [|reflexivity]. apply existsb_exists in E'. destruct E' as (k' & Hk' & C).
      unfold is_complex_valued in C. rewrite (Hb k') in C; [congruence|]. apply Hin. exact Hk'. }
  split; [|split].
  - apply He; [exact Hs|]. intros k Hk. apply in_app_iff; auto.
  - apply He; [exact Ht|]. intros k Hk. apply in_app_iff; auto.
  - unfold involves_complex. split; intros [H|H]; auto.
    + left. destruct H as (k & Hk & C). unfold is_complex_valued in C. rewrite (Hb k Hk) in C. exact C.
    + left. destruct (f_src i) as [|k l] eqn:E; [congruence|]. exists k. split; [left; reflexivity|].
      unfold is_complex_valued. rewrite (Hb k); [exact H|]. left. reflexivity.
Qed.
Lemma fits_if p i (b : bool) : (involves_complex i <-> b = true) -> fits p i (if b then CplxT p else RealT p).
Proof. intros H. unfold fits. destruct b; split; intros H'; auto; [exfalso; apply H', H; reflexivity|apply H in H'; discriminate]. Qed.
Lemma dens_kind i d ds : f_dens i = d :: ds -> same_kind i ->
  ((exists t, In t (f_dens i) /\ kind_c t = true) <-> kind_c d = true).
Proof.
  intros E Hk. split.
  - intros (t & Ht & C). rewrite (Hk d t); auto. rewrite E. left. reflexivity.
  - intros C. exists d. split; [rewrite E; left; reflexivity|exact C].
Qed.
Lemma qbx_fmm_dtype_fits s p wp i : real_dtype s = RealT p -> grouped i -> same_kind i ->
  exists t, qbx_fmm_dtype s wp i = Ok t /\ fits p i t.
Proof.
  intros Hs (H1 & H2 & H3 & b & Hb) Hk. destruct (involves_iff i Hb H1 H2) as (E1 & E2 & E3).
  unfold qbx_fmm_dtype. destruct (f_dens i) as [|d ds] eqn:E; [congruence|]. simpl.
  rewrite (@fmm_dtype_dev _ _ _ _ Hs). eexists. split; [reflexivity|]. apply fits_if.
  rewrite E3, E1, orb_true_iff, kind_times. rewrite <- E, (dens_kind E Hk). reflexivity.
Qed.
Lemma unreg_fmm_dtype_fits s p wp i : real_dtype s = RealT p -> grouped i -> same_kind i ->
  exists t, unreg_fmm_dtype s wp i = Ok t /\ fits p i t.
Proof.
  intros Hs (H1 & H2 & H3 & b & Hb) Hk. destruct (involves_iff i Hb H1 H2) as (E1 & E2 & E3).
  unfold unreg_fmm_dtype. destruct (f_dens i) as [|d ds] eqn:E; [congruence|]. simpl.
  change (fmm_dtype s (f_tgt i) (TDof (times_real wp d))) with (fmm_dtype s (f_tgt i) (TDev (times_real wp d))).
  rewrite (@fmm_dtype_dev _ _ _ _ Hs). eexists. split; [reflexivity|]. apply fits_if.
  rewrite E3, E2, orb_true_iff, kind_times. rewrite <- E, (dens_kind E Hk). reflexivity.
Qed.

(** get_fmm_kernel. *)
Lemma fmm_kernel_from f ks r : get_fmm_kernel_from (Some f) ks = r ->
  (r = Ok (Some f) /\ forall k, In k ks -> tx_remove k = f) \/ (r = Err AssertionError /\ exists k, In k ks /\ tx_remove k <> f).
Proof.
  revert r; induction ks as [|k ks IH]; intros r H; simpl in H.
  - left. split; [auto|]. intros k [].
  - destruct (kern_eqb f (tx_remove k)) eqn:E.
    + apply kern_eqb_iff in E. destruct (IH _ H) as [[-> Ha]|[-> (k' & Hk' & Hne)]].
      * left. split; [reflexivity|]. intros k' [<-|Hk']; auto.
      * right. split; [reflexivity|]. exists k'. split; [right; exact Hk'|exact Hne].
    + right. split; [auto|]. exists k. split; [left; reflexivity|]. intros Heq.
      assert (kern_eqb f (tx_remove k) = true) by (apply kern_eqb_iff; auto). congruence.
Qed.
