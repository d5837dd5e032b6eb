(** The compiler invariant. *)
From Verif Require Import Base SchedModel CompModel CompSpec CompProofs.
From Coq Require Import Permutation.
Set Implicit Arguments.

Definition cassg (s : cstmt) : list string :=
  match s with CAssign n _ => [n] | CPot outs _ _ _ _ => map fst outs end.
Definition defd (c : list cstmt) : list string := flat_map cassg c.
Definition cfv (s : cstmt) : list dep :=
  match s with
  | CAssign _ e => fv e
  | CPot _ _ ds ks _ => flat_map fv ds ++ flat_map (fun a => fv (snd a)) ks
  end.

Lemma defd_app a b : defd (a ++ b) = defd a ++ defd b.
Proof. unfold defd. apply flat_map_app. Qed.

Lemma mapM_pairs K A B (f : A -> result B) (ps : list (K * A)) :
  mapM (fun p => match p with (k, d) => do v <- f d; Ok (k, v) end) ps
  = (do vs <- mapM f (map snd ps); Ok (combine (map fst ps) vs)).
Proof.
  induction ps as [|[k d] ps IH]; simpl; [reflexivity|].
  destruct (f d) as [v|e]; simpl; [|reflexivity].
  rewrite IH. destruct (mapM f (map snd ps)); reflexivity.
Qed.

Lemma combine_fst A B (l : list A) (l' : list B) : length l = length l' -> map fst (combine l l') = l.
Proof.
  revert l'. induction l as [|x l IH]; intros [|y l'] H; simpl in *; try lia; [reflexivity|].
  f_equal. apply IH. lia.
Qed.
Lemma combine_snd A B (l : list A) (l' : list B) : length l = length l' -> map snd (combine l l') = l'.
Proof.
  revert l'. induction l as [|x l IH]; intros [|y l'] H; simpl in *; try lia; [reflexivity|].
  f_equal. apply IH. lia.
Qed.

Lemma Forall2_len A B (R : A -> B -> Prop) l l' : Forall2 R l l' -> length l = length l'.
Proof. induction 1; simpl; congruence. Qed.

Section Main.
Variable ple : nat * expr -> nat * expr -> bool.
Variable kfeat : nat -> nat -> nat.
Variable gorder : list expr -> list expr.
Hypothesis gorder_perm : forall l, Permutation (gorder l) l.
Variable root : expr.
Hypothesis Hacc : accepted root.
Hypothesis Hcap : no_capture root.
Hypothesis Hlim : limits_distinct root.
Variable V : Type.
Variable vzero : V.
Variable vlit : nat -> result V.
Variable vadd : V -> V -> result V.
Variable vop : nat -> list V -> result V.
Variable vsub : nat -> V -> result V.
Variable varr : list V -> V.
Variable vpot : nat -> list (nat * V) -> list (string * V) -> limit -> nat -> nat -> result V.
Hypothesis vadd_zero : forall x, vadd vzero x = Ok x.
Hypothesis vpot_perm : forall tk ps ps' ks l s t, Permutation ps ps' ->
  vpot tk ps ks l s t = vpot tk ps' ks l s t.
Variable c0 : ctx V.

Notation ev := (evalx vzero vlit vadd vop vsub varr vpot false).
Notation den := (evalx vzero vlit vadd vop vsub varr vpot true c0).
Notation cexec := (cexec vzero vlit vadd vop vsub varr vpot).
Notation comp := (comp ple kfeat gorder).
Notation psort := (psort ple).

Definition live : Prop := exists r, den root = Ok r.
Definition denP (e : expr) (x : V) : Prop := den e = Ok x.
Definition need (spec : V -> Prop) : Prop := live -> exists x, spec x.

(** *** Meaning of subexpressions *)
Lemma den_child e v : den e = Ok v -> forall c, In c (children e) -> exists w, den c = Ok w.
Proof.
  destruct e as [n|n|n k|k|cs|k cs|cs|c' p s|tk ps l s t ks]; cbn [children]; intros H c Hc; try (destruct Hc; fail).
  - cbn [evalx] in H. destruct (mapM _ cs) as [vs|] eqn:E; [|discriminate H].
    apply (mapM_ok_In _ _ E _ Hc).
  - cbn [evalx] in H. destruct (mapM _ cs) as [vs|] eqn:E; [|discriminate H].
    apply (mapM_ok_In _ _ E _ Hc).
  - cbn [evalx] in H. destruct (mapM _ cs) as [vs|] eqn:E; [|discriminate H].
    apply (mapM_ok_In _ _ E _ Hc).
  - destruct Hc as [<-|[]]. eauto.
  - cbn [evalx] in H. rewrite !mapM_pairs in H.
    destruct (mapM _ (map snd ps)) as [vs|] eqn:E; [|discriminate H]. cbn [bind] in H.
    destruct (mapM _ (map snd ks)) as [ws|] eqn:E2; [|discriminate H].
    apply in_app_iff in Hc. destruct Hc as [Hc|Hc].
    + apply (mapM_ok_In _ _ E _ Hc).
    + apply (mapM_ok_In _ _ E2 _ Hc).
Qed.

Lemma den_sub e : live -> sub root e -> exists v, den e = Ok v.
Proof.
  intros [r Hr] Hs. induction Hs as [|e c He IH Hc]; [eauto|].
  destruct IH as [v Hv]. exact (den_child _ Hv c Hc).
Qed.

Lemma eval_ext lp c c' e : (forall d, In d (fv e) -> c (dname d) = c' (dname d)) ->
  evalx vzero vlit vadd vop vsub varr vpot lp c e = evalx vzero vlit vadd vop vsub varr vpot lp c' e.
Proof.
  induction e as [n|n|n k|k|cs IH|k cs IH|cs IH|ch p s IH|tk ps l s t ks IH1 IH2] using expr_ind';
    intros H; cbn [evalx].
  - unfold get. pose proof (H (Dep n false) (or_introl eq_refl)) as E; simpl in E; rewrite E; reflexivity.
  - unfold get. pose proof (H (Dep n true) (or_introl eq_refl)) as E; simpl in E; rewrite E; reflexivity.
  - unfold get. pose proof (H (Dep n false) (or_introl eq_refl)) as E; simpl in E; rewrite E; reflexivity.
  - reflexivity.
  - rewrite Forall_forall in IH. rewrite (mapM_ext _ (evalx vzero vlit vadd vop vsub varr vpot lp c') cs); [reflexivity|].
    intros x Hx. apply IH; [exact Hx|]. intros d Hd. apply H. simpl. apply in_flat_map. eauto.
  - rewrite Forall_forall in IH. rewrite (mapM_ext _ (evalx vzero vlit vadd vop vsub varr vpot lp c') cs); [reflexivity|].
    intros x Hx. apply IH; [exact Hx|]. intros d Hd. apply H. simpl. apply in_flat_map. eauto.
  - rewrite Forall_forall in IH. rewrite (mapM_ext _ (evalx vzero vlit vadd vop vsub varr vpot lp c') cs); [reflexivity|].
    intros x Hx. apply IH; [exact Hx|]. intros d Hd. apply H. simpl. apply in_flat_map. eauto.
  - apply IH. exact H.
  - destruct lp; [|reflexivity]. rewrite !mapM_pairs.
    rewrite (mapM_ext _ (evalx vzero vlit vadd vop vsub varr vpot true c') (map snd ps)).
    2:{ intros x Hx. apply in_map_iff in Hx. destruct Hx as ([k y] & Hy & Hin). simpl in Hy. subst y.
        rewrite Forall_forall in IH1. apply (IH1 (k, x) Hin).
        intros d Hd. apply H. simpl. apply in_app_iff. left. apply in_flat_map.
        exists (k, x). auto. }
    rewrite (mapM_ext _ (evalx vzero vlit vadd vop vsub varr vpot true c') (map snd ks)).
    2:{ intros x Hx. apply in_map_iff in Hx. destruct Hx as ([k y] & Hy & Hin). simpl in Hy. subst y.
        rewrite Forall_forall in IH2. apply (IH2 (k, x) Hin).
        intros d Hd. apply H. simpl. apply in_app_iff. right. apply in_flat_map.
        exists (k, x). auto. }
    reflexivity.
Qed.

Lemma eval_no_intg c e : (forall y, sub e y -> is_intg y = false) ->
  ev c e = evalx vzero vlit vadd vop vsub varr vpot true c e.
Proof.
  induction e as [n|n|n k|k|cs IH|k cs IH|cs IH|ch p s IH|tk ps l s t ks IH1 IH2] using expr_ind';
    intros H; cbn [evalx]; try reflexivity.
  - rewrite Forall_forall in IH. rewrite (mapM_ext _ (evalx vzero vlit vadd vop vsub varr vpot true c) cs); [reflexivity|].
    intros x Hx. apply IH; [exact Hx|]. intros y Hy. apply H. eapply sub_trans; [|exact Hy].
    eapply sub_step; [apply sub_refl|exact Hx].
  - rewrite Forall_forall in IH. rewrite (mapM_ext _ (evalx vzero vlit vadd vop vsub varr vpot true c) cs); [reflexivity|].
    intros x Hx. apply IH; [exact Hx|]. intros y Hy. apply H. eapply sub_trans; [|exact Hy].
    eapply sub_step; [apply sub_refl|exact Hx].
  - rewrite Forall_forall in IH. rewrite (mapM_ext _ (evalx vzero vlit vadd vop vsub varr vpot true c) cs); [reflexivity|].
    intros x Hx. apply IH; [exact Hx|]. intros y Hy. apply H. eapply sub_trans; [|exact Hy].
    eapply sub_step; [apply sub_refl|exact Hx].
  - apply IH. intros y Hy. apply H. eapply sub_trans; [|exact Hy].
    eapply sub_step; [apply sub_refl|left; reflexivity].
  - exfalso. specialize (H _ (sub_refl _)). discriminate H.
Qed.

(** *** Scoping *)
Definition userv (n : string) : Prop :=
  exists x, sub root x /\ (x = Var n \/ exists k, x = SubV n k).
Definition scoped_dep (D : list string) (d : dep) : Prop :=
  if dnamed d then In (dname d) D else userv (dname d).
Definition scoped (D : list string) (e : expr) : Prop := forall d, In d (fv e) -> scoped_dep D d.

Lemma userv_not_gen n : userv n -> ~ may_generate root n.
Proof.
  intros (x & Hx & Hv). pose proof (Hcap Hx) as H.
  destruct Hv as [->|[k ->]]; exact H.
Qed.

Lemma fv_sub e : sub root e -> forall d, In d (fv e) -> dnamed d = false /\ userv (dname d).
Proof.
  induction e as [n|n|n k|k|cs IH|k cs IH|cs IH|ch p s IH|tk ps l s t ks IH1 IH2] using expr_ind';
    intros Hs d Hd; simpl in Hd.
  - destruct Hd as [<-|[]]. simpl. split; [reflexivity|]. exists (Var n). auto.
  - exfalso. exact (Hacc Hs).
  - destruct Hd as [<-|[]]. simpl. split; [reflexivity|]. exists (SubV n k). eauto.
  - destruct Hd.
  - apply in_flat_map in Hd. destruct Hd as (c & Hc & Hd). rewrite Forall_forall in IH.
    apply (IH c Hc); [|exact Hd]. apply (sub_child Hs). exact Hc.
  - apply in_flat_map in Hd. destruct Hd as (c & Hc & Hd). rewrite Forall_forall in IH.
    apply (IH c Hc); [|exact Hd]. apply (sub_child Hs). exact Hc.
  - apply in_flat_map in Hd. destruct Hd as (c & Hc & Hd). rewrite Forall_forall in IH.
    apply (IH c Hc); [|exact Hd]. apply (sub_child Hs). exact Hc.
  - apply IH; [|exact Hd]. apply (sub_child Hs). left. reflexivity.
  - apply in_app_iff in Hd. destruct Hd as [Hd|Hd]; apply in_flat_map in Hd; destruct Hd as ([k x] & Hx & Hd).
    + rewrite Forall_forall in IH1. apply (IH1 (k, x) Hx); [|exact Hd]. apply (sub_child Hs).
      simpl. apply in_app_iff. left. apply (in_map snd) in Hx. exact Hx.
    + rewrite Forall_forall in IH2. apply (IH2 (k, x) Hx); [|exact Hd]. apply (sub_child Hs).
      simpl. apply in_app_iff. right. apply (in_map snd) in Hx. exact Hx.
Qed.

Lemma scoped_sub D e : sub root e -> scoped D e.
Proof.
  intros Hs d Hd. destruct (fv_sub Hs d Hd) as [H1 H2]. unfold scoped_dep. rewrite H1. exact H2.
Qed.

Lemma scoped_incl D D' e : incl D D' -> scoped D e -> scoped D' e.
Proof.
  intros Hi H d Hd. specialize (H d Hd). unfold scoped_dep in *. destruct (dnamed d); auto.
Qed.

(** *** Straight-line execution in program order *)
Definition upds (c : ctx V) (asg : list (string * V)) : ctx V :=
  fold_left (fun c p => upd c (fst p) (snd p)) asg c.
Fixpoint run (c : list cstmt) (s : ctx V) : result (ctx V) :=
  match c with
  | [] => Ok s
  | x :: c' => do asg <- cexec x s; run c' (upds s asg)
  end.

Lemma run_app a b s : run (a ++ b) s = (do s' <- run a s; run b s').
Proof.
  revert s. induction a as [|x a IH]; intros s; simpl; [reflexivity|].
  destruct (cexec x s); simpl; [apply IH|reflexivity].
Qed.

Lemma upds_other asg : forall c n, ~ In n (map fst asg) -> upds c asg n = c n.
Proof.
  induction asg as [|[m v] asg IH]; intros c n Hn; [reflexivity|]. unfold upds in *. simpl.
  rewrite IH; [|intros H; apply Hn; right; exact H].
  unfold upd. destruct (String.eqb_spec m n) as [->|Hmn]; [|reflexivity].
  exfalso. apply Hn. left. reflexivity.
Qed.

Lemma upds_in asg : forall c n v, NoDup (map fst asg) -> In (n, v) asg -> upds c asg n = Some v.
Proof.
  induction asg as [|[m w] asg IH]; intros c n v Hnd Hin; [destruct Hin|].
  simpl in Hnd. inversion Hnd as [|a b Hm Hnd']; subst. destruct Hin as [H|Hin].
  - injection H as -> ->. change (upds (upd c n v) asg n = Some v).
    rewrite upds_other; [|exact Hm]. unfold upd. rewrite String.eqb_refl. reflexivity.
  - change (upds (upd c m w) asg n = Some v). apply IH; assumption.
Qed.

Lemma cexec_names s c asg : cexec s c = Ok asg -> map fst asg = cassg s.
Proof.
  destruct s as [n e|outs sks ds ks src]; simpl; intros H.
  - destruct (ev c e) as [v|]; [|discriminate H]. injection H as <-. reflexivity.
  - destruct (mapM _ ds) as [vs|]; [|discriminate H]. simpl in H.
    destruct (mapM _ ks) as [ws|]; [|discriminate H]. simpl in H.
    apply mapM_ok_iff in H. induction H as [|[n [[tk t] l]] [m v] outs asg H _ IH]; [reflexivity|].
    simpl. simpl in H. destruct (vpot _ _ _ _ _ _); [|discriminate H]. injection H as -> _.
    f_equal. exact IH.
Qed.

Lemma run_frame c : forall s s' n, run c s = Ok s' -> ~ In n (defd c) -> s' n = s n.
Proof.
  induction c as [|x c IH]; intros s s' n H Hn; simpl in H; [injection H as <-; reflexivity|].
  destruct (cexec x s) as [asg|] eqn:E; [|discriminate H]. simpl in H.
  simpl in Hn. rewrite in_app_iff in Hn.
  rewrite (IH _ _ _ H); [|tauto]. apply upds_other. rewrite (cexec_names _ _ E). tauto.
Qed.

(** *** State invariant *)
Definition tables (st : cst) := e2v st ++ memo st.

Record S (st : cst) : Prop := {
  S_nodup : NoDup (defd (code st));
  S_names : incl (defd (code st)) (names st);
  S_gen : forall n, In n (names st) -> may_generate root n;
  S_tab : forall k v, In (k, v) (tables st) -> sub root k /\ scoped (defd (code st)) v;
  S_code : forall pre x post, code st = pre ++ x :: post ->
     forall d, In d (cfv x) -> scoped_dep (defd pre) d }.

Definition Rfin (st : cst) (v : expr) (spec : V -> Prop) : Prop :=
  forall s, run (code st) c0 = Ok s -> forall x, ev s v = Ok x <-> spec x.

Definition inv (st : cst) : Prop :=
  S st /\ (forall k v, In (k, v) (tables st) -> Rfin st v (denP k)) /\
  (live -> exists s, run (code st) c0 = Ok s).

Record ext (st st' : cst) : Prop := {
  ext_code : exists d, code st' = code st ++ d;
  ext_names : incl (names st) (names st');
  ext_new : forall n, In n (defd (code st')) -> In n (defd (code st)) \/ ~ In n (names st) }.

Lemma ext_refl st : ext st st.
Proof. split; [exists []; rewrite app_nil_r; reflexivity|apply incl_refl|auto]. Qed.

Lemma ext_trans a b c : ext a b -> ext b c -> ext a c.
Proof.
  intros [[d Hd] Hn Hw] [[d' Hd'] Hn' Hw']. split.
  - exists (d ++ d'). rewrite Hd', Hd, app_assoc. reflexivity.
  - eapply incl_tran; eauto.
  - intros n H. destruct (Hw' n H) as [H1|H1]; [apply Hw; exact H1|].
    right. intros H2. apply H1. apply Hn. exact H2.
Qed.

Lemma ext_defd st st' : ext st st' -> incl (defd (code st)) (defd (code st')).
Proof.
  intros [[d Hd] _ _] n Hn. rewrite Hd, defd_app. apply in_app_iff. left. exact Hn.
Qed.

Lemma scoped_ext st st' v : ext st st' -> scoped (defd (code st)) v -> scoped (defd (code st')) v.
Proof. intros He. apply scoped_incl. apply ext_defd. exact He. Qed.

Lemma NoDup_app_disj {A} (a b : list A) x : NoDup (a ++ b) -> In x a -> ~ In x b.
Proof.
  induction a as [|y a IH]; simpl; intros H Hx Hb; [exact Hx|].
  inversion H as [|z zs Hz Hnd]; subst. destruct Hx as [->|Hx].
  - apply Hz. apply in_app_iff. right. exact Hb.
  - exact (IH Hnd Hx Hb).
Qed.

Lemma Rfin_pre st st' v spec : S st' -> (exists d, code st' = code st ++ d) ->
  scoped (defd (code st)) v -> Rfin st v spec -> Rfin st' v spec.
Proof.
  intros HS [d Hd] Hsc HR s' Hs' x.
  rewrite Hd, run_app in Hs'. destruct (run (code st) c0) as [s|] eqn:Es; [|discriminate Hs'].
  simpl in Hs'. rewrite <- (HR s Es x).
  rewrite (@eval_ext false s' s v); [reflexivity|].
  intros dd Hdd. apply (@run_frame d); [exact Hs'|].
  pose proof (Hsc dd Hdd) as Hsd. unfold scoped_dep in Hsd.
  destruct (dnamed dd).
  - pose proof (S_nodup HS) as Hnd. rewrite Hd, defd_app in Hnd.
    exact (NoDup_app_disj _ _ _ Hnd Hsd).
  - intros Hin. apply (userv_not_gen Hsd). apply (S_gen HS). apply (S_names HS).
    rewrite Hd, defd_app. apply in_app_iff. right. exact Hin.
Qed.

Lemma Rfin_ext st st' v spec : S st' -> ext st st' -> scoped (defd (code st)) v ->
  Rfin st v spec -> Rfin st' v spec.
Proof. intros HS He. apply Rfin_pre; [exact HS|exact (ext_code He)]. Qed.

Lemma Rfin_iff st v (p q : V -> Prop) : (forall x, p x <-> q x) -> Rfin st v p -> Rfin st v q.
Proof. intros H HR s Hs x. rewrite (HR s Hs x). apply H. Qed.

(** Reserving a name. *)
Lemma inv_add_name st n : inv st -> may_generate root n -> inv (add_name st n).
Proof.
  intros ([H1 H2 H3 H4 H5] & HR & HL) Hn. split; [|split; [exact HR|exact HL]].
  split; simpl; auto.
  - intros m Hm. right. apply H2. exact Hm.
  - intros m [<-|Hm]; auto.
Qed.
Lemma ext_add_name st n : ext st (add_name st n).
Proof.
  split; simpl; [exists []; rewrite app_nil_r; reflexivity|intros m Hm; right; exact Hm|auto].
Qed.

(** Appending a statement whose assignees are reserved, undefined names. *)
Lemma inv_add_code st x :
  inv st -> NoDup (cassg x) -> (forall n, In n (cassg x) -> In n (names st) /\ ~ In n (defd (code st))) ->
  (forall d, In d (cfv x) -> scoped_dep (defd (code st)) d) ->
  (live -> forall s, run (code st) c0 = Ok s -> exists asg, cexec x s = Ok asg) ->
  inv (add_code st x).
Proof.
  intros (HS & HR & HL) Hnd Hfresh Hsc Hok.
  assert (HS' : S (add_code st x)).
  { destruct HS as [H1 H2 H3 H4 H5]. split; simpl.
    - rewrite defd_app. simpl. rewrite app_nil_r.
      clear - H1 Hnd Hfresh. revert H1 Hnd Hfresh. generalize (defd (code st)) as l. generalize (cassg x) as m.
      intros m l Hl Hm Hf. induction Hl as [|y l Hy Hl IH]; simpl; [exact Hm|].
      constructor.
      + rewrite in_app_iff. intros [H|H]; [exact (Hy H)|]. destruct (Hf y H) as [_ H']. apply H'. left. reflexivity.
      + apply IH. intros n Hn. destruct (Hf n Hn) as [Ha Hb]. split; [exact Ha|]. intros H. apply Hb. right. exact H.
    - rewrite defd_app. simpl. rewrite app_nil_r. intros n Hn. apply in_app_iff in Hn.
      destruct Hn as [Hn|Hn]; [apply H2; exact Hn|]. apply (Hfresh n Hn).
    - exact H3.
    - intros k v Hkv. destruct (H4 k v Hkv) as [Ha Hb]. split; [exact Ha|].
      eapply scoped_incl; [|exact Hb]. rewrite defd_app. intros n Hn. apply in_app_iff. left. exact Hn.
    - intros pre y post Hp d Hd. destruct post as [|z post _] using rev_ind.
      + apply app_inj_tail in Hp. destruct Hp as [Hp Hx]. subst. apply Hsc. exact Hd.
      + rewrite app_comm_cons, app_assoc in Hp. apply app_inj_tail in Hp. destruct Hp as [Hp Hx].
        apply (H5 pre y post Hp d Hd). }
  split; [exact HS'|]. split.
  - intros k v Hkv. apply (@Rfin_pre st); [exact HS'|exists [x]; reflexivity| |exact (HR k v Hkv)].
    exact (proj2 (S_tab HS k v Hkv)).
  - intros Hl. destruct (HL Hl) as [s Hs]. destruct (Hok Hl s Hs) as [asg Ha].
    exists (upds s asg). simpl. rewrite run_app, Hs. simpl. rewrite Ha. reflexivity.
Qed.

(** Value of a name assigned by the last statement. *)
Lemma run_last st x s : run (code (add_code st x)) c0 = Ok s ->
  exists s1 asg, run (code st) c0 = Ok s1 /\ cexec x s1 = Ok asg /\ s = upds s1 asg.
Proof.
  simpl. rewrite run_app. destruct (run (code st) c0) as [s1|]; [|discriminate]. simpl.
  destruct (cexec x s1) as [asg|] eqn:E; [|discriminate]. simpl. intros H. injection H as <-. eauto.
Qed.

(** *** Names and assignments *)
Definition prefix_ok (p : option string) : Prop := p = None \/ exists c, sub root (CSE c p true).

Lemma get_name_ok p st : inv st -> prefix_ok p ->
  exists n, get_var_name p st = Ok (n, add_name st n) /\ ~ In n (names st) /\ may_generate root n.
Proof.
  intros _ Hp. unfold get_var_name. destruct (find_name_total (names st) p) as [n Hn].
  rewrite Hn. simpl. exists n. split; [reflexivity|].
  destruct (find_name_spec _ _ _ _ Hn) as [Hf [j Hj]]. split; [exact Hf|].
  exists p, j. split; [exact Hj|]. exact Hp.
Qed.

Lemma assign_ok p v st spec :
  inv st -> prefix_ok p -> scoped (defd (code st)) v -> Rfin st v spec -> need spec ->
  exists w st', assign_new p v st = Ok (w, st') /\ inv st' /\ ext st st' /\
    scoped (defd (code st')) w /\ Rfin st' w spec.
Proof.
  intros Hi Hp Hsc HR Hneed. unfold assign_new. destruct (is_var v) eqn:Ev.
  - exists v, st. split; [reflexivity|]. split; [exact Hi|]. split; [apply ext_refl|]. auto.
  - destruct (get_name_ok Hi Hp) as (n & Hn & Hfresh & Hgen). rewrite Hn. simpl.
    exists (NIR n), (add_code (add_name st n) (CAssign n v)). split; [reflexivity|].
    pose proof (inv_add_name Hi Hgen) as Hi1.
    assert (Hnd : ~ In n (defd (code st))).
    { intros H. apply Hfresh. apply (S_names (proj1 Hi)). exact H. }
    split; [|split; [|split]].
    + apply inv_add_code; [exact Hi1| | | |].
      * simpl. constructor; [intros []|constructor].
      * intros m [<-|[]]. simpl. auto.
      * exact Hsc.
      * intros Hl s Hs. destruct (Hneed Hl) as [x Hx]. apply (HR s Hs) in Hx. simpl. rewrite Hx.
        simpl. eauto.
    + split; simpl.
      * exists [CAssign n v]. reflexivity.
      * intros m Hm. right. exact Hm.
      * intros m Hm. rewrite defd_app in Hm. apply in_app_iff in Hm. destruct Hm as [Hm|[<-|[]]]; auto.
    + intros d [<-|[]]. unfold scoped_dep. simpl. rewrite defd_app. apply in_app_iff. right. left. reflexivity.
    + intros s Hs x. destruct (run_last _ _ Hs) as (s1 & asg & H1 & H2 & ->).
      simpl in H1, H2. destruct (ev s1 v) as [y|] eqn:Ey; [|discriminate H2]. injection H2 as <-.
      rewrite <- (HR s1 H1 x). rewrite Ey. simpl. unfold get, upds. simpl. unfold upd.
      rewrite String.eqb_refl. reflexivity.
Qed.

Lemma fresh_names_ok k : forall st, inv st ->
  exists ns st', fresh_names k st = Ok (ns, st') /\ inv st' /\ code st' = code st /\
    tables st' = tables st /\ length ns = k /\ NoDup ns /\ ext st st' /\
    (forall n, In n ns -> In n (names st') /\ ~ In n (names st)).
Proof.
  induction k as [|k IH]; intros st Hi; simpl.
  - exists [], st. split; [reflexivity|]. split; [exact Hi|]. split; [reflexivity|].
    split; [reflexivity|]. split; [reflexivity|]. split; [constructor|].
    split; [apply ext_refl|]. intros n [].
  - destruct (@get_name_ok None st Hi) as (n & Hn & Hf & Hg); [left; reflexivity|].
    rewrite Hn. simpl. pose proof (inv_add_name Hi Hg) as Hi1.
    destruct (IH _ Hi1) as (ns & st' & He & Hi' & Hc & Ht & Hlen & Hnd & Hx & Hns).
    rewrite He. simpl. exists (n :: ns), st'. split; [reflexivity|]. split; [exact Hi'|].
    split; [exact Hc|]. split; [exact Ht|]. split; [simpl; lia|].
    split; [|split].
    + constructor; [|exact Hnd]. intros H. destruct (Hns n H) as [_ H']. apply H'. left. reflexivity.
    + eapply ext_trans; [apply ext_add_name|exact Hx].
    + intros m [<-|Hm].
      * split; [|exact Hf]. apply (ext_names Hx). left. reflexivity.
      * destruct (Hns m Hm) as [Ha Hb]. split; [exact Ha|]. intros H. apply Hb. right. exact H.
Qed.

(** *** Recursive calls *)
Definition goal_for (e : expr) : Prop := forall d st, inv st ->
  exists v st', comp root d e st = Ok (v, st') /\ inv st' /\ ext st st' /\
    scoped (defd (code st')) v /\ Rfin st' v (denP e).

Lemma runs_ok es : Forall goal_for es -> forall st, inv st ->
  exists vs st', runs (map (comp root false) es) st = Ok (vs, st') /\ inv st' /\ ext st st' /\
    Forall (scoped (defd (code st'))) vs /\ Forall2 (fun v e => Rfin st' v (denP e)) vs es.
Proof.
  induction 1 as [|e es He _ IH]; intros st Hi; simpl.
  - exists [], st. split; [reflexivity|]. split; [exact Hi|]. split; [apply ext_refl|]. auto.
  - destruct (He false st Hi) as (v & st1 & -> & Hi1 & Hx1 & Hs1 & HR1). simpl.
    destruct (IH st1 Hi1) as (vs & st2 & -> & Hi2 & Hx2 & Hs2 & HR2). simpl.
    exists (v :: vs), st2. split; [reflexivity|]. split; [exact Hi2|].
    split; [eapply ext_trans; eauto|]. split.
    + constructor; [|exact Hs2]. eapply scoped_ext; eauto.
    + constructor; [|exact HR2]. apply (Rfin_ext (proj1 Hi2) Hx2 Hs1 HR1).
Qed.

Lemma need_sub e : sub root e -> need (denP e).
Proof. intros Hs Hl. apply (den_sub Hl Hs). Qed.

Lemma runs_assign_ok es : Forall goal_for es -> (forall e, In e es -> sub root e) ->
  forall st, inv st ->
  exists vs st', runs_assign (map (comp root false) es) st = Ok (vs, st') /\ inv st' /\ ext st st' /\
    Forall (scoped (defd (code st'))) vs /\ Forall2 (fun v e => Rfin st' v (denP e)) vs es.
Proof.
  induction 1 as [|e es He _ IH]; intros Hsub st Hi; simpl.
  - exists [], st. split; [reflexivity|]. split; [exact Hi|]. split; [apply ext_refl|]. auto.
  - destruct (He false st Hi) as (v & st1 & -> & Hi1 & Hx1 & Hs1 & HR1). simpl.
    destruct (@assign_ok None v st1 (denP e) Hi1 (or_introl eq_refl) Hs1 HR1)
      as (w & st2 & -> & Hi2 & Hx2 & Hs2 & HR2).
    { apply need_sub. apply Hsub. left. reflexivity. }
    simpl.
    destruct (fun H => IH H st2 Hi2) as (vs & st3 & -> & Hi3 & Hx3 & Hs3 & HR3).
    { intros y Hy. apply Hsub. right. exact Hy. }
    simpl. exists (w :: vs), st3. split; [reflexivity|]. split; [exact Hi3|].
    split; [eapply ext_trans; [|exact Hx3]; eapply ext_trans; eauto|]. split.
    + constructor; [|exact Hs3]. eapply scoped_ext; eauto.
    + constructor; [|exact HR3]. apply (Rfin_ext (proj1 Hi3) Hx3 Hs2 HR2).
Qed.

Lemma sum_loop_ok es : Forall goal_for es ->
  forall st r spec, inv st -> scoped (defd (code st)) r -> Rfin st r spec ->
  (live -> exists a vs x, spec a /\ mapM den es = Ok vs /\ vsum vadd a vs = Ok x) ->
  exists v st', sum_loop (map (comp root false) es) r st = Ok (v, st') /\ inv st' /\ ext st st' /\
    scoped (defd (code st')) v /\
    Rfin st' v (fun x => exists a vs, spec a /\ mapM den es = Ok vs /\ vsum vadd a vs = Ok x).
Proof.
  induction 1 as [|e es He _ IH]; intros st r spec Hi Hs HR Hneed; simpl.
  - exists r, st. split; [reflexivity|]. split; [exact Hi|]. split; [apply ext_refl|].
    split; [exact Hs|]. apply (Rfin_iff (p := spec)); [|exact HR]. intros x. split.
    + intros Hx. exists x, []. auto.
    + intros (a & vs & Ha & Hv & Hx). injection Hv as <-. simpl in Hx. injection Hx as <-. exact Ha.
  - destruct (He false st Hi) as (v & st1 & -> & Hi1 & Hx1 & Hs1 & HR1). simpl.
    set (spec1 := fun x => exists a b, spec a /\ den e = Ok b /\ vadd a b = Ok x).
    pose proof (Rfin_ext (proj1 Hi1) Hx1 Hs HR) as HR'.
    destruct (@assign_ok None (Sum [r; v]) st1 spec1 Hi1 (or_introl eq_refl))
      as (w & st2 & -> & Hi2 & Hx2 & Hs2 & HR2).
    { intros d Hd. simpl in Hd. rewrite app_nil_r in Hd. apply in_app_iff in Hd.
      destruct Hd as [Hd|Hd]; [exact (scoped_ext Hx1 Hs d Hd)|exact (Hs1 d Hd)]. }
    { intros s Hrun x. cbn [evalx mapM]. unfold spec1. split.
      - destruct (ev s r) as [a|] eqn:Ea; [|discriminate]. simpl.
        destruct (ev s v) as [b|] eqn:Eb; [|discriminate]. simpl. rewrite vadd_zero. simpl.
        intros Hx. exists a, b. split; [apply (HR' s Hrun); exact Ea|].
        split; [apply (HR1 s Hrun); exact Eb|]. destruct (vadd a b); [exact Hx|discriminate Hx].
      - intros (a & b & Ha & Hb & Hx). apply (HR' s Hrun) in Ha. apply (HR1 s Hrun) in Hb.
        rewrite Ha. simpl. rewrite Hb. simpl. rewrite vadd_zero. simpl. rewrite Hx. reflexivity. }
    { intros Hl. destruct (Hneed Hl) as (a & vs & x & Ha & Hvs & Hx). simpl in Hvs.
      destruct (den e) as [b|] eqn:Eb; [|discriminate Hvs]. simpl in Hvs.
      destruct (mapM den es) as [vs'|] eqn:Ev; [|discriminate Hvs]. injection Hvs as <-. simpl in Hx.
      destruct (vadd a b) as [y|] eqn:Ey; [|discriminate Hx]. exists y, a, b. auto. }
    simpl.
    destruct (IH st2 w spec1 Hi2 Hs2 HR2) as (v' & st3 & -> & Hi3 & Hx3 & Hs3 & HR3).
    { intros Hl. destruct (Hneed Hl) as (a & vs & x & Ha & Hvs & Hx). simpl in Hvs.
      destruct (den e) as [b|] eqn:Eb; [|discriminate Hvs]. simpl in Hvs.
      destruct (mapM den es) as [vs'|] eqn:Ev; [|discriminate Hvs]. injection Hvs as <-. simpl in Hx.
      destruct (vadd a b) as [y|] eqn:Ey; [|discriminate Hx]. exists y, vs', x. split; [|auto].
      exists a, b. auto. }
    exists v', st3. split; [reflexivity|]. split; [exact Hi3|].
    split; [eapply ext_trans; [|exact Hx3]; eapply ext_trans; eauto|]. split; [exact Hs3|].
    eapply Rfin_iff; [|exact HR3]. intros x. split.
    + intros (y & vs & (a & b & Ha & Hb & Hy) & Hvs & Hx). exists a, (b :: vs).
      split; [exact Ha|]. rewrite Hb. simpl. rewrite Hvs. simpl. split; [reflexivity|]. rewrite Hy. exact Hx.
    + intros (a & vs & Ha & Hvs & Hx).
      destruct (den e) as [b|] eqn:Eb; [|discriminate Hvs]. simpl in Hvs.
      destruct (mapM den es) as [vs'|] eqn:Ev; [|discriminate Hvs]. injection Hvs as <-. simpl in Hx.
      destruct (vadd a b) as [y|] eqn:Ey; [|discriminate Hx]. exists y, vs'. split; [|auto].
      exists a, b. auto.
Qed.

Lemma Rfin_mapM st vs es s : Forall2 (fun v e => Rfin st v (denP e)) vs es ->
  run (code st) c0 = Ok s -> forall ys, mapM (ev s) vs = Ok ys <-> mapM den es = Ok ys.
Proof.
  intros H Hs. induction H as [|v e vs es Hv _ IH]; intros ys; simpl; [tauto|].
  pose proof (Hv s Hs) as Hv'. unfold denP in Hv'. split.
  - destruct (ev s v) as [x|] eqn:E; [|discriminate]. simpl.
    rewrite (proj1 (Hv' x) eq_refl). simpl.
    destruct (mapM (ev s) vs) as [xs|] eqn:Ex; [|discriminate]. simpl.
    rewrite (proj1 (IH xs) eq_refl). auto.
  - destruct (den e) as [x|] eqn:E; [|discriminate]. simpl.
    rewrite (proj2 (Hv' x) eq_refl). simpl.
    destruct (mapM den es) as [xs|] eqn:Ex; [|discriminate]. simpl.
    rewrite (proj2 (IH xs) eq_refl). auto.
Qed.

(** *** Table updates *)
Lemma inv_tab st st' : inv st -> code st' = code st -> names st' = names st ->
  (forall k v, In (k, v) (tables st') -> In (k, v) (tables st) \/
     (sub root k /\ scoped (defd (code st)) v /\ Rfin st v (denP k))) -> inv st'.
Proof.
  intros (HS & HR & HL) Hc Hn Ht. split; [|split].
  - destruct HS as [H1 H2 H3 H4 H5]. split; rewrite ?Hc, ?Hn; auto.
    intros k v Hkv. destruct (Ht k v Hkv) as [H|(H & H' & _)]; auto.
  - intros k v Hkv. unfold Rfin. rewrite Hc. destruct (Ht k v Hkv) as [H|(_ & _ & H)]; [exact (HR k v H)|exact H].
  - rewrite Hc. exact HL.
Qed.

Lemma inv_add_e2v st k v : inv st -> sub root k -> scoped (defd (code st)) v -> Rfin st v (denP k) ->
  inv (add_e2v st k v).
Proof.
  intros Hi Hk Hs HR. apply (@inv_tab st); auto. unfold tables. simpl. intros k' v' [H|H].
  - injection H as <- <-. right. auto.
  - left. exact H.
Qed.
Lemma inv_add_memo st k v : inv st -> sub root k -> scoped (defd (code st)) v -> Rfin st v (denP k) ->
  inv (add_memo st k v).
Proof.
  intros Hi Hk Hs HR. apply (@inv_tab st); auto. unfold tables. simpl. intros k' v' H.
  apply in_app_iff in H. destruct H as [H|[H|H]].
  - left. apply in_app_iff. left. exact H.
  - injection H as <- <-. right. auto.
  - left. apply in_app_iff. right. exact H.
Qed.
Lemma ext_same st st' st'' : ext st st' -> code st'' = code st' -> names st'' = names st' -> ext st st''.
Proof. intros [H1 H2 H3] Hc Hn. split; rewrite ?Hc, ?Hn; auto. Qed.

Lemma add_e2vs_code st ks ns : code (add_e2vs st ks ns) = code st /\ names (add_e2vs st ks ns) = names st
  /\ memo (add_e2vs st ks ns) = memo st.
Proof.
  revert st ns. induction ks as [|k ks IH]; intros st [|n ns]; simpl; auto.
  destruct (IH (add_e2v st k (NIR n)) ns) as (H1 & H2 & H3). auto.
Qed.
Lemma add_e2vs_in st ks ns k v : In (k, v) (e2v (add_e2vs st ks ns)) ->
  In (k, v) (e2v st) \/ exists n, In (k, n) (combine ks ns) /\ v = NIR n.
Proof.
  revert st ns. induction ks as [|k' ks IH]; intros st [|n ns] H; simpl in *; auto.
  destruct (IH _ _ H) as [H'|(m & Hm & ->)].
  - simpl in H'. destruct H' as [H'|H']; [|auto]. injection H' as <- <-. right. eauto.
  - right. eauto.
Qed.
Lemma add_e2vs_keep st ks ns k v : In (k, v) (e2v st) -> In (k, v) (e2v (add_e2vs st ks ns)).
Proof.
  revert st ns. induction ks as [|k' ks IH]; intros st [|n ns] H; simpl; auto.
  apply IH. right. exact H.
Qed.
Lemma add_e2vs_has st ks ns k : length ks = length ns -> In k ks ->
  exists n, In (k, NIR n) (e2v (add_e2vs st ks ns)).
Proof.
  revert st ns. induction ks as [|k' ks IH]; intros st [|n ns] Hl Hk; simpl in *; try lia; try tauto.
  destruct Hk as [->|Hk].
  - exists n. apply add_e2vs_keep. left. reflexivity.
  - apply IH; [lia|exact Hk].
Qed.

Lemma lookup_inv st (f : cst -> list (expr * expr)) e v : inv st -> sub root e ->
  (forall x, In x (f st) -> In x (tables st)) ->
  lookup e (f st) = Some v -> scoped (defd (code st)) v /\ Rfin st v (denP e).
Proof.
  intros (HS & HR & _) He Hf Hl. destruct (lookup_some _ _ Hl) as (k & Hk & Hkv).
  destruct (S_tab HS _ _ (Hf _ Hk)) as [Hsub Hsc].
  assert (k = e) by (apply (@pyeq_eq root); auto). subst k. split; [exact Hsc|].
  apply HR. apply Hf. exact Hk.
Qed.

(** *** Operator groups *)
Notation group_of := (group_of ple kfeat gorder).
Notation feat_eqb := (feat_eqb ple kfeat).

Lemma feat_refl e : is_intg e = true -> feat_eqb e e = true.
Proof.
  destruct e; simpl; try discriminate. intros _. rewrite !Nat.eqb_refl. simpl.
  rewrite !forall2b_refl; [reflexivity| |].
  - intros [k d] _. simpl. rewrite String.eqb_refl, pyeq_refl. reflexivity.
  - intros [k d] _. simpl. rewrite Nat.eqb_refl, pyeq_refl. reflexivity.
Qed.

Lemma group_in e g : In g (group_of root e) ->
  sub root g /\ is_intg g = true /\ feat_eqb g e = true.
Proof.
  unfold CompModel.group_of. intros H. apply (Permutation_in _ (gorder_perm _)) in H.
  apply dedup_sub in H. apply filter_In in H. destruct H as [H Hf].
  destruct (collect_sub _ _ H) as [Hs Hi]. auto.
Qed.

Lemma group_self e : sub root e -> is_intg e = true -> In e (group_of root e).
Proof.
  intros Hs Hi. unfold CompModel.group_of.
  apply (Permutation_in _ (Permutation_sym (gorder_perm _))). apply dedup_covers.
  - intros a b Ha Hb. apply filter_In in Ha, Hb. destruct Ha as [Ha _], Hb as [Hb _].
    apply (@pyeq_eq root Hlim); [apply (collect_sub _ _ Ha)|apply (collect_sub _ _ Hb)].
  - apply filter_In. split; [|apply feat_refl; exact Hi].
    apply collect_complete; assumption.
Qed.

Lemma psort_perm ps : Permutation (psort ps) ps.
Proof. apply isort_perm. Qed.

Lemma group_shape tk ps l s t ks g :
  sub root (IntG tk ps l s t ks) -> In g (group_of root (IntG tk ps l s t ks)) ->
  exists tk' ps' l' t', g = IntG tk' ps' l' s t' ks /\ psort ps' = psort ps /\ sub root g /\ l' <> LAvg.
Proof.
  intros He Hg. destruct (group_in _ _ Hg) as (Hs & Hi & Hf).
  destruct g as [n|n|n k|k|cs|k cs|cs|c p sc|tk' ps' l' s' t' ks']; try discriminate Hi.
  simpl in Hf. repeat (apply andb_true_iff in Hf; let H := fresh "E" in destruct Hf as [Hf H]).
  apply Nat.eqb_eq in Hf. subst s'.
  exists tk', ps', l', t'.
  assert (ks' = ks).
  { eapply forall2b_eq; [|exact E]. intros [k d] [k' d'] Hx Hy Hkd. simpl in Hkd.
    apply andb_true_iff in Hkd. destruct Hkd as [H1 H2]. apply String.eqb_eq in H1. subst k'. f_equal.
    apply (@pyeq_eq root Hlim); [| |exact H2].
    - apply (sub_child Hs). simpl. apply in_app_iff. right. apply (in_map snd) in Hx. exact Hx.
    - apply (sub_child He). simpl. apply in_app_iff. right. apply (in_map snd) in Hy. exact Hy. }
  assert (psort ps' = psort ps).
  { eapply forall2b_eq; [|exact E0]. intros [k d] [k' d'] Hx Hy Hkd. simpl in Hkd.
    apply andb_true_iff in Hkd. destruct Hkd as [H1 H2]. apply Nat.eqb_eq in H1. subst k'. f_equal.
    apply (Permutation_in _ (psort_perm ps')) in Hx. apply (Permutation_in _ (psort_perm ps)) in Hy.
    apply (@pyeq_eq root Hlim); [| |exact H2].
    - apply (sub_child Hs). simpl. apply in_app_iff. left. apply (in_map snd) in Hx. exact Hx.
    - apply (sub_child He). simpl. apply in_app_iff. left. apply (in_map snd) in Hy. exact Hy. }
  subst ks'. split; [reflexivity|]. split; [assumption|]. split; [exact Hs|].
  exact (proj2 (Hacc Hs)).
Qed.

(** Direct value of a member of the group, through the sorted pairs. *)
Lemma den_group tk' ps' l' s t' ks ps x : psort ps' = psort ps ->
  den (IntG tk' ps' l' s t' ks) = Ok x <->
  exists dv kv, mapM den (map snd (psort ps)) = Ok dv /\ mapM den (map snd ks) = Ok kv /\
    vpot tk' (combine (map fst (psort ps)) dv) (combine (map fst ks) kv) l' s t' = Ok x.
Proof.
  intros Hps. cbn [evalx]. rewrite (mapM_pairs den ks).
  set (f := fun p : nat * expr => match p with (k, d) => do v <- den d; Ok (k, v) end).
  assert (Hsorted : mapM f (psort ps) =
    (do vs <- mapM den (map snd (psort ps)); Ok (combine (map fst (psort ps)) vs)))
    by (unfold f; apply mapM_pairs).
  assert (Hp1 : Permutation ps' (psort ps)) by (rewrite <- Hps; symmetry; apply psort_perm).
  split.
  - intros H. destruct (mapM f ps') as [vs|] eqn:E; [|discriminate H]. cbn [bind] in H.
    destruct (mapM_perm f Hp1 E) as (vs' & Hvs' & Hperm).
    rewrite Hsorted in Hvs'. destruct (mapM den (map snd (psort ps))) as [dv|]; [|discriminate Hvs'].
    cbn [bind] in Hvs'. injection Hvs' as <-.
    destruct (mapM den (map snd ks)) as [kv|]; [|discriminate H]. cbn [bind] in H.
    exists dv, kv. split; [reflexivity|]. split; [reflexivity|].
    rewrite <- (vpot_perm tk' (combine (map fst ks) kv) l' s t' Hperm). exact H.
  - intros (dv & kv & Hd & Hk & Hx). rewrite Hd in Hsorted. cbn [bind] in Hsorted.
    destruct (mapM_perm f (Permutation_sym Hp1) Hsorted) as (vs & Hvs & Hperm).
    rewrite Hvs. cbn [bind]. rewrite Hk. cbn [bind].
    rewrite <- (vpot_perm tk' (combine (map fst ks) kv) l' s t' Hperm). exact Hx.
Qed.

(** *** The body of the mapper *)
Definition cbody (e : expr) (st : cst) : result (expr * cst) :=
  match e with
  | Var _ | NIR _ | SubV _ _ | Lit _ => Ok (e, st)
  | Sum cs =>
      match map (comp root false) cs with
      | [] => Err IndexError
      | f :: fs =>
          do (v, st1) <- f st;
          do (r, st2) <- assign_new None v st1;
          sum_loop fs r st2
      end
  | Op k cs => do (vs, st1) <- runs (map (comp root false) cs) st; Ok (Op k vs, st1)
  | Arr cs => do (vs, st1) <- runs_assign (map (comp root false) cs) st; Ok (Arr vs, st1)
  | CSE c p sc =>
      if sc then
        match lookup c (e2v st) with
        | Some v => Ok (v, st)
        | None =>
            do (v, st1) <- comp root (is_intg c) c st;
            do (w, st2) <- assign_new p v st1;
            Ok (w, add_e2v st2 c w)
        end
      else Ok (e, st)
  | IntG tk ps l s t ks =>
      match lookup e (e2v st) with
      | Some v => Ok (v, st)
      | None =>
          match ps with
          | [] => Err ValueError
          | _ :: _ =>
            do (dvars, st1) <- runs_assign (map (comp root false) (map snd (psort ps))) st;
            let group := group_of root e in
            match group with
            | [] => Err KeyError
            | _ :: _ =>
              do (ns, st2) <- fresh_names (length group) st1;
              if existsb is_avg group then Err AssertionError else
              do (kvs, st3) <- runs (map (comp root false) (map snd ks)) st2;
              let stmt := CPot (map (fun q => out_of (fst q) (snd q)) (combine group ns))
                            (map fst (psort ps)) dvars
                            (combine (map fst ks) kvs) s in
              let st4 := add_e2vs (add_code st3 stmt) group ns in
              match lookup e (e2v st4) with
              | Some v => Ok (v, st4)
              | None => Err KeyError
              end
            end
          end
      end
  end.

Lemma comp_unfold d e st : comp root d e st =
  match (if d then None else lookup e (memo st)) with
  | Some v => Ok (v, st)
  | None => do (v, st') <- cbody e st; Ok (v, if d || is_arr e then st' else add_memo st' e v)
  end.
Proof.
  destruct e as [n|n|n k|k|cs|k cs|cs|c p sc|tk ps l s t ks]; try reflexivity.
  cbn [CompModel.comp cbody].
  destruct (if d then None else lookup (IntG tk ps l s t ks) (memo st)); [reflexivity|].
  f_equal. destruct (lookup (IntG tk ps l s t ks) (e2v st)); [reflexivity|].
  assert (Hsort : isort (fun a b : nat * expr * (cst -> result (expr * cst)) => ple (fst a) (fst b))
       (map (fun p : nat * expr => (p, let (_, d0) := p in comp root false d0)) ps)
     = map (fun p : nat * expr => (p, let (_, d0) := p in comp root false d0)) (psort ps)).
  { symmetry. unfold CompModel.psort. apply isort_map. reflexivity. }
  rewrite Hsort. rewrite !map_map.
  assert (Hm : map (fun x : nat * expr => snd (x, let (_, d0) := x in comp root false d0)) (psort ps)
     = map (fun x => comp root false (snd x)) (psort ps)).
  { apply map_ext. intros [a b]. reflexivity. }
  rewrite Hm. destruct ps as [|p0 ps0] eqn:Eps; [reflexivity|]. rewrite <- Eps in *. clear Eps.
  destruct (runs_assign _ st) as [[dvars st1]|]; [|reflexivity]. cbn [bind].
  destruct (group_of root (IntG tk ps l s t ks)) as [|g0 gs]; [reflexivity|].
  destruct (fresh_names _ st1) as [[ns st2]|]; [|reflexivity]. cbn [bind].
  destruct (existsb is_avg (g0 :: gs)); [reflexivity|].
  assert (Hk : map (fun a : string * expr => let (_, x) := a in comp root false x) ks
     = map (fun x => comp root false (snd x)) ks).
  { apply map_ext. intros [a b]. reflexivity. }
  rewrite Hk. reflexivity.
Qed.

(** Wrapping the body with the memo. *)
Lemma comp_wrap e d st : sub root e -> inv st ->
  (exists v st', cbody e st = Ok (v, st') /\ inv st' /\ ext st st' /\
    scoped (defd (code st')) v /\ Rfin st' v (denP e)) ->
  exists v st', comp root d e st = Ok (v, st') /\ inv st' /\ ext st st' /\
    scoped (defd (code st')) v /\ Rfin st' v (denP e).
Proof.
  intros He Hi (v & st' & Hb & Hi' & Hx & Hs & HR). rewrite comp_unfold.
  destruct (if d then None else lookup e (memo st)) as [w|] eqn:El.
  - destruct d; [discriminate El|]. exists w, st. split; [reflexivity|]. split; [exact Hi|].
    split; [apply ext_refl|].
    apply (@lookup_inv st memo e w Hi He); [|exact El].
    intros x Hx'. unfold tables. apply in_app_iff. right. exact Hx'.
  - rewrite Hb. cbn [bind]. destruct (d || is_arr e).
    + exists v, st'. auto.
    + exists v, (add_memo st' e v). split; [reflexivity|]. split; [apply inv_add_memo; auto|].
      split; [apply (ext_same _ Hx); reflexivity|]. split; [exact Hs|exact HR].
Qed.

Lemma vsum_zero v vs : vsum vadd vzero (v :: vs) = vsum vadd v vs.
Proof. simpl. rewrite vadd_zero. reflexivity. Qed.

Lemma in_combine_map {A B C} (f : A * B -> C) l l' a b : In (a, b) (combine l l') -> In (f (a, b)) (map f (combine l l')).
Proof. apply in_map. Qed.

Lemma intg_ok tk ps l s t ks st : let e := IntG tk ps l s t ks in
  sub root e -> Forall goal_for (map snd (psort ps)) -> Forall goal_for (map snd ks) -> inv st ->
  exists v st', cbody e st = Ok (v, st') /\ inv st' /\ ext st st' /\
    scoped (defd (code st')) v /\ Rfin st' v (denP e).
Proof.
  intros e He Hgp Hgk Hi. unfold e at 1. cbn [cbody]. fold e.
  destruct (lookup e (e2v st)) as [v|] eqn:El.
  { exists v, st. split; [reflexivity|]. split; [exact Hi|]. split; [apply ext_refl|].
    apply (@lookup_inv st e2v e v Hi He); [|exact El].
    intros x Hx. unfold tables. apply in_app_iff. left. exact Hx. }
  destruct (Hacc He) as [Hps Hl].
  assert (Hdsub : forall x, In x (map snd (psort ps)) -> sub root x).
  { intros x Hx. apply (sub_child He). simpl. apply in_app_iff. left.
    apply (Permutation_in _ (Permutation_map snd (psort_perm ps))). exact Hx. }
  assert (Hksub : forall x, In x (map snd ks) -> sub root x).
  { intros x Hx. apply (sub_child He). simpl. apply in_app_iff. right. exact Hx. }
  destruct (runs_assign_ok Hgp Hdsub Hi) as (dvars & st1 & Hra & Hi1 & Hx1 & Hs1 & HR1).
  pose proof (group_self He eq_refl) as Hself.
  assert (Hshape : forall g, In g (group_of root e) ->
    exists tk' ps' l' t', g = IntG tk' ps' l' s t' ks /\ psort ps' = psort ps /\ sub root g /\ l' <> LAvg)
    by (intros g Hg; exact (@group_shape tk ps l s t ks g He Hg)).
  destruct ps as [|p0 ps0] eqn:Eps; [exfalso; exact (Hps eq_refl)|]. rewrite <- Eps in *. clear Eps.
  rewrite Hra. cbn [bind]. cbv zeta.
  destruct (group_of root e) as [|g0 gs] eqn:Eg; [destruct Hself|]. rewrite <- Eg in *. 
  set (group := group_of root e) in *. clear Eg.
  destruct (fresh_names_ok (length group) Hi1)
    as (ns & st2 & Hfn & Hi2 & Hc2 & Ht2 & Hlen & Hnd & Hx2 & Hns).
  rewrite Hfn. cbn [bind].
  assert (Havg : existsb is_avg group = false).
  { destruct (existsb is_avg group) eqn:E; [|reflexivity]. apply existsb_exists in E.
    destruct E as (g & Hg & Ha). destruct (Hshape g Hg) as (tk' & ps' & l' & t' & -> & _ & _ & Hl').
    destruct l'; try discriminate Ha. exfalso. apply Hl'. reflexivity. }
  rewrite Havg.
  destruct (runs_ok Hgk Hi2) as (kvs & st3 & Hrk & Hi3 & Hx3 & Hs3 & HR3).
  rewrite Hrk. cbn [bind].
  set (outs := map (fun q => out_of (fst q) (snd q)) (combine group ns)).
  set (x := CPot outs (map fst (psort ps)) dvars (combine (map fst ks) kvs) s).
  assert (Houts : map fst outs = ns).
  { unfold outs. rewrite map_map.
    rewrite <- (combine_snd group ns) at 2 by (symmetry; exact Hlen).
    apply map_ext_in. intros [g n] Hin. simpl.
    destruct (Hshape g (in_combine_l _ _ _ _ Hin)) as (tk' & ps' & l' & t' & -> & _). reflexivity. }
  pose proof (ext_trans Hx2 Hx3) as Hx13.
  assert (HRd : Forall2 (fun v e => Rfin st3 v (denP e)) dvars (map snd (psort ps))).
  { clear - HR1 Hs1 Hx13 Hi3 Hcap. induction HR1 as [|v y vs ys Hv _ IH]; constructor.
    - inversion Hs1; subst. apply (Rfin_ext (proj1 Hi3) Hx13); assumption.
    - inversion Hs1; subst. apply IH. assumption. }
  assert (Hklen : length (map fst ks) = length kvs).
  { apply Forall2_len in HR3. rewrite map_length in *. symmetry. exact HR3. }
  assert (Hfresh3 : forall n, In n ns -> In n (names st3) /\ ~ In n (defd (code st3))).
  { intros n Hn. destruct (Hns n Hn) as [Ha Hb]. split; [apply (ext_names Hx3); exact Ha|].
    intros H. destruct (ext_new Hx3 n H) as [H'|H'].
    - rewrite Hc2 in H'. apply Hb. apply (S_names (proj1 Hi1)). exact H'.
    - exact (H' Ha). }
  (* execution of the new statement *)
  assert (Hexec : forall s3, run (code st3) c0 = Ok s3 -> forall asg, cexec x s3 = Ok asg <->
    exists dv kv, mapM den (map snd (psort ps)) = Ok dv /\ mapM den (map snd ks) = Ok kv /\
     mapM (fun o : string * (nat * nat * limit) => match o with (n, (tk, t, l)) =>
          do v <- vpot tk (combine (map fst (psort ps)) dv) (combine (map fst ks) kv) l s t; Ok (n, v) end) outs
     = Ok asg).
  { intros s3 Hs asg. unfold x. cbn [CompModel.cexec]. rewrite mapM_pairs.
    rewrite (combine_snd (map fst ks) kvs Hklen), (combine_fst (map fst ks) kvs Hklen).
    pose proof (Rfin_mapM HRd Hs) as Hm1. pose proof (Rfin_mapM HR3 Hs) as Hm2. split.
    - destruct (mapM (ev s3) dvars) as [dv|]; [|discriminate]. cbn [bind].
      destruct (mapM (ev s3) kvs) as [kv|]; [|discriminate]. cbn [bind].
      intros H. exists dv, kv. split; [apply Hm1; reflexivity|]. split; [apply Hm2; reflexivity|exact H].
    - intros (dv & kv & Hd & Hk & H). apply Hm1 in Hd. apply Hm2 in Hk. rewrite Hd. cbn [bind].
      rewrite Hk. cbn [bind]. exact H. }
  assert (Hi4 : inv (add_code st3 x)).
  { apply inv_add_code; [exact Hi3| | | |].
    - simpl. rewrite Houts. exact Hnd.
    - simpl. rewrite Houts. exact Hfresh3.
    - intros dd Hd. simpl in Hd. apply in_app_iff in Hd. destruct Hd as [Hd|Hd]; apply in_flat_map in Hd.
      + destruct Hd as (v & Hv & Hd). rewrite Forall_forall in Hs1.
        exact (scoped_ext Hx13 (Hs1 v Hv) dd Hd).
      + destruct Hd as ([k v] & Hv & Hd). rewrite Forall_forall in Hs3.
        apply in_combine_r in Hv. exact (Hs3 v Hv dd Hd).
    - intros Hlive s3 Hs.
      assert (Hd : exists dv, mapM den (map snd (psort ps)) = Ok dv).
      { apply mapM_all_ok. intros y Hy. apply (den_sub Hlive). apply Hdsub. exact Hy. }
      assert (Hk : exists kv, mapM den (map snd ks) = Ok kv).
      { apply mapM_all_ok. intros y Hy. apply (den_sub Hlive). apply Hksub. exact Hy. }
      destruct Hd as [dv Hd], Hk as [kv Hk].
      match goal with |- exists asg, cexec x s3 = Ok asg =>
        assert (Ho : exists asg, mapM (fun o : string * (nat * nat * limit) => match o with (n, (tk, t, l)) =>
          do v <- vpot tk (combine (map fst (psort ps)) dv) (combine (map fst ks) kv) l s t; Ok (n, v) end) outs
           = Ok asg) end.
      { apply mapM_all_ok. intros [n [[tk' t'] l']] Hin. unfold outs in Hin. apply in_map_iff in Hin.
        destruct Hin as ([g m] & Hout & Hin). simpl in Hout.
        destruct (Hshape g (in_combine_l _ _ _ _ Hin)) as (tk2 & ps2 & l2 & t2 & -> & Hps2 & Hsub2 & _).
        simpl in Hout. injection Hout as -> -> -> ->.
        destruct (den_sub Hlive Hsub2) as [y Hy].
        apply (@den_group tk' ps2 l' s t' ks ps y Hps2) in Hy.
        destruct Hy as (dv' & kv' & Hd' & Hk' & Hy).
        rewrite Hd in Hd'. injection Hd' as <-. rewrite Hk in Hk'. injection Hk' as <-.
        rewrite Hy. cbn [bind]. eauto. }
      destruct Ho as [asg Ho]. exists asg. apply (Hexec s3 Hs). exists dv, kv. auto. }
  (* values of the new names *)
  assert (HRout : forall g n, In (g, n) (combine group ns) -> Rfin (add_code st3 x) (NIR n) (denP g)).
  { intros g n Hin s4 Hs4 y. destruct (run_last _ _ Hs4) as (s3 & asg & Hs & Hce & ->).
    destruct (Hshape g (in_combine_l _ _ _ _ Hin)) as (tk2 & ps2 & l2 & t2 & -> & Hps2 & Hsub2 & _).
    pose proof Hce as Hce0. apply (Hexec s3 Hs) in Hce. destruct Hce as (dv & kv & Hd & Hk & Ho).
    assert (Hio : In (n, (tk2, t2, l2)) outs).
    { unfold outs. apply in_map_iff. exists (IntG tk2 ps2 l2 s t2 ks, n). split; [reflexivity|exact Hin]. }
    pose proof (proj1 (mapM_ok_iff _ _ _) Ho) as HF.
    assert (Hval : exists v, In (n, v) asg /\
       vpot tk2 (combine (map fst (psort ps)) dv) (combine (map fst ks) kv) l2 s t2 = Ok v).
    { clear - HF Hio. induction HF as [|o [m v] outs' asg' Hov _ IH]; [destruct Hio|].
      destruct Hio as [->|Hio].
      - destruct (vpot _ _ _ _ _ _) as [w|] eqn:E; [|discriminate Hov]. cbn [bind] in Hov.
        injection Hov as -> ->. exists v. split; [left; reflexivity|first [exact E|reflexivity]].
      - destruct (IH Hio) as (w & Hw & E). exists w. split; [right; exact Hw|exact E]. }
    destruct Hval as (v & Hv & Hpot).
    assert (Hup : upds s3 asg n = Some v).
    { apply upds_in; [|exact Hv]. rewrite (cexec_names _ _ Hce0). simpl. rewrite Houts. exact Hnd. }
    cbn [evalx]. unfold get. rewrite Hup. unfold denP.
    rewrite (@den_group tk2 ps2 l2 s t2 ks ps y Hps2). split.
    - intros H. injection H as <-. exists dv, kv. auto.
    - intros (dv' & kv' & Hd' & Hk' & Hy).
      rewrite Hd in Hd'. injection Hd' as <-. rewrite Hk in Hk'. injection Hk' as <-.
      rewrite Hpot in Hy. exact Hy. }
  set (st4 := add_e2vs (add_code st3 x) group ns).
  destruct (add_e2vs_code (add_code st3 x) group ns) as (Hc4 & Hn4 & Hm4). fold st4 in Hc4, Hn4, Hm4.
  assert (Hdef : forall n, In n ns -> In n (defd (code (add_code st3 x)))).
  { intros n Hn. simpl. rewrite defd_app. apply in_app_iff. right. simpl. rewrite app_nil_r, Houts. exact Hn. }
  assert (Hi5 : inv st4).
  { apply (@inv_tab (add_code st3 x)); auto. intros k v Hkv. unfold tables in Hkv. rewrite Hm4 in Hkv.
    apply in_app_iff in Hkv. destruct Hkv as [Hkv|Hkv].
    - apply add_e2vs_in in Hkv. destruct Hkv as [Hkv|(n & Hn & ->)].
      + left. unfold tables. apply in_app_iff. left. exact Hkv.
      + right. split; [|split].
        * destruct (Hshape k (in_combine_l _ _ _ _ Hn)) as (tk2 & ps2 & l2 & t2 & _ & _ & Hsub2 & _). exact Hsub2.
        * intros dd [<-|[]]. unfold scoped_dep. simpl. apply Hdef. exact (in_combine_r _ _ _ _ Hn).
        * apply HRout. exact Hn.
    - left. unfold tables. apply in_app_iff. right. exact Hkv. }
  destruct (@add_e2vs_has (add_code st3 x) group ns e) as [n Hn]; [symmetry; exact Hlen|exact Hself|].
  fold st4 in Hn. destruct (lookup_In e _ _ _ Hn (pyeq_refl e)) as [w Hw]. rewrite Hw.
  exists w, st4. split; [reflexivity|]. split; [exact Hi5|]. split.
  - split.
    + destruct (ext_code (ext_trans Hx1 Hx13)) as [dd Hdd]. exists (dd ++ [x]).
      rewrite Hc4. simpl. rewrite Hdd, app_assoc. reflexivity.
    + rewrite Hn4. simpl. apply (ext_names (ext_trans Hx1 Hx13)).
    + intros m Hm. rewrite Hc4 in Hm. simpl in Hm. rewrite defd_app in Hm. apply in_app_iff in Hm.
      destruct Hm as [Hm|Hm]; [apply (ext_new (ext_trans Hx1 Hx13)); exact Hm|].
      simpl in Hm. rewrite app_nil_r, Houts in Hm. right. intros H.
      apply (proj2 (Hns m Hm)). apply (ext_names Hx1). exact H.
  - apply (@lookup_inv st4 e2v e w Hi5 He); [|exact Hw].
    intros q Hq. unfold tables. apply in_app_iff. left. exact Hq.
Qed.

Lemma comp_ok e : sub root e -> goal_for e.
Proof.
  induction e as [n|n|n k|k|cs IH|k cs IH|cs IH|c p sc IH|tk ps l s t ks IH1 IH2] using expr_ind';
    intros He d st Hi; apply comp_wrap; try assumption.
  - (* Var *)
    exists (Var n), st. split; [reflexivity|]. split; [exact Hi|]. split; [apply ext_refl|].
    split; [apply scoped_sub; exact He|]. intros s Hs x. unfold denP. cbn [evalx]. unfold get.
    rewrite (run_frame _ _ n Hs); [reflexivity|]. intros Hn.
    assert (Hu : userv n) by (exists (Var n); auto). apply (userv_not_gen Hu).
    apply (S_gen (proj1 Hi)). apply (S_names (proj1 Hi)). exact Hn.
  - exfalso. exact (Hacc He).
  - exists (SubV n k), st. split; [reflexivity|]. split; [exact Hi|]. split; [apply ext_refl|].
    split; [apply scoped_sub; exact He|]. intros s Hs x. unfold denP. cbn [evalx]. unfold get.
    rewrite (run_frame _ _ n Hs); [reflexivity|]. intros Hn.
    assert (Hu : userv n) by (exists (SubV n k); eauto). apply (userv_not_gen Hu).
    apply (S_gen (proj1 Hi)). apply (S_names (proj1 Hi)). exact Hn.
  - exists (Lit k), st. split; [reflexivity|]. split; [exact Hi|]. split; [apply ext_refl|].
    split; [intros dd []|]. intros s Hs x. reflexivity.
  - (* Sum *)
    assert (Hcs : Forall goal_for cs).
    { rewrite Forall_forall in *. intros x Hx. apply IH; [exact Hx|]. apply (sub_child He). exact Hx. }
    destruct cs as [|c cs]; [exfalso; exact (Hacc He eq_refl)|].
    inversion Hcs as [|? ? Hc Hcs']; subst. cbn [cbody map].
    destruct (Hc false st Hi) as (v & st1 & -> & Hi1 & Hx1 & Hs1 & HR1). cbn [bind].
    destruct (@assign_ok None v st1 (denP c) Hi1 (or_introl eq_refl) Hs1 HR1)
      as (w & st2 & -> & Hi2 & Hx2 & Hs2 & HR2).
    { apply need_sub. apply (sub_child He). left. reflexivity. }
    cbn [bind].
    destruct (sum_loop_ok Hcs' Hi2 Hs2 HR2) as (v' & st3 & -> & Hi3 & Hx3 & Hs3 & HR3).
    { intros Hl. destruct (den_sub Hl He) as [y Hy]. cbn [evalx] in Hy. simpl in Hy.
      destruct (den c) as [a|] eqn:Ea; [|discriminate Hy]. simpl in Hy.
      destruct (mapM den cs) as [vs|] eqn:Ev; [|discriminate Hy]. simpl in Hy.
      rewrite vadd_zero in Hy. simpl in Hy. exists a, vs, y. auto. }
    exists v', st3. split; [reflexivity|]. split; [exact Hi3|].
    split; [eapply ext_trans; [|exact Hx3]; eapply ext_trans; eauto|]. split; [exact Hs3|].
    eapply Rfin_iff; [|exact HR3]. intros x. unfold denP. cbn [evalx]. simpl. split.
    + intros (a & vs & -> & -> & Hx). simpl. rewrite vadd_zero. exact Hx.
    + destruct (den c) as [a|] eqn:Ea; [|discriminate]. simpl.
      destruct (mapM den cs) as [vs|] eqn:Ev; [|discriminate]. simpl.
      rewrite vadd_zero. simpl. intros Hx. exists a, vs. auto.
  - (* Op *)
    assert (Hcs : Forall goal_for cs).
    { rewrite Forall_forall in *. intros x Hx. apply IH; [exact Hx|]. apply (sub_child He). exact Hx. }
    cbn [cbody]. destruct (runs_ok Hcs Hi) as (vs & st1 & -> & Hi1 & Hx1 & Hs1 & HR1). cbn [bind].
    exists (Op k vs), st1. split; [reflexivity|]. split; [exact Hi1|]. split; [exact Hx1|]. split.
    + intros dd Hd. simpl in Hd. apply in_flat_map in Hd. destruct Hd as (v & Hv & Hd).
      rewrite Forall_forall in Hs1. exact (Hs1 v Hv dd Hd).
    + intros s Hs x. unfold denP. cbn [evalx]. pose proof (Rfin_mapM HR1 Hs) as Hm.
      destruct (mapM (ev s) vs) as [ys|] eqn:E1.
      * rewrite (proj1 (Hm ys) eq_refl). tauto.
      * destruct (mapM den cs) as [ys|] eqn:E2; [|cbn [bind]; split; intros HH; discriminate HH].
        exfalso. pose proof (proj2 (Hm ys) eq_refl) as HH. congruence.
  - (* Arr *)
    assert (Hcs : Forall goal_for cs).
    { rewrite Forall_forall in *. intros x Hx. apply IH; [exact Hx|]. apply (sub_child He). exact Hx. }
    cbn [cbody].
    destruct (runs_assign_ok Hcs (sub_child He) Hi) as (vs & st1 & -> & Hi1 & Hx1 & Hs1 & HR1). cbn [bind].
    exists (Arr vs), st1. split; [reflexivity|]. split; [exact Hi1|]. split; [exact Hx1|]. split.
    + intros dd Hd. simpl in Hd. apply in_flat_map in Hd. destruct Hd as (v & Hv & Hd).
      rewrite Forall_forall in Hs1. exact (Hs1 v Hv dd Hd).
    + intros s Hs x. unfold denP. cbn [evalx]. pose proof (Rfin_mapM HR1 Hs) as Hm.
      destruct (mapM (ev s) vs) as [ys|] eqn:E1.
      * rewrite (proj1 (Hm ys) eq_refl). tauto.
      * destruct (mapM den cs) as [ys|] eqn:E2; [|cbn [bind]; split; intros HH; discriminate HH].
        exfalso. pose proof (proj2 (Hm ys) eq_refl) as HH. congruence.
  - (* CSE *)
    assert (Hc : sub root c) by (apply (sub_child He); left; reflexivity).
    cbn [cbody]. destruct sc.
    + destruct (lookup c (e2v st)) as [v|] eqn:El.
      * exists v, st. split; [reflexivity|]. split; [exact Hi|]. split; [apply ext_refl|].
        apply (@lookup_inv st e2v c v Hi Hc); [|exact El].
        intros x Hx. unfold tables. apply in_app_iff. left. exact Hx.
      * destruct (IH Hc (is_intg c) st Hi) as (v & st1 & -> & Hi1 & Hx1 & Hs1 & HR1). cbn [bind].
        destruct (@assign_ok p v st1 (denP c) Hi1) as (w & st2 & -> & Hi2 & Hx2 & Hs2 & HR2); auto.
        { right. eauto. }
        { apply need_sub. exact Hc. }
        cbn [bind]. exists w, (add_e2v st2 c w). split; [reflexivity|].
        split; [apply inv_add_e2v; auto|].
        split; [apply (@ext_same st st2); [eapply ext_trans; eauto|reflexivity|reflexivity]|].
        split; [exact Hs2|exact HR2].
    + exists (CSE c p false), st. split; [reflexivity|]. split; [exact Hi|]. split; [apply ext_refl|].
      split; [apply scoped_sub; exact He|].
      intros s Hs x. unfold denP. cbn [evalx].
      rewrite (eval_no_intg s (Hacc He)).
      rewrite (@eval_ext true s c0 c); [tauto|].
      intros dd Hd. destruct (fv_sub Hc dd Hd) as [_ Hu].
      apply (run_frame _ _ _ Hs). intros Hn. apply (userv_not_gen Hu).
      apply (S_gen (proj1 Hi)). apply (S_names (proj1 Hi)). exact Hn.
  - (* IntG *)
    rewrite Forall_forall in IH1, IH2. apply intg_ok; [exact He| | |exact Hi].
    + apply Forall_forall. intros x Hx.
      apply (Permutation_in _ (Permutation_map snd (psort_perm ps))) in Hx.
      assert (Hsx : sub root x) by (apply (sub_child He); simpl; apply in_app_iff; left; exact Hx).
      apply in_map_iff in Hx. destruct Hx as ([k y] & Hy & Hin). simpl in Hy. subst y.
      exact (IH1 (k, x) Hin Hsx).
    + apply Forall_forall. intros x Hx.
      assert (Hsx : sub root x) by (apply (sub_child He); simpl; apply in_app_iff; right; exact Hx).
      apply in_map_iff in Hx. destruct Hx as ([k y] & Hy & Hin). simpl in Hy. subst y.
      exact (IH2 (k, x) Hin Hsx).
Qed.
End Main.
