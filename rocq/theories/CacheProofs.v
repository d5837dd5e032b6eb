From Verif Require Import Base CacheModel CacheSpec.
Set Implicit Arguments.

Section Ind.
Variable P : cexpr -> Prop.
Hypothesis HV : forall n, P (CVar n).
Hypothesis HC : forall k, P (Const k).
Hypothesis HO : forall k cs, Forall P cs -> P (COp k cs).
Hypothesis HS : forall c p s, P c -> P (Cse c p s).
Fixpoint cexpr_ind' (e : cexpr) : P e :=
  match e with
  | CVar n => HV n
  | Const k => HC k
  | COp k cs => HO k ((fix go (l : list cexpr) : Forall P l :=
       match l with [] => Forall_nil P | x :: l' => Forall_cons x (cexpr_ind' x) (go l') end) cs)
  | Cse c p s => HS p s (cexpr_ind' c)
  end.
End Ind.

Lemma closed_op k cs : closed_cses (COp k cs) <-> Forall closed_cses cs.
Proof.
  simpl. induction cs as [|x l IH]; [split; auto|]. split.
  - intros [H1 H2]. constructor; [exact H1|]. apply IH. exact H2.
  - intros H. inversion H; subst. split; [assumption|]. apply IH. assumption.
Qed.

Lemma ostr_eqb_eq a b : opt_str_eqb a b = true <-> a = b.
Proof.
  destruct a as [x|], b as [y|]; simpl; try (split; [discriminate|congruence]).
  - rewrite String.eqb_eq. split; congruence.
  - tauto.
Qed.
Lemma scope_eqb_eq a b : scope_eqb a b = true <-> a = b.
Proof. destruct a, b; simpl; split; congruence. Qed.

Lemma ceqb_eq a : forall b, ceqb a b = true <-> a = b.
Proof.
  induction a as [n|k|k cs IH|c p s IH] using cexpr_ind'; intros b; destruct b as [m|j|j ds|d q t];
    simpl; try (split; [discriminate|discriminate]).
  - rewrite String.eqb_eq. split; congruence.
  - rewrite Nat.eqb_eq. split; congruence.
  - rewrite andb_true_iff, Nat.eqb_eq.
    assert (Hl : all2 ceqb cs ds = true <-> cs = ds).
    { clear -IH. revert ds. induction IH as [|x l Hx _ IHl]; intros [|y ds]; simpl;
        try (split; [discriminate|discriminate]); [tauto|].
      rewrite andb_true_iff, Hx, IHl. split; [intros [-> ->]; reflexivity|]. intros E. injection E. auto. }
    rewrite Hl. split; [intros [-> ->]; reflexivity|]. intros E. injection E. auto.
  - rewrite !andb_true_iff, IH, ostr_eqb_eq, scope_eqb_eq.
    split; [intros [[-> ->] ->]; reflexivity|]. intros E. injection E. auto.
Qed.

Lemma key_eqb_eq a b : key_eqb a b = true <-> a = b.
Proof.
  destruct a as [p c|c], b as [q d|d]; simpl; try (split; [discriminate|discriminate]).
  - rewrite andb_true_iff, ostr_eqb_eq, ceqb_eq. split; [intros [-> ->]; reflexivity|].
    intros E. injection E. auto.
  - rewrite ceqb_eq. split; congruence.
Qed.

Section Main.
Variable V : Type.
Variable vconst : nat -> result V.
Variable vop : nat -> list V -> result V.
Variables freeze thaw : V -> V.
Variable is_number : V -> bool.
Notation ceval := (ceval vconst vop freeze thaw is_number).
Notation cden := (cden vconst vop).
Notation cenv := (cenv V).
Notation cache := (cache V).
Notation on_hit := (on_hit thaw is_number).
Notation to_store := (to_store freeze is_number).

Lemma cfind_In k (d : cache) v : cfind k d = Some v -> In (k, v) d.
Proof.
  induction d as [|[k' v'] d IH]; simpl; [discriminate|].
  destruct (key_eqb k' k) eqn:E; [|auto]. intros H. injection H as <-.
  apply key_eqb_eq in E. subst. auto.
Qed.
Lemma cfind_None k (d : cache) : cfind k d = None -> ~ In k (map fst d).
Proof.
  induction d as [|[k' v'] d IH]; simpl; [tauto|].
  destruct (key_eqb k' k) eqn:E; [discriminate|]. intros H [H1|H1]; [|exact (IH H H1)].
  subst. assert (key_eqb k k = true) by (apply key_eqb_eq; reflexivity). congruence.
Qed.
Lemma cfind_Some_iff k (d : cache) v : NoDup (map fst d) -> (cfind k d = Some v <-> In (k, v) d).
Proof.
  intros Hn. split; [apply cfind_In|]. induction d as [|[k' v'] d IH]; simpl; [tauto|].
  simpl in Hn. inversion Hn as [|a b Hk Hd]; subst. intros [H|H].
  - injection H as -> ->. assert (E : key_eqb k k = true) by (apply key_eqb_eq; reflexivity).
    rewrite E. reflexivity.
  - destruct (key_eqb k' k) eqn:E; [|auto]. apply key_eqb_eq in E. subst.
    exfalso. apply Hk. apply (in_map fst) in H. exact H.
Qed.

(** Meaning depends only on the free variables. *)
Lemma cden_ext e : forall c c' : cenv, (forall n, In n (free_vars e) -> c n = c' n) -> cden c e = cden c' e.
Proof.
  induction e as [n|k|k cs IH|ch p s IH] using cexpr_ind'; intros c c' H; simpl.
  - rewrite (H n); [reflexivity|left; reflexivity].
  - reflexivity.
  - f_equal. simpl in H. clear -IH H. induction IH as [|x l Hx _ IHl]; simpl; [reflexivity|].
    simpl in H. rewrite (Hx c c'), IHl; [reflexivity| |]; intros n Hn; apply H; apply in_app_iff; auto.
  - apply IH. exact H.
Qed.

Definition size_key (k : key) : cexpr := match k with KPair _ c => c | KExpr c => c end.

(** Subterm order, by size. *)
Fixpoint csize (e : cexpr) : nat :=
  S match e with
    | CVar _ | Const _ => 0
    | COp _ cs => list_sum (map csize cs)
    | Cse c _ _ => csize c
    end.
Lemma csize_in k cs x : In x cs -> csize x < csize (COp k cs).
Proof.
  intros H. simpl. induction cs as [|y cs IH]; [destruct H|]. simpl. destruct H as [->|H]; [lia|].
  specialize (IH H). lia.
Qed.

Definition cache_nodup (st : caches V) : Prop := NoDup (map fst (ecache st)) /\ NoDup (map fst (dcache st)).
Record ext (b : nat) (st st' : caches V) : Prop := {
  ex_e : exists l, ecache st' = l ++ ecache st /\ forall k v, In (k, v) l -> csize (size_key k) < b;
  ex_d : exists l, dcache st' = l ++ dcache st /\ forall k v, In (k, v) l -> csize (size_key k) < b }.

Lemma ext_refl b st : ext b st st.
Proof. split; exists []; (split; [reflexivity|intros k v []]). Qed.
Lemma ext_trans b a c d : ext b a c -> ext b c d -> ext b a d.
Proof.
  intros [(l1 & E1 & H1) (m1 & F1 & G1)] [(l2 & E2 & H2) (m2 & F2 & G2)].
  split; [exists (l2 ++ l1)|exists (m2 ++ m1)]; rewrite <- app_assoc.
  - split; [congruence|]. intros k v Hk. apply in_app_iff in Hk. destruct Hk; eauto.
  - split; [congruence|]. intros k v Hk. apply in_app_iff in Hk. destruct Hk; eauto.
Qed.
Lemma ext_mono b b' st st' : b <= b' -> ext b st st' -> ext b' st st'.
Proof.
  intros Hb [(l1 & E1 & H1) (m1 & F1 & G1)]. split; [exists l1|exists m1]; (split; [assumption|]);
    intros k v Hk; [specialize (H1 k v Hk)|specialize (G1 k v Hk)]; lia.
Qed.

(** Structure, for all expressions: entries are only added, for keys not present. *)
Lemma ceval_struct c e : forall st, cache_nodup st ->
  cache_nodup (snd (ceval c e st)) /\ ext (csize e) st (snd (ceval c e st)).
Proof.
  induction e as [n|k|k cs IH|ch p s IH] using cexpr_ind'; intros st Hn.
  - simpl. split; [exact Hn|apply ext_refl].
  - simpl. split; [exact Hn|apply ext_refl].
  - assert (H : forall l, Forall (fun e => forall st, cache_nodup st ->
         cache_nodup (snd (ceval c e st)) /\ ext (csize e) st (snd (ceval c e st))) l ->
       forall b st, (forall x, In x l -> csize x <= b) -> cache_nodup st ->
         cache_nodup (snd (eval_args (ceval c) l st)) /\ ext b st (snd (eval_args (ceval c) l st))).
    { clear. intros l Hl b. induction Hl as [|x l Hx _ IHl]; intros st Hb Hn; simpl.
      - split; [exact Hn|apply ext_refl].
      - destruct (Hx st Hn) as [H1 H2]. destruct (ceval c x st) as [r st1]. simpl in H1, H2.
        assert (H2' : ext b st st1) by (eapply ext_mono; [|exact H2]; apply Hb; left; reflexivity).
        destruct r as [v|er]; [|split; assumption].
        destruct (IHl st1) as [H3 H4]; [intros y Hy; apply Hb; right; exact Hy|exact H1|].
        destruct (eval_args (ceval c) l st1) as [rs st2]. simpl in *. split; [exact H3|].
        eapply ext_trans; eauto. }
    simpl. destruct (H cs IH (csize (COp k cs)) st) as [H1 H2].
    { intros x Hx. apply (csize_in k) in Hx. lia. }
    { exact Hn. }
    destruct (eval_args (ceval c) cs st) as [rs st1]. simpl in *. split; assumption.
  - simpl. destruct s.
    + destruct (IH st Hn) as [H1 H2]. split; [exact H1|]. eapply ext_mono; [|exact H2]. lia.
    + destruct (cfind (KPair p ch) (get_cache ScExpr st)) as [v|] eqn:E; [split; [exact Hn|apply ext_refl]|].
      destruct (IH st Hn) as [H1 H2]. destruct (ceval c ch st) as [r st1]. simpl in H1, H2.
      destruct r as [v|er]; simpl; [|split; [exact H1|eapply ext_mono; [|exact H2]; lia]].
      destruct H2 as [(l1 & E1 & G1) (m1 & F1 & G2)]. split.
      * destruct H1 as [H1 H1']. split; simpl; [|exact H1']. constructor; [|exact H1].
        rewrite E1, map_app, in_app_iff. intros [Hk|Hk].
        -- apply in_map_iff in Hk. destruct Hk as ([k w] & Hk & Hin). simpl in Hk. subst k.
           specialize (G1 _ _ Hin). simpl in G1. lia.
        -- apply cfind_None in E. exact (E Hk).
      * split; simpl.
        -- exists ((KPair p ch, v) :: l1). split; [rewrite E1; reflexivity|].
           intros k w [Hk|Hk]; [injection Hk as <- <-; simpl; lia|]. specialize (G1 _ _ Hk). lia.
        -- exists m1. split; [exact F1|]. intros k w Hk. specialize (G2 _ _ Hk). lia.
    + destruct (cfind (KPair p ch) (get_cache ScDiscr st)) as [v|] eqn:E; [split; [exact Hn|apply ext_refl]|].
      destruct (IH st Hn) as [H1 H2]. destruct (ceval c ch st) as [r st1]. simpl in H1, H2.
      destruct r as [v|er]; simpl; [|split; [exact H1|eapply ext_mono; [|exact H2]; lia]].
      destruct H2 as [(l1 & E1 & G1) (m1 & F1 & G2)]. split.
      * destruct H1 as [H1 H1']. split; simpl; [exact H1|]. constructor; [|exact H1'].
        rewrite F1, map_app, in_app_iff. intros [Hk|Hk].
        -- apply in_map_iff in Hk. destruct Hk as ([k w] & Hk & Hin). simpl in Hk. subst k.
           specialize (G2 _ _ Hin). simpl in G2. lia.
        -- apply cfind_None in E. exact (E Hk).
      * split; simpl.
        -- exists l1. split; [exact E1|]. intros k w Hk. specialize (G1 _ _ Hk). lia.
        -- exists ((KPair p ch, if is_number v then v else freeze v) :: m1). split; [rewrite F1; reflexivity|].
           intros k w [Hk|Hk]; [injection Hk as <- <-; simpl; lia|]. specialize (G2 _ _ Hk). lia.
Qed.

(** Values, for closed long-lived subexpressions. *)
Hypothesis thaw_freeze : forall v, thaw (freeze v) = v.
Hypothesis freeze_number : forall v, is_number (freeze v) = is_number v.

Definition entry_ok (sc : scope) (k : key) (v : V) : Prop :=
  match k with
  | KPair _ ch => forall c : cenv, cden c ch = Ok (on_hit sc v)
  | KExpr _ => False
  end.
Definition vals_ok (st : caches V) : Prop :=
  (forall k v, In (k, v) (ecache st) -> entry_ok ScExpr k v) /\
  (forall k v, In (k, v) (dcache st) -> entry_ok ScDiscr k v).

Lemma on_hit_store sc v : on_hit sc (to_store sc v) = v.
Proof.
  destruct sc; simpl; auto. destruct (is_number v) eqn:E; simpl; [rewrite E; reflexivity|].
  rewrite freeze_number, E. apply thaw_freeze.
Qed.

Lemma ceval_vals c e : forall st, closed_cses e -> vals_ok st ->
  fst (ceval c e st) = cden c e /\ vals_ok (snd (ceval c e st)).
Proof.
  induction e as [n|k|k cs IH|ch p s IH] using cexpr_ind'; intros st Hc Hv.
  - simpl. auto.
  - simpl. auto.
  - apply closed_op in Hc.
    assert (H : fst (eval_args (ceval c) cs st) = mapM (cden c) cs /\ vals_ok (snd (eval_args (ceval c) cs st))).
    { clear k. revert st Hv. induction IH as [|x l Hx _ IHl]; intros st Hv; simpl; [auto|].
      inversion Hc as [|? ? Hcx Hcl]; subst.
      destruct (Hx st Hcx Hv) as [H1 H2]. destruct (ceval c x st) as [r st1]. simpl in H1, H2.
      rewrite <- H1. destruct r as [v|er]; simpl; [|auto].
      destruct (IHl Hcl st1 H2) as [H3 H4]. destruct (eval_args (ceval c) l st1) as [rs st2].
      simpl in *. rewrite <- H3. destruct rs; simpl; auto. }
    simpl. destruct H as [H1 H2]. destruct (eval_args (ceval c) cs st) as [rs st1]. simpl in *.
    rewrite <- H1. split; [destruct rs; reflexivity|exact H2].
  - destruct Hc as [Hc Hf]. simpl. destruct s.
    + apply IH; assumption.
    + destruct (cfind (KPair p ch) (get_cache ScExpr st)) as [v|] eqn:E.
      * simpl. split; [|exact Hv]. apply cfind_In in E. symmetry. exact (proj1 Hv _ _ E c).
      * destruct (IH st Hc Hv) as [H1 H2]. destruct (ceval c ch st) as [r st1]. simpl in H1, H2.
        destruct r as [v|er]; simpl; [|auto]. split; [exact H1|]. split; simpl; [|exact (proj2 H2)].
        intros k w [Hk|Hk]; [|exact (proj1 H2 _ _ Hk)]. injection Hk as <- <-. simpl. intros c'.
        rewrite <- (@cden_ext ch c c'); [symmetry; exact H1|]. rewrite Hf by discriminate. intros n [].
    + destruct (cfind (KPair p ch) (get_cache ScDiscr st)) as [v|] eqn:E.
      * simpl. split; [|exact Hv]. apply cfind_In in E. symmetry. exact (proj2 Hv _ _ E c).
      * destruct (IH st Hc Hv) as [H1 H2]. destruct (ceval c ch st) as [r st1]. simpl in H1, H2.
        destruct r as [v|er]; simpl; [|auto]. split; [exact H1|]. split; simpl; [exact (proj1 H2)|].
        intros k w [Hk|Hk]; [|exact (proj2 H2 _ _ Hk)]. injection Hk as <- <-.
        change (if is_number v then v else freeze v) with (to_store ScDiscr v).
        cbn [entry_ok]. rewrite on_hit_store. intros c'.
        rewrite <- (@cden_ext ch c c'); [symmetry; exact H1|]. rewrite Hf by discriminate. intros n [].
Qed.

(** Worlds. *)
Variable exprs : nat -> cexpr.
Notation call := (call vconst vop freeze thaw is_number exprs).
Notation calls := (calls vconst vop freeze thaw is_number exprs).

Definition no_expr_keys (d : cache) : Prop := forall c v, ~ In (KExpr c, v) d.
Lemma fast_path_none e (st : caches V) : no_expr_keys (dcache st) -> fast_path thaw is_number e st = None.
Proof.
  intros H. destruct e as [n|k|k cs|ch p s]; simpl; auto. destruct s; auto.
  destruct (cfind (KExpr ch) (dcache st)) as [v|] eqn:E; [|reflexivity].
  apply cfind_In in E. destruct (H _ _ E).
Qed.

Lemma ceval_keys c e : forall st, no_expr_keys (dcache st) -> no_expr_keys (dcache (snd (ceval c e st))).
Proof.
  induction e as [n|k|k cs IH|ch p s IH] using cexpr_ind'; intros st Hn; simpl; auto.
  - assert (H : no_expr_keys (dcache (snd (eval_args (ceval c) cs st)))).
    { clear k. revert st Hn. induction IH as [|x l Hx _ IHl]; intros st Hn; simpl; [exact Hn|].
      specialize (Hx st Hn). destruct (ceval c x st) as [r st1]. simpl in Hx.
      destruct r as [v|er]; simpl; [|exact Hx]. specialize (IHl st1 Hx).
      destruct (eval_args (ceval c) l st1) as [rs st2]. exact IHl. }
    destruct (eval_args (ceval c) cs st) as [rs st1]. exact H.
  - destruct s; [apply IH; exact Hn| |].
    + destruct (cfind _ _); [exact Hn|]. specialize (IH st Hn). destruct (ceval c ch st) as [r st1].
      destruct r; exact IH.
    + destruct (cfind _ _); [exact Hn|]. specialize (IH st Hn). destruct (ceval c ch st) as [r st1].
      destruct r as [v|]; [|exact IH]. simpl. intros c' v' [H|H]; [discriminate H|exact (IH _ _ H)].
Qed.

Definition winv (w : world V) : Prop := one_entry_per_key w /\ no_expr_keys (w_d w).

Lemma call_struct w x : winv w -> winv (snd (call w x)) /\ entries_kept w (snd (call w x)) /\
  (fst (call w x) = fst (ceval (snd x) (exprs (fst x)) (Caches (w_e w (fst x)) (w_d w)))).
Proof.
  destruct x as [b c]. intros [[H1 H2] H3]. unfold CacheModel.call, bound_eval.
  rewrite fast_path_none by exact H3.
  destruct (@ceval_struct c (exprs b) (Caches (w_e w b) (w_d w))) as [[N1 N2] X].
  { split; simpl; auto. }
  pose proof (ceval_keys c (exprs b) (Caches (w_e w b) (w_d w)) H3) as K.
  simpl. destruct (ceval c (exprs b) (Caches (w_e w b) (w_d w))) as [r st]. simpl in *.
  destruct X as [(l & E & _) (m & F & _)]. simpl in E, F. split; [|split; [|reflexivity]].
  - split; [|exact K]. split; simpl; [|exact N2]. intros b'. destruct (Nat.eqb_spec b' b); [exact N1|apply H1].
  - split; simpl.
    + intros b' k v Hin. destruct (Nat.eqb_spec b' b) as [->|]; [|exact Hin]. rewrite E. apply in_app_iff. auto.
    + intros k v Hin. rewrite F. apply in_app_iff. auto.
Qed.

Lemma entries_kept_refl (w : world V) : entries_kept w w.
Proof. split; auto. Qed.
Lemma entries_kept_trans (a b c : world V) : entries_kept a b -> entries_kept b c -> entries_kept a c.
Proof. intros [H1 H2] [H3 H4]. split; eauto. Qed.

Lemma calls_struct h : forall w, winv w -> winv (calls w h) /\ entries_kept w (calls w h).
Proof.
  induction h as [|x h IH]; intros w Hw; simpl; [split; [exact Hw|apply entries_kept_refl]|].
  destruct (call_struct x Hw) as (H1 & H2 & _). destruct (IH _ H1) as [H3 H4].
  split; [exact H3|]. eapply entries_kept_trans; eauto.
Qed.

Lemma winv0 : winv (world0 V).
Proof. split; [split; simpl; intros; constructor|intros c v []]. Qed.

Definition wvals (w : world V) : Prop := forall b, vals_ok (Caches (w_e w b) (w_d w)).
Hypothesis closed : forall b, closed_cses (exprs b).

Lemma call_vals w x : winv w -> wvals w ->
  fst (call w x) = cden (snd x) (exprs (fst x)) /\ wvals (snd (call w x)).
Proof.
  intros Hw Hv. destruct (call_struct x Hw) as (_ & _ & ->). destruct x as [b c]. simpl.
  destruct (@ceval_vals c (exprs b) (Caches (w_e w b) (w_d w)) (closed b) (Hv b)) as [H1 H2].
  split; [exact H1|]. unfold bound_eval. rewrite fast_path_none by (apply Hw).
  destruct (ceval c (exprs b) (Caches (w_e w b) (w_d w))) as [r st]. simpl in *.
  intros b'. split; simpl; [|exact (proj2 H2)].
  destruct (Nat.eqb b' b); [exact (proj1 H2)|exact (proj1 (Hv b'))].
Qed.

Lemma calls_vals h : forall w, winv w -> wvals w -> wvals (calls w h).
Proof.
  induction h as [|x h IH]; intros w Hw Hv; simpl; [exact Hv|].
  destruct (call_struct x Hw) as (H1 & _). destruct (call_vals x Hw Hv) as [_ H2]. exact (IH _ H1 H2).
Qed.

Lemma wvals0 : wvals (world0 V).
Proof. intros b. split; intros k v []. Qed.
End Main.

Lemma only_eval_same (V : Type) vconst vop (freeze thaw : V -> V) is_number c e : forall st : caches V,
  only_evaluation_scope e -> snd (ceval vconst vop freeze thaw is_number c e st) = st.
Proof.
  induction e as [n|k|k cs IH|ch p s IH] using cexpr_ind'; intros st H; simpl; auto.
  - simpl in H.
    assert (E : snd (eval_args (ceval vconst vop freeze thaw is_number c) cs st) = st).
    { induction IH as [|x l Hx _ IHl]; simpl; [reflexivity|]. destruct H as [H1 H2].
      specialize (Hx st H1). destruct (ceval _ _ _ _ _ c x st) as [r st1]. simpl in Hx. subst st1.
      destruct r as [v|]; [|reflexivity]. specialize (IHl H2).
      destruct (eval_args _ l st) as [rs st2]. exact IHl. }
    destruct (eval_args _ cs st) as [rs st1]. exact E.
  - destruct H as [H ->]. apply IH. exact H.
Qed.
