From Verif Require Import Base CtorModel CtorSpec.
Set Implicit Arguments.

Section P.
Variables D W : Type.
Variable default_dd : W.

Fixpoint dget (d : list (string * D)) (n : string) : option D :=
  match d with [] => None | (m, v) :: d' => if String.eqb m n then Some v else dget d' n end.

Lemma dget_dset d n v m : dget (dset d n v) m = if String.eqb n m then Some v else dget d m.
Proof.
  induction d as [|[k w] d IH]; simpl; [reflexivity|].
  destruct (String.eqb_spec k n) as [->|Hk]; simpl.
  - destruct (String.eqb_spec n m); reflexivity.
  - rewrite IH. destruct (String.eqb_spec k m) as [->|]; [|reflexivity].
    destruct (String.eqb_spec n m) as [->|]; [congruence|reflexivity].
Qed.
Lemma dkeys_dset (d : list (string * D)) n v m : In m (dkeys (dset d n v)) <-> m = n \/ In m (dkeys d).
Proof.
  induction d as [|[k w] d IH]; simpl; [intuition|].
  destruct (String.eqb_spec k n) as [->|Hk]; simpl; [intuition|]. rewrite IH. intuition.
Qed.
Lemma dset_nodup (d : list (string * D)) n v : NoDup (dkeys d) -> NoDup (dkeys (dset d n v)).
Proof.
  induction d as [|[k w] d IH]; simpl; intros H; [repeat constructor; tauto|].
  inversion H as [|? ? Hk Hd]; subst.
  destruct (String.eqb_spec k n) as [->|Hkn]; simpl; constructor; auto.
  intros Hin. apply dkeys_dset in Hin. destruct Hin; [congruence|tauto].
Qed.

Lemma dict_of_spec (l : list (string * D)) : forall d : list (string * D), NoDup (dkeys d) ->
  let d' := fold_left (fun d p => dset d (fst p) (snd p)) l d in
  NoDup (dkeys d') /\ forall n, dget d' n = match last_value l n with Some v => Some v | None => dget d n end.
Proof.
  induction l as [|[k v] l IH]; intros d Hd; simpl; [auto|].
  destruct (IH (dset d k v) (dset_nodup _ _ _ Hd)) as [H1 H2]. split; [exact H1|].
  intros n. rewrite H2. destruct (last_value l n); [reflexivity|]. rewrite dget_dset. destruct (String.eqb k n); reflexivity.
Qed.

Lemma dget_keys (d : list (string * D)) n : In n (dkeys d) <-> dget d n <> None.
Proof.
  induction d as [|[k w] d IH]; simpl; [tauto|].
  destruct (String.eqb_spec k n) as [->|Hk]; simpl; [split; [discriminate|auto]|]. rewrite <- IH.
  split; [intros [H|H]; [congruence|exact H]|auto].
Qed.

Lemma last_value_keys (l : list (string * D)) n : In n (map fst l) <-> last_value l n <> None.
Proof.
  induction l as [|[k w] l IH]; simpl; [tauto|].
  destruct (last_value l n) as [v|] eqn:E.
  - split; [discriminate|]. intros _. right. apply IH. discriminate.
  - destruct (String.eqb_spec k n) as [->|Hk]; [split; [discriminate|auto]|].
    split; [|tauto]. intros [H|H]; [congruence|]. apply IH in H. tauto.
Qed.

Lemma last_value_nodup (l : list (string * D)) n : NoDup (map fst l) -> last_value l n = dget l n.
Proof.
  induction l as [|[k w] l IH]; simpl; intros H; [reflexivity|]. inversion H as [|? ? Hk Hl]; subst.
  destruct (String.eqb_spec k n) as [->|Hkn].
  - destruct (last_value l n) eqn:E; [|reflexivity]. exfalso. apply Hk. apply last_value_keys. congruence.
  - rewrite IH by exact Hl. destruct (dget l n); reflexivity.
Qed.

(** Merging keyword arguments: succeeds exactly if no name clashes. *)
Lemma merge_spec (kw : list (string * D)) : forall d : list (string * D), NoDup (dkeys d) -> NoDup (map fst kw) ->
  match merge_kwargs d kw with
  | Ok d' => (forall n, In n (map fst kw) -> ~ In n (dkeys d)) /\ NoDup (dkeys d') /\
             forall n, dget d' n = match dget d n with Some v => Some v | None => last_value kw n end
  | Err e => e = ValueError /\ exists n, In n (map fst kw) /\ In n (dkeys d)
  end.
Proof.
  induction kw as [|[k v] kw IH]; intros d Hd Hk; simpl.
  - split; [intros n []|]. split; [exact Hd|]. intros n. destruct (dget d n); reflexivity.
  - simpl in Hk. inversion Hk as [|? ? Hnk Hkw]; subst.
    destruct (inb k (dkeys d)) eqn:E.
    + split; [reflexivity|]. exists k. apply inb_In in E. auto.
    + apply inb_false in E. specialize (IH (dset d k v) (dset_nodup _ _ _ Hd) Hkw).
      destruct (merge_kwargs (dset d k v) kw) as [d'|er].
      * destruct IH as (H1 & H2 & H3). split; [|split; [exact H2|]].
        -- intros n [<-|Hn]; [exact E|]. intros Hin. apply (H1 n Hn). apply dkeys_dset. auto.
        -- intros n. rewrite H3, dget_dset. destruct (String.eqb_spec k n) as [->|Hkn].
           ++ assert (dget d n = None) as ->.
              { destruct (dget d n) eqn:E2; [|reflexivity]. exfalso. apply E. apply dget_keys. congruence. }
              assert (last_value kw n = None) as ->; [|reflexivity].
              destruct (last_value kw n) eqn:E2; [|reflexivity]. exfalso. apply Hnk. apply last_value_keys. congruence.
           ++ destruct (dget d n); [reflexivity|]. destruct (last_value kw n); reflexivity.
      * destruct IH as (-> & n & Hn & Hin). split; [reflexivity|]. apply dkeys_dset in Hin.
        destruct Hin as [->|Hin]; [contradiction|]. exists n. auto.
Qed.

Lemma limit_allowed_spec l : limit_allowed l = true <-> valid_limit l.
Proof.
  unfold valid_limit. destruct l as [|s|z]; simpl.
  - split; auto.
  - rewrite String.eqb_eq. split; [intros ->; auto|]. intros [H|[H|(z & H & _)]]; congruence.
  - rewrite !orb_true_iff, !Z.eqb_eq. split.
    + intros H. right. right. exists z. split; [reflexivity|]. intuition.
    + intros [H|[H|(w & H & Hw)]]; try discriminate. injection H as ->. intuition.
Qed.

Lemma single_valued_spec tk sks :
  match single_valued (map k_base (sks ++ [tk])) with
  | Ok _ => one_base_kernel tk sks
  | Err e => e = ValueError /\ ~ one_base_kernel tk sks
  end.
Proof.
  unfold single_valued, one_base_kernel. rewrite map_app. simpl.
  destruct sks as [|k0 sks]; simpl; [intros k []|].
  destruct (forallb _ _) eqn:E.
  - rewrite forallb_forall in E.
    assert (E0 : k_base k0 = k_base tk).
    { apply Nat.eqb_eq. apply E. apply in_app_iff. right. left. reflexivity. }
    intros k [<-|Hk]; [exact E0|]. rewrite <- E0. symmetry. apply Nat.eqb_eq. apply E.
    apply in_app_iff. left. apply in_map. exact Hk.
  - split; [reflexivity|]. intros H.
    assert (forallb (Nat.eqb (k_base k0)) (map k_base sks ++ [k_base tk]) = true); [|congruence].
    apply forallb_forall. intros x Hx. apply Nat.eqb_eq. apply in_app_iff in Hx.
    rewrite (H k0 (or_introl eq_refl)).
    destruct Hx as [Hx|[<-|[]]]; [|reflexivity]. apply in_map_iff in Hx. destruct Hx as (k & <- & Hk).
    symmetry. apply H. right. exact Hk.
Qed.

Lemma names_spec tk sks n :
  In n (flat_map (fun k => k_args k ++ k_source_args k) (sks ++ [tk])) <-> required tk sks n.
Proof.
  rewrite in_flat_map. unfold required. split.
  - intros (k & Hk & Hn). exists k. apply in_app_iff in Hk, Hn. split; [|exact Hn].
    destruct Hk as [Hk|[<-|[]]]; auto.
  - intros (k & Hk & Hn). exists k. rewrite !in_app_iff. split; [|exact Hn].
    destruct Hk as [->|Hk]; [right; left; reflexivity|auto].
Qed.

Lemma post_init_spec (g : node D W) :
  match post_init g with
  | Ok g' => g' = g /\ valid_limit (n_lim g) /\ one_base_kernel (n_target g) (n_sources g) /\
             forall n, In n (dkeys (n_kargs g)) <-> required (n_target g) (n_sources g) n
  | Err e => e = ValueError /\
       ~ (valid_limit (n_lim g) /\ one_base_kernel (n_target g) (n_sources g) /\
          forall n, In n (dkeys (n_kargs g)) <-> required (n_target g) (n_sources g) n)
  end.
Proof.
  unfold post_init. destruct (limit_allowed (n_lim g)) eqn:E1; simpl.
  2:{ split; [reflexivity|]. intros [H _]. apply limit_allowed_spec in H. congruence. }
  apply limit_allowed_spec in E1.
  pose proof (single_valued_spec (n_target g) (n_sources g)) as Hs.
  destruct (single_valued _) as [b|er]; simpl.
  2:{ destruct Hs as [-> Hs]. split; [reflexivity|]. tauto. }
  destruct (subset _ _) eqn:E2; simpl.
  2:{ split; [reflexivity|]. intros (_ & _ & H).
      assert (subset (flat_map (fun k => k_args k ++ k_source_args k) (n_sources g ++ [n_target g]))
         (dkeys (n_kargs g)) = true); [|congruence].
      apply subset_spec. intros n Hn. apply H. apply names_spec. exact Hn. }
  rewrite subset_spec in E2.
  destruct (subset (dkeys (n_kargs g)) _) eqn:E3; simpl.
  2:{ split; [reflexivity|]. intros (_ & _ & H).
      assert (subset (dkeys (n_kargs g))
         (flat_map (fun k => k_args k ++ k_source_args k) (n_sources g ++ [n_target g])) = true); [|congruence].
      apply subset_spec. intros n Hn. apply names_spec. apply H. exact Hn. }
  rewrite subset_spec in E3. split; [reflexivity|]. split; [exact E1|]. split; [exact Hs|].
  intros n. rewrite <- names_spec. split; auto.
Qed.

(** The dictionary before keyword arguments. *)
Lemma base_dict_spec (ka : kargs_like D) :
  (forall l, ka = KMap l -> NoDup (map fst l)) ->
  let d := match ka with KNone => [] | KTuple l => dict_of l | KMap l => l end in
  NoDup (dkeys d) /\ forall n, dget d n = last_value (given ka) n.
Proof.
  intros H. destruct ka as [|l|l]; simpl.
  - split; [constructor|reflexivity].
  - destruct (@dict_of_spec l [] (NoDup_nil _)) as [H1 H2]. split; [exact H1|]. intros n.
    unfold dict_of. rewrite H2. destruct (last_value l n); reflexivity.
  - split; [exact (H l eq_refl)|]. intros n. symmetry. apply last_value_nodup. exact (H l eq_refl).
Qed.

Lemma init_spec tk sks dens lim (src tgt : option W) (ka : kargs_like D) kw :
  (forall l, ka = KMap l -> NoDup (map fst l)) -> NoDup (map fst kw) ->
  let ok := valid_limit lim /\ one_base_kernel tk sks /\
     (forall n, In n (map fst kw) -> ~ In n (map fst (given ka))) /\
     (forall n, required tk sks n <-> In n (map fst (given ka)) \/ In n (map fst kw)) in
  match intg_init default_dd tk sks dens lim src tgt ka kw with
  | Ok g => ok /\
      n_target g = tk /\ n_sources g = sks /\ n_dens g = dens /\ n_lim g = lim /\
      n_src g = match src with Some s => s | None => default_dd end /\
      n_tgt g = match tgt with Some t => t | None => default_dd end /\
      NoDup (map fst (n_kargs g)) /\
      forall n v, In (n, v) (n_kargs g) <-> last_value (given ka ++ kw) n = Some v
  | Err e => e = ValueError /\ ~ ok
  end.
Proof.
  intros Hka Hkw ok. unfold intg_init.
  destruct (base_dict_spec Hka) as [Hd Hg].
  set (d := match ka with KNone => [] | KTuple l => dict_of l | KMap l => l end) in *.
  pose proof (@merge_spec kw d Hd Hkw) as Hm.
  assert (Hmk : match kw with [] => Ok d | _ :: _ => merge_kwargs d kw end = merge_kwargs d kw)
    by (destruct kw; reflexivity).
  rewrite Hmk. clear Hmk.
  assert (Hkeys : forall n, In n (dkeys d) <-> In n (map fst (given ka))).
  { intros n. rewrite dget_keys, Hg. symmetry. apply last_value_keys. }
  destruct (merge_kwargs d kw) as [d'|er]; cbn [bind].
  2:{ destruct Hm as (-> & n & Hn & Hin). split; [reflexivity|]. intros (_ & _ & H & _).
      apply (H n Hn). apply Hkeys. exact Hin. }
  destruct Hm as (Hcl & Hd' & Hv).
  pose proof (post_init_spec (Node tk sks dens lim (match src with None => default_dd | Some s => s end)
     (match tgt with None => default_dd | Some t => t end) d')) as Hp.
  assert (Hkd : forall n, In n (dkeys d') <-> In n (map fst (given ka)) \/ In n (map fst kw)).
  { intros n. rewrite dget_keys, Hv, Hg, !last_value_keys. destruct (last_value (given ka) n); simpl.
    - split; [intros; left; discriminate|discriminate].
    - split; [auto|]. intros [H|H]; [contradiction|exact H]. }
  destruct (post_init _) as [g|er].
  - destruct Hp as (-> & H1 & H2 & H3). simpl in *. split.
    { split; [exact H1|]. split; [exact H2|]. split.
      - intros n Hn Hin. apply (Hcl n Hn). apply Hkeys. exact Hin.
      - intros n. rewrite <- H3. apply Hkd. }
    repeat (split; [reflexivity|]). split; [exact Hd'|].
    intros n v.
    assert (Hin : In (n, v) d' <-> dget d' n = Some v).
    { clear -Hd'. induction d' as [|[m w] d' IH]; simpl; [split; [tauto|discriminate]|].
      simpl in Hd'. inversion Hd' as [|? ? Hm Hd]; subst.
      destruct (String.eqb_spec m n) as [->|Hmn].
      - split; [|intros E; injection E as ->; auto]. intros [E|Hin]; [congruence|].
        exfalso. apply Hm. apply (in_map fst) in Hin. exact Hin.
      - rewrite <- (IH Hd). split; [intros [E|H]; [congruence|exact H]|auto]. }
    rewrite Hin, Hv, Hg.
    assert (Happ : forall a b m, last_value (a ++ b) m =
       match @last_value D b m with Some w => Some w | None => last_value a m end).
    { clear. induction a as [|[k w] a IH]; intros b m; simpl; [destruct (last_value b m); reflexivity|].
      rewrite IH. destruct (last_value b m); reflexivity. }
    rewrite Happ. destruct (last_value kw n) as [w|] eqn:E.
    + assert (last_value (given ka) n = None) as ->; [|reflexivity].
      destruct (last_value (given ka) n) eqn:E2; [|reflexivity]. exfalso.
      apply (Hcl n); [apply last_value_keys; congruence|]. apply Hkeys. apply last_value_keys. congruence.
    + destruct (last_value (given ka) n); reflexivity.
  - destruct Hp as [-> Hp]. simpl in Hp. split; [reflexivity|]. intros (H1 & H2 & H3 & H4). apply Hp.
    split; [exact H1|]. split; [exact H2|]. intros n. rewrite H4. apply Hkd.
Qed.
End P.
