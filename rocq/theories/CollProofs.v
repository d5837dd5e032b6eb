From Verif Require Import Base DofModel DofProps RefineModel RefineSpec RefineProofs CollModel CollSpec.
Set Implicit Arguments.
Open Scope nat_scope.

(** * Dictionaries *)
Lemma gid_eqb_eq a b : gid_eqb a b = true <-> a = b.
Proof. exact (opt_eqb_eq _ geom_eqb_eq a b). Qed.
Lemma cname_eqb_eq a b : cname_eqb a b = true <-> a = b.
Proof. destruct a, b; cbn; try rewrite Nat.eqb_eq; split; congruence. Qed.
Lemma ckey_eqb_eq a b : ckey_eqb a b = true <-> a = b.
Proof.
  destruct a, b; cbn; rewrite ?andb_true_iff, ?gid_eqb_eq, ?stage_eqb_eq, ?(opt_eqb_eq _ stage_eqb_eq), ?Nat.eqb_eq;
    split; intros H; try discriminate H; try (intuition congruence).
Qed.

Section DictFacts.
Variables K V : Type.
Variable eqb : K -> K -> bool.
Hypothesis eqb_eq : forall a b, eqb a b = true <-> a = b.

Lemma eqb_same a : eqb a a = true. Proof. apply eqb_eq. reflexivity. Qed.
Lemma eqb_diff a b : a <> b -> eqb a b = false.
Proof. intros H. destruct (eqb a b) eqn:E; [|reflexivity]. apply eqb_eq in E. contradiction. Qed.

Lemma dget_dset (d : list (K * V)) k v k' :
  dget eqb (dset eqb d k v) k' = if eqb k' k then Some v else dget eqb d k'.
Proof.
  induction d as [|[a b] d IH]; cbn [dset dget].
  - destruct (eqb k' k); reflexivity.
  - destruct (eqb k a) eqn:E; cbn [dget].
    + apply eqb_eq in E. subst a. destruct (eqb k' k); reflexivity.
    + rewrite IH. destruct (eqb k' a) eqn:E'; [|reflexivity].
      apply eqb_eq in E'. subst a. rewrite eqb_diff; [reflexivity|]. intros ->. rewrite eqb_same in E. discriminate.
Qed.
Lemma dget_In (d : list (K * V)) k v : dget eqb d k = Some v -> In (k, v) d.
Proof.
  induction d as [|[a b] d IH]; cbn [dget]; [discriminate|].
  destruct (eqb k a) eqn:E.
  - intros H. apply eqb_eq in E. left. congruence.
  - right. auto.
Qed.
Lemma In_dget (d : list (K * V)) k v : NoDup (map fst d) -> In (k, v) d -> dget eqb d k = Some v.
Proof.
  induction d as [|[a b] d IH]; cbn [map fst dget]; [intros _ []|].
  inversion 1 as [|? ? N ND]; subst. intros [H'|H'].
  - assert (a = k) by congruence. assert (b = v) by congruence. subst. rewrite eqb_same. reflexivity.
  - rewrite eqb_diff; [auto|]. intros ->. apply N. apply (in_map fst) in H'. exact H'.
Qed.
Lemma dget_None (d : list (K * V)) k : dget eqb d k = None <-> ~ In k (map fst d).
Proof.
  induction d as [|[a b] d IH]; cbn [map fst dget]; [split; [intros _ []|reflexivity]|].
  destruct (eqb k a) eqn:E.
  - apply eqb_eq in E. subst. split; [discriminate|]. intros H. exfalso. apply H. left. reflexivity.
  - rewrite IH. split.
    + intros H [H'|H']; [subst; rewrite eqb_same in E; discriminate|exact (H H')].
    + intros H H'. apply H. right. exact H'.
Qed.
Lemma dset_keys (d : list (K * V)) k v x : In x (map fst (dset eqb d k v)) <-> In x (map fst d) \/ x = k.
Proof.
  induction d as [|[a b] d IH]; cbn [dset map fst In].
  - intuition congruence.
  - destruct (eqb k a) eqn:E; cbn [map fst In].
    + apply eqb_eq in E. subst. intuition congruence.
    + rewrite IH. tauto.
Qed.
Lemma dset_NoDup (d : list (K * V)) k v : NoDup (map fst d) -> NoDup (map fst (dset eqb d k v)).
Proof.
  induction d as [|[a b] d IH]; cbn [dset map fst]; intros H.
  - constructor; [intros []|constructor].
  - inversion H as [|? ? N ND]; subst. destruct (eqb k a) eqn:E; cbn [map fst]; [exact H|].
    constructor; [|auto]. rewrite dset_keys. intros [H'|H']; [exact (N H')|].
    subst. rewrite eqb_same in E. discriminate.
Qed.
Lemma dupdate_NoDup (d d' : list (K * V)) : NoDup (map fst d) -> NoDup (map fst (dupdate eqb d d')).
Proof.
  unfold dupdate. revert d. induction d' as [|[a b] d' IH]; intros d H; cbn [fold_left]; [exact H|].
  apply IH. apply dset_NoDup. exact H.
Qed.
Lemma dget_dupdate (d d' : list (K * V)) k : NoDup (map fst d') ->
  dget eqb (dupdate eqb d d') k = match dget eqb d' k with Some v => Some v | None => dget eqb d k end.
Proof.
  unfold dupdate. revert d. induction d' as [|[a b] d' IH]; intros d H; cbn [fold_left dget fst snd]; [reflexivity|].
  cbn [map fst] in H. inversion H as [|? ? N ND]; subst.
  rewrite IH by exact ND. rewrite dget_dset. destruct (eqb k a) eqn:E.
  - apply eqb_eq in E. subst. apply dget_None in N. rewrite N. reflexivity.
  - reflexivity.
Qed.
End DictFacts.

Lemma lset_length A (l : list A) i a : length (lset l i a) = length l.
Proof. revert i. induction l as [|x l IH]; intros [|i]; cbn; auto. Qed.
Lemma lset_nth_error A (l : list A) i a j :
  nth_error (lset l i a) j = if (i =? j) && (i <? length l) then Some a else nth_error l j.
Proof.
  revert i j. induction l as [|x l IH]; intros [|i] [|j]; cbn [lset nth_error length Nat.eqb andb]; auto.
  - destruct (i =? j); reflexivity.
  - rewrite IH. reflexivity.
Qed.
Lemma lset_nth A (l : list A) i a j d : i < length l -> nth j (lset l i a) d = if i =? j then a else nth j l d.
Proof.
  revert i j. induction l as [|x l IH]; intros [|i] [|j] H; cbn [lset nth length Nat.eqb] in *; auto; try lia.
  apply IH. lia.
Qed.

(** * Well-formed heaps *)
Definition ref_of (h : heap) (cid : nat) (n : cname) : option nat :=
  match nth_error (h_colls h) cid with
  | Some c => dget cname_eqb (c_caches c) n
  | None => None
  end.
Lemma contents_ref h cid n :
  contents h cid n = match ref_of h cid n with Some r => nth r (h_dicts h) [] | None => [] end.
Proof. unfold contents, ref_of. destruct (nth_error (h_colls h) cid); reflexivity. Qed.

Record heap_ok (h : heap) : Prop := {
  ok_bound : forall cid n r, ref_of h cid n = Some r -> r < length (h_dicts h);
  ok_inj : forall cid n cid' n' r, ref_of h cid n = Some r -> ref_of h cid' n' = Some r -> cid = cid' /\ n = n';
  ok_keys : forall cid c, has_coll h cid c -> keys_unique (c_places c);
  ok_dicts : forall r, NoDup (map fst (nth r (h_dicts h) [])) }.

(** Collections keep their places. *)
Definition same_objects (h h' : heap) : Prop :=
  length (h_colls h') = length (h_colls h)
  /\ forall cid c, has_coll h cid c -> exists c', has_coll h' cid c'
      /\ c_places c' = c_places c /\ c_auto c' = c_auto c /\ c_dim c' = c_dim c.
(** Same observations. *)
Record equiv (h h' : heap) : Prop := {
  eq_ok : heap_ok h';
  eq_objs : same_objects h h';
  eq_cont : forall cid n, contents h' cid n = contents h cid n;
  eq_clk : h_clk h' = h_clk h;
  eq_log : h_log h' = h_log h }.

Lemma same_objects_refl h : same_objects h h.
Proof. split; [reflexivity|]. intros cid c H. exists c. auto. Qed.
Lemma same_objects_trans a b c : same_objects a b -> same_objects b c -> same_objects a c.
Proof.
  intros [L A] [L' B]. split; [congruence|]. intros cid x H. destruct (A cid x H) as (y & Hy & P1 & P2 & P3).
  destruct (B cid y Hy) as (z & Hz & Q1 & Q2 & Q3). exists z. repeat split; congruence.
Qed.
Lemma equiv_refl h : heap_ok h -> equiv h h.
Proof. intros H. constructor; auto using same_objects_refl. Qed.
Lemma equiv_trans a b c : equiv a b -> equiv b c -> equiv a c.
Proof.
  intros [A1 A2 A3 A4 A5] [B1 B2 B3 B4 B5]. constructor; [exact B1|eapply same_objects_trans; eauto| |congruence|congruence].
  intros cid n. rewrite B3. apply A3.
Qed.

Lemma valid_has h cid : valid h cid <-> exists c, has_coll h cid c.
Proof.
  unfold valid, has_coll. split.
  - intros H. destruct (nth_error (h_colls h) cid) as [c|] eqn:E; [eauto|]. apply nth_error_None in E. lia.
  - intros [c H]. apply nth_error_Some. congruence.
Qed.

(** * Cache primitives *)
Lemma get_cache_spec h cid n : heap_ok h -> valid h cid ->
  exists h' r, get_cache cid n h = (h', Ok r) /\ equiv h h' /\ ref_of h' cid n = Some r.
Proof.
  intros HO HV. apply valid_has in HV. destruct HV as [c Hc].
  unfold get_cache, mbind, get_coll. unfold has_coll in Hc. rewrite Hc.
  destruct (dget cname_eqb (c_caches c) n) as [r|] eqn:D.
  - exists h, r. split; [reflexivity|]. split; [apply equiv_refl; exact HO|].
    unfold ref_of. rewrite Hc. exact D.
  - set (c' := Coll (c_places c) (c_auto c) (c_dim c) (dset cname_eqb (c_caches c) n (length (h_dicts h)))).
    set (h' := Heap (lset (h_colls h) cid c') (h_dicts h ++ [[]]) (h_clk h) (h_log h)).
    exists h', (length (h_dicts h)). split; [reflexivity|].
    assert (Hlen : cid <? length (h_colls h) = true).
    { apply Nat.ltb_lt. apply nth_error_Some. congruence. }
    assert (N : forall x, nth_error (h_colls h') x = if cid =? x then Some c' else nth_error (h_colls h) x).
    { intros x. unfold h'. cbn [h_colls]. rewrite lset_nth_error, Hlen. rewrite andb_true_r. reflexivity. }
    assert (R : forall x m, ref_of h' x m = if (cid =? x) && cname_eqb m n then Some (length (h_dicts h)) else ref_of h x m).
    { intros x m. unfold ref_of. rewrite N. destruct (Nat.eqb_spec cid x) as [->|Hx]; [|reflexivity].
      cbn [andb]. unfold c'. cbn [c_caches]. rewrite Hc.
      rewrite (dget_dset _ cname_eqb_eq). reflexivity. }
    assert (NB : ref_of h cid n = None) by (unfold ref_of; rewrite Hc; exact D).
    split; [|rewrite R, Nat.eqb_refl, (proj2 (cname_eqb_eq n n) eq_refl); reflexivity].
    constructor; try reflexivity.
    + constructor.
      * intros x m r. rewrite R. unfold h'. cbn [h_dicts]. rewrite app_length. cbn [length].
        destruct ((cid =? x) && cname_eqb m n); [intros E; assert (length (h_dicts h) = r) by congruence; lia|].
        intros E. apply (ok_bound HO) in E. lia.
      * intros x m x' m' r. rewrite !R.
        destruct ((cid =? x) && cname_eqb m n) eqn:E1, ((cid =? x') && cname_eqb m' n) eqn:E2.
        -- apply andb_prop in E1, E2. destruct E1 as [A B], E2 as [A' B'].
           apply Nat.eqb_eq in A, A'. apply cname_eqb_eq in B, B'. intros _ _. split; congruence.
        -- intros X Y. assert (Z : length (h_dicts h) = r) by congruence. apply (ok_bound HO) in Y. lia.
        -- intros Y X. assert (Z : length (h_dicts h) = r) by congruence. apply (ok_bound HO) in Y. lia.
        -- apply (ok_inj HO).
      * intros x y. unfold has_coll. rewrite N. destruct (cid =? x).
        -- intros Y. assert (y = c') by congruence. subst y. unfold c'. cbn [c_places].
           apply (ok_keys HO Hc).
        -- apply (ok_keys HO).
      * intros r. unfold h'. cbn [h_dicts].
        destruct (Nat.lt_ge_cases r (length (h_dicts h))) as [L|L].
        -- rewrite app_nth1 by exact L. apply (ok_dicts HO).
        -- rewrite app_nth2 by exact L. destruct (r - length (h_dicts h)) as [|[|k]]; cbn; constructor.
    + split; [unfold h'; cbn [h_colls]; apply lset_length|].
      intros x y. unfold has_coll. rewrite N. intros Y. destruct (Nat.eqb_spec cid x) as [->|Hx].
      * exists c'. assert (y = c) by congruence. subst y. unfold c'. cbn. auto.
      * exists y. auto.
    + intros x m. rewrite !contents_ref, R.
      destruct ((cid =? x) && cname_eqb m n) eqn:E1.
      * apply andb_prop in E1. destruct E1 as [A B]. apply Nat.eqb_eq in A. apply cname_eqb_eq in B. subst.
        rewrite NB. unfold h'. cbn [h_dicts]. rewrite app_nth2, Nat.sub_diag by lia. reflexivity.
      * destruct (ref_of h x m) as [r|] eqn:E2; [|reflexivity].
        apply (ok_bound HO) in E2. unfold h'. cbn [h_dicts]. apply app_nth1. exact E2.
Qed.

Lemma cache_lookup_spec h cid n k : heap_ok h -> valid h cid ->
  exists h', equiv h h' /\
    cache_lookup cid n k h = (h', match dget ckey_eqb (contents h cid n) k with Some v => Ok v | None => Err KeyError end).
Proof.
  intros HO HV. destruct (get_cache_spec n HO HV) as (h' & r & E & Q & R).
  exists h'. split; [exact Q|]. unfold cache_lookup, mbind. rewrite E. unfold read.
  rewrite <- (eq_cont Q cid n), contents_ref, R.
  destruct (dget ckey_eqb (nth r (h_dicts h') []) k); reflexivity.
Qed.

(** Adding entries: the observable change of one cache. *)
Record adds (h h' : heap) (cid : nat) (n : cname) (k : ckey) (v : cval) : Prop := {
  ad_ok : heap_ok h';
  ad_objs : same_objects h h';
  ad_here : contents h' cid n = dset ckey_eqb (contents h cid n) k v;
  ad_else : forall cid' n', (cid', n') <> (cid, n) -> contents h' cid' n' = contents h cid' n';
  ad_clk : h_clk h' = h_clk h;
  ad_log : h_log h' = h_log h }.

Lemma write_spec h cid n r d : heap_ok h -> ref_of h cid n = Some r -> NoDup (map fst d) ->
  exists h', write r d h = (h', Ok tt) /\ heap_ok h' /\ same_objects h h' /\ contents h' cid n = d
    /\ (forall cid' n', (cid', n') <> (cid, n) -> contents h' cid' n' = contents h cid' n')
    /\ h_clk h' = h_clk h /\ h_log h' = h_log h /\ (forall x m, ref_of h' x m = ref_of h x m)
    /\ (forall x, r <> x -> nth x (h_dicts h') [] = nth x (h_dicts h) []).
Proof.
  intros HO HR ND. eexists. split; [reflexivity|].
  assert (B := ok_bound HO _ _ HR).
  split; [|split; [split; [reflexivity|intros x y Hy; exists y; auto]|split; [|split; [|split; [reflexivity|split; [reflexivity|split; [reflexivity|]]]]]]].
  - constructor.
    + intros x m q. change (ref_of h x m = Some q -> q < length (lset (h_dicts h) r d)).
      rewrite lset_length. apply (ok_bound HO).
    + intros x m x' m' q. exact (@ok_inj h HO x m x' m' q).
    + exact (ok_keys HO).
    + intros q. cbn [h_dicts]. rewrite lset_nth by exact B. destruct (r =? q); [exact ND|apply (ok_dicts HO)].
  - rewrite contents_ref. change (ref_of (Heap (h_colls h) (lset (h_dicts h) r d) (h_clk h) (h_log h)) cid n) with (ref_of h cid n).
    rewrite HR. cbn [h_dicts]. rewrite lset_nth, Nat.eqb_refl by exact B. reflexivity.
  - intros x m Hne. rewrite !contents_ref.
    change (ref_of (Heap (h_colls h) (lset (h_dicts h) r d) (h_clk h) (h_log h)) x m) with (ref_of h x m).
    destruct (ref_of h x m) as [q|] eqn:E; [|reflexivity]. cbn [h_dicts]. rewrite lset_nth by exact B.
    destruct (Nat.eqb_spec r q) as [->|]; [|reflexivity].
    exfalso. apply Hne. destruct (ok_inj HO _ _ _ _ E HR). congruence.
  - intros x Hx. cbn [h_dicts]. rewrite lset_nth by exact B. destruct (Nat.eqb_spec r x); [contradiction|reflexivity].
Qed.

Lemma contents_NoDup h cid n : heap_ok h -> NoDup (map fst (contents h cid n)).
Proof. intros HO. rewrite contents_ref. destruct (ref_of h cid n); [apply (ok_dicts HO)|constructor]. Qed.

Lemma cache_add_spec h cid n k v : heap_ok h -> valid h cid ->
  match dget ckey_eqb (contents h cid n) k with
  | Some _ => exists h', equiv h h' /\ cache_add cid n k v h = (h', Err RuntimeError)
  | None => exists h', adds h h' cid n k v /\ cache_add cid n k v h = (h', Ok tt)
  end.
Proof.
  intros HO HV. destruct (get_cache_spec n HO HV) as (h1 & r & E & Q & R).
  assert (C : nth r (h_dicts h1) [] = contents h cid n) by (rewrite <- (eq_cont Q cid n), contents_ref, R; reflexivity).
  destruct (dget ckey_eqb (contents h cid n) k) as [w|] eqn:D.
  - exists h1. split; [exact Q|]. unfold cache_add, mbind. rewrite E. unfold read. rewrite C, D. reflexivity.
  - assert (ND : NoDup (map fst (dset ckey_eqb (contents h cid n) k v))).
    { apply (dset_NoDup _ ckey_eqb_eq). apply contents_NoDup. exact HO. }
    destruct (@write_spec h1 cid n r (dset ckey_eqb (contents h cid n) k v) (eq_ok Q) R ND) as (h2 & W & O2 & S2 & C2 & X2 & K2 & L2 & _).
    exists h2. split.
    + constructor; auto.
      * eapply same_objects_trans; [apply (eq_objs Q)|exact S2].
      * intros x m Hne. rewrite (X2 x m Hne). apply (eq_cont Q).
      * rewrite K2. apply (eq_clk Q).
      * rewrite L2. apply (eq_log Q).
    + unfold cache_add, mbind. rewrite E. unfold read. rewrite C, D. exact W.
Qed.

Lemma get_geometry_spec h cid g : valid h cid ->
  exists c, has_coll h cid c /\ get_geometry cid g h = (h, match dget gid_eqb (c_places c) g with Some p => Ok p | None => Err KeyError end).
Proof.
  intros HV. apply valid_has in HV. destruct HV as [c Hc]. exists c. split; [exact Hc|].
  unfold get_geometry, mbind, get_coll. unfold has_coll in Hc. rewrite Hc.
  destruct (dget gid_eqb (c_places c) g); reflexivity.
Qed.
