From Verif Require Import Base IndexModel IndexSpec IndexProofs IndexProofs3 PgModel PgSpec.
Set Implicit Arguments.
Open Scope Z_scope.

Lemma entry_get (A : Type) (l : list A) i v : entry l i v -> pyget l i = Ok v.
Proof.
  intros [H0 H]. unfold pyget. destruct (Z.ltb_spec i 0); [lia|].
  destruct (Z.ltb_spec i 0); [lia|]. rewrite H. reflexivity.
Qed.
Lemma entry_lt (A : Type) (l : list A) i v : entry l i v -> 0 <= i < zlen l.
Proof.
  intros [H0 H]. assert (Z.to_nat i < length l)%nat by (apply nth_error_Some; congruence).
  unfold zlen. lia.
Qed.
Lemma entry_ex (A : Type) (l : list A) i : 0 <= i < zlen l -> exists v, entry l i v.
Proof.
  intros H. destruct (nth_error l (Z.to_nat i)) as [v|] eqn:E.
  - exists v. split; [lia|exact E].
  - apply nth_error_None in E. unfold zlen in H. lia.
Qed.
Lemma entry_inj (A : Type) (l : list A) i v w : entry l i v -> entry l i w -> v = w.
Proof. intros [_ H] [_ H']. congruence. Qed.
Lemma entry_In (A : Type) (l : list A) i v : entry l i v -> In v l.
Proof. intros [_ H]. eapply nth_error_In; eauto. Qed.
Lemma In_entry (A : Type) (l : list A) v : In v l -> exists i, entry l i v.
Proof.
  intros H. apply In_nth_error in H. destruct H as [n H]. exists (Z.of_nat n).
  split; [lia|]. rewrite Nat2Z.id. exact H.
Qed.
Lemma entry_nth (A : Type) (l : list A) i v d : entry l i v -> nth (Z.to_nat i) l d = v.
Proof. intros [_ H]. apply nth_error_nth. exact H. Qed.
Lemma nth_entry (A : Type) (l : list A) i d : 0 <= i < zlen l -> entry l i (nth (Z.to_nat i) l d).
Proof. intros H. destruct (entry_ex l H) as [v Hv]. rewrite (entry_nth d Hv). exact Hv. Qed.

Lemma zrange_In n x : In x (zrange n) <-> 0 <= x < n.
Proof.
  unfold zrange. rewrite in_map_iff. split.
  - intros (k & <- & Hk). apply in_seq in Hk. lia.
  - intros H. exists (Z.to_nat x). split; [lia|]. apply in_seq. lia.
Qed.
Lemma NoDup_map_inj (A B : Type) (f : A -> B) l :
  (forall x y, In x l -> In y l -> f x = f y -> x = y) -> NoDup l -> NoDup (map f l).
Proof.
  intros Hf H. induction H as [|x l Hx H IH]; simpl; [constructor|]. constructor.
  - intros Hin. apply in_map_iff in Hin. destruct Hin as (y & E & Hy).
    apply Hf in E; [subst; contradiction|right; exact Hy|left; reflexivity].
  - apply IH. intros a b Ha Hb. apply Hf; right; assumption.
Qed.
Lemma zrange_NoDup n : NoDup (zrange n).
Proof. unfold zrange. apply NoDup_map_inj; [intros; lia|apply seq_NoDup]. Qed.
Lemma zrange_len n : 0 <= n -> zlen (zrange n) = n.
Proof. intros H. unfold zlen, zrange. rewrite map_length, seq_length. lia. Qed.
Lemma zrange_entry n i : 0 <= i < n -> entry (zrange n) i i.
Proof.
  intros H. split; [lia|]. unfold zrange. rewrite (map_nth_error Z.of_nat (Z.to_nat i) (seq 0 (Z.to_nat n)) (d := Z.to_nat i)).
  - f_equal. lia.
  - rewrite (nth_error_nth' _ 0%nat) by (rewrite seq_length; lia). rewrite seq_nth by lia. reflexivity.
Qed.

(** arange *)
Lemma arange1 a n : 0 <= n -> arange a (a + n) 1 = Ok (map (fun k => a + k * 1) (zrange n)).
Proof.
  intros H. unfold arange. change (1 =? 0) with false. cbv iota. do 3 f_equal.
  rewrite Z.div_1_r. change (Z.sgn 1) with 1. lia.
Qed.
Lemma arange01 n : 0 <= n -> arange 0 n 1 = Ok (zrange n).
Proof.
  intros H. rewrite <- (Z.add_0_l n) at 1. rewrite arange1 by exact H. f_equal.
  rewrite <- (map_id (zrange n)) at 2. apply map_ext. intros; lia.
Qed.
Definition rng (s c : Z) : list Z := map (fun k => s + k * 1) (zrange c).
Lemma rng_In s c k : In k (rng s c) <-> s <= k < s + c.
Proof.
  unfold rng. rewrite in_map_iff. split.
  - intros (j & <- & Hj). apply zrange_In in Hj. lia.
  - intros H. exists (k - s). split; [lia|]. apply zrange_In. lia.
Qed.
Lemma rng_NoDup s c : NoDup (rng s c).
Proof. unfold rng. apply NoDup_map_inj; [intros; lia|apply zrange_NoDup]. Qed.

Lemma NoDup_app_intro (A : Type) (l1 l2 : list A) :
  NoDup l1 -> NoDup l2 -> (forall x, In x l1 -> ~ In x l2) -> NoDup (l1 ++ l2).
Proof.
  intros H1 H2 Hd. induction H1 as [|x l Hx H1 IH]; simpl; [exact H2|]. constructor.
  - rewrite in_app_iff. intros [H|H]; [contradiction|]. apply (Hd x); [left; reflexivity|exact H].
  - apply IH. intros y Hy. apply Hd. right. exact Hy.
Qed.
Lemma NoDup_flat (A B : Type) (f : A -> list B) l : NoDup l -> (forall x, In x l -> NoDup (f x)) ->
  (forall x y k, In x l -> In y l -> In k (f x) -> In k (f y) -> x = y) -> NoDup (concat (map f l)).
Proof.
  intros H. induction H as [|x l Hx H IH]; simpl; intros Hn Hd; [constructor|].
  apply NoDup_app_intro.
  - apply Hn. left. reflexivity.
  - apply IH; [intros; apply Hn; right; assumption|]. intros a b k Ha Hb. apply Hd; right; assumption.
  - intros k Hk Hin. apply in_concat in Hin. destruct Hin as (r & Hr & Hk').
    apply in_map_iff in Hr. destruct Hr as (y & <- & Hy).
    assert (x = y) by (eapply Hd; [left; reflexivity|right; exact Hy|exact Hk|exact Hk']).
    subst. contradiction.
Qed.

Lemma combine_maps (A B C : Type) (f : A -> B) (g : A -> C) l :
  combine (map f l) (map g l) = map (fun x => (f x, g x)) l.
Proof. induction l as [|x l IH]; simpl; [reflexivity|]. rewrite IH. reflexivity. Qed.
Lemma filter_map' (A B : Type) (f : A -> B) (m : B -> bool) l :
  filter m (map f l) = map f (filter (fun x => m (f x)) l).
Proof. induction l as [|x l IH]; simpl; [reflexivity|]. destruct (m (f x)); simpl; rewrite IH; reflexivity. Qed.

(** *** One cluster *)
Section One.
Variables (P D : Type) (dist : P -> P -> D) (within : D -> D -> bool) (le : D -> D -> Prop).
Hypothesis Hle : forall d r, le d r -> within d r = true.
Variables (tgt : indexlist) (pts : list P) (t : ptree P) (centers : list P) (radii : list D) (q : aquery).
Hypothesis Ht : tree_of pts t.
Hypothesis Hn : zlen pts = zlen (indices tgt).
Hypothesis Hq : covers dist le t centers radii q.
Variables (i lo hi : Z) (c : P) (r : D).
Hypothesis Hc : entry centers i c.
Hypothesis Hr : entry radii i r.
Hypothesis Hlo : entry (starts tgt) i lo.
Hypothesis Hhi : entry (starts tgt) (i + 1) hi.

Let uid k := nth (Z.to_nat k) (user_source_ids t) 0.
Let src k := nth (Z.to_nat k) (tree_sources t) c.
Let bs b := nth (Z.to_nat b) (box_source_starts t) 0.
Let bc b := nth (Z.to_nat b) (box_source_counts_cumul t) 0.

Lemma uid_len : zlen (user_source_ids t) = zlen pts.
Proof.
  unfold zlen. rewrite (Permutation_length (to_perm Ht)). unfold zrange.
  rewrite map_length, seq_length. unfold zlen. lia.
Qed.
Lemma uid_entry k : 0 <= k < zlen pts -> entry (user_source_ids t) k (uid k) /\ 0 <= uid k < zlen pts
  /\ entry (tree_sources t) k (src k) /\ entry pts (uid k) (src k).
Proof.
  intros H. assert (E : entry (user_source_ids t) k (uid k)) by (apply nth_entry; rewrite uid_len; exact H).
  split; [exact E|]. destruct (to_pts Ht E) as (p & E1 & E2).
  assert (src k = p) by (apply entry_nth; exact E1). subst p. 
  split; [apply (entry_lt E2)|]. split; assumption.
Qed.
Lemma uid_inj k k' : 0 <= k < zlen pts -> 0 <= k' < zlen pts -> uid k = uid k' -> k = k'.
Proof.
  intros H H' E. assert (ND : NoDup (user_source_ids t)).
  { eapply Permutation_NoDup; [symmetry; apply (to_perm Ht)|apply zrange_NoDup]. }
  rewrite NoDup_nth in ND. specialize (ND (Z.to_nat k) (Z.to_nat k')).
  pose proof uid_len as L. unfold zlen in L, H, H'.
  assert (Z.to_nat k = Z.to_nat k') by (apply ND; [lia|lia|exact E]). lia.
Qed.
Lemma uid_onto u : 0 <= u < zlen pts -> exists k, 0 <= k < zlen pts /\ uid k = u.
Proof.
  intros H. assert (Hin : In u (user_source_ids t)).
  { eapply Permutation_in; [symmetry; apply (to_perm Ht)|]. apply zrange_In. exact H. }
  apply In_entry in Hin. destruct Hin as (k & Hk). exists k. split.
  - rewrite <- uid_len. apply (entry_lt Hk).
  - apply entry_nth. exact Hk.
Qed.

Lemma leaf_box b : is_leaf t b -> entry (box_source_starts t) b (bs b) /\
  entry (box_source_counts_cumul t) b (bc b) /\ 0 <= bs b /\ 0 <= bc b /\ bs b + bc b <= zlen pts.
Proof.
  intros H. destruct (to_box Ht H) as (s & n & E1 & E2 & ?). unfold bs, bc.
  rewrite (entry_nth 0 E1), (entry_nth 0 E2). auto.
Qed.
Lemma in_box_rng b k : is_leaf t b -> (In k (rng (bs b) (bc b)) <-> in_box t b k).
Proof.
  intros H. destruct (leaf_box H) as (E1 & E2 & _). rewrite rng_In. split.
  - intros Hk. exists (bs b), (bc b). auto.
  - intros (s & n & F1 & F2 & Hk). rewrite (entry_inj E1 F1), (entry_inj E2 F2). exact Hk.
Qed.

Lemma gather_cluster_ok : exists ps,
  gather_cluster dist within tgt centers radii t q i = Ok (map (fun p => nth (Z.to_nat p) (indices tgt) 0) ps) /\
  NoDup ps /\
  (forall p, In p ps -> 0 <= p < zlen pts /\ ~ (lo <= p < hi) /\
     exists x, entry pts p x /\ within (dist x c) r = true) /\
  (forall p x, entry pts p x -> ~ (lo <= p < hi) -> le (dist x c) r -> In p ps).
Proof.
  destruct Hq as [_ HQ]. destruct (HQ i c r Hc Hr) as (l & (a & b & Ea & Eb & Hab & Hb & El) & ND & Hleaf & Hcov).
  unfold gather_cluster. rewrite (entry_get Ea), (entry_get Eb). cbn [bind].
  rewrite pyslice_mid by lia. rewrite <- El.
  set (isrc := concat (map (fun b => rng (bs b) (bc b)) l)).
  set (inb' := fun k => within (dist (src k) c) r && ((uid k <? lo) || (hi <=? uid k))).
  assert (Hin : forall k, In k isrc <-> exists b, In b l /\ in_box t b k).
  { intros k. unfold isrc. rewrite in_concat. split.
    - intros (x & Hx & Hk). apply in_map_iff in Hx. destruct Hx as (b0 & <- & Hb0).
      exists b0. split; [exact Hb0|]. apply in_box_rng; auto.
    - intros (b0 & Hb0 & Hk). exists (rng (bs b0) (bc b0)). split; [apply in_map_iff; eauto|].
      apply in_box_rng; auto. }
  assert (Hrange : forall k, In k isrc -> 0 <= k < zlen pts).
  { intros k Hk. apply Hin in Hk. destruct Hk as (b0 & Hb0 & Hk). apply Hleaf in Hb0.
    apply in_box_rng in Hk; [|exact Hb0]. apply rng_In in Hk. destruct (leaf_box Hb0) as (_ & _ & ?). lia. }
  assert (NDs : NoDup isrc).
  { apply NoDup_flat; [exact ND|intros; apply rng_NoDup|]. intros x y k Hx Hy Kx Ky.
    apply in_box_rng in Kx; [|auto]. apply in_box_rng in Ky; [|auto]. eapply (to_disjoint Ht); eauto. }
  assert (Final : exists ps, ps = map uid (filter inb' isrc) /\
    NoDup ps /\
    (forall p, In p ps -> 0 <= p < zlen pts /\ ~ (lo <= p < hi) /\
       exists x, entry pts p x /\ within (dist x c) r = true) /\
    (forall p x, entry pts p x -> ~ (lo <= p < hi) -> le (dist x c) r -> In p ps)).
  { eexists. split; [reflexivity|]. split; [|split].
    - apply NoDup_map_inj; [|apply NoDup_filter'; exact NDs].
      intros x y Hx Hy. apply filter_In in Hx. apply filter_In in Hy.
      apply uid_inj; apply Hrange; tauto.
    - intros p Hp. apply in_map_iff in Hp. destruct Hp as (k & <- & Hk). apply filter_In in Hk.
      destruct Hk as [Hk Hm]. apply Hrange in Hk. destruct (uid_entry Hk) as (_ & Hu & _ & Hs).
      apply andb_true_iff in Hm. destruct Hm as [Hm1 Hm2]. split; [exact Hu|]. split.
      + apply orb_true_iff in Hm2. destruct Hm2 as [H|H]; [apply Z.ltb_lt in H|apply Z.leb_le in H]; lia.
      + exists (src k). auto.
    - intros p x Hx Hout Hd. destruct (uid_onto (entry_lt Hx)) as (k & Hk & <-).
      destruct (uid_entry Hk) as (_ & _ & Hs1 & Hs2). rewrite (entry_inj Hx Hs2) in Hd.
      apply in_map. apply filter_In. split.
      + apply Hin. destruct (to_cover Ht Hk) as (b0 & L0 & B0). exists b0. split; [|exact B0]. eapply Hcov; eauto.
      + apply andb_true_iff. split; [apply Hle; exact Hd|]. apply orb_true_iff.
        destruct (Z.ltb_spec (uid k) lo); [left; reflexivity|right; apply Z.leb_le; lia]. }
  destruct Final as (ps & Eps & F1 & F2 & F3). exists ps. split; [|auto].
  destruct (Z.leb_spec (b - a) 0).
  - assert (l = []) as E0.
    { rewrite El. replace (Z.to_nat (b - a)) with 0%nat by lia. reflexivity. }
    subst ps isrc. rewrite E0. reflexivity.
  - rewrite (@mapM_ok _ _ _ (fun b => rng (bs b) (bc b)) l).
    2:{ intros b0 Hb0. apply Hleaf in Hb0. destruct (leaf_box Hb0) as (E1 & E2 & ? & ? & ?).
        rewrite (entry_get E1), (entry_get E2). cbn [bind]. apply arange1. lia. }
    cbn [bind]. fold isrc.
    rewrite (@mapM_ok _ _ _ src isrc).
    2:{ intros k Hk. apply Hrange in Hk. apply entry_get. apply (uid_entry Hk). }
    cbn [bind]. rewrite (@mapM_ok _ _ _ uid isrc).
    2:{ intros k Hk. apply Hrange in Hk. apply entry_get. apply (uid_entry Hk). }
    cbn [bind]. rewrite (entry_get Hc), (entry_get Hr), (entry_get Hlo), (entry_get Hhi). cbn [bind].
    rewrite combine_maps, filter_map', map_map. cbn [fst snd].
    match goal with |- mapM _ ?l = _ => change l with (map uid (filter inb' isrc)) end. rewrite <- Eps.
    apply mapM_ok. intros p Hp. apply entry_get. apply nth_entry. rewrite <- Hn. apply F2. exact Hp.
Qed.
End One.

(** *** Partition by a tree *)
Lemma leaf_boxes_spec flags b : In b (leaf_boxes flags) <-> entry flags b false.
Proof.
  unfold leaf_boxes. rewrite filter_In, zrange_In, negb_true_iff. split.
  - intros [H E]. rewrite <- E. apply nth_entry. exact H.
  - intros H. split; [apply (entry_lt H)|]. apply entry_nth. exact H.
Qed.
Lemma leaf_boxes_NoDup flags : NoDup (leaf_boxes flags).
Proof. unfold leaf_boxes. apply NoDup_filter'. apply zrange_NoDup. Qed.

Lemma slice_rng (l : list Z) s c : 0 <= s -> 0 <= c -> s + c <= zlen l ->
  pyslice l s (s + c) = map (fun k => nth (Z.to_nat k) l 0) (rng s c).
Proof.
  intros Hs Hc H. rewrite pyslice_mid by lia. replace (s + c - s) with c by lia.
  unfold rng, zrange. rewrite !map_map. unfold zlen in H.
  assert (E : forall n m (l : list Z), (m + n <= length l)%nat ->
    firstn n (skipn m l) = map (fun k => nth (m + k) l 0) (seq 0 n)).
  { clear. induction n as [|n IH]; intros m l H; [reflexivity|].
    replace (skipn m l) with (nth m l 0 :: skipn (S m) l).
    - cbn [firstn seq map]. f_equal; [f_equal; lia|]. rewrite IH by lia. rewrite <- seq_shift, map_map.
      apply map_ext. intros k. f_equal. lia.
    - assert (Hm : (m < length l)%nat) by lia. clear - Hm. revert m Hm.
      induction l as [|x l IH]; intros m H; simpl in H; [lia|].
      destruct m; [reflexivity|]. simpl. rewrite <- IH by lia. reflexivity. }
  rewrite E by lia. apply map_ext. intros k. f_equal. lia.
Qed.

Lemma NoDup_Permutation_count (l l' : list Z) : NoDup l -> NoDup l' -> (forall x, In x l <-> In x l') -> Permutation l l'.
Proof. apply NoDup_Permutation. Qed.
Lemma map_nth_zrange (l : list Z) n : zlen l = n -> map (fun k => nth (Z.to_nat k) l 0) (zrange n) = l.
Proof.
  intros <-. unfold zrange, zlen. rewrite Nat2Z.id, map_map. transitivity (map (fun x : Z => x) l); [|apply map_id].
  apply map_seq_nth with (d := 0). intros i Hi. rewrite Nat2Z.id. reflexivity.
Qed.
Lemma concat_map_map (A B : Type) (f : A -> B) (ls : list (list A)) :
  concat (map (map f) ls) = map f (concat ls).
Proof. symmetry. apply concat_map. Qed.

Lemma partition_tree_ok (P : Type) (pts : list P) (t : ptree P) : tree_of pts t -> pts <> [] ->
  exists cs, partition_tree t = make_index_list cs /\ cs <> [] /\ length cs = length (leaf_boxes (has_child t)) /\
    Permutation (concat cs) (zrange (zlen pts)) /\
    Forall2 (fun b c => exists s n, entry (box_source_starts t) b s /\ entry (box_source_counts_cumul t) b n /\
        zlen c = n /\ forall x, In x c <-> exists k, s <= k < s + n /\ entry (user_source_ids t) k x)
      (leaf_boxes (has_child t)) cs.
Proof.
  intros Ht Hne. set (L := leaf_boxes (has_child t)).
  set (bs := fun b => nth (Z.to_nat b) (box_source_starts t) 0).
  set (bc := fun b => nth (Z.to_nat b) (box_source_counts_cumul t) 0).
  set (uid := fun k => nth (Z.to_nat k) (user_source_ids t) 0).
  exists (map (fun b => map uid (rng (bs b) (bc b))) L).
  assert (HL : forall b, In b L -> is_leaf t b) by (intros b Hb; apply leaf_boxes_spec; exact Hb).
  assert (Hlen : zlen (user_source_ids t) = zlen pts) by (apply uid_len; exact Ht).
  split; [|split; [|split; [|split]]].
  - unfold partition_tree. fold L. rewrite (@mapM_ok _ _ _ (fun b => map uid (rng (bs b) (bc b))) L); [reflexivity|].
    intros b Hb. apply HL in Hb. destruct (leaf_box Ht Hb) as (E1 & E2 & ? & ? & ?). fold (bs b) (bc b) in *.
    rewrite (entry_get E1), (entry_get E2). cbn [bind]. f_equal. apply slice_rng; lia.
  - intros E. apply map_eq_nil in E. destruct pts as [|p0 pts0]; [congruence|].
    assert (H0 : 0 <= 0 < zlen (p0 :: pts0)) by (unfold zlen; simpl; lia).
    destruct (to_cover Ht H0) as (b & Hb & _). apply leaf_boxes_spec in Hb. fold L in Hb. rewrite E in Hb. destruct Hb.
  - apply map_length.
  - rewrite <- (map_map (fun b => rng (bs b) (bc b)) (map uid)), concat_map_map.
    transitivity (map uid (zrange (zlen pts))).
    + apply Permutation_map. apply NoDup_Permutation; [|apply zrange_NoDup|].
      * apply NoDup_flat; [apply leaf_boxes_NoDup|intros; apply rng_NoDup|].
        intros x y k Hx Hy Kx Ky. apply HL in Hx. apply HL in Hy.
        apply (in_box_rng Ht) in Kx; [|exact Hx]. apply (in_box_rng Ht) in Ky; [|exact Hy]. eapply (to_disjoint Ht); eauto.
      * intros k. rewrite zrange_In, in_concat. split.
        -- intros (x & Hx & Hk). apply in_map_iff in Hx. destruct Hx as (b & <- & Hb). apply HL in Hb.
           destruct (leaf_box Ht Hb) as (_ & _ & ? & ? & ?). fold (bs b) (bc b) in *. apply rng_In in Hk. lia.
        -- intros Hk. destruct (to_cover Ht Hk) as (b & Hb & Kb). exists (rng (bs b) (bc b)).
           split; [apply in_map_iff; exists b; split; [reflexivity|apply leaf_boxes_spec; exact Hb]|].
           apply (in_box_rng Ht); assumption.
    + unfold uid. rewrite map_nth_zrange by exact Hlen. apply (to_perm Ht).
  - assert (G : forall l, (forall b, In b l -> is_leaf t b) -> Forall2 (fun b c => exists s n,
        entry (box_source_starts t) b s /\ entry (box_source_counts_cumul t) b n /\
        zlen c = n /\ forall x, In x c <-> exists k, s <= k < s + n /\ entry (user_source_ids t) k x)
        l (map (fun b => map uid (rng (bs b) (bc b))) l)).
    { induction l as [|b l IH]; intros H; simpl; [constructor|]. constructor; [|apply IH; intros; apply H; right; assumption].
      assert (Hb : is_leaf t b) by (apply H; left; reflexivity).
      destruct (leaf_box Ht Hb) as (E1 & E2 & ? & ? & ?). fold (bs b) (bc b) in *.
      exists (bs b), (bc b). split; [exact E1|]. split; [exact E2|]. split.
      - unfold zlen. rewrite map_length. unfold rng. rewrite map_length. apply zrange_len. lia.
      - intros x. rewrite in_map_iff. split.
        + intros (k & <- & Hk). apply rng_In in Hk. exists k. split; [exact Hk|]. apply nth_entry. lia.
        + intros (k & Hk & Ek). exists k. split; [apply entry_nth; exact Ek|apply rng_In; exact Hk]. }
    apply G. exact HL.
Qed.
