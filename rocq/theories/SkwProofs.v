From Coq Require Import Ring.
From Verif Require Import Base DofModel SymModel SymProofs SymProofs2 ProxyModel IndexModel IndexSpec IndexProofs IndexProofs2 IndexProps MatModel MatProofs PgModel PgSpec PgProofs PgProofs2 PgProps SkModel SkSpec SkProofs SkProofs2 SkProofs3 SkProofs4 SkProofs5 SkProofs6 SkProps SkProps2 SkwModel SkwSpec.
Set Implicit Arguments.
Open Scope string_scope. Open Scope list_scope. Open Scope nat_scope.

Lemma without_slices j l : firstn j l ++ skipn (j + 1) l = without j l.
Proof.
  unfold without.
  assert (G : forall l b, map (fun k => nth (k - b) l "") (filter (fun k => negb (k =? b + j)) (seq b (length l)))
                          = firstn j l ++ skipn (j + 1) l).
  { revert j. clear. intros j l. revert j. induction l as [|x l IH]; intros j b; [destruct j; reflexivity|].
    cbn [length seq filter]. destruct j as [|j].
    - rewrite Nat.add_0_r, Nat.eqb_refl. cbn [negb firstn app]. change (0 + 1) with 1. cbn [skipn].
      assert (F : filter (fun k => negb (k =? b)) (seq (S b) (length l)) = seq (S b) (length l)).
      { assert (F : forall m, (forall k, In k m -> k <> b) -> filter (fun k => negb (k =? b)) m = m).
        { induction m as [|k m IHm]; intros Hm; [reflexivity|]. cbn [filter].
          destruct (Nat.eqb_spec k b) as [E|_]; [exfalso; apply (Hm k); [left; reflexivity|exact E]|].
          cbn [negb]. f_equal. apply IHm. intros; apply Hm; right; assumption. }
        apply F. intros k Hk. apply in_seq in Hk. lia. }
      rewrite F. clear. assert (G : forall l b, map (fun k => nth (k - b) (x :: l) "") (seq (S b) (length l)) = l).
      { clear. intros l b. rewrite <- seq_shift, map_map.
        transitivity (map (fun k => nth (k - b) l "") (seq b (length l))).
        - apply map_ext_in. intros k Hk. apply in_seq in Hk. replace (S k - b) with (S (k - b)) by lia. reflexivity.
        - apply nth_ext with (d := "") (d' := ""); [rewrite map_length, seq_length; reflexivity|].
          intros n Hn. rewrite map_length, seq_length in Hn.
          rewrite nth_indep with (d' := (fun k => nth (k - b) l "") 0) by (rewrite map_length, seq_length; lia).
          rewrite (map_nth (fun k => nth (k - b) l "")), seq_nth by lia. f_equal. lia. }
      apply G.
    - destruct (Nat.eqb_spec b (b + S j)) as [E|_]; [lia|]. cbn [negb map]. rewrite Nat.sub_diag. cbn [nth firstn app].
      change (S j + 1) with (S (j + 1)). cbn [skipn]. f_equal. rewrite <- (IH j (S b)).
      rewrite <- Nat.add_succ_comm.
      apply map_ext_in. intros k Hk. apply filter_In in Hk. destruct Hk as [Hk _]. apply in_seq in Hk.
      replace (k - b) with (S (k - S b)) by lia. reflexivity. }
  rewrite <- (G l 0). apply map_ext. intros k. f_equal. lia.
Qed.

(** The index list of the proxies. *)
Lemma generate_clusters (P Q : Type) (place : Z -> P -> Q) (ref : list P) dof (n : nat) :
  ref <> [] -> nclusters dof = Z.of_nat n -> n <> 0 ->
  exists pts px pcs, generate_proxies place ref dof = Ok (pts, px) /\ of_clusters pcs px /\ length pcs = n /\
    (forall c pcl, nth_error pcs c = Some pcl -> pcl = map (fun q => Z.of_nat (c * length ref + q)) (seq 0 (length ref))) /\
    forall c q r, c < n -> nth_error ref q = Some r -> nth_error pts (c * length ref + q) = Some (Some (place (Z.of_nat c) r)).
Proof.
  intros Hne Hn Hn0. destruct (@proxy_numbering P Q place ref dof Hne ltac:(lia)) as (pts & px & E & _ & Hnc & Hent & Hcl & Hin & Hnd).
  set (m := zlen ref) in *. assert (Hm : (0 < m)%Z) by (unfold m, zlen; destruct ref; [congruence|cbn; lia]).
  assert (Epx : px = IL (zrange (m * Z.of_nat n)) (map (fun j => (j * m)%Z) (zrange (Z.of_nat n)) ++ [(m * Z.of_nat n)%Z])).
  { unfold generate_proxies in E. rewrite Hn in E. unfold nproxy in E. fold m in E.
    apply bind_Ok in E. destruct E as (pr & E1 & E). rewrite arange01 in E by lia. cbn [bind] in E.
    rewrite arange_starts in E by lia. cbn [bind] in E. unfold make_index_list_starts in E.
    rewrite zrange_last in E by lia. rewrite map_app in E. cbn [map] in E. rewrite pyget_last in E. cbn [bind] in E.
    rewrite zrange_len in E by nia. replace (Z.of_nat n * m)%Z with (m * Z.of_nat n)%Z in E by lia. rewrite Z.eqb_refl in E.
    cbn [bind] in E. injection E; intros <- _. reflexivity. }
  destruct (proj1 (index_list_proper_starts (zrange (m * Z.of_nat n)) (starts px))) as (pcs & Ec & Est).
  { rewrite zrange_len by nia. rewrite Epx. cbn [starts].
    replace (map (fun j => (j * m)%Z) (zrange (Z.of_nat n)) ++ [(m * Z.of_nat n)%Z]) with (map (fun j => (j * m)%Z) (zrange (Z.of_nat n + 1)))
      by (rewrite zrange_last, map_app by lia; cbn [map]; do 2 f_equal; lia).
    assert (Hz : forall i, i < S n -> nth_error (map (fun j => (j * m)%Z) (zrange (Z.of_nat n + 1))) i = Some (Z.of_nat i * m)%Z).
    { intros i Hi. pose proof (@zrange_entry (Z.of_nat n + 1) (Z.of_nat i) ltac:(lia)) as [_ X]. rewrite Nat2Z.id in X.
      apply (map_nth_error (fun j => (j * m)%Z)) in X. exact X. }
    assert (Hl : length (map (fun j => (j * m)%Z) (zrange (Z.of_nat n + 1))) = S n).
    { rewrite map_length. unfold zrange. rewrite map_length, seq_length. lia. }
    split; [rewrite Hz by lia; f_equal; lia|]. rewrite Hl. split; [rewrite Hz by lia; f_equal; lia|].
    intros i a b Ha Hb. assert (Hi : S i < S n) by (rewrite <- Hl; apply nth_error_Some; congruence).
    rewrite Hz in Ha by lia. rewrite Hz in Hb by lia. assert (a = (Z.of_nat i * m)%Z) as -> by congruence. assert (b = (Z.of_nat (S i) * m)%Z) as -> by congruence. nia. }
  assert (Hof : of_clusters pcs px).
  { assert (pcs <> []). { intros ->. apply (f_equal (@length _)) in Ec. unfold zrange in Ec. rewrite map_length, seq_length in Ec. cbn in Ec. nia. }
    apply mk_of_clusters in H. replace px with (mk pcs); [exact H|]. unfold mk. rewrite Ec, <- Est, Epx. reflexivity. }
  assert (Lp : length pcs = n).
  { apply clusters_n in Hof. rewrite Hnc, Hn in Hof. unfold zlen in Hof. lia. }
  exists pts, px, pcs. split; [exact E|]. split; [exact Hof|]. split; [exact Lp|]. split.
  - intros c pcl Hc. assert (Hcn : c < n) by (rewrite <- Lp; apply nth_error_Some; congruence).
    destruct (index_list_of_clusters _ Hof) as (_ & _ & _ & _ & Hci & _). destruct (Hci _ _ Hc) as (Hci' & _).
    destruct (Hcl (Z.of_nat c) ltac:(lia)) as (l & Hl & Ll & He). assert (l = pcl) as -> by congruence.
    apply nth_ext with (d := 0%Z) (d' := 0%Z); [rewrite map_length, seq_length; unfold m, zlen in Ll; lia|].
    intros q Hq. assert (Lq : q < length ref) by (unfold m, zlen in Ll; lia).
    destruct (He (Z.of_nat q) ltac:(unfold m, zlen; lia)) as [_ X]. rewrite Nat2Z.id in X.
    rewrite (nth_error_nth _ _ 0%Z X). rewrite nth_indep with (d' := (fun q => Z.of_nat (c * length ref + q)) 0) by (rewrite map_length, seq_length; exact Lq).
    rewrite (map_nth (fun q => Z.of_nat (c * length ref + q))), seq_nth by exact Lq. cbn [Nat.add]. unfold m, zlen. lia.
  - intros c q r Hc Hr. destruct (Hent (Z.of_nat c) (Z.of_nat q) r ltac:(lia) ltac:(split; [lia|rewrite Nat2Z.id; exact Hr])) as [_ X].
    rewrite <- X. f_equal. unfold m, zlen. lia.
Qed.

Lemma nth_error_entry (A : Type) (l : list A) i x : nth_error l i = Some x -> entry l (Z.of_nat i) x.
Proof. intros H. split; [lia|]. rewrite Nat2Z.id. exact H. Qed.

Section Neighbors.
Variables (P D : Type).
Variable balls : dofdesc -> list P -> indexlist -> result (list P * list D).
Variables (dist : P -> P -> D) (within : D -> D -> bool).
Variables (build_tree : list P -> ptree P) (area_query : ptree P -> list P -> list D -> aquery).
Hypothesis Htree : forall pts, tree_of pts (build_tree pts).
Lemma neighbors_of dd nodes cs il centers radii :
  cluster_geometry balls dist within build_tree area_query dd nodes cs il centers radii ->
  exists nbr ncs, gather_neighbors dist within build_tree area_query nodes il centers radii None = Ok nbr /\
    of_clusters ncs nbr /\ length ncs = length cs /\
    forall c cl ncl center radius, nth_error cs c = Some cl -> nth_error ncs c = Some ncl ->
      nth_error centers c = Some center -> nth_error radii c = Some radius ->
      neighbors_in dist within nodes (concat cs) cl center radius ncl.
Proof.
  intros (Hof & Hnd & Hrange & _ & Lc & Lr & Hcov).
  assert (Hn : nclusters il = zlen cs) by (apply clusters_n; exact Hof).
  assert (Lz : zlen centers = zlen cs) by (unfold zlen; lia).
  destruct (@neighbors_exact P D dist within (fun d r => within d r = true) build_tree area_query nodes il None centers radii cs
              (fun d r H => H) Htree Hcov Hof Hn Lz Hrange) as (ncs & nbr & E & Hnbr & Ln & _).
  destruct (@neighbors_set P D dist within build_tree area_query nodes il None centers radii cs Htree Hcov Hof Hn Lz Hrange Hnd)
    as (nbr' & E' & _ & Hset). assert (nbr' = nbr) as -> by congruence.
  exists nbr, ncs. split; [exact E|]. split; [exact Hnbr|]. split; [exact Ln|].
  intros c cl ncl center radius H1 H2 H3 H4.
  destruct (Hset c cl center radius H1 (nth_error_entry _ _ H3) (nth_error_entry _ _ H4)) as (l & Hl & HND & Hiff).
  destruct (index_list_of_clusters _ Hnbr) as (_ & _ & _ & _ & Hci & _). destruct (Hci _ _ H2) as (Hci' & _).
  assert (l = ncl) as -> by congruence. split; assumption.
Qed.
End Neighbors.

Lemma concat_block_nth (A : Type) (e : Z -> Z -> A) (tcl scl : list Z) a b t s d :
  nth_error tcl a = Some t -> nth_error scl b = Some s ->
  nth (a * length scl + b) (concat (block e (tcl, scl))) d = e t s.
Proof.
  unfold block. cbn [fst snd]. revert a. induction tcl as [|x tcl IH]; intros a Ha Hb; [destruct a; discriminate|].
  assert (Hbl : b < length scl) by (apply nth_error_Some; congruence).
  cbn [map concat]. destruct a as [|a].
  - cbn in Ha. injection Ha; intros ->. rewrite Nat.mul_0_l, Nat.add_0_l. rewrite app_nth1 by (rewrite map_length; exact Hbl).
    apply nth_error_nth. apply map_nth_error. exact Hb.
  - rewrite app_nth2 by (rewrite map_length; nia). rewrite map_length.
    replace (S a * length scl + b - length scl) with (a * length scl + b) by lia. apply IH; assumption.
Qed.
Lemma concat_block_len (A : Type) (e : Z -> Z -> A) c : zlen (concat (block e c)) = (zlen (fst c) * zlen (snd c))%Z.
Proof.
  unfold block, zlen. destruct c as [tcl scl]. cbn [fst snd]. induction tcl as [|x tcl IH]; [reflexivity|].
  cbn [map concat]. rewrite app_length, map_length, Nat2Z.inj_add, IH. cbn [length]. lia.
Qed.
Lemma served_blocks (R : rops) (e : Z -> Z -> option R) cs :
  flat_blocks cs (map (fun c => concat (block e c)) cs).
Proof. unfold flat_blocks. rewrite map_map. apply map_ext. intros c. apply concat_block_len. Qed.
