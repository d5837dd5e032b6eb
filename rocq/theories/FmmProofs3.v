From Coq Require Import QArith Permutation.
From Verif Require Import Base SymProofs SymProofs2 RefineModel RefineSpec AssocModel AssocSpec AssocProps FmmModel FmmSpec FmmProofs FmmProofs2.
Set Implicit Arguments.
Open Scope nat_scope.

Lemma key_eqb_eq a b : key_eqb a b = true <-> a = b.
Proof.
  destruct a as [t [l|]], b as [t' [l'|]]; unfold key_eqb; cbn [fst snd]; rewrite andb_true_iff, Nat.eqb_eq; (split; [intros [-> H]|intros H; injection H]).
  - apply Z.eqb_eq in H. subst. reflexivity.
  - intros -> ->. split; [reflexivity|apply Z.eqb_refl].
  - discriminate.
  - discriminate H.
  - discriminate.
  - discriminate H.
  - reflexivity.
  - intros ->. auto.
Qed.

Lemma lookup_app d k v k' : lookup_key (d ++ [(k, v)]) k' = match lookup_key d k' with Some n => Some n | None => if key_eqb k k' then Some v else None end.
Proof.
  unfold lookup_key. induction d as [|[k0 v0] d IH]; cbn [app find fst].
  - cbn. destruct (key_eqb k k'); reflexivity.
  - destruct (key_eqb k0 k'); [reflexivity|]. exact IH.
Qed.

Lemma lookup_None d k : lookup_key d k = None -> ~ In k (map fst d).
Proof.
  unfold lookup_key. induction d as [|[k0 v0] d IH]; cbn; intros H; [tauto|]. destruct (key_eqb k0 k) eqn:E; [discriminate|].
  intros [F|F]; [|exact (IH H F)]. subst k0. assert (X : key_eqb k k = true) by (apply key_eqb_eq; reflexivity). congruence.
Qed.
Lemma lookup_nth d : map snd d = seq 0 (length d) -> forall k n, lookup_key d k = Some n -> n < length d /\ fst (nth n d ((0, None), 0)) = k.
Proof.
  intros S k n H. unfold lookup_key in H. destruct (find (fun e => key_eqb (fst e) k) d) as [e|] eqn:F; [|discriminate]. injection H as H.
  apply find_some in F. destruct F as [I E]. apply key_eqb_eq in E. apply In_nth with (d := ((0, None), 0)) in I. destruct I as (m & M & Em).
  assert (N : nth m (map snd d) 0 = m) by (rewrite S, seq_nth by exact M; reflexivity).
  rewrite (@nth_map_d _ _ snd d m ((0, None), 0) 0 M), Em in N. assert (n = m) by congruence. subst n. subst m. rewrite Em. auto.
Qed.

(** * gather_targets *)
Section Gather.
Variable points : nat -> result (list pt).
Definition gkey (o : output) : nat * option Z := (o_tgt o, o_limit o).
(** The loop's invariant. *)
Definition ginv (d : list ((nat * option Z) * nat)) (ts : list (list pt * Z)) : Prop :=
  NoDup (map fst d) /\ map snd d = seq 0 (length d) /\ length ts = length d
  /\ forall k, k < length d -> points (fst (fst (nth k d ((0, None), 0)))) = Ok (fst (nth k ts ([], 0%Z)))
        /\ snd (nth k ts ([], 0%Z)) = limit_side (snd (fst (nth k d ((0, None), 0)))).
Lemma gather_inv outs : forall d ts d' ts', ginv d ts -> gather_targets points outs d ts = Ok (d', ts') ->
  ginv d' ts' /\ (exists ex, d' = d ++ ex) /\ (forall o, In o outs -> In (gkey o) (map fst d'))
  /\ (forall k, In k (map fst d') -> In k (map fst d) \/ exists o, In o outs /\ gkey o = k).
Proof.
  induction outs as [|o outs IH]; intros d ts d' ts' G H; cbn [gather_targets] in H.
  - injection H as <- <-. split; [exact G|]. split; [exists []; symmetry; apply app_nil_r|]. split; [contradiction|auto].
  - destruct (lookup_key d (o_tgt o, o_limit o)) as [m|] eqn:L.
    + destruct (IH _ _ _ _ G H) as (G' & (ex & Ex) & A & B). split; [exact G'|]. split; [exists ex; exact Ex|]. split.
      * intros o' [->|I]; [|apply A; exact I]. destruct G as (_ & S & _). destruct (lookup_nth d S _ L) as [M E].
        rewrite Ex, map_app. apply in_app_iff. left. unfold gkey. rewrite <- E. apply in_map. apply nth_In. exact M.
      * intros k I. destruct (B k I) as [C|(o' & I' & E)]; [auto|]. right. exists o'. split; [right; exact I'|exact E].
    + destruct (points (o_tgt o)) as [x|e] eqn:P; [|discriminate]. cbn [bind] in H.
      set (d1 := d ++ [((o_tgt o, o_limit o), length ts)]) in *. set (ts1 := ts ++ [(x, match o_limit o with None => 0%Z | Some z => z end)]) in *.
      assert (G1 : ginv d1 ts1).
      { destruct G as (N & S & LN & E). unfold ginv, d1, ts1. split; [|split; [|split]].
        - rewrite map_app. cbn [map fst]. apply NoDup_Add with (a := (o_tgt o, o_limit o)) (l := map fst d).
          + rewrite <- (app_nil_r (map fst d)) at 1. apply Add_app.
          + split; [exact N|]. apply lookup_None. exact L.
        - rewrite map_app, app_length, S. cbn [map snd length]. rewrite LN, seq_app. reflexivity.
        - rewrite !app_length, LN. reflexivity.
        - intros k K. rewrite app_length in K. cbn in K. destruct (Nat.eq_dec k (length d)) as [->|NE].
          + rewrite app_nth2, Nat.sub_diag by lia. rewrite <- LN. rewrite app_nth2, Nat.sub_diag by lia. cbn. split; [exact P|reflexivity].
          + rewrite !app_nth1 by lia. apply E. lia. }
      destruct (IH _ _ _ _ G1 H) as (G' & (ex & Ex) & A & B). split; [exact G'|]. split; [exists (((o_tgt o, o_limit o), length ts) :: ex); rewrite Ex; unfold d1; rewrite <- app_assoc; reflexivity|]. split.
      * intros o' [->|I]; [|apply A; exact I]. rewrite Ex, map_app. apply in_app_iff. left. unfold d1. rewrite map_app. apply in_app_iff. right. left. reflexivity.
      * intros k I. destruct (B k I) as [C|(o' & I' & E)].
        -- unfold d1 in C. rewrite map_app in C. apply in_app_iff in C. destruct C as [C|[C|[]]]; [auto|]. right. exists o. split; [left; reflexivity|exact C].
        -- right. exists o'. split; [right; exact I'|exact E].
Qed.
Lemma gather_err outs : forall d ts e, gather_targets points outs d ts = Err e -> exists o, In o outs /\ points (o_tgt o) = Err e.
Proof.
  induction outs as [|o outs IH]; intros d ts e H; cbn [gather_targets] in H; [discriminate|].
  destruct (lookup_key d (o_tgt o, o_limit o)); [destruct (IH _ _ _ H) as (o' & I & E); exists o'; split; [right|]; assumption|].
  destruct (points (o_tgt o)) as [x|e'] eqn:P; cbn [bind] in H; [|injection H as <-; exists o; split; [left; reflexivity|exact P]].
  destruct (IH _ _ _ H) as (o' & I & E). exists o'. split; [right|]; assumption.
Qed.
Lemma gather_ok outs : (forall o, In o outs -> exists x, points (o_tgt o) = Ok x) -> forall d ts, exists r, gather_targets points outs d ts = Ok r.
Proof.
  induction outs as [|o outs IH]; intros H d ts; cbn [gather_targets]; [eauto|].
  assert (IH' := IH (fun o' I => H o' (or_intror I))). destruct (lookup_key d (o_tgt o, o_limit o)); [apply IH'|].
  destruct (H o (or_introl eq_refl)) as (x & ->). cbn [bind]. apply IH'.
Qed.
End Gather.

(** * Association of all targets *)
Lemma flat_side_length ts : length (flat_map (fun t : list pt * Z => repeat (snd t) (length (fst t))) ts) = total ts.
Proof. unfold total. induction ts as [|[x z] ts IH]; cbn; [reflexivity|]. rewrite app_length, repeat_length. f_equal. exact IH. Qed.

Section Assoc.
Variable q : qsource.
Variable near : pt -> pt -> Q.
Hypothesis SO : source_ok q near.
Let nc := length (q_ctr q).

Lemma skip_points ts : skipn nc (target_points (q_ctr q) ts) = concat (map fst ts).
Proof. rewrite target_points_eq. unfold nc. rewrite skipn_app, skipn_all, Nat.sub_diag. reflexivity. Qed.
Lemma skip_sides ts : skipn nc (side_preferences nc ts) = flat_map (fun t => repeat (snd t) (length (fst t))) ts.
Proof. rewrite side_preferences_eq. rewrite skipn_app, skipn_all2, repeat_length, Nat.sub_diag by (rewrite repeat_length; lia). reflexivity. Qed.

Definition all_pts (ts : list (list pt * Z)) : list pt := concat (map fst ts).
Definition all_sides (ts : list (list pt * Z)) : list Z := flat_map (fun t => repeat (snd t) (length (fst t))) ts.
Lemma associate_all_spec ts :
  let n := length (all_pts ts) in
  let p i := nth_pt (all_pts ts) i in
  let z i := nth i (all_sides ts) 0%Z in
  match associate_all q ts with
  | Associated a => length a = n /\ 2 * length (q_src q) = nc /\
      (forall i, i < n -> match nth i a None with Some c => close_pt q (p i) /\ chosen_pt q (z i) (p i) c | None => ~ close_pt q (p i) end)
  | Failed _ _ => exists i, i < n /\ failing_pt q (z i) (p i)
  | Raised e => e = AssertionError /\ (2 * length (q_src q) <> nc \/ exists i, i < n /\ failing_pt q (z i) (p i))
  end.
Proof.
  cbv zeta. unfold associate_all. fold nc. rewrite skip_points, skip_sides. fold (all_pts ts) (all_sides ts).
  pose proof (@association_correct (q_dev q) near (q_order q (length (all_pts ts))) (q_discr q) (q_src q) (q_ctr q)
     [(all_pts ts, SArr (all_sides ts))] (q_tree q (all_pts ts)) (q_tunnel q) (q_radius q) (q_tol q)) as A.
  cbv zeta in A. cbn [map fst concat request_of flat_map snd] in A. rewrite !app_nil_r in A.
  specialize (A (so_tree SO _) (so_queries SO _) (so_sym SO) (so_reach SO) (proj1 (so_discr SO)) (proj2 (so_discr SO)) (so_order SO _)).
  destruct (associate _ _ _ _ _ _ _ _ _ _) as [a|fl failed|e].
  - destruct A as (L & A & E & _). split; [exact L|]. split; [exact E|]. exact A.
  - destruct A as (_ & _ & (i & I & F) & _). exists i. split; [exact I|exact F].
  - destruct A as (E & A). split; [exact E|]. destruct A as [A|[[A _]|(i & I & F)]]; [left; exact A| |right; exists i; split; [exact I|exact F]].
    exfalso. apply A. constructor; [|constructor]. cbn. unfold all_sides, all_pts. rewrite flat_side_length, total_concat. reflexivity.
Qed.

Lemma chosen_lt z p c : chosen_pt q z p c -> c < nc.
Proof. intros [[[H _] _] _]. exact H. Qed.
Lemma user_ttc_ok ts a : associate_all q ts = Associated a -> ttc_ok nc (nc + length (all_pts ts)) (user_ttc nc a).
Proof.
  intros H. pose proof (associate_all_spec ts) as A. cbv zeta in A. rewrite H in A. destruct A as (L & _ & A).
  unfold ttc_ok, user_ttc. split; [|split; [|split]].
  - rewrite app_length, repeat_length, map_length. lia.
  - lia.
  - intros u U. rewrite app_nth1 by (rewrite repeat_length; exact U). rewrite nth_indep with (d' := (-1)%Z) by (rewrite repeat_length; exact U). apply nth_rep.
  - intros u U1 U2. rewrite app_nth2 by (rewrite repeat_length; exact U1). rewrite repeat_length.
    rewrite (@nth_map_d _ _ z_of a (u - nc) None 0%Z) by lia. assert (I : u - nc < length (all_pts ts)) by lia. specialize (A _ I).
    destruct (nth (u - nc) a None) as [c|]; [|left; reflexivity]. right. exists c. split; [eapply chosen_lt; apply A|reflexivity].
Qed.
Lemma user_ttc_nth a u : nc <= u -> u < nc + length a -> nth u (user_ttc nc a) 0%Z = z_of (nth (u - nc) a None).
Proof.
  intros U1 U2. unfold user_ttc. rewrite app_nth2 by (rewrite repeat_length; exact U1). rewrite repeat_length. apply nth_map_d. lia.
Qed.
Lemma user_ttc_no_failed a : existsb (fun c => (c =? -2)%Z) (user_ttc nc a) = false.
Proof.
  destruct (existsb _ _) eqn:E; [|reflexivity]. apply existsb_exists in E. destruct E as (z & I & E). apply Z.eqb_eq in E. subst z.
  unfold user_ttc in I. apply in_app_iff in I. destruct I as [I|I].
  - apply repeat_spec in I. discriminate.
  - apply in_map_iff in I. destruct I as ([c|] & E & _); cbn in E; lia.
Qed.
Lemma route_of_z c : route_of (z_of c) = match c with Some c => Via c | None => Point end.
Proof. destruct c as [c|]; unfold route_of; cbn [z_of]; [|reflexivity]. assert (N : (Z.of_nat c =? -1)%Z = false) by (apply Z.eqb_neq; lia). rewrite N, Nat2Z.id. reflexivity. Qed.
End Assoc.

(** * Slices *)
Lemma slice_nth A (l : list A) a b i d : i < b - a -> nth i (slice l a b) d = nth (a + i) l d.
Proof.
  intros H. unfold slice. rewrite <- nth_skipn. revert i H. generalize (skipn a l). generalize (b - a). clear.
  intros n l. revert n. induction l as [|x l IH]; intros [|n] [|i] H; cbn; try reflexivity; try lia. apply IH. lia.
Qed.
Lemma slice_length A (l : list A) a b : b <= length l -> length (slice l a b) = b - a.
Proof. intros H. unfold slice. rewrite firstn_length, skipn_length. lia. Qed.
Lemma nth_concat A (ts : list (list pt * Z)) (f : list pt * Z -> list A) (Hf : forall t, length (f t) = length (fst t)) d : forall k i,
  k < length ts -> i < length (fst (nth k ts ([], 0%Z))) ->
  nth (total (firstn k ts) + i) (flat_map f ts) d = nth i (f (nth k ts ([], 0%Z))) d.
Proof.
  induction ts as [|t ts IH]; intros k i K I; cbn in K; [lia|]. destruct k as [|k].
  - cbn [firstn nth flat_map total]. cbn. rewrite app_nth1; [reflexivity|]. rewrite Hf. exact I.
  - cbn [firstn nth flat_map] in *. destruct t as [x s]. rewrite total_cons. rewrite app_nth2 by (rewrite Hf; cbn; lia). rewrite Hf. cbn [fst].
    replace (length x + total (firstn k ts) + i - length x) with (total (firstn k ts) + i) by lia. apply IH; [lia|exact I].
Qed.
Lemma total_firstn_S ts k : k < length ts -> total (firstn (S k) ts) = total (firstn k ts) + length (fst (nth k ts ([], 0%Z))).
Proof.
  revert k. induction ts as [|[x s] ts IH]; intros k K; cbn in K; [lia|]. destruct k as [|k].
  - cbn [firstn nth fst]. rewrite total_cons. cbn. lia.
  - cbn [nth]. change (firstn (S (S k)) ((x, s) :: ts)) with ((x, s) :: firstn (S k) ts). change (firstn (S k) ((x, s) :: ts)) with ((x, s) :: firstn k ts).
    rewrite !total_cons, IH by lia. lia.
Qed.
Lemma total_firstn_le ts k : total (firstn k ts) <= total ts.
Proof.
  revert k. induction ts as [|[x s] ts IH]; intros [|k]; try (cbn; lia). change (firstn (S k) ((x, s) :: ts)) with ((x, s) :: firstn k ts).
  rewrite !total_cons. specialize (IH k). lia.
Qed.
