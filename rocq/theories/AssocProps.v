(** Properties C27, C28, C53, C54: target association and the tree with QBX metadata. *)
From Coq Require Import QArith Qabs Qminmax Permutation Lqa.
From Verif Require Import Base RefineModel RefineSpec RefineProofs AssocModel AssocSpec AssocProofs.
Set Implicit Arguments.
Open Scope nat_scope.

Lemma nth_map_seq A (f : nat -> A) n i d : i < n -> nth i (map f (seq 0 n)) d = f i.
Proof. intros H. rewrite (nth_indep _ d (f 0)) by (rewrite map_length, seq_length; exact H). rewrite map_nth, seq_nth by exact H. reflexivity. Qed.
Lemma combine_map_seq A B (f : nat -> A) (g : nat -> B) l : combine (map f l) (map g l) = map (fun i => (f i, g i)) l.
Proof. induction l as [|x l IH]; cbn; [reflexivity|]. rewrite IH. reflexivity. Qed.
Lemma existsb_seq (f : nat -> bool) n : existsb (fun x => x) (map f (seq 0 n)) = true <-> exists i, i < n /\ f i = true.
Proof.
  rewrite existsb_exists. split.
  - intros (x & I & ->). apply in_map_iff in I. destruct I as (i & E & I). apply in_seq in I. exists i. split; [lia|exact E].
  - intros (i & L & E). exists true. split; [|reflexivity]. apply in_map_iff. exists i. split; [exact E|apply in_seq; lia].
Qed.
Lemma nth_repeat_none A n i : nth i (repeat (@None A) n) None = None.
Proof. revert i; induction n as [|n IH]; intros [|i]; cbn; auto. Qed.
Lemma nth_repeat_false n i : nth i (repeat false n) false = false.
Proof. revert i; induction n as [|n IH]; intros [|i]; cbn; auto. Qed.

Lemma associate_core D near order d S C targets T tunnel radius tol :
  let TG := concat (map fst targets) in
  let close := close (dv_dist D) S TG tunnel in
  let flag := fun i => nth i (request_of targets) 0%Z in
  let chosen := chosen (dv_dist D) C TG radius tol flag in
  let failing := failing (dv_dist D) S C TG tunnel radius tol flag in
  let q := QT T (length S) (length C) (list_sum (map (@length pt) (map fst targets))) in
  let near_failing := fun e => exists i s, i < length TG /\ failing i /\ on_element d e s
              /\ (dv_dist D (nth_pt TG i) (nth_pt S s) <= tunnel s)%Q in
  tree_ok (particles S C (map fst targets)) T ->
  queries_ok D near (particles S C (map fst targets)) T ->
  (forall x y, (dv_dist D x y == dv_dist D y x)%Q) ->
  (forall c, (0 < reach radius tol c)%Q) ->
  proper d -> ndofs d = length S ->
  Permutation order (seq 0 (length TG)) ->
  match associate D order d S C targets T tunnel radius tol with
  | Associated a =>
      length a = length TG
      /\ (forall i, i < length TG ->
           match nth i a None with Some c => close i /\ chosen i c | None => ~ close i end)
      /\ 2 * length S = length C
      /\ ((exists i, i < length TG /\ close i) -> sides_fit targets)
  | Failed fl failed =>
      length failed = length TG
      /\ (forall i, i < length TG -> (nth i failed false = true <-> failing i))
      /\ (exists i, i < length TG /\ failing i)
      /\ length fl = nelements d
      /\ (exists e, e < nelements d /\ nth e fl false = true)
      /\ (forall e, e < nelements d -> nth e fl false = true ->
            near_failing e)
      /\ (forall i e, i < length TG -> failing i -> In e (elements_near D q d tunnel i) -> nth e fl false = true)
  | Raised e =>
      e = AssertionError
      /\ (2 * length S <> length C
          \/ (~ sides_fit targets /\ exists i, i < length TG /\ close i)
          \/ ((exists i, i < length TG /\ failing i)
              /\ forall i, i < length TG -> failing i -> elements_near D q d tunnel i = []))
  end.
Proof.
  intros TG cl flag ch fa q nf HT HQ Hsym Hrad HP HN HO. unfold associate, build_tree.
  destruct (2 * length S =? length C) eqn:EC.
  2: { apply Nat.eqb_neq in EC. auto. }
  cbn [q_ntgt]. fold q.
  assert (EN : list_sum (map (@length pt) (map fst targets)) = length TG) by (unfold TG; symmetry; apply concat_length').
  rewrite EN. set (pending := map (marked D q tunnel) (seq 0 (length TG))).
  assert (MK : forall i, i < length TG -> (marked D q tunnel i = true <-> cl i)).
  { intros i Hi. exact (@marked_spec D near S C (map fst targets) T HT HQ Hsym tunnel i Hi). }
  assert (PN : forall i, i < length TG -> nth i pending false = marked D q tunnel i) by (intros i Hi; apply nth_map_seq; exact Hi).
  destruct (existsb (fun x => x) pending) eqn:EP; cbn [negb].
  2: { assert (NONE : forall i, i < length TG -> ~ cl i).
       { intros i Hi. rewrite <- (MK i Hi). intros X.
         assert (Y : existsb (fun x => x) pending = true) by (apply existsb_seq; exists i; auto). congruence. }
       split; [apply repeat_length|]. split; [intros i Hi; rewrite nth_repeat_none; apply NONE; exact Hi|].
       split; [apply Nat.eqb_eq; exact EC|]. intros (i & Hi & Hc). exfalso. exact (NONE i Hi Hc). }
  assert (EXC : exists i, i < length TG /\ cl i).
  { apply existsb_seq in EP. destruct EP as (i & Hi & E). exists i. split; [exact Hi|]. apply MK; assumption. }
  assert (TF := target_flags_spec targets). destruct (target_flags _) as [flags|e].
  2: { destruct TF as [-> TF]. split; [reflexivity|]. right. left. auto. }
  destruct TF as [SF ->]. cbv zeta.
  set (rad := fun c => (radius (c / 2)%nat * (1 + tol))%Q).
  set (fin := fun i => if nth i pending false then find_center D q rad (flag i) i else FS None None None).
  change (fun i : nat => if nth i pending false then find_center D q rad (nth i (request_of targets) 0%Z) i else FS None None None) with fin.
  set (fb := fun i => marked D q tunnel i && negb (found (fin i))).
  assert (EF : map (fun '(p, st) => p && negb (found st)) (combine pending (map fin (seq 0 (length TG)))) = map fb (seq 0 (length TG))).
  { unfold pending. rewrite combine_map_seq, map_map. reflexivity. }
  rewrite EF. clear EF.
  assert (FC : forall i, i < length TG -> cl i ->
     match f_center (fin i) with Some c => ch i c /\ found (fin i) = true
     | None => (forall c, ~ admissible (dv_dist D) C TG radius tol flag i c) /\ found (fin i) = false end).
  { intros i Hi Hc. unfold fin. rewrite (PN i Hi). apply MK in Hc; [|exact Hi]. rewrite Hc.
    exact (@find_center_spec D near S C (map fst targets) T HT HQ radius tol flag Hrad i Hi). }
  assert (NC : forall i, i < length TG -> ~ cl i -> marked D q tunnel i = false).
  { intros i Hi Hc. destruct (marked D q tunnel i) eqn:E; [|reflexivity]. apply MK in E; [contradiction|exact Hi]. }
  assert (FB : forall i, i < length TG -> (fb i = true <-> fa i)).
  { intros i Hi. unfold fb, fa, AssocSpec.failing. fold cl. split.
    - intros X. apply andb_true_iff in X. destruct X as [M N]. assert (M' := M). apply MK in M'; [|exact Hi]. split; [exact M'|].
      assert (Y := FC i Hi M'). destruct (f_center (fin i)); [destruct Y as [_ Y]; rewrite Y in N; discriminate|apply Y].
    - intros [Hc NA]. assert (M := proj2 (MK i Hi) Hc). rewrite M. assert (Y := FC i Hi Hc).
      destruct (f_center (fin i)) as [c|]; [|destruct Y as [_ ->]; reflexivity].
      destruct Y as [Y _]. exfalso. destruct Y as [[Y _] _]. exact (NA c Y). }
  destruct (existsb (fun x => x) (map fb (seq 0 (length TG)))) eqn:EE.
  - apply existsb_seq in EE. destruct EE as (i0 & Hi0 & E0). assert (EXF : exists i, i < length TG /\ fa i) by (exists i0; split; [exact Hi0|apply FB; assumption]).
    set (hits := flat_map (fun i => if nth i (map fb (seq 0 (length TG))) false then elements_near D q d tunnel i else []) order).
    assert (HH : forall e, In e hits -> exists i s, i < length TG /\ fa i /\ on_element d e s /\ (dv_dist D (nth_pt TG i) (nth_pt S s) <= tunnel s)%Q).
    { intros e I. unfold hits in I. apply in_flat_map in I. destruct I as (i & Io & I).
      apply (Permutation_in _ HO) in Io. apply in_seq in Io. assert (Hi : i < length TG) by lia.
      rewrite nth_map_seq in I by exact Hi. destruct (fb i) eqn:E; [|destruct I].
      destruct (@elements_near_spec D S C (map fst targets) T HT d tunnel i e Hi HN HP I) as (s & A & B).
      exists i, s. split; [exact Hi|]. split; [apply FB; assumption|]. auto. }
    assert (LT : forall e, In e hits -> e < nelements d).
    { intros e I. destruct (HH e I) as (_ & s & _ & _ & O & _). apply on_element_lt in O. apply O. }
    assert (HC : forall i e, i < length TG -> fa i -> In e (elements_near D q d tunnel i) -> In e hits).
    { intros i e Hi Hf I. unfold hits. apply in_flat_map. exists i. split.
      - apply (Permutation_in _ (Permutation_sym HO)). apply in_seq. lia.
      - rewrite nth_map_seq by exact Hi. rewrite (proj2 (FB i Hi) Hf). exact I. }
    destruct hits as [|h hs] eqn:EH.
    { split; [reflexivity|]. right. right. split; [exact EXF|]. intros i Hi Hf.
      destruct (elements_near D q d tunnel i) as [|e l] eqn:EL; [reflexivity|]. exfalso. apply (HC i e Hi Hf). rewrite EL. left. reflexivity. }
    rewrite <- EH in *.
    assert (SFS : forall e, e < nelements d -> length (fold_left set_flag hits (repeat false (nelements d))) = nelements d
       /\ (nth e (fold_left set_flag hits (repeat false (nelements d))) false = true <-> In e hits)).
    { intros e He. destruct (@set_flags_spec hits (repeat false (nelements d)) e) as [A B]; [rewrite repeat_length; exact He|].
      rewrite repeat_length in A. split; [exact A|]. rewrite B, nth_repeat_false. split; [intros [X|X]; [discriminate|exact X]|auto]. }
    assert (Hh : In h hits) by (rewrite EH; left; reflexivity).
    split; [rewrite map_length, seq_length; reflexivity|].
    split; [intros i Hi; rewrite nth_map_seq by exact Hi; apply FB; exact Hi|].
    split; [exact EXF|]. split; [apply (SFS h (LT h Hh))|].
    split; [exists h; split; [exact (LT h Hh)|apply (SFS h (LT h Hh)); exact Hh]|].
    split; [intros e He X; apply HH; apply (SFS e He); exact X|].
    intros i e Hi Hf I. assert (I' := HC i e Hi Hf I). apply (SFS e (LT e I')). exact I'.
  - split; [rewrite !map_length, seq_length; reflexivity|].
    split; [|split; [apply Nat.eqb_eq; exact EC|auto]]. intros i Hi.
    rewrite map_map, nth_map_seq by exact Hi.
    destruct (fb i) eqn:EB.
    { exfalso. assert (Y : existsb (fun x => x) (map fb (seq 0 (length TG))) = true) by (apply existsb_seq; exists i; auto). congruence. }
    destruct (marked D q tunnel i) eqn:EM.
    + assert (Hc := proj1 (MK i Hi) EM). assert (Y := FC i Hi Hc). destruct (f_center (fin i)) as [c|].
      * split; [exact Hc|apply Y].
      * exfalso. unfold fb in EB. rewrite EM in EB. destruct Y as [_ Y]. rewrite Y in EB. discriminate.
    + unfold fin. rewrite (PN i Hi), EM. cbn [f_center]. rewrite <- (MK i Hi). congruence.
Qed.

(** C27, C28: a successful association gives every target close to the source its best center
    and leaves all others alone; a failed one reports exactly the targets for which there is
    none, and flags only elements having a node near such a target. *)
Theorem association_correct D near order d S C targets T tunnel radius tol :
  let TG := concat (map fst targets) in
  let close := close (dv_dist D) S TG tunnel in
  let flag := fun i => nth i (request_of targets) 0%Z in
  let chosen := chosen (dv_dist D) C TG radius tol flag in
  let failing := failing (dv_dist D) S C TG tunnel radius tol flag in
  tree_ok (particles S C (map fst targets)) T ->
  queries_ok D near (particles S C (map fst targets)) T ->
  (forall x y, (dv_dist D x y == dv_dist D y x)%Q) ->
  (forall c, (0 < reach radius tol c)%Q) ->
  proper d -> ndofs d = length S ->
  Permutation order (seq 0 (length TG)) ->
  match associate D order d S C targets T tunnel radius tol with
  | Associated a =>
      length a = length TG
      /\ (forall i, i < length TG ->
           match nth i a None with Some c => close i /\ chosen i c | None => ~ close i end)
      /\ 2 * length S = length C
      /\ ((exists i, i < length TG /\ close i) -> sides_fit targets)
  | Failed fl failed =>
      length failed = length TG
      /\ (forall i, i < length TG -> (nth i failed false = true <-> failing i))
      /\ (exists i, i < length TG /\ failing i)
      /\ length fl = nelements d
      /\ (exists e, e < nelements d /\ nth e fl false = true)
      /\ (forall e, e < nelements d -> nth e fl false = true ->
            exists i s, i < length TG /\ failing i /\ on_element d e s
              /\ (dv_dist D (nth_pt TG i) (nth_pt S s) <= tunnel s)%Q)
  | Raised e =>
      e = AssertionError
      /\ (2 * length S <> length C
          \/ (~ sides_fit targets /\ exists i, i < length TG /\ close i)
          \/ exists i, i < length TG /\ failing i)
  end.
Proof.
  intros TG cl flag ch fa HT HQ Hsym Hrad HP HN HO.
  assert (X := @associate_core D near order d S C targets T tunnel radius tol HT HQ Hsym Hrad HP HN HO). cbv zeta in X.
  destruct (associate D order d S C targets T tunnel radius tol) as [a|fl failed|e]; [exact X|tauto|].
  destruct X as (E & [X|[X|[X _]]]); (split; [exact E|]); auto.
Qed.
Print Assumptions association_correct.

(** If every close target has an admissible center, sides fit and there are two centers per
    source node, association succeeds. *)
Theorem association_total D near order d S C targets T tunnel radius tol :
  let TG := concat (map fst targets) in
  let flag := fun i => nth i (request_of targets) 0%Z in
  tree_ok (particles S C (map fst targets)) T ->
  queries_ok D near (particles S C (map fst targets)) T ->
  (forall x y, (dv_dist D x y == dv_dist D y x)%Q) ->
  (forall c, (0 < reach radius tol c)%Q) ->
  proper d -> ndofs d = length S ->
  Permutation order (seq 0 (length TG)) ->
  2 * length S = length C -> sides_fit targets ->
  (forall i, i < length TG -> close (dv_dist D) S TG tunnel i ->
     exists c, admissible (dv_dist D) C TG radius tol flag i c) ->
  exists a, associate D order d S C targets T tunnel radius tol = Associated a.
Proof.
  intros TG flag HT HQ Hsym Hrad HP HN HO E2 SF HA.
  assert (X := @association_correct D near order d S C targets T tunnel radius tol HT HQ Hsym Hrad HP HN HO).
  destruct (associate D order d S C targets T tunnel radius tol) as [a|fl failed|e]; [exists a; reflexivity| |]; exfalso.
  - destruct X as (_ & _ & (i & Hi & Hc & NA) & _). destruct (HA i Hi Hc) as [c A]. exact (NA c A).
  - destruct X as (_ & [X|[[X _]|(i & Hi & Hc & NA)]]); [exact (X E2)|exact (X SF)|]. destruct (HA i Hi Hc) as [c A]. exact (NA c A).
Qed.
Print Assumptions association_total.

(** Without ties, the association depends on neither the tree, nor the queries, nor the order
    in which work items run. *)
Theorem association_independent D D' near near' order order' d S C targets T T' tunnel radius tol a :
  let TG := concat (map fst targets) in
  let flag := fun i => nth i (request_of targets) 0%Z in
  let chosen := chosen (dv_dist D) C TG radius tol flag in
  dv_dist D' = dv_dist D ->
  tree_ok (particles S C (map fst targets)) T -> tree_ok (particles S C (map fst targets)) T' ->
  queries_ok D near (particles S C (map fst targets)) T ->
  queries_ok D' near' (particles S C (map fst targets)) T' ->
  (forall x y, (dv_dist D x y == dv_dist D y x)%Q) ->
  (forall c, (0 < reach radius tol c)%Q) ->
  proper d -> ndofs d = length S ->
  Permutation order (seq 0 (length TG)) -> Permutation order' (seq 0 (length TG)) ->
  (forall i c c', chosen i c -> chosen i c' -> c = c') ->
  associate D order d S C targets T tunnel radius tol = Associated a ->
  associate D' order' d S C targets T' tunnel radius tol = Associated a.
Proof.
  intros TG flag ch ED HT HT' HQ HQ' Hsym Hrad HP HN HO HO' HU EA.
  assert (X := @association_correct D near order d S C targets T tunnel radius tol HT HQ Hsym Hrad HP HN HO).
  assert (Hsym' : forall x y, (dv_dist D' x y == dv_dist D' y x)%Q) by (rewrite ED; exact Hsym).
  assert (Y := @association_correct D' near' order' d S C targets T' tunnel radius tol HT' HQ' Hsym' Hrad HP HN HO').
  rewrite EA in X. destruct X as (LX & X & E2 & SF). rewrite ED in Y. fold TG in LX, X, SF, Y.
  assert (NF : ~ exists i, i < length TG /\ failing (dv_dist D) S C TG tunnel radius tol flag i).
  { intros (i & Hi & Hc & NA). assert (Z := X i Hi). destruct (nth i a None) as [c|]; [|exact (Z Hc)].
    destruct Z as (_ & (Z & _) & _). exact (NA c Z). }
  destruct (associate D' order' d S C targets T' tunnel radius tol) as [a'|fl failed|e].
  - f_equal. destruct Y as (LY & Y & _). apply nth_ext with (d := None) (d' := None); [congruence|]. intros i Hi.
    rewrite LY in Hi. assert (XX := X i Hi). assert (YY := Y i Hi).
    destruct (nth i a None) as [c|], (nth i a' None) as [c'|]; [f_equal|exfalso; tauto|exfalso; tauto|reflexivity].
    exact (HU i c' c (proj2 YY) (proj2 XX)).
  - exfalso. apply NF. apply Y.
  - exfalso. destruct Y as (_ & [Y|[[Y Z]|Y]]); [exact (Y E2)|exact (Y (SF Z))|exact (NF Y)].
Qed.
Print Assumptions association_independent.

(** C53, in so far as it holds: if tree order and user order of the sources agree, a failing
    target leads to the documented exception, with exactly the elements near failing targets
    flagged. *)
Theorem failure_reported_partial D near order d S C targets T tunnel radius tol :
  let TG := concat (map fst targets) in
  let flag := fun i => nth i (request_of targets) 0%Z in
  let failing := failing (dv_dist D) S C TG tunnel radius tol flag in
  tree_ok (particles S C (map fst targets)) T ->
  queries_ok D near (particles S C (map fst targets)) T ->
  (forall x y, (dv_dist D x y == dv_dist D y x)%Q) ->
  (forall c, (0 < reach radius tol c)%Q) ->
  proper d -> ndofs d = length S ->
  Permutation order (seq 0 (length TG)) ->
  2 * length S = length C -> sides_fit targets ->
  (forall u, u < length S -> bt_user T u = bt_sorted T u) ->
  (exists i, i < length TG /\ failing i) ->
  exists fl failed,
    associate D order d S C targets T tunnel radius tol = Failed fl failed
    /\ length fl = nelements d
    /\ forall e, e < nelements d ->
         (nth e fl false = true <->
          exists i s, i < length TG /\ failing i /\ on_element d e s
            /\ (dv_dist D (nth_pt TG i) (nth_pt S s) <= tunnel s)%Q).
Proof.
  intros TG flag fa HT HQ Hsym Hrad HP HN HO E2 SF HV (i0 & Hi0 & F0).
  assert (X := @associate_core D near order d S C targets T tunnel radius tol HT HQ Hsym Hrad HP HN HO). cbv zeta in X.
  fold TG in X. fold flag in X. fold fa in X.
  assert (COMPL : forall i s e, i < length TG -> on_element d e s ->
     (dv_dist D (nth_pt TG i) (nth_pt S s) <= tunnel s)%Q ->
     In e (elements_near D (QT T (length S) (length C) (list_sum (map (@length pt) (map fst targets)))) d tunnel i)).
  { intros i s e Hi He Hd. refine (@elements_near_complete D near S C (map fst targets) T HT HQ d tunnel i e s Hi HV He _ Hd).
    apply on_element_lt in He. lia. }
  destruct (associate D order d S C targets T tunnel radius tol) as [a|fl failed|e].
  - exfalso. destruct X as (_ & X & _). assert (Z := X i0 Hi0). destruct F0 as [Hc NA].
    destruct (nth i0 a None) as [c|]; [|exact (Z Hc)]. destruct Z as (_ & (Z & _) & _). exact (NA c Z).
  - exists fl, failed. split; [reflexivity|]. destruct X as (_ & _ & _ & LF & _ & X & Y). split; [exact LF|].
    intros e He. split; [apply X; exact He|]. intros (i & s & Hi & Hf & Ho & Hd). apply (Y i e Hi Hf). apply (COMPL i s e Hi Ho Hd).
  - exfalso. destruct X as (_ & [X|[[X _]|[_ X]]]); [exact (X E2)|exact (X SF)|].
    assert (F1 := F0). destruct F1 as [(s & Hs & Hd) _].
    destruct (@owns_total (d_groups d) HP s) as [e0 He0]; [unfold ndofs in HN; lia|].
    assert (I := COMPL i0 s e0 Hi0 He0). rewrite (X i0 Hi0 F0) in I. apply I. rewrite Hsym. exact Hd.
Qed.
Print Assumptions failure_reported_partial.

(** C54: the class lists of the tree: in each box exactly the sources (centers, targets) lying
    in it, under their own numbers, and the coordinates found through them are the right ones. *)
Theorem tree_class_lists S C Ts T q :
  tree_ok (particles S C Ts) T -> build_tree S C Ts T = Ok q ->
  2 * length S = length C
  /\ (forall b k, In k (box_sources q b) <-> k < length S /\ bt_box_of T (nth_pt S k) = b)
  /\ (forall b k, In k (box_centers q b) <-> k < length C /\ bt_box_of T (nth_pt C k) = b)
  /\ (forall b k, In k (box_targets q b) <-> k < length (concat Ts) /\ bt_box_of T (nth_pt (concat Ts) k) = b)
  /\ (forall k, k < length S -> source_pt q k = nth_pt S k)
  /\ (forall k, k < length C -> center_pt q k = nth_pt C k)
  /\ (forall k, k < length (concat Ts) -> target_pt q k = nth_pt (concat Ts) k).
Proof.
  intros HT E. unfold build_tree in E. destruct (2 * length S =? length C) eqn:EC; [|discriminate]. apply Nat.eqb_eq in EC.
  injection E as <-. split; [exact EC|].
  split; [intros b k; apply In_box_sources; exact HT|]. split; [intros b k; apply In_box_centers; exact HT|].
  split; [intros b k; apply In_box_targets; exact HT|].
  split; [intros k Hk; apply source_pt_ok; assumption|]. split; [intros k Hk; apply center_pt_ok; assumption|].
  intros k Hk. apply target_pt_ok; assumption.
Qed.
Print Assumptions tree_class_lists.

(** No particle is listed twice in a class. *)
Theorem tree_class_lists_nodup S C Ts T q b :
  tree_ok (particles S C Ts) T -> (forall b, NoDup (bt_leaf T b)) -> build_tree S C Ts T = Ok q ->
  NoDup (box_sources q b) /\ NoDup (box_centers q b) /\ NoDup (box_targets q b).
Proof.
  intros HT HL E. unfold build_tree in E. destruct (2 * length S =? length C); [|discriminate]. injection E as <-.
  assert (G : forall lo n, NoDup (box_class T lo n b)).
  { intros lo n. unfold box_class.
    assert (N1 : NoDup (map (bt_user T) (bt_leaf T b))).
    { assert (Hin : forall j, In j (bt_leaf T b) -> j < length (particles S C Ts)) by (intros j I; apply (to_leaf HT) in I; apply I).
      specialize (HL b). induction HL as [|j l NI ND IH]; cbn; constructor.
      - intros I. apply in_map_iff in I. destruct I as (j' & Ej & I). apply NI.
        destruct (to_user HT (Hin j (or_introl eq_refl))) as [_ A]. destruct (to_user HT (Hin j' (or_intror I))) as [_ B].
        rewrite <- A, <- Ej, B. exact I.
      - apply IH. intros j' I. apply Hin. right. exact I. }
    apply (NoDup_filter (fun u => (lo <=? u) && (u <? lo + n))) in N1.
    assert (R : forall u, In u (filter (fun u => (lo <=? u) && (u <? lo + n)) (map (bt_user T) (bt_leaf T b))) -> lo <= u).
    { intros u I. apply filter_In in I. destruct I as [_ I]. apply andb_true_iff in I. apply Nat.leb_le. apply I. }
    revert N1 R. generalize (filter (fun u => (lo <=? u) && (u <? lo + n)) (map (bt_user T) (bt_leaf T b))). intros l N1 R.
    induction N1 as [|u l NI ND IH]; cbn; constructor.
    - intros I. apply in_map_iff in I. destruct I as (u' & E & I). apply NI.
      assert (A := R u (or_introl eq_refl)). assert (B := R u' (or_intror I)). replace u with u' by lia. exact I.
    - apply IH. intros u' I. apply R. right. exact I. }
  split; [apply G|]. split; apply G.
Qed.
Print Assumptions tree_class_lists_nodup.

(** ** A concrete setting on the line: boxes around 0, 2 and 10. *)
Definition px (p : pt) : Q := hd 0%Q p.
Definition ex_dist (p p' : pt) : Q := Qabs (px p - px p').
Definition ex_center (b : nat) : pt := match b with 0 => [0%Q] | 1 => [2%Q] | _ => [10%Q] end.
Definition ex_box_of (p : pt) : nat := if Qle_bool (px p) 1 then 0 else if Qle_bool (px p) 5 then 1 else 2.
Definition ex_tree (coords : list pt) (sorted user : list nat) : btree :=
  BT (fun j => nth_pt coords j) (fun u => nth u sorted 0) (fun j => nth j user 0)
     (fun b => filter (fun j => ex_box_of (nth_pt coords j) =? b) (seq 0 (length coords))) ex_center ex_box_of.
Definition ex_invader (T : btree) (balls : list (pt * Q)) (b : nat) : Q :=
  fold_right Qmax 0%Q (map (fun '(x, r) => if Qle_bool (ex_dist (ex_center b) x) (r + 1) then ex_dist (ex_center b) x else 0%Q) balls).
Definition ex_visit (T : btree) (c : pt) (r : Q) : list nat :=
  filter (fun b => Qle_bool (ex_dist c (ex_center b)) (r + 1)) [0; 1; 2].
Definition ex_dev : device := Dev ex_dist ex_invader ex_visit.

Lemma fold_Qmax_ge l x : In x l -> (x <= fold_right Qmax 0 l)%Q.
Proof.
  induction l as [|y l IH]; cbn; [tauto|]. intros [-> | I]; [apply Q.le_max_l|].
  eapply Qle_trans; [apply IH; exact I|apply Q.le_max_r].
Qed.
Lemma ex_queries P T coords sorted user : T = ex_tree coords sorted user ->
  (forall j, j < length P -> nth_pt coords j = ex_center (ex_box_of (nth_pt coords j))) ->
  queries_ok ex_dev ex_dist P T.
Proof.
  intros -> HC. split.
  - intros balls x r j I J L. cbn [bt_center bt_box_of bt_coords ex_tree dv_dist dv_invader ex_dev] in *. rewrite (HC j J) in L.
    set (b := ex_box_of (nth_pt coords j)) in *. apply fold_Qmax_ge. apply in_map_iff. exists (x, r). split; [|exact I].
    assert (X : Qle_bool (ex_dist (ex_center b) x) (r + 1) = true) by (apply Qle_bool_iff; lra). rewrite X. reflexivity.
  - intros c r j J L. cbn [bt_box_of bt_coords ex_tree dv_visit ex_dev] in *. rewrite (HC j J) in L. unfold ex_visit. apply filter_In.
    split; [|apply Qle_bool_iff; apply Qle_trans with r; [exact L|lra]].
    unfold ex_box_of. destruct (Qle_bool _ 1); [left; reflexivity|]. destruct (Qle_bool _ 5); [right; left; reflexivity|right; right; left; reflexivity].
Qed.
Lemma ex_sym x y : (dv_dist ex_dev x y == dv_dist ex_dev y x)%Q.
Proof. change (Qabs (px x - px y) == Qabs (px y - px x))%Q. rewrite <- (Qabs_opp (px x - px y)). apply Qabs_wd. ring. Qed.

Definition ex_S : list pt := [[0%Q]].
Definition ex_C : list pt := [[0%Q]; [0%Q]].
Definition ex_T : list (list pt * sides) := [([[2%Q]; [10%Q]], SOne 0); ([[0%Q]], SArr [1%Z])].
(** tree order: target 0 of the second list first. *)
Definition ex_coords : list pt := [[0%Q]; [0%Q]; [0%Q]; [0%Q]; [2%Q]; [10%Q]].
Definition ex_shifted : btree := ex_tree ex_coords [1; 2; 3; 4; 5; 0] [5; 0; 1; 2; 3; 4].
(** tree order = user order *)
Definition ex_straight : btree := ex_tree [[0%Q]; [0%Q]; [0%Q]; [2%Q]; [10%Q]; [0%Q]] [0; 1; 2; 3; 4; 5] [0; 1; 2; 3; 4; 5].
Definition ex_discr : discr := Discr 0 [(1, 1)].
Definition ex_assoc (T : btree) (radius : Q) : assoc_outcome :=
  associate ex_dev [0; 1; 2] ex_discr ex_S ex_C ex_T T (fun _ => 3%Q) (fun _ => radius) 0.

Ltac six j := destruct j as [|[|[|[|[|[|j]]]]]]; [| | | | | |exfalso; lia].
Lemma leaf_ok coords sorted user (P : list pt) b j : length coords = length P ->
  In j (bt_leaf (ex_tree coords sorted user) b) <-> j < length P /\ bt_box_of (ex_tree coords sorted user) (bt_coords (ex_tree coords sorted user) j) = b.
Proof.
  intros E. cbn [bt_leaf bt_box_of bt_coords ex_tree]. rewrite filter_In, in_seq, Nat.eqb_eq, E. split; intros [A B]; split; auto; lia.
Qed.
Lemma ex_shifted_ok : tree_ok (particles ex_S ex_C (map fst ex_T)) ex_shifted.
Proof.
  split.
  - intros u H. change (u < 6) in H. six u; cbn; split; lia.
  - intros u H. change (u < 6) in H. six u; cbn; split; lia.
  - intros u H. change (u < 6) in H. six u; reflexivity.
  - intros b j. apply leaf_ok. reflexivity.
Qed.
Lemma ex_straight_ok : tree_ok (particles ex_S ex_C (map fst ex_T)) ex_straight.
Proof.
  split.
  - intros u H. change (u < 6) in H. six u; cbn; split; lia.
  - intros u H. change (u < 6) in H. six u; cbn; split; lia.
  - intros u H. change (u < 6) in H. six u; reflexivity.
  - intros b j. apply leaf_ok. reflexivity.
Qed.
Lemma ex_shifted_queries : queries_ok ex_dev ex_dist (particles ex_S ex_C (map fst ex_T)) ex_shifted.
Proof.
  eapply ex_queries; [reflexivity|]. intros j H. change (j < 6) in H. six j; reflexivity.
Qed.
Lemma ex_straight_queries : queries_ok ex_dev ex_dist (particles ex_S ex_C (map fst ex_T)) ex_straight.
Proof.
  eapply ex_queries; [reflexivity|]. intros j H. change (j < 6) in H. six j; reflexivity.
Qed.
Lemma ex_reach r c : (0 < r)%Q -> (0 < reach (fun _ => r) 0 c)%Q.
Proof. unfold reach. intros H. lra. Qed.

(** Radius 3: the target at 2 gets a center (on either side), the one at 10 is left alone, the
    one at 0 gets the requested side. *)
Example association_example :
  ex_assoc ex_shifted 3 = Associated [Some 0; None; Some 1]
  /\ ex_assoc ex_straight 3 = Associated [Some 0; None; Some 1].
Proof. split; vm_compute; reflexivity. Qed.
Example association_correct_applies :
  close ex_dist ex_S (concat (map fst ex_T)) (fun _ => 3%Q) 0
  /\ ~ close ex_dist ex_S (concat (map fst ex_T)) (fun _ => 3%Q) 1.
Proof.
  assert (X := @association_correct ex_dev ex_dist [0;1;2] ex_discr ex_S ex_C ex_T ex_shifted (fun _ => 3%Q) (fun _ => 3%Q) 0
     ex_shifted_ok ex_shifted_queries ex_sym (fun c => @ex_reach 3 c eq_refl) ltac:(repeat constructor) eq_refl (Permutation_refl _)).
  cbv zeta in X. change (associate _ _ _ _ _ _ _ _ _ _) with (ex_assoc ex_shifted 3) in X.
  rewrite (proj1 association_example) in X. destruct X as (_ & X & _). split.
  - assert (Y := X 0 ltac:(cbn; lia)). apply Y.
  - assert (Y := X 1 ltac:(cbn; lia)). exact Y.
Qed.
(** Radius 1/100: the target at 2 fails; with tree order = user order its element is flagged. *)
Example failure_example : ex_assoc ex_straight (1#100) = Failed [true] [true; false; false].
Proof. vm_compute. reflexivity. Qed.

(** C53 is false in general: with another tree order the AssertionError on line 946 of
    target_assoc.py is raised instead of the documented exception. *)
Lemma ex_failing : failing ex_dist ex_S ex_C (concat (map fst ex_T)) (fun _ => 3%Q) (fun _ => (1#100)%Q) 0
   (fun i => nth i (request_of ex_T) 0%Z) 0.
Proof.
  split.
  - exists 0. split; [cbn; lia|]. vm_compute. discriminate.
  - intros c (Hc & _ & Hd). cbn in Hc. destruct c as [|[|c]]; [| |lia]; revert Hd; vm_compute; intros X; apply X; reflexivity.
Qed.
Theorem failure_reported_refuted :
  ~ (forall D near order d S C targets T tunnel radius tol,
       let TG := concat (map fst targets) in
       tree_ok (particles S C (map fst targets)) T ->
       queries_ok D near (particles S C (map fst targets)) T ->
       (forall x y, (dv_dist D x y == dv_dist D y x)%Q) ->
       (forall c, (0 < reach radius tol c)%Q) ->
       proper d -> ndofs d = length S ->
       Permutation order (seq 0 (length TG)) ->
       2 * length S = length C -> sides_fit targets ->
       (exists i, i < length TG
          /\ failing (dv_dist D) S C TG tunnel radius tol (fun i => nth i (request_of targets) 0%Z) i) ->
       exists fl failed, associate D order d S C targets T tunnel radius tol = Failed fl failed).
Proof.
  intros H.
  assert (X := H ex_dev ex_dist [0;1;2] ex_discr ex_S ex_C ex_T ex_shifted (fun _ => 3%Q) (fun _ => (1#100)%Q) 0%Q
     ex_shifted_ok ex_shifted_queries ex_sym (fun c => @ex_reach (1#100) c eq_refl) ltac:(repeat constructor) eq_refl (Permutation_refl _)
     eq_refl ltac:(repeat constructor)). cbv zeta in X.
  destruct X as (fl & failed & X); [exists 0; split; [cbn; lia|exact ex_failing]|].
  change (ex_assoc ex_shifted (1#100) = Failed fl failed) in X.
  assert (Y : ex_assoc ex_shifted (1#100) = Raised AssertionError) by (vm_compute; reflexivity). congruence.
Qed.
Print Assumptions failure_reported_refuted.
