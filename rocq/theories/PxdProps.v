(** Property C134. *)
From Verif Require Import Base IndexModel DofModel DofProps PxdModel.
Open Scope nat_scope.
Set Implicit Arguments.

(** Where an array lives and its values. *)
Definition on_host A (a : arr A) : Prop := match a with Host1 _ | Host2 _ | HostObj _ => True | _ => False end.
Definition rows_of A (a : arr A) : list (list A) :=
  match a with Dev1 v | Host1 v => [v] | Dev2 r | DevObj r | Host2 r | HostObj r => r end.
(** [n] rows of length [m]. *)
Definition table A (n m : nat) (rows : list (list A)) : Prop := length rows = n /\ Forall (fun r => length r = m) rows.

Lemma table_same A n m (rows : list (list A)) : table n m rows -> same_length rows = true.
Proof.
  intros [_ H]. destruct rows as [|r rs]; [reflexivity|]. inversion H as [|? ? Hr Hs]; subst. simpl.
  apply forallb_forall. intros s Hin. rewrite Forall_forall in Hs. apply Nat.eqb_eq. apply Hs. exact Hin.
Qed.

(** Data of a generator in at least one dimension is converted: points, centers and
    radii are then on the host, as tables of [dim] rows and one vector, with the values
    they had; the descriptor and the index lists are unchanged. *)
Theorem proxies_to_numpy_partial : forall A dd src pxy (proxies centers : list (list A)) radii cluster_radii dim np nc,
  0 < dim -> table dim np proxies -> table dim nc centers ->
  exists d, pxy_to_numpy (generated dd src pxy proxies centers radii cluster_radii) = Ok d /\
    p_points d = Host2 proxies /\ p_centers d = Host2 centers /\ p_radii d = Host1 radii /\
    p_dd d = dd /\ p_srcindex d = src /\ p_pxyindex d = pxy /\ rows_of (p_cluster_radii d) = [cluster_radii].
Proof.
  intros A dd src pxy proxies centers radii cr dim np nc Hd Hp Hc. unfold pxy_to_numpy, generated. simpl.
  destruct proxies as [|p0 ps]; [destruct Hp as [E _]; simpl in E; lia|].
  destruct centers as [|c0 cs]; [destruct Hc as [E _]; simpl in E; lia|].
  pose proof (table_same Hp) as E1. pose proof (table_same Hc) as E2. simpl in E1, E2.
  unfold np_stack, same_length. rewrite E1. simpl. rewrite E2. simpl. eexists. split; [reflexivity|]. simpl. auto 9.
Qed.
Print Assumptions proxies_to_numpy_partial.

(** But never all of the arrays: the radii of the clusters are what they were, for a
    generator's data an array of the array context. *)
Theorem proxies_to_numpy_refuted : forall A (d d' : pxydata A), pxy_to_numpy d = Ok d' ->
  p_cluster_radii d' = p_cluster_radii d /\
  (forall dd src pxy proxies centers radii cr, d = generated dd src pxy proxies centers radii cr -> ~ on_host (p_cluster_radii d')).
Proof.
  intros A d d' H. assert (E : p_cluster_radii d' = p_cluster_radii d).
  { unfold pxy_to_numpy in H.
    destruct (to_numpy (p_points d)) as [a|]; simpl in H; [|discriminate H].
    destruct (np_stack a) as [a'|]; simpl in H; [|discriminate H].
    destruct (to_numpy (p_centers d)) as [b|]; simpl in H; [|discriminate H].
    destruct (np_stack b) as [b'|]; simpl in H; [|discriminate H].
    destruct (to_numpy (p_radii d)) as [c|]; simpl in H; [|discriminate H].
    injection H as <-. reflexivity. }
  split; [exact E|]. intros dd src pxy proxies centers radii cr -> F. rewrite E in F. exact F.
Qed.
Print Assumptions proxies_to_numpy_refuted.

Lemma stack_host A (a x : arr A) : np_stack a = Ok x -> to_numpy x = Err TypeError.
Proof.
  intros H. assert (exists v r, x = Host1 v \/ x = Host2 r) as (v & r & [->| ->]); [|reflexivity|reflexivity].
  unfold np_stack in H.
  destruct a as [v|r|r|[|a v]|[|a r]|[|a r]]; try discriminate H;
    try (destruct (same_length _); [|discriminate H]); injection H as <-; (eexists; eexists; eauto; fail) || (exists [], []; auto).
  Unshelve. all: exact [].
Qed.
(** Data that is on the host cannot be converted again. *)
Theorem proxies_to_numpy_twice : forall A (d d' : pxydata A), pxy_to_numpy d = Ok d' ->
  pxy_to_numpy d' = Err TypeError.
Proof.
  intros A d d' H. unfold pxy_to_numpy in H.
  destruct (to_numpy (p_points d)) as [a|]; simpl in H; [|discriminate H].
  destruct (np_stack a) as [a'|] eqn:Ea; simpl in H; [|discriminate H].
  destruct (to_numpy (p_centers d)) as [b|]; simpl in H; [|discriminate H].
  destruct (np_stack b) as [b'|]; simpl in H; [|discriminate H].
  destruct (to_numpy (p_radii d)) as [c|]; simpl in H; [|discriminate H].
  injection H as <-. unfold pxy_to_numpy. simpl. rewrite (stack_host _ Ea). reflexivity.
Qed.
Print Assumptions proxies_to_numpy_twice.

(** The first place of a name, in the order of the collection. *)
Definition place_of (c : collection) (g : option geom) (p : place) : Prop :=
  exists c1 n c2, c = c1 ++ (n, p) :: c2 /\ g = Some n /\ forall q, ~ In (n, q) c1.
Lemma get_iff c g p : get_geometry c g = Ok p <-> place_of c g p.
Proof.
  assert (B : forall n, opt_eqb geom_eqb (Some n) g = true <-> Some n = g).
  { intros n. apply (opt_eqb_eq _ geom_eqb_eq). }
  induction c as [|[n q] c IH]; cbn [get_geometry].
  - split; [discriminate|]. intros (c1 & n & c2 & E & _). destruct c1; discriminate E.
  - destruct (opt_eqb geom_eqb (Some n) g) eqn:Q.
    + apply B in Q. subst g. split.
      * intros E. injection E as ->. exists [], n, c. split; [reflexivity|]. split; [reflexivity|]. intros q' [].
      * intros (c1 & n' & c2 & E & En & Hno). injection En as <-. destruct c1 as [|x c1].
        -- injection E as <- _. reflexivity.
        -- injection E as <- _. destruct (Hno q). left. reflexivity.
    + rewrite IH. split.
      * intros (c1 & n' & c2 & -> & -> & Hno). exists ((n, q) :: c1), n', c2.
        split; [reflexivity|]. split; [reflexivity|]. intros q' [F|F]; [|exact (Hno q' F)].
        injection F as F _. rewrite F in Q. rewrite (proj2 (B n') eq_refl) in Q. discriminate Q.
      * intros (c1 & n' & c2 & E & En & Hno). destruct c1 as [|x c1].
        -- injection E as En' _ _. rewrite En' in Q. rewrite (proj2 (B n') (eq_sym En)) in Q. discriminate Q.
        -- injection E as _ ->. exists c1, n', c2. split; [reflexivity|]. split; [exact En|].
           intros q' F. apply (Hno q'). right. exact F.
Qed.
Lemma get_none c g : (forall p, ~ place_of c g p) <-> get_geometry c g = Err KeyError.
Proof.
  destruct (get_geometry c g) as [p|e] eqn:E.
  - split; [|discriminate]. intros H. destruct (H p). apply get_iff. exact E.
  - split; [|intros _ p H; apply get_iff in H; congruence]. intros _. f_equal.
    revert E. induction c as [|[n q] c IH]; cbn [get_geometry].
    + intros E. injection E as <-. reflexivity.
    + destruct (opt_eqb geom_eqb (Some n) g); [discriminate|exact IH].
Qed.

(** As sources, and just the same as targets, the data stands for the proxy points it
    has, next to the QBX source it was made for; this fails with KeyError exactly if the
    geometry is not in the collection, and with AssertionError exactly if it is not a QBX
    source or the points do not have its dimension. *)
Theorem proxies_as_places : forall A (c : collection) (d : pxydata A),
  as_sources c d = as_targets c d /\
  (forall r, as_sources c d = Ok r <->
     exists i, r = (i, p_points d) /\ place_of c (geometry (p_dd d)) (QbxSource i (shape0 (p_points d)))) /\
  (as_sources c d = Err KeyError <-> forall p, ~ place_of c (geometry (p_dd d)) p) /\
  (as_sources c d = Err AssertionError <-> exists p, place_of c (geometry (p_dd d)) p /\
     forall i, p <> QbxSource i (shape0 (p_points d))).
Proof.
  intros A c d. split; [reflexivity|]. rewrite get_none. unfold as_sources.
  destruct (get_geometry c (geometry (p_dd d))) as [p|e] eqn:E; cbn [Verif.Base.bind].
  - assert (Hp : place_of c (geometry (p_dd d)) p) by (apply get_iff; exact E).
    assert (Hu : forall q, place_of c (geometry (p_dd d)) q -> q = p).
    { intros q Hq. apply get_iff in Hq. congruence. }
    destruct p as [i n|].
    + unfold proxy_point. destruct (shape0 (p_points d) =? n) eqn:En.
      * apply Nat.eqb_eq in En. subst n. split; [|split].
        -- intros r. split; [intros F; injection F as <-; eauto|].
           intros (j & -> & Hj). apply Hu in Hj. injection Hj as ->. reflexivity.
        -- split; discriminate.
        -- split; [discriminate|]. intros (p & Hp' & Hne). destruct (Hne i). exact (Hu p Hp').
      * apply Nat.eqb_neq in En. split; [|split].
        -- intros r. split; [discriminate|]. intros (j & _ & Hj). apply Hu in Hj. congruence.
        -- split; discriminate.
        -- split; [|reflexivity]. intros _. exists (QbxSource i n). split; [exact Hp|]. congruence.
    + split; [|split].
      * intros r. split; [discriminate|]. intros (j & _ & Hj). apply Hu in Hj. discriminate Hj.
      * split; discriminate.
      * split; [|reflexivity]. intros _. exists OtherPlace. split; [exact Hp|]. discriminate.
  - assert (Hno : forall p, ~ place_of c (geometry (p_dd d)) p) by (intros p F; apply get_iff in F; congruence).
    apply get_none in Hno. assert (e = KeyError) as -> by congruence. rewrite <- E in Hno. clear Hno.
    split; [|split; [tauto|]].
    + intros r. split; [discriminate|]. intros (j & _ & Hj). apply get_iff in Hj. congruence.
    + split; [discriminate|]. intros (p & Hp & _). apply get_iff in Hp. congruence.
Qed.
Print Assumptions proxies_as_places.

(** ** Non-vacuity: two proxies in the plane for one cluster. *)
Definition ex_dd : dofdesc := DD (Some (GName "a")) None NODE.
Definition ex_il : indexlist := IL [0%Z; 1%Z] [0%Z; 2%Z].
Definition ex_data : pxydata nat := generated ex_dd ex_il ex_il [[1; 2]; [3; 4]] [[5]; [6]] [7] [8].
Example ex_convert : pxy_to_numpy ex_data =
    Ok (Pxy ex_dd ex_il ex_il (Host2 [[1; 2]; [3; 4]]) (Host2 [[5]; [6]]) (Host1 [7]) (Dev1 [8]))
  /\ as_sources [(GName "a", QbxSource 3 2)] ex_data = Ok (3, Dev2 [[1; 2]; [3; 4]])
  /\ as_sources [(GName "a", QbxSource 3 3)] ex_data = Err AssertionError
  /\ as_sources [(GName "b", QbxSource 3 2)] ex_data = Err KeyError.
Proof. repeat split. Qed.
