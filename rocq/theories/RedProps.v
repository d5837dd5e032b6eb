(** C110, C111: reductions, integrals and norms. *)
From Coq Require Import Reals Lra.
From Coquelicot Require Import Coquelicot.
From Verif Require Import Base DofModel RedModel RedSpec RedProofs RedProofs2.
Set Implicit Arguments.
Open Scope string_scope. Open Scope list_scope. Open Scope nat_scope.

(** C110.  Sums, minima and maxima over all nodes are those of all values of the array; extrema
    exist exactly for real arrays without empty groups. *)
Theorem node_reductions : forall dsc ctx e a r,
  ev dsc ctx e = Ok (VArr a) -> proper a ->
  (forall v, ev dsc ctx (XNode r e) = Ok v -> exists m, v = VNum (cplx a) m /\ reduces r (entries a) m) /\
  ((exists v, ev dsc ctx (XNode r e) = Ok v) <-> r = RSum \/ (cplx a = false /\ no_empty_group (shape a))).
Proof.
  intros dsc ctx e a r He Hp. cbn [ev]. rewrite He. cbn [bind].
  assert (F : ~ (r = RSum \/ (cplx a = false /\ no_empty_group (shape a))) -> exists er, node_reduce r (VArr a) = Err er).
  { intros H. assert (Hr : r <> RSum) by tauto. unfold node_reduce.
    destruct (mapM (fun g => reduce r (cplx a) (concat g)) (groups a)) as [gs|er] eqn:E; [|eexists; reflexivity]. cbn [bind].
    destruct (cplx a) eqn:Ec.
    - destruct (@reduce_fails r true gs Hr (or_introl eq_refl)) as (er & ->). eexists. reflexivity.
    - assert (Hg : groups a = []).
      { destruct (groups a) as [|g l] eqn:Eg; [reflexivity|]. exfalso. apply H. right. split; [reflexivity|]. unfold shape. rewrite Eg. split; [discriminate|].
        intros n Hn Hz. apply in_map_iff in Hn. destruct Hn as (h & <- & Hh). rewrite <- concat_len in Hz. apply length_zero_iff_nil in Hz.
        clear - E Hh Hz Hr. revert gs E. induction (g :: l) as [|k m IH]; intros gs E; [destruct Hh|]. cbn [mapM] in E. destruct Hh as [->|Hh].
        - rewrite Hz in E. destruct (@reduce_fails r false [] Hr (or_intror eq_refl)) as (er & Ee). rewrite Ee in E. discriminate.
        - destruct (reduce r false (concat k)); [|discriminate]. cbn [bind] in E. destruct (mapM _ m) as [ys|]; [|discriminate]. eapply IH; [exact Hh|reflexivity]. }
      rewrite Hg in E. cbn in E. injection E; intros <-. destruct (@reduce_fails r false [] Hr (or_intror eq_refl)) as (er & ->). eexists. reflexivity. }
  assert (Dec : (r = RSum \/ (cplx a = false /\ no_empty_group (shape a))) \/ ~ (r = RSum \/ (cplx a = false /\ no_empty_group (shape a)))).
  { destruct r; [left; left; reflexivity| |];
    (destruct (cplx a); [right; intros [?|[? _]]; discriminate|];
     destruct (shape a) as [|g l] eqn:Es; [right; intros [?|[_ [H _]]]; congruence|];
     destruct (existsb (fun g => list_sum g =? 0) (g :: l)) eqn:Ex;
     [right; intros [?|[_ [_ H]]]; [discriminate|]; apply existsb_exists in Ex; destruct Ex as (k & Hk & Ek); apply Nat.eqb_eq in Ek; exact (H k Hk Ek)
     |left; right; split; [reflexivity|]; split; [discriminate|]; intros k Hk Ek;
      assert (existsb (fun g => list_sum g =? 0) (g :: l) = true) by (apply existsb_exists; exists k; split; [exact Hk|apply Nat.eqb_eq; exact Ek]); congruence]). }
  destruct Dec as [Y|N].
  - destruct (node_reduce_ok Hp Y) as (m & Em & Hm & _). rewrite Em. split.
    + intros v Hv. injection Hv; intros <-. exists m. split; [reflexivity|exact Hm].
    + split; [intros _; exact Y|intros _; eexists; reflexivity].
  - destruct (F N) as (er & ->). split; [discriminate|]. split; [intros (v & Hv); discriminate|intros Y; contradiction].
Qed.
Print Assumptions node_reductions.
Theorem node_reductions_of_arrays_only : forall dsc ctx e r v,
  ev dsc ctx e = Ok v -> (forall a, v <> VArr a) -> ev dsc ctx (XNode r e) = Err AssertionError.
Proof. intros dsc ctx e r v He Hv. cbn [ev]. rewrite He. cbn [bind]. destruct v; try reflexivity. exfalso. eapply Hv. reflexivity. Qed.
Print Assumptions node_reductions_of_arrays_only.

(** C110.  Elementwise reductions: with node granularity every node has the reduction of the
    values of its element, with element granularity there is one value per element. *)
Lemma mapM_len (A B : Type) (f : A -> result B) l ys : mapM f l = Ok ys -> length ys = length l.
Proof.
  revert ys. induction l as [|x l IH]; intros ys H; cbn [mapM] in H; [injection H; intros <-; reflexivity|].
  destruct (f x) as [y|]; [|discriminate]. cbn [bind] in H. destruct (mapM f l) as [zs|]; [|discriminate]. cbn [bind] in H. injection H; intros <-. cbn [length]. rewrite (IH zs); reflexivity.
Qed.
Lemma mapM_nth_error (A B : Type) (f : A -> result B) l ys k y : mapM f l = Ok ys -> nth_error ys k = Some y -> exists x, nth_error l k = Some x /\ f x = Ok y.
Proof.
  revert ys k. induction l as [|x l IH]; intros ys k H Hk; cbn [mapM] in H; [injection H; intros <-; destruct k; discriminate|].
  destruct (f x) as [z|] eqn:Ef; [|discriminate]. cbn [bind] in H. destruct (mapM f l) as [zs|]; [|discriminate]. cbn [bind] in H. injection H; intros <-.
  destruct k as [|k]; [cbn in Hk; injection Hk; intros <-; exists x; split; [reflexivity|exact Ef]|]. exact (IH zs k eq_refl Hk).
Qed.
Theorem elementwise_reductions : forall dsc ctx e a r dd v,
  ev dsc ctx e = Ok (VArr a) -> proper a -> (r <> RSum -> forall g k, In g (shape a) -> In k g -> k <> 0) ->
  (r <> RSum -> cplx a = false) ->
  granularity dd <> CENTER ->
  (ev dsc ctx (XElt r e dd) = Ok v <->
   exists b, v = VArr b /\ cplx b = cplx a /\ length (groups b) = length (groups a) /\
   forall g ga gb, nth_error (groups a) g = Some ga -> nth_error (groups b) g = Some gb ->
   length gb = length ga /\
   forall k ra rb, nth_error ga k = Some ra -> nth_error gb k = Some rb ->
   exists m, reduces r ra m /\ rb = repeat m (match granularity dd with NODE => length ra | _ => 1 end)).
Proof.
  intros dsc ctx e a r dd v He Hp Hne Hc Hg.
  assert (Hu : forall l m m', (cplx a = false -> forall x, In x l -> snd x = 0%R) -> (r <> RSum -> l <> []) -> reduces r l m -> reduces r l m' -> m = m').
  { intros l m m' Hl Hn H H'. destruct r; cbn [reduces] in *.
    - congruence.
    - assert (Hb : cplx a = false) by (apply Hc; discriminate). destruct H as [H1 H2], H' as [H3 H4].
      apply injective_projections; [apply Rle_antisym; auto|rewrite (Hl Hb _ H1), (Hl Hb _ H3); reflexivity].
    - assert (Hb : cplx a = false) by (apply Hc; discriminate). destruct H as [H1 H2], H' as [H3 H4].
      apply injective_projections; [apply Rle_antisym; auto|rewrite (Hl Hb _ H1), (Hl Hb _ H3); reflexivity]. }
  set (w := match granularity dd with NODE => fun ra : list C => length ra | _ => fun _ => 1 end).
  assert (Hk : forall row, In row (concat (groups a)) -> exists m,
            (match granularity dd with NODE => elt_node_kernel | _ => elt_element_kernel end) r (cplx a) row = Ok (repeat m (w row)) /\ reduces r row m).
  { intros row Hrow. destruct (@reduce_ok r (cplx a) row) as (m & Em & Hm & _).
    - destruct r; [left; reflexivity| |]; right; (split; [apply Hc; discriminate|]); intros ->;
      apply in_concat in Hrow; destruct Hrow as (g & Hg1 & Hg2); apply (Hne ltac:(discriminate) (map (@length _) g) 0); try reflexivity;
      [apply in_map; exact Hg1|apply in_map_iff; exists []; split; [reflexivity|exact Hg2]|apply in_map; exact Hg1|apply in_map_iff; exists []; split; [reflexivity|exact Hg2]].
    - intros Hb x Hx. apply (Hp Hb). unfold entries. apply in_concat in Hrow. destruct Hrow as (g & Hg1 & Hg2). apply in_concat. exists (concat g).
      split; [apply in_map; exact Hg1|]. apply in_concat. exists row. split; assumption.
    - exists m. split; [|exact Hm]. destruct (granularity dd); [|congruence|]; unfold elt_node_kernel, elt_element_kernel; rewrite Em; reflexivity. }
  set (knl := match granularity dd with NODE => elt_node_kernel | _ => elt_element_kernel end) in *.
  destruct (@mapM_rel group group (mapM (knl r (cplx a)))
              (fun ga gb => length gb = length ga /\ forall k ra rb, nth_error ga k = Some ra -> nth_error gb k = Some rb -> exists m, reduces r ra m /\ rb = repeat m (w ra)) (groups a)) as (gs & Egs & Hgs).
  { intros ga Hga. destruct (@mapM_rel _ _ (knl r (cplx a)) (fun ra rb => exists m, reduces r ra m /\ rb = repeat m (w ra)) ga) as (gb & Eb & Hb).
    - intros row Hrow. destruct (Hk row) as (m & Em & Hm); [apply in_concat; exists ga; split; assumption|]. eexists. split; [exact Em|]. exists m. split; [exact Hm|reflexivity].
    - exists gb. split; [exact Eb|]. split; [eapply mapM_len; exact Eb|]. clear - Hb. induction Hb as [|x y l l' H _ IH]; intros k ra rb H1 H2; [destruct k; discriminate|].
      destruct k as [|k]; [cbn in H1, H2; injection H1; intros <-; injection H2; intros <-; exact H|]. exact (IH k ra rb H1 H2). }
  assert (Ev : ev dsc ctx (XElt r e dd) = Ok (VArr (Arr (cplx a) gs))).
  { cbn [ev]. rewrite He. cbn [bind]. unfold elt_reduce. fold knl. destruct (granularity dd) eqn:Egr; [|congruence|]; rewrite Egs; reflexivity. }
  rewrite Ev.
  assert (Sp : length gs = length (groups a) /\ forall g ga gb, nth_error (groups a) g = Some ga -> nth_error gs g = Some gb ->
     length gb = length ga /\ forall k ra rb, nth_error ga k = Some ra -> nth_error gb k = Some rb -> exists m, reduces r ra m /\ rb = repeat m (w ra)).
  { split; [eapply mapM_len; exact Egs|]. clear - Hgs. induction Hgs as [|x y l l' H _ IH]; intros g ga gb H1 H2; [destruct g; discriminate|].
    destruct g as [|g]; [cbn in H1, H2; injection H1; intros <-; injection H2; intros <-; exact H|]. exact (IH g ga gb H1 H2). }
  assert (Ew : forall ra, w ra = match granularity dd with NODE => length ra | _ => 1 end) by (intros ra; unfold w; destruct (granularity dd); reflexivity).
  split.
  - intros H. injection H; intros <-. exists (Arr (cplx a) gs). split; [reflexivity|]. split; [reflexivity|]. cbn [groups]. destruct Sp as [S1 S2]. split; [exact S1|].
    intros g ga gb H1 H2. destruct (S2 g ga gb H1 H2) as [L S3]. split; [exact L|]. intros k ra rb H3 H4. destruct (S3 k ra rb H3 H4) as (m & Hm & E). exists m. rewrite <- Ew. split; assumption.
  - intros (b & -> & Hb & Lb & S'). destruct Sp as [S1 S2]. destruct b as [cb gb0]. cbn [cplx groups] in *. subst cb. f_equal. f_equal. f_equal.
    apply nth_ext with (d := []) (d' := []); [congruence|]. intros g Hlt.
    assert (Hga : exists ga, nth_error (groups a) g = Some ga) by (destruct (nth_error (groups a) g) eqn:E; [eexists; reflexivity|apply nth_error_None in E; lia]).
    destruct Hga as (ga & Hga). pose proof (@nth_error_nth' _ gs g [] Hlt) as N1. pose proof (@nth_error_nth' _ gb0 g [] ltac:(lia)) as N2.
    destruct (S2 g ga _ Hga N1) as [L1 R1]. destruct (S' g ga _ Hga N2) as [L2 R2].
    apply nth_ext with (d := []) (d' := []); [congruence|]. intros k Hk'.
    assert (Hra : exists ra, nth_error ga k = Some ra) by (destruct (nth_error ga k) eqn:E; [eexists; reflexivity|apply nth_error_None in E; lia]).
    destruct Hra as (ra & Hra). destruct (R1 k ra _ Hra (@nth_error_nth' _ _ k [] Hk')) as (m1 & M1 & E1). destruct (R2 k ra _ Hra (@nth_error_nth' _ (nth g gb0 []) k [] ltac:(lia))) as (m2 & M2 & E2).
    rewrite E1, E2. rewrite Ew. f_equal. eapply Hu; [| |exact M1|exact M2].
    + intros Hb x Hx. apply (Hp Hb). unfold entries. apply in_concat. exists (concat ga). split; [apply in_map; eapply nth_error_In; exact Hga|].
      apply in_concat. exists ra. split; [eapply nth_error_In; exact Hra|exact Hx].
    + intros Hr ->. apply (Hne Hr (map (@length _) ga) 0); [unfold shape; apply in_map; eapply nth_error_In; exact Hga| |reflexivity].
      apply in_map_iff. exists []. split; [reflexivity|]. eapply nth_error_In; exact Hra.
Qed.
Print Assumptions elementwise_reductions.
Theorem elementwise_center_refused : forall dsc ctx e v r dd,
  ev dsc ctx e = Ok v -> granularity dd = CENTER -> ev dsc ctx (XElt r e dd) = Err ValueError.
Proof. intros dsc ctx e v r dd He Hg. cbn [ev]. rewrite He. cbn [bind]. unfold elt_reduce. rewrite Hg. reflexivity. Qed.
Print Assumptions elementwise_center_refused.

(** C110.  Max and Min of real numbers and arrays of one shape are taken node by node. *)
Definition hv (s : list (list nat)) (F : nat -> R) (v : val) : Prop := real_valued s v /\ forall i, i < size s -> val_at v i = RtoC (F i).
Lemma hv_bin f s F G a b : hv s F a -> hv s G b -> exists w, vminmax f a b = Ok w /\ hv s (fun i => f (F i) (G i)) w /\ is_arr w = is_arr a || is_arr b.
Proof.
  intros [Ra Ha] [Rb Hb]. unfold vminmax.
  assert (Ia : is_real a = true) by (destruct a as [? ?|a|?]; cbn in *; [destruct Ra as [-> _]|destruct Ra as (_ & -> & _)|destruct Ra]; reflexivity).
  assert (Ib : is_real b = true) by (destruct b as [? ?|b|?]; cbn in *; [destruct Rb as [-> _]|destruct Rb as (_ & -> & _)|destruct Rb]; reflexivity).
  rewrite Ia, Ib. cbn [andb].
  assert (Fin : forall H v, has s false H v -> (forall i, i < size s -> H i = RtoC (f (F i) (G i))) -> hv s (fun i => f (F i) (G i)) v /\ is_arr v = true).
  { intros H v (u & -> & Hs & Hc & He) Hv. split; [|reflexivity]. split; [cbn; split; [exact Hs|]; split; [exact Hc|]|].
    - intros _ x Hx. rewrite He in Hx. apply in_map_iff in Hx. destruct Hx as (i & <- & Hi). apply in_seq in Hi. rewrite Hv by lia. reflexivity.
    - intros i Hi. cbn [val_at]. unfold value_at. rewrite He. rewrite nth_indep with (d' := H 0) by (rewrite map_length, seq_length; exact Hi).
      rewrite map_nth, seq_nth by exact Hi. apply Hv. exact Hi. }
  destruct a as [ba ca|a|]; destruct b as [bb cb|b|]; try (destruct Ra); try (destruct Rb); cbn [is_arr orb].
  - subst ba bb. cbn [vbin orb]. eexists. split; [reflexivity|]. split; [|reflexivity]. split; [split; reflexivity|]. intros i Hi. cbn [val_at] in *. unfold on_re.
    rewrite (Ha i Hi), (Hb i Hi). reflexivity.
  - subst ba. destruct H2 as [H3 H4]. destruct (has_num (on_re f) false ca (has_real H1 H3 H4)) as (w & Ew & Hw). exists w. split; [exact Ew|].
    apply (Fin _ _ Hw). intros i Hi. cbn [val_at] in *. unfold on_re. rewrite (Ha i Hi), (Hb i Hi). reflexivity.
  - subst bb. destruct H0 as [H3 H4]. destruct (has_num_r (on_re f) false cb (has_real H H3 H4)) as (w & Ew & Hw). exists w. split; [exact Ew|].
    apply (Fin _ _ Hw). intros i Hi. cbn [val_at] in *. unfold on_re. rewrite (Ha i Hi), (Hb i Hi). reflexivity.
  - destruct H0 as [H3 H4]. destruct H2 as [H5 H6]. destruct (has_bin (on_re f) (has_real H H3 H4) (has_real H1 H5 H6)) as (w & Ew & Hw). exists w. split; [exact Ew|].
    apply (Fin _ _ Hw). intros i Hi. cbn [val_at] in *. unfold on_re. rewrite (Ha i Hi), (Hb i Hi). reflexivity.
Qed.
Lemma real_hv s v : real_valued s v -> hv s (fun i => fst (val_at v i)) v.
Proof.
  intros H. split; [exact H|]. intros i Hi. apply real_is. destruct v as [b c|a|]; cbn in *; [apply H| |destruct H].
  destruct H as (Hs & Hc & Hp). apply (Hp Hc). unfold value_at. apply nth_In. rewrite entries_len, Hs. exact Hi.
Qed.
Lemma hv_fold f s vs : Forall (real_valued s) vs -> forall v F, hv s F v ->
  exists w, foldM1 (vminmax f) v vs = Ok w /\ hv s (fun i => rext f (F i) (map (fun u => fst (val_at u i)) vs)) w /\ is_arr w = is_arr v || existsb is_arr vs.
Proof.
  induction vs as [|u vs IH]; intros Hr v F Hv; [exists v; split; [reflexivity|]; split; [exact Hv|]; cbn; rewrite orb_false_r; reflexivity|].
  inversion Hr as [|? ? Hu Hr']; subst. destruct (hv_bin f Hv (@real_hv s u Hu)) as (w & Ew & Hw & Aw).
  destruct (IH Hr' w _ Hw) as (w' & Ew' & Hw' & Aw'). exists w'. cbn [foldM1]. rewrite Ew. cbn [bind]. split; [exact Ew'|]. split; [exact Hw'|].
  rewrite Aw', Aw. cbn [existsb]. rewrite orb_assoc. reflexivity.
Qed.
Lemma minmax_ok f s vs : vs <> [] -> Forall (real_valued s) vs ->
  exists w, map_minmax f vs = Ok w /\ real_valued s w /\ is_arr w = existsb is_arr vs /\
  (forall i, i < size s -> exists v vs', vs = v :: vs' /\ val_at w i = RtoC (rext f (fst (val_at v i)) (map (fun u => fst (val_at u i)) vs'))) /\
  (existsb is_arr vs = false -> exists v vs', vs = v :: vs' /\ val_at w 0 = RtoC (rext f (fst (val_at v 0)) (map (fun u => fst (val_at u 0)) vs'))).
Proof.
  intros Hne Hr. unfold map_minmax. destruct (existsb is_arr vs) eqn:Ea.
  - destruct vs as [|v vs]; [congruence|]. inversion Hr as [|? ? Hv Hr']; subst. destruct (hv_fold f Hr' (@real_hv s v Hv)) as (w & Ew & [Rw Vw] & Aw).
    exists w. split; [exact Ew|]. split; [exact Rw|]. split; [rewrite Aw; exact Ea|]. split; [|discriminate]. intros i Hi. exists v, vs. split; [reflexivity|]. apply Vw. exact Hi.
  - assert (N : nums vs = Ok (map (fun u => fst (val_at u 0)) vs) /\ forall i, map (fun u => fst (val_at u i)) vs = map (fun u => fst (val_at u 0)) vs).
    { clear Hne. induction vs as [|v vs IH]; [split; reflexivity|]. cbn [existsb] in Ea. apply orb_false_iff in Ea. destruct Ea as [Ev Ea]. inversion Hr as [|? ? Hv Hr']; subst.
      destruct (IH Hr' Ea) as [I1 I2]. destruct v as [b c|a|]; [|discriminate Ev|destruct Hv]. cbn in Hv. destruct Hv as [-> _]. cbn [nums map]. rewrite I1. split; [reflexivity|].
      intros i. rewrite I2. reflexivity. }
    destruct N as [N1 N2]. rewrite N1. cbn [bind]. destruct vs as [|v vs]; [congruence|]. cbn [map]. eexists. split; [reflexivity|]. split; [split; reflexivity|]. split; [reflexivity|].
    split; [|intros _; exists v, vs; split; reflexivity]. intros i Hi. exists v, vs. split; [reflexivity|]. specialize (N2 i). cbn [map] in N2. injection N2; intros E1 E2. cbn [val_at]. rewrite E1, E2. reflexivity.
Qed.
Lemma ev_list dsc ctx l vs : Forall2 (fun e v => ev dsc ctx e = Ok v) l vs -> mapM (ev dsc ctx) l = Ok vs.
Proof. induction 1 as [|e v l vs H _ IH]; [reflexivity|]. cbn [mapM]. rewrite H, IH. reflexivity. Qed.
Theorem max_min_values : forall dsc ctx l vs s, Forall2 (fun e v => ev dsc ctx e = Ok v) l vs -> vs <> [] -> Forall (real_valued s) vs ->
  (exists w, ev dsc ctx (XMax l) = Ok w /\ real_valued s w /\ is_arr w = existsb is_arr vs /\
     forall i, i < size s \/ existsb is_arr vs = false -> (exists v, In v vs /\ val_at w i = val_at v i) /\ forall v, In v vs -> (fst (val_at v i) <= fst (val_at w i))%R) /\
  (exists w, ev dsc ctx (XMin l) = Ok w /\ real_valued s w /\ is_arr w = existsb is_arr vs /\
     forall i, i < size s \/ existsb is_arr vs = false -> (exists v, In v vs /\ val_at w i = val_at v i) /\ forall v, In v vs -> (fst (val_at w i) <= fst (val_at v i))%R).
Proof.
  intros dsc ctx l vs s Hl Hne Hr. cbn [ev]. rewrite (ev_list _ _ Hl). cbn [bind].
  assert (Num : forall i v, existsb is_arr vs = false -> In v vs -> val_at v i = val_at v 0).
  { intros i v Hx Hv. rewrite Forall_forall in Hr. specialize (Hr v Hv). destruct v as [b c|a|]; [reflexivity| |destruct Hr].
    assert (existsb is_arr vs = true) by (apply existsb_exists; exists (VArr a); split; [exact Hv|reflexivity]). congruence. }
  assert (Real : forall i v, i < size s \/ existsb is_arr vs = false -> In v vs -> val_at v i = RtoC (fst (val_at v i))).
  { intros i v Hi Hv. assert (Hrv : real_valued s v) by (rewrite Forall_forall in Hr; auto). destruct Hi as [Hi|Hx]; [apply (@real_hv s v Hrv); exact Hi|].
    destruct v as [b c|a|]; [|assert (existsb is_arr vs = true) by (apply existsb_exists; exists (VArr a); split; [exact Hv|reflexivity]); congruence|destruct Hrv].
    cbn in *. apply real_is. apply Hrv. }
  split.
  - destruct (@minmax_ok Rmax s vs Hne Hr) as (w & Ew & Rw & Aw & H1 & H2). exists w. split; [exact Ew|]. split; [exact Rw|]. split; [exact Aw|]. intros i Hi.
    assert (H : exists v vs', vs = v :: vs' /\ val_at w i = RtoC (rext Rmax (fst (val_at v i)) (map (fun u => fst (val_at u i)) vs'))).
    { destruct Hi as [Hi|Hx]; [apply H1; exact Hi|]. destruct (H2 Hx) as (v & vs' & E & Hw). exists v, vs'. split; [exact E|].
      destruct w as [b c|a|]; [|rewrite Hx in Aw; discriminate|destruct Rw]. cbn [val_at] in *. rewrite Hw. rewrite (Num i v Hx) by (rewrite E; left; reflexivity).
      f_equal. f_equal. apply map_ext_in. intros u Hu. rewrite (Num i u Hx) by (rewrite E; right; exact Hu). reflexivity. }
    destruct H as (v & vs' & E & Hw). destruct (rext_max (fst (val_at v i)) (map (fun u => fst (val_at u i)) vs')) as [G1 G2].
    change (fst (val_at v i) :: map (fun u => fst (val_at u i)) vs') with (map (fun u => fst (val_at u i)) (v :: vs')) in *. rewrite <- E in *. rewrite Hw. split.
    + apply in_map_iff in G1. destruct G1 as (u & Eu & Hu). exists u. split; [exact Hu|]. rewrite (Real i u Hi Hu), Eu. reflexivity.
    + intros u Hu. rewrite fst_RtoC. apply G2. apply in_map_iff. exists u. split; [reflexivity|exact Hu].
  - destruct (@minmax_ok Rmin s vs Hne Hr) as (w & Ew & Rw & Aw & H1 & H2). exists w. split; [exact Ew|]. split; [exact Rw|]. split; [exact Aw|]. intros i Hi.
    assert (H : exists v vs', vs = v :: vs' /\ val_at w i = RtoC (rext Rmin (fst (val_at v i)) (map (fun u => fst (val_at u i)) vs'))).
    { destruct Hi as [Hi|Hx]; [apply H1; exact Hi|]. destruct (H2 Hx) as (v & vs' & E & Hw). exists v, vs'. split; [exact E|].
      destruct w as [b c|a|]; [|rewrite Hx in Aw; discriminate|destruct Rw]. cbn [val_at] in *. rewrite Hw. rewrite (Num i v Hx) by (rewrite E; left; reflexivity).
      f_equal. f_equal. apply map_ext_in. intros u Hu. rewrite (Num i u Hx) by (rewrite E; right; exact Hu). reflexivity. }
    destruct H as (v & vs' & E & Hw). destruct (rext_min (fst (val_at v i)) (map (fun u => fst (val_at u i)) vs')) as [G1 G2].
    change (fst (val_at v i) :: map (fun u => fst (val_at u i)) vs') with (map (fun u => fst (val_at u i)) (v :: vs')) in *. rewrite <- E in *. rewrite Hw. split.
    + apply in_map_iff in G1. destruct G1 as (u & Eu & Hu). exists u. split; [exact Hu|]. rewrite (Real i u Hi Hu), Eu. reflexivity.
    + intros u Hu. rewrite fst_RtoC. apply G2. apply in_map_iff. exists u. split; [reflexivity|exact Hu].
Qed.
Print Assumptions max_min_values.

(** C110.  [integral] is the sum over all nodes of area element, weight and value. *)
Theorem integral_value : forall d s x, discretization d s -> shape x = s ->
  integral d (VArr x) = Ok (VNum (cplx x) (csum_n (size s) (fun i => Cmult (RtoC (measure_at d i)) (value_at x i)))).
Proof.
  intros d s x Hd Hx. unfold integral. apply integral_expr; [exact Hd|]. exists (VArr x). split; [reflexivity|]. apply has_arr. exact Hx.
Qed.
Print Assumptions integral_value.
Theorem integral_of_number : forall d s b c, discretization d s ->
  integral d (VNum b c) = Ok (VNum b (Cmult (RtoC (rsum (size s) (measure_at d))) c)).
Proof.
  intros d s b c (Hw & Ha & Cw & Ca & Pw & Pa). unfold integral, evaluate, x_integral. cbn [ev mapM bind]. rewrite String.eqb_refl. cbn [bind foldM1].
  destruct (has_num Cmult false (RtoC 1) (has_real Ha Ca Pa)) as (v1 & E1 & H1). rewrite E1. cbn [bind].
  destruct (has_bin Cmult H1 (has_real Hw Cw Pw)) as (v2 & E2 & H2). rewrite E2. cbn [bind].
  destruct (has_num_r Cmult b c H2) as (v3 & E3 & H3). rewrite E3. cbn [bind]. rewrite (has_sum H3). cbn [orb]. f_equal. f_equal.
  rewrite <- csum_n_real. clear. unfold csum_n, measure_at. induction (seq 0 (size s)) as [|i l IH]; cbn [fold_right]; [ring|].
  rewrite IH, RtoC_mult. ring.
Qed.
Print Assumptions integral_of_number.

(** C110.  The mean of a constant is the constant; the mean of real values lies between bounds of
    the values. *)
Lemma area_value d s name x u : discretization d s -> (exists us, d_nodes d = u :: us) -> shape u = s -> cplx u = false ->
  evaluate d name x (x_area dd0) = Ok (VNum false (RtoC (rsum (size s) (measure_at d)))).
Proof.
  intros Hd (us & Hn) Hu Hc. unfold x_area. rewrite (@integral_expr d s name x (XOnes dd0) false (fun _ => RtoC 1) Hd).
  - f_equal. f_equal. rewrite <- csum_n_real. apply csum_n_ext. intros i _. ring.
  - unfold evaluate. cbn [ev bind]. rewrite Hn. eexists. split; [reflexivity|]. eexists. split; [reflexivity|]. rewrite shape_map, (entries_map (fun _ => RtoC 1)). split; [exact Hu|].
    split; [exact Hc|]. pose proof (has_arr u Hu) as (u' & E & _ & _ & He). injection E; intros <-. rewrite He, map_map. reflexivity.
Qed.
Theorem mean_value : forall d s x u, discretization d s -> nonneg_measure d s -> (exists us, d_nodes d = u :: us) -> shape u = s -> cplx u = false ->
  (0 < rsum (size s) (measure_at d))%R ->
  (forall b c, exists b', evaluate d "x" (VNum b c) (x_mean dd0 (XVar "x")) = Ok (VNum b' c)) /\
  (shape x = s -> cplx x = false -> proper x -> exists m, evaluate d "x" (VArr x) (x_mean dd0 (XVar "x")) = Ok (VNum false (RtoC m)) /\
     forall lo hi, (forall i, i < size s -> (lo <= fst (value_at x i) <= hi)%R) -> (lo <= m <= hi)%R).
Proof.
  intros d s x u Hd Hm Hn Hu Hc Hpos.
  assert (Hnz : RtoC (rsum (size s) (measure_at d)) <> RtoC 0) by (intros E; apply RtoC_inj in E; lra). split.
  - intros b c. unfold x_mean, evaluate. cbn [ev]. fold (evaluate d "x" (VNum b c)). 
    pose proof (@integral_of_number d s b c Hd) as I. unfold integral, evaluate, x_integral in I. cbn [ev] in I.
    pose proof (@area_value d s "x" (VNum b c) u Hd Hn Hu Hc) as A. unfold evaluate, x_area, x_integral in A.
    unfold x_integral, x_area, x_integral. cbn [ev mapM bind] in *. rewrite !String.eqb_refl in *. cbn [bind] in *. rewrite I. cbn [bind]. rewrite A. cbn [bind vbin].
    eexists. f_equal. f_equal. field. exact Hnz.
  - intros Hx Cx Px. assert (I : evaluate d "x" (VArr x) (x_integral dd0 (XVar "x")) = Ok (VNum false (RtoC (rsum (size s) (fun i => (measure_at d i * fst (value_at x i))%R))))).
    { rewrite (@integral_expr d s "x" (VArr x) (XVar "x") false (fun i => RtoC (fst (value_at x i))) Hd).
      - f_equal. f_equal. rewrite <- csum_n_real. apply csum_n_ext. intros i _. rewrite RtoC_mult. reflexivity.
      - exists (VArr x). split; [reflexivity|]. apply has_real; assumption. }
    pose proof (@area_value d s "x" (VArr x) u Hd Hn Hu Hc) as A.
    exists (rsum (size s) (fun i => (measure_at d i * fst (value_at x i))%R) / rsum (size s) (measure_at d))%R. split.
    + unfold evaluate in *. unfold x_mean. cbn [ev]. rewrite I. cbn [bind]. rewrite A. cbn [bind vbin orb]. rewrite RtoC_div by lra. reflexivity.
    + intros lo hi Hb. assert (L : (lo * rsum (size s) (measure_at d) <= rsum (size s) (fun i => (measure_at d i * fst (value_at x i))%R) <= hi * rsum (size s) (measure_at d))%R).
      { rewrite !rsum_lsum, <- !lsum_scal. split; apply lsum_le; intros i Hi; apply in_seq in Hi; assert (Hi' : i < size s) by lia; specialize (Hb i Hi'); specialize (Hm i Hi');
        [rewrite (Rmult_comm lo)|rewrite (Rmult_comm hi)]; apply Rmult_le_compat_l; lra. }
      split; [apply Rle_div_r|apply Rle_div_l]; lra.
Qed.
Print Assumptions mean_value.

(** C110.  The values of [norm]. *)
Theorem norm_values : forall d s x xs, discretization d s -> field s x xs ->
  norm d x P2 = Ok (VNum false (RtoC (sqrt (rsum (size s) (fun i => (measure_at d i * sq xs i)%R))))) /\
  (no_empty_group s -> exists m, norm d x PInf = Ok (VNum false (RtoC m)) /\ is_maxnorm s xs m) /\
  norm d x POther = Err ValueError.
Proof.
  intros d s x xs Hd Hf. split; [apply norm2_value; assumption|]. split; [|reflexivity]. intros Hne. apply norminf_value; assumption.
Qed.
Print Assumptions norm_values.
(** C110.  Both are norms: defined, nonnegative, definite, homogeneous and subadditive. *)
Theorem norm_is_a_norm : forall d s p, discretization d s -> positive_measure d s -> no_empty_group s -> p <> POther ->
  exists N : list arr -> R,
  (forall x xs, field s x xs -> norm d x p = Ok (VNum false (RtoC (N xs)))) /\
  (forall x xs, field s x xs -> (0 <= N xs)%R /\ (N xs = 0%R <-> vanishes s xs)) /\
  (forall x xs z zs c, field s x xs -> field s z zs -> pointwise s (fun a _ => Cmult c a) xs xs zs -> N zs = (Cmod c * N xs)%R) /\
  (forall x xs y ys z zs, field s x xs -> field s y ys -> field s z zs -> pointwise s Cplus xs ys zs -> (N zs <= N xs + N ys)%R).
Proof.
  intros d s p Hd Hp Hne Hpo. assert (Hm : nonneg_measure d s) by (intros i Hi; specialize (Hp i Hi); lra).
  destruct p; [| |congruence].
  - exists (norm2 d s). split; [intros; apply norm2_value; assumption|]. split; [intros x xs _; split; [apply sqrt_pos|apply norm2_zero; assumption]|].
    split; [intros; apply norm2_scale; assumption|intros; apply norm2_triangle; assumption].
  - set (N := fun xs => match norm d (VObj (map VArr xs)) PInf with Ok (VNum _ c) => fst c | _ => 0%R end).
    assert (HN : forall x xs, field s x xs -> norm d x PInf = Ok (VNum false (RtoC (N xs))) /\ is_maxnorm s xs (N xs)).
    { intros x xs Hf. assert (Hv : field s (VObj (map VArr xs)) xs). { destruct Hf; [apply Vector; [discriminate|constructor; [assumption|constructor]]|apply Vector; assumption]. }
      destruct (@norminf_value d s x xs Hf Hne) as (m & Em & Mm). destruct (@norminf_value d s _ xs Hv Hne) as (m' & Em' & Mm'). unfold N. rewrite Em'. rewrite fst_RtoC.
      rewrite (max_unique Mm' Mm). split; [exact Em|exact Mm]. }
    exists N. split; [intros x xs Hf; apply (HN x xs Hf)|]. split; [|split].
    + intros x xs Hf. destruct (HN x xs Hf) as [_ M]. split; [destruct M as [(a & i & _ & _ & ->) _]; apply Cmod_ge_0|apply max_zero; exact M].
    + intros x xs z zs c Hx Hz Hpw. destruct (HN x xs Hx) as [_ M]. destruct (HN z zs Hz) as [_ M']. eapply max_unique; [exact M'|]. eapply max_scale; eassumption.
    + intros x xs y ys z zs Hx Hy Hz Hpw. eapply max_triangle; [exact Hpw|apply (HN x xs Hx)|apply (HN y ys Hy)|apply (HN z zs Hz)].
Qed.
Print Assumptions norm_is_a_norm.

(** C111.  Reductions produce arrays of the granularity of their descriptor ... *)
Theorem reduction_granularity : forall dsc ctx e a r dd b,
  ev dsc ctx e = Ok (VArr a) -> ev dsc ctx (XElt r e dd) = Ok (VArr b) ->
  shape b = match granularity dd with NODE => shape a | _ => map (map (fun _ => 1)) (shape a) end.
Proof.
  intros dsc ctx e a r dd b He H. cbn [ev] in H. rewrite He in H. cbn [bind] in H. unfold elt_reduce in H.
  assert (G : forall knl (w : nat -> nat), (forall row row', knl r (cplx a) row = Ok row' -> length row' = w (length row)) ->
    forall gs, mapM (mapM (knl r (cplx a))) (groups a) = Ok gs -> map (map (@length C)) gs = map (map w) (shape a)).
  { clear H. intros knl w Hk gs E. unfold shape. rewrite map_map. revert gs E. induction (groups a) as [|g l IH]; intros gs E; cbn [mapM] in E; [injection E; intros <-; reflexivity|].
    destruct (mapM (knl r (cplx a)) g) as [g'|] eqn:Eg; [|discriminate]. cbn [bind] in E. destruct (mapM (mapM (knl r (cplx a))) l) as [l'|] eqn:El; [|discriminate]. cbn [bind] in E. injection E; intros <-.
    cbn [map]. f_equal; [|apply IH; reflexivity]. rewrite map_map. clear - Hk Eg. revert g' Eg. induction g as [|row g IH]; intros g' Eg; cbn [mapM] in Eg; [injection Eg; intros <-; reflexivity|].
    destruct (knl r (cplx a) row) as [row'|] eqn:Er; [|discriminate]. cbn [bind] in Eg. destruct (mapM (knl r (cplx a)) g) as [g2|]; [|discriminate]. cbn [bind] in Eg. injection Eg; intros <-.
    cbn [map]. f_equal; [apply Hk; exact Er|apply IH; reflexivity]. }
  destruct (granularity dd); [|discriminate|].
  - destruct (mapM (mapM (elt_node_kernel r (cplx a))) (groups a)) as [gs|] eqn:E; [|discriminate]. cbn [bind] in H. injection H; intros <-. unfold shape at 1. cbn [groups].
    rewrite (G elt_node_kernel (fun n => n)) with (gs := gs); [|intros row row' Hr; unfold elt_node_kernel in Hr; destruct (reduce r (cplx a) row); [|discriminate]; cbn [bind] in Hr; injection Hr; intros <-; apply repeat_length|exact E].
    rewrite <- (map_id (shape a)) at 2. apply map_ext. intros l. apply map_id.
  - destruct (mapM (mapM (elt_element_kernel r (cplx a))) (groups a)) as [gs|] eqn:E; [|discriminate]. cbn [bind] in H. injection H; intros <-. unfold shape at 1. cbn [groups].
    rewrite (G elt_element_kernel (fun _ => 1)) with (gs := gs); [reflexivity| |exact E]. intros row row' Hr; unfold elt_element_kernel in Hr; destruct (reduce r (cplx a) row); [|discriminate]; cbn [bind] in Hr; injection Hr; intros <-; reflexivity.
Qed.
Print Assumptions reduction_granularity.
(** ... but ones, coordinates and weights always have one value per node, whatever the granularity
    of the descriptor: no array has one value per element although it was asked for. *)
Theorem property_granularity_refuted : exists dsc dd a b c, granularity dd = ELEMENT /\
  forall ctx, ev dsc ctx (XOnes dd) = Ok (VArr a) /\ ev dsc ctx (XCoord 0 dd) = Ok (VArr b) /\ ev dsc ctx (XWeight dd) = Ok (VArr c) /\
  shape a = [[3; 3]] /\ shape b = [[3; 3]] /\ shape c = [[3; 3]].
Proof.
  set (x := Arr false [[[RtoC 1; RtoC 2; RtoC 3]; [RtoC 4; RtoC 5; RtoC 6]]]).
  exists (fun _ _ => Ok (Discr [x] x x)), (DD None None ELEMENT).
  eexists; eexists; eexists. split; [reflexivity|]. intros ctx. cbn [ev bind d_nodes nth_error d_weights geometry discr_stage]. repeat split; reflexivity.
Qed.
Print Assumptions property_granularity_refuted.

(** *** Example: two groups (two elements with two nodes, one element with three nodes). *)
Definition xw : arr := Arr false [[[RtoC 1; RtoC 2]; [RtoC 1; RtoC 1]]; [[RtoC 3; RtoC 1; RtoC 1]]].
Definition xa : arr := Arr false [[[RtoC 1; RtoC 1]; [RtoC 2; RtoC 1]]; [[RtoC 1; RtoC 1; RtoC 2]]].
Definition xx : arr := Arr true [[[Ci; RtoC 0]; [RtoC 0; RtoC 0]]; [[RtoC 0; RtoC 2; RtoC 0]]].
Definition xd : discr := Discr [xw] xw xa.
Definition xs : list (list nat) := [[2; 2]; [3]].
Lemma in_dec_real (l : list C) : Forall (fun x => snd x = 0%R) l -> forall x, In x l -> snd x = 0%R.
Proof. intros H x Hx. rewrite Forall_forall in H. auto. Qed.
Example discretization_case : discretization xd xs /\ positive_measure xd xs /\ no_empty_group xs.
Proof.
  split; [|split].
  - repeat split; intros _; apply in_dec_real; unfold entries; cbn; repeat constructor.
  - intros i Hi. unfold measure_at, value_at, entries. cbn in Hi. do 7 (destruct i as [|i]; [cbn; lra|]). lia.
  - split; [discriminate|]. intros g [<-|[<-|[]]]; cbn; lia.
Qed.
Example field_case : field xs (VArr xx) [xx] /\ field xs (VObj (map VArr [xx; xw])) [xx; xw].
Proof. split; [apply Scalar; reflexivity|apply Vector; [discriminate|repeat constructor]]. Qed.
Example integral_case : exists z, integral xd (VArr xx) = Ok (VNum true z) /\ z = (2%R, 1%R).
Proof.
  eexists. split; [apply (@integral_value xd xs xx (proj1 discretization_case) eq_refl)|].
  unfold csum_n, measure_at, value_at, entries. cbn. unfold Cmult, Cplus, RtoC, Ci. cbn. f_equal; ring.
Qed.
Example norm_case : exists z, norm xd (VArr xx) P2 = Ok (VNum false (RtoC (sqrt z))) /\ z = 5%R.
Proof.
  eexists. split; [apply (@norm_values xd xs (VArr xx) [xx] (proj1 discretization_case) (proj1 field_case))|].
  unfold rsum, measure_at, value_at, entries, sq, Cmod. cbn. rewrite ?Rmult_0_l, ?Rmult_0_r, ?Rplus_0_l, ?Rplus_0_r, ?Rmult_1_r, ?Rmult_1_l, ?sqrt_0, ?sqrt_1.
  rewrite sqrt_square by lra. ring.
Qed.
Example maximum_case : Forall (real_valued xs) [VNum false (RtoC 2); VArr xw; VArr xa].
Proof.
  repeat constructor; try reflexivity; intros _; apply in_dec_real; unfold entries; cbn; repeat constructor.
Qed.
