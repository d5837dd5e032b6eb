From Coq Require Import QArith Permutation.
From Verif Require Import Base RefineModel RefineSpec RefineProofs AssocModel AssocSpec AssocProofs FmmModel FmmProofs KrnModel KrnProofs KrnProofs2 AkModel AkSpec AkProofs AkProofs2 AkProofs3.
Set Implicit Arguments.
Open Scope string_scope. Open Scope list_scope. Open Scope nat_scope.

Lemma request_length targets : sides_fit targets -> length (request_of targets) = list_sum (map (@length pt) (map fst targets)).
Proof.
  induction 1 as [|(l, s) targets H _ IH]; [reflexivity|]. unfold request_of in *. cbn [flat_map fst snd map list_sum fold_right]. rewrite app_length, IH. f_equal. cbn in H. destruct s; [apply repeat_length|exact H].
Qed.
Lemma decode_code o : decode_center (center_code o) = o.
Proof. destruct o as [c|]; cbn; [|reflexivity]. unfold decode_center. destruct (Z.ltb_spec (Z.of_nat c) 0); [lia|]. rewrite Nat2Z.id. reflexivity. Qed.

Section Associate.
Variable junk : nat.
Variable D : device.
Variable nb : nat.
Variable d : discr.
Variables S C : list pt.
Variable targets : list (list pt * sides).
Variable T : btree.
Variables tunnel radius : nat -> Q.
Variable tol : Q.
Notation Ts := (map fst targets).
Hypothesis HT : tree_ok (particles S C Ts) T.
Hypothesis HB : boxes_ok D nb T.
Notation n := (list_sum (map (@length pt) Ts)).
Notation q := (QT T (length S) (length C) n).
Notation rad := (fun c => (radius (c / 2)%nat * (1 + tol))%Q).

Lemma associate_iff order out : Permutation order (seq 0 n) ->
  (dev_associate junk D nb d S C targets T tunnel radius tol out <-> out = associate D order d S C targets T tunnel radius tol).
Proof.
  intros HO. unfold dev_associate, associate, build_tree. destruct (2 * length S =? length C); [|tauto]. cbn [q_ntgt].
  change (map (marked D q tunnel) (seq 0 n)) with (pending D S C Ts T tunnel).
  set (pd := pending D S C Ts T tunnel).
  assert (EX : forall (P : list Z -> Prop), (exists st, dev_mark junk D nb q tunnel st /\ P st) <-> P (mark_final D S C Ts T tunnel)).
  { intros P. split; [intros (st & M & H); apply (mark_iff junk S C Ts HT HB) in M; subst; exact H|].
    intros H. eexists. split; [apply (mark_iff junk S C Ts HT HB); reflexivity|exact H]. }
  rewrite EX. clear EX. unfold mark_final. cbn [nth tl]. fold pd.
  destruct (existsb (fun x => x) pd) eqn:EP; cbn [negb Z.eqb Pos.eqb]; [|tauto].
  assert (TF := target_flags_spec targets). destruct (target_flags _) as [flags|e]; [|tauto]. destruct TF as [SF ->].
  assert (LF := request_length SF). assert (LM : length pd = n) by apply pending_length.
  set (flags := request_of targets) in *.
  assert (EX : forall (P : list fcell -> Prop), (exists cs, dev_find junk D nb q rad flags (map mark_status pd) cs /\ P cs) <-> P (find_final D S C Ts T rad flags pd)).
  { intros P. split; [intros (cs & M & H); apply (find_iff junk S C Ts HT HB) in M; [subst; exact H|exact LF|exact LM]|].
    intros H. eexists. split; [apply (find_iff junk S C Ts HT HB); [exact LF|exact LM|reflexivity]|exact H]. }
  rewrite EX. clear EX. cbv zeta.
  set (fin := fun i => if nth i pd false then find_center D q rad (nth i flags 0%Z) i else FS None None None).
  assert (EF : map (fun c => (fc_status c =? PENDING)%Z) (find_final D S C Ts T rad flags pd)
    = map (fun '(p, st) => p && negb (found st)) (combine pd (map fin (seq 0 n)))).
  { unfold find_final. rewrite map_map. apply nth_error_ext.
    - rewrite !map_length, combine_length, map_length, seq_length, LM. lia.
    - intros i Hi. rewrite map_length, seq_length in Hi. rewrite nth_error_map, (@nth_error_nth' _ (seq 0 n) i 0) by (rewrite seq_length; exact Hi).
      rewrite seq_nth by exact Hi. cbn [option_map Nat.add]. rewrite nth_error_map.
      rewrite (@nth_error_nth' _ (combine pd (map fin (seq 0 n))) i (false, fin 0)) by (rewrite combine_length, map_length, seq_length; lia).
      rewrite combine_nth by (rewrite map_length, seq_length; exact LM). cbn [option_map]. rewrite map_nth, seq_nth by exact Hi. cbn [Nat.add].
      f_equal. unfold fin. destruct (nth i pd false); [|reflexivity]. cbn [fc_status cell_of andb]. destruct (found _); reflexivity. }
  rewrite EF. set (failed := map _ (combine _ _)) in *.
  assert (LFa : length failed = n) by (rewrite <- EF; unfold find_final; rewrite !map_length; apply seq_length).
  destruct (existsb (fun x => x) failed) eqn:EE.
  - assert (LS : length (map fc_status (find_final D S C Ts T rad flags pd)) = n) by (unfold find_final; rewrite !map_length; apply seq_length).
    set (status := map fc_status (find_final D S C Ts T rad flags pd)) in *.
    assert (EW : forall i, i < n -> waiting status i = nth i failed false).
    { intros i Hi. rewrite <- EF. unfold waiting, status. rewrite (nth_indep _ 0%Z (fc_status (blank 0%Z))) by (unfold find_final; rewrite !map_length, seq_length; exact Hi).
      rewrite (nth_indep (map _ _) false (fc_status (blank 0%Z) =? PENDING)%Z) by (unfold find_final; rewrite !map_length, seq_length; exact Hi).
      rewrite map_nth. rewrite (map_nth (fun c => (fc_status c =? PENDING)%Z)). reflexivity. }
    assert (EH : hits D S C Ts T tunnel d status order = flat_map (fun i => if nth i failed false then elements_near D q d tunnel i else []) order).
    { unfold hits. assert (G : forall l, (forall i, In i l -> i < n) -> flat_map (fun i => if waiting status i then elements_near D q d tunnel i else []) l = flat_map (fun i => if nth i failed false then elements_near D q d tunnel i else []) l).
      { induction l as [|a l IH]; intros Hl; cbn; [reflexivity|]. rewrite IH by (intros i I; apply Hl; right; exact I). rewrite EW by (apply Hl; left; reflexivity). reflexivity. }
      apply G. intros i I. apply (Permutation_in _ HO) in I. apply in_seq in I. lia. }
    assert (EX : forall (P : list bool -> Prop), (exists fl, dev_refine junk D nb q d tunnel status fl /\ P fl) <-> P (refine_final D S C Ts T tunnel d status order)).
    { intros P. split; [intros (cs & M & H); apply (refine_iff junk S C Ts HT HB tunnel d status LS (order := order)) in M; [subst; exact H|exact HO]|].
      intros H. eexists. split; [apply (refine_iff junk S C Ts HT HB tunnel d status LS (order := order)); [exact HO|reflexivity]|exact H]. }
    rewrite EX. clear EX. unfold refine_final. cbn [hd tl]. rewrite EH.
    destruct (flat_map _ order); tauto.
  - assert (EA : map (fun c => decode_center (fc_center c)) (find_final D S C Ts T rad flags pd) = map f_center (map fin (seq 0 n))).
    { unfold find_final. rewrite !map_map. apply map_ext. intros i. unfold fin. destruct (nth i pd false); [|reflexivity]. cbn [fc_center cell_of]. apply decode_code. }
    rewrite EA. tauto.
Qed.
End Associate.
