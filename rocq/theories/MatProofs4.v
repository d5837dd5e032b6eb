(** Proofs about the matrix builder: the whole matrix. *)
From Coq Require Import Ring.
From Verif Require Import Base SymProofs SymProofs2 MatModel MatSpec MatProofs MatProofs2 MatProofs3.
Set Implicit Arguments.
Open Scope nat_scope.

Lemma nth_map_seq' (B : Type) (F : nat -> B) d n i : i < n -> nth i (map F (seq 0 n)) d = F i.
Proof.
  intros Hi. rewrite (nth_indep _ d (F 0)) by (rewrite map_length, seq_length; exact Hi). rewrite (map_nth F). rewrite seq_nth by exact Hi. reflexivity.
Qed.

Section Env.
Variable R : rops.
Variable ctx : string -> option (cval R).
Lemma in_env_In (l : list (string * (nat * (nat -> R)))) y n f : NoDup (map fst l) -> In (y, (n, f)) l -> in_env ctx l y = Some (RVec n f).
Proof.
  induction l as [|[z [n' f']] l IH]; simpl; intros Hn Hi; [contradiction|]. inversion Hn; subst.
  destruct Hi as [Hi | Hi].
  - injection Hi as -> -> ->. rewrite String.eqb_refl. reflexivity.
  - destruct (String.eqb_spec y z) as [->|]; [|auto]. exfalso. apply H1. apply in_map_iff. exists (z, (n, f)). auto.
Qed.
Lemma in_env_notin (l : list (string * (nat * (nat -> R)))) y : ~ In y (map fst l) -> in_env ctx l y = match ctx y with Some c => Some (cval_val c) | None => None end.
Proof.
  induction l as [|[z [n' f']] l IH]; simpl; intros Hn; [reflexivity|].
  destruct (String.eqb_spec y z) as [->|]; [tauto|]. apply IH. tauto.
Qed.

End Env.
Lemma In_drop_nth (A : Type) (l : list A) j d y : j < length l -> NoDup l ->
  (In y l <-> y = nth j l d \/ In y (drop_nth j l)) /\ (In y (drop_nth j l) -> y <> nth j l d).
Proof.
  intros Hj Hn. unfold drop_nth.
  assert (E : l = firstn j l ++ nth j l d :: skipn (S j) l).
  { clear Hn. revert j Hj. induction l as [|a l IH]; intros j Hj; simpl in *; [lia|]. destruct j; simpl; [reflexivity|]. f_equal. apply IH. lia. }
  split.
  - rewrite E at 1. rewrite !in_app_iff. simpl. split; intuition.
  - rewrite E in Hn. apply NoDup_remove_2 in Hn. intros Hy ->. contradiction.
Qed.


Section Whole.
Variable R : rops.
Hypothesis HR : lawful R.
Let Rth := proj1 HR.
Let Req := proj2 HR.
Notation "0r" := (r0 R).
Variable ctx : string -> option (cval R).
Variable ins : list (string * (nat * (nat -> R))).
Hypothesis Hnd : NoDup (map fst ins).
Let names := map fst ins.
Let sizes := map (fun p => fst (snd p)) ins.
Let dflt : string * (nat * (nat -> R)) := (EmptyString, (0, fun _ => r0 R)).
Let x j := snd (snd (nth j ins dflt)).
Let N := length ins.

Definition onlyj j p : string * (nat * (nat -> R)) := let '(k, (y, (n, f))) := p in (y, (n, if k =? j then f else fun _ => 0r)).

Lemma only_gen j a (l : list (string * (nat * (nat -> R)))) : map fst (map (onlyj j) (combine (seq a (length l)) l)) = map fst l.
Proof. revert a. induction l as [|[y [n f]] l IH]; intros a; simpl; [reflexivity|]. rewrite IH. reflexivity. Qed.
Lemma only_names j : map fst (only R j ins) = names.
Proof. apply only_gen. Qed.
Lemma only_length j : length (only R j ins) = N.
Proof. unfold only. rewrite map_length, combine_length, seq_length. unfold N. lia. Qed.
Lemma only_nth j k : k < N -> nth k (only R j ins) dflt =
  (fst (nth k ins dflt), (fst (snd (nth k ins dflt)), if k =? j then x k else fun _ => 0r)).
Proof.
  intros Hk. unfold only. 
  rewrite (nth_indep _ dflt (onlyj j (0, dflt))) by (rewrite map_length, combine_length, seq_length; unfold N in Hk; lia).
  change (nth k (map (onlyj j) (combine (seq 0 (length ins)) ins)) (onlyj j (0, dflt)) = (fst (nth k ins dflt), (fst (snd (nth k ins dflt)), if k =? j then x k else fun _ => 0r))).
  rewrite (map_nth (onlyj j)). rewrite combine_nth by apply seq_length. rewrite seq_nth by exact Hk. simpl plus. unfold x.
  destruct (nth k ins dflt) as [y [n f]]. reflexivity.
Qed.

Lemma env_only j k : j < N -> k < N ->
  in_env ctx (only R j ins) (fst (nth k ins dflt)) = Some (RVec (fst (snd (nth k ins dflt))) (if k =? j then x k else fun _ => 0r)).
Proof.
  intros Hj Hk. apply in_env_In; [rewrite only_names; exact Hnd|]. rewrite <- only_nth by auto. apply nth_In. rewrite only_length. exact Hk.
Qed.
Lemma env_full k : k < N -> in_env ctx ins (fst (nth k ins dflt)) = Some (RVec (fst (snd (nth k ins dflt))) (x k)).
Proof.
  intros Hk. apply in_env_In; [exact Hnd|]. unfold x. pose proof (nth_In ins dflt Hk) as Hi. destruct (nth k ins dflt) as [y [n f]]. exact Hi.
Qed.
Lemma name_index y : In y names -> exists k, k < N /\ fst (nth k ins dflt) = y.
Proof.
  intros Hy. unfold names in Hy. apply in_map_iff in Hy. destruct Hy as (p & <- & Hp). apply (In_nth _ _ dflt) in Hp. destruct Hp as (k & Hk & <-). eauto.
Qed.

Lemma env_col j : j < N -> forall y v, in_env ctx (only R j ins) y = Some v ->
  (y = nth j names EmptyString /\ v = RVec (nth j sizes 0) (x j)) \/
  (y <> nth j names EmptyString /\ In y (drop_nth j names) /\ exists n f, v = RVec n f /\ forall i, i < n -> f i = 0r) \/
  (y <> nth j names EmptyString /\ ~ In y (drop_nth j names) /\ exists c, ctx y = Some c /\ v = cval_val c).
Proof.
  intros Hj y v Hv.
  assert (Hnm : nth j names EmptyString = fst (nth j ins dflt)) by (apply (map_nth fst ins dflt)).
  assert (Hsz : nth j sizes 0 = fst (snd (nth j ins dflt))) by (apply (map_nth (fun p => fst (snd p)) ins dflt)).
  destruct (@In_drop_nth _ names j EmptyString y) as [Hin Hne]; [unfold names; rewrite map_length; exact Hj | exact Hnd|].
  destruct (in_dec string_dec y names) as [Hy | Hy].
  - destruct (name_index y Hy) as (k & Hk & Ek). rewrite <- Ek in Hv. rewrite (env_only Hj Hk) in Hv. injection Hv as <-.
    destruct (Nat.eqb_spec k j) as [->|Hkj].
    + left. split; [congruence|]. rewrite Hsz. reflexivity.
    + right; left. assert (Hyj : y <> nth j names EmptyString).
      { intros E. rewrite Hnm, <- Ek in E. apply Hkj.
        assert (E' : nth k names EmptyString = nth j names EmptyString) by (rewrite Hnm; unfold names; rewrite (map_nth fst ins dflt); exact E).
        apply (proj1 (NoDup_nth names EmptyString) Hnd); auto; unfold names; rewrite map_length; auto. }
      split; [exact Hyj|]. split; [tauto|]. do 2 eexists. split; [reflexivity|]. reflexivity.
  - right; right. assert (Hy' : ~ In y (map fst (only R j ins))) by (rewrite only_names; exact Hy). rewrite (@in_env_notin _ _ _ _ Hy') in Hv.
    split; [intros E; apply Hy; apply Hin; auto|]. split; [tauto|]. destruct (ctx y) as [c|]; [|discriminate]. injection Hv as <-. eauto.
Qed.

Variable exprs : list (bexpr R).
Variable M : matrix R.
Hypothesis HM : build_matrix ctx (map (fun p => (fst p, fst (snd p))) ins) exprs = Ok M.
Hypothesis Htame : forall e, In e exprs -> tame names ctx e.
(** Every expression has values, and they are the sum of the contributions of the inputs. *)
Hypothesis Hadd : forall e, In e exprs -> exists r rs, ref (FQbx true) (in_env ctx ins) e = Ok r /\
  (forall j, j < N -> ref (FQbx true) (in_env ctx (only R j ins)) e = Ok (rs j)) /\
  ((forall j c, j < N -> rs j = RNum c -> c = 0r) -> sup N r rs).

Theorem whole_applies : applies_like (FQbx true) ctx ins exprs M.
Proof.
  pose proof HM as H. unfold build_matrix in H. apply bind_Ok in H. destruct H as [cols [Hcols H]].
  rewrite map_length in Hcols, H. fold N in Hcols, H.
  apply mapM_seq with (d := []) in Hcols. destruct Hcols as [Lcols Hcols].
  set (blocks := map (fun i => map (fun col => nth i col (MNum 0r)) cols) (seq 0 (length exprs))) in *.
  assert (Hrow : forall row, In row blocks -> length row = N).
  { intros row Hr. unfold blocks in Hr. apply in_map_iff in Hr. destruct Hr as (i & <- & _). rewrite map_length. exact Lcols. }
  assert (Lb : length blocks = length exprs) by (unfold blocks; rewrite map_length, seq_length; reflexivity).
  destruct (@bmat_rs_cs R Req _ _ _ H Hrow) as (rs & cs & Lcs & (Lrs & _ & Hsh) & (HnR & HnC & Hent) & Hrnz & Hcnz).
  assert (Hblk : forall i j, i < length exprs -> j < N -> nth j (nth i blocks []) MDof = nth i (nth j cols []) (MNum 0r)).
  { intros i j Hi Hj. unfold blocks. 
    rewrite (nth_map_seq' (fun i => map (fun col => nth i col (MNum 0r)) cols) [] Hi).
    rewrite (nth_indep _ MDof (nth i [] (MNum 0r))) by (rewrite map_length; lia).
    apply (map_nth (fun col => nth i col (MNum 0r))). }
  (* every block stands for the contribution of its input *)
  assert (Hbr : forall i j e, nth_error exprs i = Some e -> j < N -> forall rj, ref (FQbx true) (in_env ctx (only R j ins)) e = Ok rj ->
            rep (nth j sizes 0) (x j) (nth j (nth i blocks []) MDof) rj /\ (forall c, nth j (nth i blocks []) MDof = MNum c -> c = 0r)).
  { intros i j e He Hj rj Hrj. assert (Hi : i < length exprs) by (apply nth_error_Some; rewrite He; discriminate).
    rewrite (Hblk i j Hi Hj). specialize (Hcols j Hj).
    change (EmptyString, 0) with ((fun p : string * (nat * (nat -> R)) => (fst p, fst (snd p))) dflt) in Hcols.
    rewrite map_nth in Hcols. rewrite map_map in Hcols. cbn [fst] in Hcols. fold names in Hcols.
    apply mapM_nth with (da := e) (d := MNum 0r) in Hcols. destruct Hcols as [Lc Hc]. specialize (Hc i Hi).
    rewrite (nth_error_nth _ _ e He) in Hc. apply bind_Ok in Hc. destruct Hc as [V [HV Hck]].
    assert (HVc : nth i (nth j cols []) (MNum 0r) = V /\ (forall c, V = MNum c -> c = 0r)).
    { destruct V as [c|n f|n m f|]; simpl in Hck.
      - destruct (reqb R c 0r) eqn:Ec; [|discriminate]. injection Hck as <-. split; [reflexivity|]. intros c' E. injection E as <-. apply Req. exact Ec.
      - injection Hck as <-. split; [reflexivity|]. discriminate.
      - injection Hck as <-. split; [reflexivity|]. discriminate.
      - discriminate. }
    destruct HVc as [-> Hc0]. split; [|exact Hc0].
    assert (Hnm : nth j names EmptyString = fst (nth j ins dflt)) by (apply (map_nth fst ins dflt)).
    assert (Hsz : nth j sizes 0 = fst (snd (nth j ins dflt))) by (apply (map_nth (fun p => fst (snd p)) ins dflt)).
    eapply (@bld_sound R Rth Req (FQbx true) (nth j names EmptyString) (nth j sizes 0) (drop_nth j names) ctx names (x j) (in_env ctx (only R j ins))).
    - intros y. apply In_drop_nth; [unfold names; rewrite map_length; exact Hj | exact Hnd].
    - apply env_col. exact Hj.
    - apply Htame. eapply nth_error_In. exact He.
    - rewrite Hnm, Hsz. exact HV.
    - exact Hrj. }
  assert (Hcs : forall j, j < N -> nth j cs 0 = nth j sizes 0).
  { intros j Hj. destruct (Hcnz j Hj) as (i & Hi & Hz). assert (Hi' : i < length exprs) by lia.
    destruct (nth_error exprs i) as [e|] eqn:He; [|apply nth_error_None in He; lia].
    destruct (Hadd _ (nth_error_In _ _ He)) as (r & rj & _ & Hrj & _).
    destruct (Hbr i j e He Hj _ (Hrj j Hj)) as [Hrep Hc0].
    specialize (Hsh i j ltac:(lia) ltac:(lia)). destruct (nth j (nth i blocks []) MDof) as [c|n f|n m f|]; try contradiction.
    - rewrite Hsh in Hz. simpl in Hz. assert (E : reqb R 0r 0r = true) by (apply Req; reflexivity). congruence.
    - destruct Hsh as [_ <-]. simpl in Hrep. apply Hrep. }
  assert (Hcs' : cs = sizes).
  { apply (nth_ext _ _ 0 0); [unfold sizes; rewrite map_length; exact Lcs|]. intros j Hj. apply Hcs. lia. }
  subst cs. unfold applies_like. fold sizes. exists rs. split; [lia|]. split; [exact HnR|]. split; [exact HnC|].
  intros i e He. assert (Hi : i < length exprs) by (apply nth_error_Some; rewrite He; discriminate).
  destruct (Hadd _ (nth_error_In _ _ He)) as (r & rj & Hr & Hrj & Hsup).
  assert (Hs : sup N r rj).
  { apply Hsup. intros j c Hj Ec. destruct (Hbr i j e He Hj _ (Hrj j Hj)) as [Hrep Hc0]. rewrite Ec in Hrep. apply rep_RNum in Hrep. auto. }
  destruct (Hrnz i ltac:(lia)) as (j0 & Hj0 & Hz0).
  destruct (Hbr i j0 e He Hj0 _ (Hrj j0 Hj0)) as [Hrep0 _]. pose proof (Hsh i j0 ltac:(lia) ltac:(lia)) as Hsh0.
  assert (Hj0r : exists g, rj j0 = RVec (nth i rs 0) g).
  { destruct (nth j0 (nth i blocks []) MDof) as [c|n f|n m f|]; try contradiction.
    - rewrite Hsh0 in Hz0. simpl in Hz0. assert (E : reqb R 0r 0r = true) by (apply Req; reflexivity). congruence.
    - destruct Hsh0 as [<- _]. simpl in Hrep0. destruct Hrep0 as (_ & g & -> & _). eauto. }
  destruct Hj0r as [g0 Hg0].
  destruct Hs as [[_ Hs] | (n & g & gs & -> & Hgs & Hg)]; [rewrite Hs in Hg0 by auto; discriminate|].
  rewrite Hgs in Hg0 by auto. injection Hg0 as -> _. exists g. split; [exact Hr|]. intros k Hk. rewrite Hg by auto. fold N. apply rsum_ext. intros j Hj.
  destruct (Hbr i j e He Hj _ (Hrj j Hj)) as [Hrep Hc0]. rewrite Hgs in Hrep by auto. pose proof (Hsh i j ltac:(lia) ltac:(lia)) as Hshj.
  assert (Hentry : forall l, l < nth j sizes 0 -> entry M (off rs i + k) (off sizes j + l) = block_entry (nth j (nth i blocks []) MDof) k l).
  { intros l Hl. apply Hent; auto; lia. }
  destruct (nth j (nth i blocks []) MDof) as [c|n f|n m f|]; try contradiction.
  - subst c. simpl in Hrep. destruct Hrep as [Hrep | (n & g' & Hrep & Hz)]; [discriminate|]. injection Hrep as <- <-.
    rewrite Hz by auto. symmetry. apply (rsum_zero R Rth). intros l Hl. rewrite Hentry by auto. simpl. apply (Ring_theory.Rmul_0_l (Eqsth R) (Eq_ext _ _ _) Rth).
  - simpl in Hrep. destruct Hrep as (_ & g' & Hrep & Hf). injection Hrep as <- <-. rewrite Hf by auto. apply rsum_ext. intros l Hl. rewrite Hentry by auto. reflexivity.
Qed.
End Whole.
