(** Theorems about the cluster matrix builders (C65, C66). *)
From Coq Require Import Ring.
From Verif Require Import Base SymProofs SymProofs2 MatModel MatSpec MatProofs MatProofs2 MatProofs4 MatProps MatClModel.
Set Implicit Arguments.
Open Scope string_scope.
Open Scope list_scope.
Open Scope nat_scope.

(** *** Specification *)
Section Spec.
Variable R : rops.
(** The unit density concentrated at degree of freedom [s]. *)
Definition unit_at (s i : nat) : R := if i =? s then r1 R else r0 R.

(** Numbers as coefficients. *)
Definition number (inputs : list string) (ctx : string -> option (cval R)) (e : bexpr R) : bool :=
  match e with
  | ENum _ => true
  | EVar x => negb (inb x inputs) && match ctx x with Some (CNum _) => true | _ => false end
  | _ => false
  end.
(** Densities: linear combinations of the inputs with numbers. *)
Fixpoint density (inputs : list string) (ctx : string -> option (cval R)) (e : bexpr R) : bool :=
  match e with
  | EVar x => inb x inputs
  | ESum es => forallb (density inputs ctx) es
  | EProd es => forallb (fun e => number inputs ctx e || density inputs ctx e) es
                && (length (filter (fun e => negb (number inputs ctx e)) es) =? 1)
  | _ => false
  end.
(** Linear combinations, with numbers, of the inputs and of layer potentials of densities. *)
Fixpoint layer_combination (inputs : list string) (ctx : string -> option (cval R)) (e : bexpr R) : bool :=
  match e with
  | EVar x => inb x inputs
  | ESum es => forallb (layer_combination inputs ctx) es
  | EProd es => forallb (fun e => number inputs ctx e || layer_combination inputs ctx e) es
                && (length (filter (fun e => negb (number inputs ctx e)) es) =? 1)
  | EIntG _ _ _ _ _ ds => forallb (density inputs ctx) ds
  | _ => false
  end.
End Spec.
Arguments unit_at {R} s i.

(** *** Proofs *)
Section Proofs.
Variable R : rops.
Variable Rth : ring_theory (r0 R) (r1 R) (radd R) (rmul R) (rsub R) (ropp R) eq.
Variable Req : forall a b : R, reqb R a b = true <-> a = b.
Add Ring Rr3 : Rth.
Notation "0r" := (r0 R). Notation "1r" := (r1 R).
Infix "+r" := (radd R) (at level 50, left associativity).
Infix "*r" := (rmul R) (at level 40, left associativity).
Variable fl : flavor.
Variable pairs : list (nat * nat).
Variable dep : string.
Variable sz : nat.
Variable others : list string.
Variable ctx : string -> option (cval R).
Variable inputs : list string.
Hypothesis Hin : forall y, In y inputs <-> y = dep \/ In y others.
Variables t s : nat.
Variable env : string -> option (rval R).
Hypothesis Hs : s < sz.
Hypothesis Henv : forall y v, env y = Some v ->
  (y = dep /\ v = RVec sz (unit_at s)) \/
  (y <> dep /\ In y others /\ exists n f, v = RVec n f /\ forall i, i < n -> f i = 0r) \/
  (y <> dep /\ ~ In y others /\ exists c, ctx y = Some c /\ v = cval_val c).

Lemma kzero_inv (v : kval R) : kzero v = true -> v = KNum 0r.
Proof. destruct v; simpl; try discriminate. intros H. apply Req in H. subst. reflexivity. Qed.
Lemma kzero_0 : kzero (KNum 0r : kval R) = true.
Proof. simpl. apply Req. reflexivity. Qed.

Lemma number_ref e : number inputs ctx e = true -> forall r, ref fl env e = Ok r -> exists c, r = RNum c.
Proof.
  intros Hn r Hr. destruct e; simpl in Hn; try discriminate.
  - simpl in Hr. injection Hr as <-. eauto.
  - apply andb_true_iff in Hn. destruct Hn as [H1 H2]. apply negb_true_iff in H1. apply inb_false in H1. rewrite Hin in H1. cbn [ref] in Hr.
    destruct (env x) as [w|] eqn:Ex; [|discriminate]. injection Hr as <-.
    destruct (Henv Ex) as [[? _] | [(_ & ? & _) | (_ & _ & c & Hc & ->)]]; try tauto.
    rewrite Hc in *. destruct c; try discriminate. simpl. eauto.
Qed.

Lemma number_inv e : number inputs ctx e = true -> forall dv ig v r, kbld pairs dep others ctx dv ig e = Ok v -> ref fl env e = Ok r ->
  exists c, v = KNum c /\ r = RNum c.
Proof.
  intros Hn dv ig v r Hv Hr. destruct e; simpl in Hn; try discriminate.
  - simpl in Hv, Hr. injection Hv as <-. injection Hr as <-. eauto.
  - apply andb_true_iff in Hn. destruct Hn as [H1 H2]. apply negb_true_iff in H1. apply inb_false in H1. rewrite Hin in H1. cbn [kbld] in Hv. cbn [ref] in Hr.
    destruct (String.eqb_spec x dep) as [->|Hd]; [tauto|]. destruct (inb x others) eqn:E; [apply inb_In in E; tauto|].
    destruct (env x) as [w|] eqn:Ex; [|discriminate]. injection Hr as <-.
    destruct (Henv Ex) as [[? _] | [(_ & ? & _) | (_ & _ & c & Hc & ->)]]; try tauto.
    rewrite Hc in *. destruct c; try discriminate. injection Hv as <-. simpl. eauto.
Qed.

Variable p : nat.

(** Entry [p] of a value. *)
Definition ent (v : kval R) : R := match v with KNum c => c | KArr _ f => f p | KDof => 0r end.

Section Comb.
Variable ok : kval R -> Prop.
Hypothesis ok0 : ok (KNum 0r).
Hypothesis ok_add : forall a b v, ok a -> ok b -> kbin (radd R) a b = Ok v -> ok v /\ ent v = ent a +r ent b.
Hypothesis ok_scale : forall c a v, ok a -> kbin (rmul R) (KNum c) a = Ok v -> ok v /\ ent v = c *r ent a.
Hypothesis ok_scale' : forall c a v, ok a -> kbin (rmul R) a (KNum c) = Ok v -> ok v /\ ent v = ent a *r c.
Hypothesis ok_dof : ~ ok KDof.
Hypothesis ok_size : forall n f g, ok (KArr n f) -> ok (KArr n g).
Hypothesis ok_arr : forall n f, ok (KArr n f) -> n = length pairs.
(** Positions that matter, the function all values are multiples of, and the lengths allowed. *)
Variable I : nat -> Prop.
Variable u : nat -> R.
Variable W : nat -> Prop.

(** [v] stands for the value [r]. *)
Definition Q (v : kval R) (r : rval R) : Prop :=
  ok v /\ ((r = RNum 0r /\ ent v = 0r) \/
           exists n g, r = RVec n g /\ (ent v = 0r \/ W n) /\ forall i, i < n -> I i -> g i = ent v *r u i).

Lemma Q_add a b v ra rb r : Q a ra -> Q b rb -> kbin (radd R) a b = Ok v -> rbin (radd R) ra rb = Ok r -> Q v r.
Proof.
  intros [Oa Ha] [Ob Hb] Hv Hr. destruct (ok_add Oa Ob Hv) as [Ov Ev]. split; [exact Ov|]. rewrite Ev.
  destruct Ha as [[-> Za] | (n & g & -> & Wa & Ga)], Hb as [[-> Zb] | (n' & g' & -> & Wb & Gb)]; simpl in Hr.
  - injection Hr as <-. left. rewrite Za, Zb. split; [f_equal|]; ring.
  - injection Hr as <-. right. do 2 eexists; split; [reflexivity|]. rewrite Za. split.
    + destruct Wb as [Wb|Wb]; [left; rewrite Wb; ring | auto].
    + intros i Hi Hii. simpl. rewrite Gb by auto. ring.
  - injection Hr as <-. right. do 2 eexists; split; [reflexivity|]. rewrite Zb. split.
    + destruct Wa as [Wa|Wa]; [left; rewrite Wa; ring | auto].
    + intros i Hi Hii. simpl. rewrite Ga by auto. ring.
  - destruct (Nat.eqb_spec n n') as [<-|]; [|discriminate]. injection Hr as <-. right. do 2 eexists; split; [reflexivity|]. split.
    + destruct Wa as [Wa|Wa]; [|auto]. destruct Wb as [Wb|Wb]; [|auto]. left. rewrite Wa, Wb. ring.
    + intros i Hi Hii. simpl. rewrite Ga, Gb by auto. ring.
Qed.

Lemma Q_add0 a ra rb r : Q a ra -> Q (KNum 0r) rb -> rbin (radd R) ra rb = Ok r -> Q a r.
Proof.
  intros [Oa Ha] [_ Hb] Hr. split; [exact Oa|]. simpl in Hb.
  destruct Ha as [[-> Za] | (n & g & -> & Wa & Ga)], Hb as [[-> _] | (n' & g' & -> & _ & Gb)]; simpl in Hr.
  - injection Hr as <-. left. split; [f_equal; ring | exact Za].
  - injection Hr as <-. right. do 2 eexists; split; [reflexivity|]. split; [auto|]. intros i Hi Hii. simpl. rewrite Gb, Za by auto. ring.
  - injection Hr as <-. right. do 2 eexists; split; [reflexivity|]. split; [auto|]. intros i Hi Hii. simpl. rewrite Ga by auto. ring.
  - destruct (Nat.eqb_spec n n') as [<-|]; [|discriminate]. injection Hr as <-. right. do 2 eexists; split; [reflexivity|]. split; [auto|].
    intros i Hi Hii. simpl. rewrite Ga, Gb by auto. ring.
Qed.

(** Scaling by a number [c]: [v] has entry [c] times that of [a]. *)
Lemma Q_scale c a v ra r : Q a ra -> ok v -> ent v = c *r ent a ->
  rbin (rmul R) (RNum c) ra = Ok r \/ rbin (rmul R) ra (RNum c) = Ok r -> Q v r.
Proof.
  intros [Oa Ha] Ov Ev Hr. split; [exact Ov|]. rewrite Ev.
  destruct Ha as [[-> Za] | (n & g & -> & Wa & Ga)]; simpl in Hr.
  - left. rewrite Za. split; [|ring]. destruct Hr as [Hr|Hr]; injection Hr as <-; f_equal; ring.
  - right. assert (Hr' : exists g', r = RVec n g' /\ forall i, g' i = c *r g i).
    { destruct Hr as [Hr|Hr]; injection Hr as <-; eexists; split; try reflexivity; intros; simpl; ring. }
    destruct Hr' as (g' & -> & Hg'). do 2 eexists; split; [reflexivity|]. split.
    + destruct Wa as [Wa|Wa]; [left; rewrite Wa; ring | auto].
    + intros i Hi Hii. rewrite Hg', Ga by auto. ring.
Qed.

(** Zero where it matters. *)
Definition zI (r : rval R) : Prop := r = RNum 0r \/ exists n g, r = RVec n g /\ forall i, i < n -> I i -> g i = 0r.
Lemma zI_Q r : zI r -> Q (KNum 0r) r.
Proof.
  intros [-> | (n & g & -> & H)]; (split; [exact ok0|]); simpl; [auto|]. right. do 2 eexists; split; [reflexivity|]. split; [auto|].
  intros i Hi Hii. rewrite H by auto. ring.
Qed.
Lemma Q_zI r : Q (KNum 0r) r -> zI r.
Proof.
  intros [_ [[-> _] | (n & g & -> & _ & H)]]; [left; reflexivity|]. right. do 2 eexists; split; [reflexivity|]. intros i Hi Hii. rewrite H by auto. simpl. ring.
Qed.
Lemma zI_mul ra rb r : zI ra \/ zI rb -> rbin (rmul R) ra rb = Ok r -> zI r.
Proof.
  intros H Hr. destruct ra as [c|n f], rb as [d|n' g]; simpl in Hr.
  - injection Hr as <-. left. f_equal. destruct H as [[H|(k & h & H & _)] | [H|(k & h & H & _)]]; try discriminate; injection H as ->; ring.
  - injection Hr as <-. right. do 2 eexists; split; [reflexivity|]. intros i Hi Hii. simpl.
    destruct H as [[H|(k & h & H & Hz)] | [H|(k & h & H & Hz)]]; try discriminate; injection H; intros; subst; [ring | rewrite Hz by auto; ring].
  - injection Hr as <-. right. do 2 eexists; split; [reflexivity|]. intros i Hi Hii. simpl.
    destruct H as [[H|(k & h & H & Hz)] | [H|(k & h & H & Hz)]]; try discriminate; injection H; intros; subst; [rewrite Hz by auto; ring | ring].
  - destruct (Nat.eqb_spec n n') as [<-|]; [|discriminate]. injection Hr as <-. right. do 2 eexists; split; [reflexivity|]. intros i Hi Hii. simpl.
    destruct H as [[H|(k & h & H & Hz)] | [H|(k & h & H & Hz)]]; try discriminate; injection H; intros; subst; rewrite Hz by auto; ring.
Qed.
Lemma zI_fold es : forall ra r, zI ra -> fold_ref (ref fl env) (rmul R) es ra = Ok r -> zI r.
Proof.
  induction es as [|e es IH]; simpl; intros ra r Ha Hr; [injection Hr as <-; exact Ha|].
  apply bind_Ok in Hr. destruct Hr as [w [_ Hr]]. apply bind_Ok in Hr. destruct Hr as [a' [Ha' Hr]]. eapply IH; [|exact Hr]. eapply zI_mul; [left; exact Ha | exact Ha'].
Qed.

Variable dv : kval R.
Variable ig : bexpr R -> result (kval R).
Notation rec := (kbld pairs dep others ctx dv ig).
Definition qsound e := forall v r, rec e = Ok v -> ref fl env e = Ok r -> Q v r.

Lemma ksum_sound es : Forall qsound es -> forall k acc racc v r, Q acc racc ->
  ksum_loop rec (length pairs) es k acc = Ok v -> fold_ref (ref fl env) (radd R) es racc = Ok r -> Q v r.
Proof.
  induction es as [|e es IH]; simpl; intros HF k acc racc v r Ha Hv Hr.
  - injection Hv as <-. injection Hr as <-. exact Ha.
  - inversion HF as [|? ? H1 H2]; subst. apply bind_Ok in Hv. destruct Hv as [w [Hw Hv]]. apply bind_Ok in Hr. destruct Hr as [x [Hu Hr]].
    apply bind_Ok in Hr. destruct Hr as [racc' [Hra Hr]]. specialize (H1 _ _ Hw Hu). destruct (kzero w) eqn:Z.
    + apply kzero_inv in Z. subst w. eapply IH; [exact H2 | | exact Hv | exact Hr]. eapply Q_add0; [exact Ha | exact H1 | exact Hra].
    + apply bind_Ok in Hv. destruct Hv as [tk [Htk Hv]]. cbn zeta in Hv. destruct (Bool.eqb tk _); [|discriminate].
      apply bind_Ok in Hv. destruct Hv as [acc' [Hacc' Hv]]. eapply IH; [exact H2 | | exact Hv | exact Hr]. eapply Q_add; [exact Ha | exact H1 | exact Hacc' | exact Hra].
Qed.

Definition pinv (mat : option (nat * (nat -> R))) (vs : kval R) (ra : rval R) : Prop :=
  match mat with
  | None => Q vs ra
  | Some (n, f) => exists c, vs = KNum c /\ Q (KArr n (fun i => f i *r c)) ra
  end.

Lemma kprod_done es : forallb (number inputs ctx) es = true -> forall mat vs ra v r, pinv mat vs ra ->
  kprod_loop rec (length pairs) es mat vs = Ok v -> fold_ref (ref fl env) (rmul R) es ra = Ok r -> Q v r.
Proof.
  induction es as [|e es IH]; intros Hb mat vs ra v r Hp Hv Hr.
  - simpl in Hr. injection Hr as <-. simpl in Hv. destruct mat as [[n f]|]; simpl in Hp.
    + destruct Hp as (c & -> & Hq). simpl in Hv. injection Hv as <-. exact Hq.
    + injection Hv as <-. exact Hp.
  - cbn [forallb] in Hb. apply andb_true_iff in Hb. destruct Hb as [Hb1 Hb2]. cbn [kprod_loop fold_ref] in *.
    apply bind_Ok in Hv. destruct Hv as [w [Hw Hv]]. apply bind_Ok in Hr. destruct Hr as [x [Hu Hr]]. apply bind_Ok in Hr. destruct Hr as [ra' [Hra Hr]].
    destruct (@number_inv _ Hb1 _ _ _ _ Hw Hu) as (d & -> & ->). destruct (kzero (KNum d)) eqn:Z.
    + apply kzero_inv in Z. injection Z as ->. injection Hv as <-. apply zI_Q. eapply zI_fold; [|exact Hr]. eapply zI_mul; [|exact Hra]. right. left. reflexivity.
    + apply bind_Ok in Hv. destruct Hv as [vs' [Hvs Hv]]. eapply IH; [exact Hb2 | | exact Hv | exact Hr].
      destruct mat as [[n f]|]; simpl in Hp |- *.
      * destruct Hp as (c & -> & Hq). simpl in Hvs. injection Hvs as <-. eexists; split; [reflexivity|].
        eapply Q_scale with (c := d); [exact Hq | exact (@ok_size _ _ _ (proj1 Hq)) | | right; exact Hra]. simpl. ring.
      * destruct (@ok_scale' _ _ _ (proj1 Hp) Hvs) as [O1 E1]. eapply Q_scale with (c := d); [exact Hp | exact O1 | rewrite E1; ring | right; exact Hra].
Qed.

Lemma kprod_sound es : Forall (fun e => number inputs ctx e = true \/ qsound e) es ->
  length (filter (fun e => negb (number inputs ctx e)) es) = 1 ->
  forall c v r, kprod_loop rec (length pairs) es None (KNum c) = Ok v -> fold_ref (ref fl env) (rmul R) es (RNum c) = Ok r -> Q v r.
Proof.
  induction es as [|e es IH]; intros HF Hl c v r Hv Hr; [discriminate|].
  inversion HF as [|? ? H1 H2]; subst. cbn [filter] in Hl. cbn [kprod_loop fold_ref] in Hv, Hr.
  apply bind_Ok in Hv. destruct Hv as [w [Hw Hv]]. apply bind_Ok in Hr. destruct Hr as [x [Hu Hr]]. apply bind_Ok in Hr. destruct Hr as [ra' [Hra Hr]].
  destruct (number inputs ctx e) eqn:En; cbn [negb] in Hl.
  - destruct (@number_inv _ En _ _ _ _ Hw Hu) as (d & -> & ->). destruct (kzero (KNum d)) eqn:Z.
    + apply kzero_inv in Z. injection Z as ->. injection Hv as <-. apply zI_Q. eapply zI_fold; [|exact Hr]. eapply zI_mul; [|exact Hra]. right. left. reflexivity.
    + simpl in Hv, Hra. injection Hra as <-. eapply IH; eauto.
  - destruct H1 as [H1|H1]; [congruence|]. specialize (H1 _ _ Hw Hu). cbn [length] in Hl.
    assert (Hb : forallb (number inputs ctx) es = true).
    { apply forallb_forall. intros y Hy. destruct (number inputs ctx y) eqn:Ey; [reflexivity|]. exfalso.
      assert (Hf : In y (filter (fun e => negb (number inputs ctx e)) es)) by (apply filter_In; rewrite Ey; auto).
      destruct (filter (fun e => negb (number inputs ctx e)) es); [destruct Hf | discriminate]. }
    destruct (kzero w) eqn:Z.
    + apply kzero_inv in Z. subst w. injection Hv as <-. apply zI_Q. eapply zI_fold; [|exact Hr]. eapply zI_mul; [|exact Hra]. right. apply Q_zI. exact H1.
    + destruct w as [d|n f|].
      * apply bind_Ok in Hv. destruct Hv as [vs' [Hvs Hv]]. eapply kprod_done; [exact Hb | | exact Hv | exact Hr]. simpl.
        destruct (@ok_scale _ _ _ (proj1 H1) Hvs) as [O1 E1]. eapply Q_scale; [exact H1 | exact O1 | exact E1 | left; exact Hra].
      * pose proof (@ok_arr _ _ (proj1 H1)) as En'. unfold is_kind_matrix in Hv. rewrite En', Nat.eqb_refl in Hv. rewrite <- En' in Hv.
        eapply kprod_done; [exact Hb | | rewrite <- En'; exact Hv | exact Hr]. simpl. exists c. split; [reflexivity|].
        eapply Q_scale with (c := c); [exact H1 | exact (@ok_size _ _ _ (proj1 H1)) | | left; exact Hra]. simpl. ring.
      * destruct (ok_dof (proj1 H1)).
Qed.
End Comb.

(** *** Densities: the inner mapper *)
Definition iok (v : kval R) : Prop := exists c, v = KNum c.
Definition iQ := Q iok (fun _ => True) (unit_at s) (fun n => s < n).
Lemma iok_add a b v : iok a -> iok b -> kbin (radd R) a b = Ok v -> iok v /\ ent v = ent a +r ent b.
Proof. intros [c ->] [d ->] H. simpl in H. injection H as <-. split; [eexists; reflexivity | reflexivity]. Qed.
Lemma iok_scale c a v : iok a -> kbin (rmul R) (KNum c) a = Ok v -> iok v /\ ent v = c *r ent a.
Proof. intros [d ->] H. simpl in H. injection H as <-. split; [eexists; reflexivity | reflexivity]. Qed.
Lemma iok_scale' c a v : iok a -> kbin (rmul R) a (KNum c) = Ok v -> iok v /\ ent v = ent a *r c.
Proof. intros [d ->] H. simpl in H. injection H as <-. split; [eexists; reflexivity | reflexivity]. Qed.
Lemma iok_dof : ~ iok KDof. Proof. intros [c H]. discriminate. Qed.
Lemma iok_size n (f g : nat -> R) : iok (KArr n f) -> iok (KArr n g). Proof. intros [c H]. discriminate. Qed.
Lemma iok_arr n (f : nat -> R) : iok (KArr n f) -> n = length pairs. Proof. intros [c H]. discriminate. Qed.

Lemma density_sound e : density inputs ctx e = true -> forall v r, kinner pairs dep others ctx e = Ok v -> ref fl env e = Ok r -> iQ v r.
Proof.
  unfold kinner.
  induction e as [c|y|es IH|es IH|a b IHa IHb|a k IHa|f a IHa|n f|n D a IHa|q n m M a IHa|l nt ns w ks ds IH] using bexpr_ind'; intros Hd v r Hv Hr; cbn [density] in Hd; try discriminate.
  - apply inb_In in Hd. rewrite Hin in Hd. cbn [kbld] in Hv. cbn [ref] in Hr. destruct (env y) as [x|] eqn:Ex; [|discriminate]. injection Hr as <-.
    destruct (Henv Ex) as [[-> ->] | [(Hn & Ho & n & f & -> & Hz) | (Hn & Ho & _)]].
    + rewrite String.eqb_refl in Hv. injection Hv as <-. split; [eexists; reflexivity|]. right. exists sz, (unit_at s). split; [reflexivity|]. split; [right; exact Hs|].
      intros i Hi _. simpl. ring.
    + destruct (String.eqb_spec y dep); [contradiction|]. destruct (inb y others) eqn:E; [|apply inb_false in E; contradiction]. injection Hv as <-.
      split; [eexists; reflexivity|]. right. exists n, f. split; [reflexivity|]. split; [left; reflexivity|]. intros i Hi _. simpl. rewrite Hz by auto. ring.
    + tauto.
  - cbn [kbld] in Hv. cbn [ref] in Hr. eapply (@ksum_sound iok iok_add (fun _ => True) (unit_at s) (fun n => s < n)); [ | | exact Hv | exact Hr].
    + rewrite forallb_forall in Hd. rewrite Forall_forall in *. intros e He v' r' Hv' Hr'. apply (IH e He (Hd e He)); auto.
    + split; [eexists; reflexivity|]. left. split; reflexivity.
  - cbn [kbld] in Hv. cbn [ref] in Hr. apply andb_true_iff in Hd. destruct Hd as [Hd Hl]. apply Nat.eqb_eq in Hl.
    eapply (@kprod_sound iok); [exists 0r; reflexivity | exact iok_scale | exact iok_scale' | exact iok_dof | exact iok_size | exact iok_arr | | exact Hl | exact Hv | exact Hr].
    rewrite forallb_forall in Hd. rewrite Forall_forall in *. intros e He. specialize (Hd e He). apply orb_true_iff in Hd. destruct Hd as [Hd|Hd]; [left; exact Hd | right].
    intros v' r' Hv' Hr'. apply (IH e He Hd); auto.
Qed.

(** *** Layer potentials and their combinations *)
Hypothesis Hp : p < length pairs.
Hypothesis Hts : nth p pairs (0, 0) = (t, s).
Definition ook (v : kval R) : Prop := v = KNum 0r \/ exists f, v = KArr (length pairs) f.
Definition oQ := Q ook (fun i => i = t) (fun _ => 1r) (fun _ => True).
Lemma bi_p : bi (length pairs) p = p.
Proof. unfold bi. destruct (Nat.eqb_spec (length pairs) 1); [lia | reflexivity]. Qed.
Lemma ook_add a b v : ook a -> ook b -> kbin (radd R) a b = Ok v -> ook v /\ ent v = ent a +r ent b.
Proof.
  intros [->|[f ->]] [->|[g ->]] H; simpl in H.
  - injection H as <-. split; [left; f_equal; ring | reflexivity].
  - injection H as <-. split; [right; eexists; reflexivity | reflexivity].
  - injection H as <-. split; [right; eexists; reflexivity | reflexivity].
  - unfold bdim in H. rewrite Nat.eqb_refl in H. simpl in H. injection H as <-. split; [right; eexists; reflexivity|]. simpl. rewrite bi_p. reflexivity.
Qed.
Lemma ook_scale c a v : ook a -> kbin (rmul R) (KNum c) a = Ok v -> ook v /\ ent v = c *r ent a.
Proof. intros [->|[f ->]] H; simpl in H; injection H as <-; (split; [|reflexivity]); [left; f_equal; ring | right; eexists; reflexivity]. Qed.
Lemma ook_scale' c a v : ook a -> kbin (rmul R) a (KNum c) = Ok v -> ook v /\ ent v = ent a *r c.
Proof. intros [->|[f ->]] H; simpl in H; injection H as <-; (split; [|reflexivity]); [left; f_equal; ring | right; eexists; reflexivity]. Qed.
Lemma ook_dof : ~ ook KDof. Proof. intros [H|[f H]]; discriminate. Qed.
Lemma ook_size n (f g : nat -> R) : ook (KArr n f) -> ook (KArr n g).
Proof. intros [H|[h H]]; [discriminate|]. injection H as -> _. right. eexists; reflexivity. Qed.
Lemma ook_arr n (f : nat -> R) : ook (KArr n f) -> n = length pairs.
Proof. intros [H|[h H]]; [discriminate|]. injection H as -> _. reflexivity. Qed.

Lemma kintg_sound nt ns waa ds : forall ks acc facc v r, forallb (density inputs ctx) ds = true -> ook acc -> (t < nt -> facc t = ent acc) ->
  kintg_loop (kinner pairs dep others ctx) pairs fl waa ks ds acc = Ok v -> intg_ref (ref fl env) fl nt ns waa ks ds facc = Ok r ->
  ook v /\ exists g, r = RVec nt g /\ (t < nt -> g t = ent v).
Proof.
  induction ds as [|d ds IH]; intros ks acc facc v r Hd Ha Hf Hv Hr; destruct ks as [|k ks]; cbn [kintg_loop intg_ref] in Hv, Hr; try discriminate.
  - injection Hv as <-. injection Hr as <-. eauto.
  - cbn [forallb] in Hd. apply andb_true_iff in Hd. destruct Hd as [Hd1 Hd2].
    apply bind_Ok in Hv. destruct Hv as [w [Hw Hv]]. apply bind_Ok in Hr. destruct Hr as [x [Hu Hr]].
    pose proof (@density_sound d Hd1 _ _ Hw Hu) as [[c ->] HQ].
    destruct x as [x|n g]; [discriminate|]. destruct (Nat.eqb_spec n ns) as [->|]; [|discriminate].
    destruct HQ as [[HQ _] | (n' & g' & HQ & HW & HG)]; [discriminate|]. injection HQ as <- <-. simpl in HW, HG.
    assert (Hlp : forall i, lp_apply fl ns waa k g i = lp_entry fl waa k i s *r c).
    { intros i. rewrite (@lp_apply_entry R Rth). 
      transitivity (rsum R ns (fun j => (if s =? j then 1r else 0r) *r (lp_entry fl waa k i s *r c))).
      - apply (@rsum_ext R). intros j Hj. rewrite HG by auto. unfold unit_at. destruct (Nat.eqb_spec j s) as [->|].
        + rewrite Nat.eqb_refl. ring.
        + destruct (Nat.eqb_spec s j); [congruence|]. ring.
      - destruct HW as [->|HW]; [|rewrite (@rsum_eye R Rth ns s (fun _ => lp_entry fl waa k i s *r c)) by exact HW; reflexivity].
        rewrite (@rsum_zero R Rth); [ring|]. intros; ring. }
    destruct (kzero (KNum c)) eqn:Z.
    + apply kzero_inv in Z. injection Z as ->. eapply IH; [exact Hd2 | exact Ha | | exact Hv | exact Hr]. intros Ht. simpl. rewrite Hf, Hlp by exact Ht. ring.
    + apply bind_Ok in Hv. destruct Hv as [acc' [Hacc Hv]].
      destruct (@ook_add _ _ _ Ha (or_intror (ex_intro _ _ eq_refl)) Hacc) as [Ha' Ea].
      eapply IH; [exact Hd2 | exact Ha' | | exact Hv | exact Hr]. intros Ht. simpl. rewrite Ea, Hf, Hlp by exact Ht. simpl. rewrite Hts. reflexivity.
Qed.

Lemma layer_sound e : layer_combination inputs ctx e = true -> forall v r, cluster_bld fl pairs dep others ctx e = Ok v -> ref fl env e = Ok r -> oQ v r.
Proof.
  unfold cluster_bld.
  induction e as [c|y|es IH|es IH|a b IHa IHb|a k IHa|f a IHa|n f|n D a IHa|q n m M a IHa|l nt ns w ks ds IH] using bexpr_ind'; intros Hd v r Hv Hr; cbn [layer_combination] in Hd; try discriminate.
  - apply inb_In in Hd. rewrite Hin in Hd. cbn [kbld] in Hv. cbn [ref] in Hr. destruct (env y) as [x|] eqn:Ex; [|discriminate]. injection Hr as <-.
    destruct (Henv Ex) as [[-> ->] | [(Hn & Ho & n & f & -> & Hz) | (Hn & Ho & _)]].
    + rewrite String.eqb_refl in Hv. injection Hv as <-. split; [right; eexists; reflexivity|]. right. exists sz, (unit_at s). split; [reflexivity|]. split; [right; exact I|].
      intros i Hi ->. simpl. rewrite Hts. simpl. unfold unit_at. ring.
    + destruct (String.eqb_spec y dep); [contradiction|]. destruct (inb y others) eqn:E; [|apply inb_false in E; contradiction]. injection Hv as <-.
      split; [left; reflexivity|]. right. exists n, f. split; [reflexivity|]. split; [left; reflexivity|]. intros i Hi _. simpl. rewrite Hz by auto. ring.
    + tauto.
  - cbn [kbld] in Hv. cbn [ref] in Hr. eapply (@ksum_sound ook ook_add (fun i => i = t) (fun _ => 1r) (fun _ => True)); [ | | exact Hv | exact Hr].
    + rewrite forallb_forall in Hd. rewrite Forall_forall in *. intros e He v' r' Hv' Hr'. apply (IH e He (Hd e He)); auto.
    + split; [left; reflexivity|]. left. split; reflexivity.
  - cbn [kbld] in Hv. cbn [ref] in Hr. apply andb_true_iff in Hd. destruct Hd as [Hd Hl]. apply Nat.eqb_eq in Hl.
    eapply (@kprod_sound ook); [left; reflexivity | exact ook_scale | exact ook_scale' | exact ook_dof | exact ook_size | exact ook_arr | | exact Hl | exact Hv | exact Hr].
    rewrite forallb_forall in Hd. rewrite Forall_forall in *. intros e He. specialize (Hd e He). apply orb_true_iff in Hd. destruct Hd as [Hd|Hd]; [left; exact Hd | right].
    intros v' r' Hv' Hr'. apply (IH e He Hd); auto.
  - cbn [kbld ref] in Hv, Hr. unfold kintg in Hv.
    assert (G : kintg_loop (kinner pairs dep others ctx) pairs fl w ks ds (KNum 0r) = Ok v) by
      (destruct fl as [wt|wt ex]; [destruct (wt && negb (nt =? ns)); [discriminate|]; destruct l as [l|]; [|discriminate]; destruct (0 <? Z.abs l)%Z; [|discriminate]|]; exact Hv).
    destruct (@kintg_sound nt ns w ds ks (KNum 0r) (fun _ => 0r) v r Hd (or_introl eq_refl) (fun _ => eq_refl) G Hr) as [Ho (g & -> & Hg)].
    split; [exact Ho|]. right. exists nt, g. split; [reflexivity|]. split; [right; exact I|]. intros i Hi ->. rewrite Hg by exact Hi. ring.
Qed.
End Proofs.

(** *** C65: the theorems *)
(** Entry [p] of a flattened block; a number stands for a constant block. *)
Definition block_entry (R : rops) (v : kval R) (p : nat) : R :=
  match v with KNum c => c | KArr _ f => f p | KDof => r0 R end.
(** All inputs zero, except for input [j], which is one at degree of freedom [s] and zero elsewhere. *)
Definition unit_input (R : rops) (ins : list (string * nat)) (j s : nat) : list (string * (nat * (nat -> R))) :=
  only R j (map (fun q => (fst q, (snd q, unit_at s))) ins).
Arguments block_entry {R} v p.

Section Setup.
Variable R : rops.
Hypothesis HR : lawful R.
Variable ctx : string -> option (cval R).
Variable ins : list (string * nat).
Hypothesis Hnd : NoDup (map fst ins).
Variables (j : nat) (y : string) (n s : nat).
Hypothesis Hj : nth_error ins j = Some (y, n).
Let us : list (string * (nat * (nat -> R))) := map (fun q => (fst q, (snd q, unit_at s))) ins.

Lemma setup :
  (forall z, In z (map fst ins) <-> z = y \/ In z (drop_nth j (map fst ins))) /\
  forall z v, in_env ctx (unit_input R ins j s) z = Some v ->
    (z = y /\ v = RVec n (unit_at s)) \/
    (z <> y /\ In z (drop_nth j (map fst ins)) /\ exists n f, v = RVec n f /\ forall i, i < n -> f i = r0 R) \/
    (z <> y /\ ~ In z (drop_nth j (map fst ins)) /\ exists c, ctx z = Some c /\ v = cval_val c).
Proof.
  assert (Hlt : j < length ins) by (apply nth_error_Some; rewrite Hj; discriminate).
  assert (Hm : map fst us = map fst ins) by (unfold us; rewrite map_map; reflexivity).
  set (d := (EmptyString, (0, fun _ : nat => r0 R))).
  assert (Hn : nth j us d = (y, (n, unit_at s))).
  { apply nth_error_nth. unfold us. rewrite nth_error_map, Hj. reflexivity. }
  assert (Ey : nth j (map fst us) EmptyString = y) by (change EmptyString with (fst d); rewrite map_nth, Hn; reflexivity).
  assert (En : nth j (map (fun p => fst (snd p)) us) 0 = n) by (change 0 with ((fun p : string * (nat * (nat -> R)) => fst (snd p)) d); rewrite map_nth, Hn; reflexivity).
  assert (Hlu : j < length us) by (unfold us; rewrite map_length; exact Hlt).
  split.
  - intros z. rewrite <- Ey, <- Hm. apply In_drop_nth; [rewrite map_length; exact Hlu | rewrite Hm; exact Hnd].
  - assert (Hnd' : NoDup (map fst us)) by (rewrite Hm; exact Hnd).
    pose proof (@env_col R ctx us Hnd' j Hlu) as He. fold d in He. rewrite Ey, En, Hn, Hm in He. cbn [snd] in He. exact He.
Qed.
End Setup.

(** Every entry of a cluster block is the influence of the unit density at the entry's source on
    the entry's target. *)
Theorem cluster_entries_right : forall (R : rops) fl pairs ctx (ins : list (string * nat)) j y n e v p t s r,
  lawful R -> NoDup (map fst ins) -> nth_error ins j = Some (y, n) ->
  layer_combination (map fst ins) ctx e = true ->
  cluster_bld (R := R) fl pairs y (drop_nth j (map fst ins)) ctx e = Ok v ->
  nth_error pairs p = Some (t, s) -> s < n ->
  ref fl (in_env ctx (unit_input R ins j s)) e = Ok r ->
  (v = KNum (r0 R) \/ exists f, v = KArr (length pairs) f) /\
  match r with RNum c => block_entry v p = c | RVec m g => t < m -> block_entry v p = g t end.
Proof.
  intros R fl pairs ctx ins j y n e v p t s r HR Hnd Hj Hl Hv Hp Hs Hr.
  destruct (@setup R ctx ins Hnd j y n s Hj) as [Hin Henv].
  assert (Hpl : p < length pairs) by (apply nth_error_Some; rewrite Hp; discriminate).
  pose proof (@layer_sound R (proj1 HR) (proj2 HR) fl pairs y n (drop_nth j (map fst ins)) ctx (map fst ins) Hin t s _ Hs Henv p Hpl (nth_error_nth _ _ (0, 0) Hp) e Hl v r Hv Hr) as [Ho HQ].
  split; [exact Ho|]. change (block_entry v p) with (ent p v).
  destruct HQ as [[-> Hz] | (m & g & -> & _ & Hg)]; [exact Hz|]. intros Ht. rewrite (Hg t Ht eq_refl).
  destruct HR as [Rth _]. rewrite (Rmul_comm Rth), (Rmul_1_l Rth). reflexivity.
Qed.
Print Assumptions cluster_entries_right.

Section TameComb.
Variable R : rops.
Variable inputs : list string.
Variable ctx : string -> option (cval R).
Lemma tame_list es : (forall e : bexpr R, In e es -> tame inputs ctx e) ->
  (fix go es := match es with [] => True | e :: es' => tame inputs ctx e /\ go es' end) es.
Proof. induction es as [|e es IH]; intros H; [exact I|]. split; [apply H; left; reflexivity | apply IH; intros; apply H; right; assumption]. Qed.
Lemma number_tame (e : bexpr R) : number inputs ctx e = true -> tame inputs ctx e.
Proof.
  destruct e; simpl; try discriminate; auto. intros H. apply andb_true_iff in H. destruct H as [_ H]. right. intros m g E. rewrite E in H. discriminate.
Qed.
Lemma density_tame (e : bexpr R) : density inputs ctx e = true -> tame inputs ctx e.
Proof.
  induction e as [c|y|es IH|es IH|a b IHa IHb|a k IHa|f a IHa|n f|n D a IHa|q n m M a IHa|l nt ns w ks ds IH] using bexpr_ind'; intros Hd; cbn [density tame] in *; try discriminate.
  - auto.
  - rewrite forallb_forall in Hd. rewrite Forall_forall in IH. apply tame_list. intros e He. apply IH; auto.
  - apply andb_true_iff in Hd. destruct Hd as [Hd _]. rewrite forallb_forall in Hd. rewrite Forall_forall in IH. apply tame_list. intros e He.
    specialize (Hd e He). apply orb_true_iff in Hd. destruct Hd as [Hd|Hd]; [apply number_tame; exact Hd | apply IH; auto].
Qed.
Lemma layer_tame (e : bexpr R) : layer_combination inputs ctx e = true -> tame inputs ctx e.
Proof.
  induction e as [c|y|es IH|es IH|a b IHa IHb|a k IHa|f a IHa|n f|n D a IHa|q n m M a IHa|l nt ns w ks ds IH] using bexpr_ind'; intros Hd; cbn [layer_combination tame] in *; try discriminate.
  - auto.
  - rewrite forallb_forall in Hd. rewrite Forall_forall in IH. apply tame_list. intros e He. apply IH; auto.
  - apply andb_true_iff in Hd. destruct Hd as [Hd _]. rewrite forallb_forall in Hd. rewrite Forall_forall in IH. apply tame_list. intros e He.
    specialize (Hd e He). apply orb_true_iff in Hd. destruct Hd as [Hd|Hd]; [apply number_tame; exact Hd | apply IH; auto].
  - rewrite forallb_forall in Hd. apply tame_list. intros e He. apply density_tame. auto.
Qed.
End TameComb.

(** The cluster builders and the dense builders give the same entries. *)
Theorem cluster_agrees_with_full : forall (R : rops) fl pairs ctx (ins : list (string * nat)) j y n e v p t s r k m F,
  lawful R -> NoDup (map fst ins) -> nth_error ins j = Some (y, n) ->
  layer_combination (map fst ins) ctx e = true ->
  cluster_bld (R := R) fl pairs y (drop_nth j (map fst ins)) ctx e = Ok v ->
  bld fl y n (drop_nth j (map fst ins)) ctx e = Ok (MMat k m F) ->
  nth_error pairs p = Some (t, s) -> t < k -> s < n ->
  ref fl (in_env ctx (unit_input R ins j s)) e = Ok r ->
  block_entry v p = F t s.
Proof.
  intros R fl pairs ctx ins j y n e v p t s r k m F HR Hnd Hj Hl Hv HF Hp Ht Hs Hr.
  destruct (@cluster_entries_right R fl pairs ctx ins j y n e v p t s r HR Hnd Hj Hl Hv Hp Hs Hr) as [_ H].
  destruct (@setup R ctx ins Hnd j y n s Hj) as [Hin Henv].
  pose proof (@bld_sound R (proj1 HR) (proj2 HR) fl y n (drop_nth j (map fst ins)) ctx (map fst ins) (unit_at s) _ Hin Henv e (@layer_tame R _ _ e Hl) _ r HF Hr) as Hrep.
  simpl in Hrep. destruct Hrep as (-> & g & -> & Hg). rewrite (H Ht), (Hg t Ht). destruct HR as [Rth _].
  transitivity (rsum R n (fun l => rmul R (if s =? l then r1 R else r0 R) (F t l))).
  - apply (@rsum_ext R). intros l Hl'. unfold unit_at. rewrite (Nat.eqb_sym l s). apply (Rmul_comm Rth).
  - apply (@rsum_eye R Rth n s (fun l => F t l) Hs).
Qed.
Print Assumptions cluster_agrees_with_full.

(** Supported layer potentials: as many kernels as densities, a limit on one side or an average
    and, for weighted QBX, equal source and target discretizations. *)
Fixpoint supported (R : rops) (fl : flavor) (e : bexpr R) : bool :=
  match e with
  | ESum es | EProd es => forallb (supported fl) es
  | EIntG l nt ns _ ks ds =>
      (length ks =? length ds) &&
      match fl with
      | FQbx w => implb w (nt =? ns) && match l with Some l => negb (l =? 0)%Z | None => false end
      | FP2P _ _ => true
      end
  | _ => true
  end.

Section Accept.
Variable R : rops.
Variable Req : forall a b : R, reqb R a b = true <-> a = b.
Variable pairs : list (nat * nat).
Variable dep : string.
Variable others : list string.
Variable ctx : string -> option (cval R).
Variable inputs : list string.
Hypothesis Hin : forall y, In y inputs <-> y = dep \/ In y others.
Notation N := (length pairs).

Section Gen.
Variable ok : kval R -> Prop.
Variable kd : bool.
Hypothesis ok_add : forall a b, ok a -> ok b -> exists v, kbin (radd R) a b = Ok v /\ ok v.
Hypothesis ok_kind : forall v, ok v -> kzero v = false ->
  match v with KArr n _ => if is_kind_matrix N n then Ok true else Err AttributeError | _ => Ok false end = Ok kd.
Hypothesis ok0 : ok (KNum (r0 R)).
(** What is left of a product once the single non-number factor is known. *)
Variable dv : kval R.
Variable ig : bexpr R -> result (kval R).
Notation rec := (kbld pairs dep others ctx dv ig).
Definition acc e := exists v, rec e = Ok v /\ ok v.

Lemma sum_accepted es : Forall acc es -> forall k a, (k = None \/ k = Some kd) -> ok a -> exists v, ksum_loop rec N es k a = Ok v /\ ok v.
Proof.
  induction es as [|e es IH]; intros HF k a Hk Ha; cbn [ksum_loop]; [eauto|].
  inversion HF as [|? ? (w & Hw & Ow) H2]; subst. rewrite Hw. cbn [bind]. destruct (kzero w) eqn:Z; [apply IH; auto|].
  pose proof (ok_kind Ow Z) as Kk. match goal with |- exists v, bind ?x _ = _ /\ _ => replace x with (@Ok bool kd) by (symmetry; exact Kk) end. cbn [bind].
  destruct (@ok_add _ _ Ha Ow) as (a' & Ea & Oa). destruct Hk as [->| ->]; cbn zeta; rewrite Bool.eqb_reflx; rewrite Ea; cbn [bind]; apply IH; auto.
Qed.

Lemma number_value e : number inputs ctx e = true -> exists c, rec e = Ok (KNum c).
Proof.
  destruct e; simpl; try discriminate; eauto. intros H. apply andb_true_iff in H. destruct H as [H1 H2]. apply negb_true_iff, inb_false in H1. rewrite Hin in H1.
  destruct (String.eqb_spec x dep); [tauto|]. destruct (inb x others) eqn:E; [apply inb_In in E; tauto|].
  destruct (ctx x) as [[c|k g|k g]|]; try discriminate. eauto.
Qed.

Lemma numbers_done es : forallb (number inputs ctx) es = true ->
  (forall c, ok (KNum c) -> forall c', ok (KNum c')) ->
  forall c, (ok (KNum c) -> exists v, kprod_loop rec N es None (KNum c) = Ok v /\ ok v) /\
  forall f, (forall g, ok (KArr N g)) -> exists v, kprod_loop rec N es (Some (N, f)) (KNum c) = Ok v /\ ok v.
Proof.
  intros Hb Hc. induction es as [|e es IH]; intros c; cbn [kprod_loop].
  - split; [eauto|]. intros f Hf. simpl. eauto.
  - cbn [forallb] in Hb. apply andb_true_iff in Hb. destruct Hb as [H1 H2]. destruct (@number_value e H1) as (d & ->). cbn [bind].
    destruct (kzero (KNum d)) eqn:Z; [split; intros; eauto|]. simpl kbin. cbn [bind]. destruct (IH H2 (rmul R c d)) as [IH1 IH2]. split.
    + intros Ho. apply IH1. exact (Hc _ Ho _).
    + intros f Hf. apply IH2. exact Hf.
Qed.

Lemma prod_accepted es : (forall v, ok v -> (exists c, v = KNum c) \/ ((exists f, v = KArr N f) /\ forall g, ok (KArr N g))) ->
  (forall c, ok (KNum c) -> kzero (KNum c) = false -> forall c', ok (KNum c')) ->
  Forall (fun e => number inputs ctx e = true \/ acc e) es -> length (filter (fun e => negb (number inputs ctx e)) es) = 1 ->
  forall c, exists v, kprod_loop rec N es None (KNum c) = Ok v /\ ok v.
Proof.
  intros Hform Hnum. induction es as [|e es IH]; intros HF Hl c; [discriminate|].
  inversion HF as [|? ? H1 H2]; subst. cbn [filter] in Hl. cbn [kprod_loop]. destruct (number inputs ctx e) eqn:En; cbn [negb] in Hl.
  - destruct (@number_value e En) as (d & ->). cbn [bind]. destruct (kzero (KNum d)); [eauto|]. simpl kbin. cbn [bind]. apply IH; auto.
  - destruct H1 as [H1|(w & Hw & Ow)]; [congruence|]. rewrite Hw. cbn [bind]. cbn [length] in Hl.
    assert (Hb : forallb (number inputs ctx) es = true).
    { apply forallb_forall. intros y Hy. destruct (number inputs ctx y) eqn:Ey; [reflexivity|]. exfalso.
      assert (Hf : In y (filter (fun e => negb (number inputs ctx e)) es)) by (apply filter_In; rewrite Ey; auto).
      destruct (filter (fun e => negb (number inputs ctx e)) es); [destruct Hf | discriminate]. }
    destruct (kzero w) eqn:Z; [eauto|]. destruct (Hform w Ow) as [(d & ->) | ((f & ->) & Hf)].
    + simpl kbin. cbn [bind]. apply (@numbers_done es Hb); [intros c0 _; exact (Hnum _ Ow Z) | exact (Hnum _ Ow Z _)].
    + unfold is_kind_matrix. rewrite Nat.eqb_refl.
      assert (G : forall es', forallb (number inputs ctx) es' = true -> forall c0, exists v, kprod_loop rec N es' (Some (N, f)) (KNum c0) = Ok v /\ ok v).
      { induction es' as [|e' es' IH']; intros Hb' c0; cbn [kprod_loop]; [simpl; eauto|].
        cbn [forallb] in Hb'. apply andb_true_iff in Hb'. destruct Hb' as [G1 G2]. destruct (@number_value _ G1) as (d & ->). cbn [bind].
        destruct (kzero (KNum d)); [eauto|]. simpl kbin. cbn [bind]. apply IH'. exact G2. }
      apply G. exact Hb.
Qed.
End Gen.

Lemma density_accepted e : density inputs ctx e = true -> acc (iok (R := R)) (KNum (r1 R)) (fun _ => Err NotImplementedError) e.
Proof.
  induction e as [c|y|es IH|es IH|a b IHa IHb|a k IHa|f a IHa|n f|n D a IHa|q n m M a IHa|l nt ns w ks ds IH] using bexpr_ind'; intros Hd; cbn [density] in Hd; try discriminate; unfold acc; cbn [kbld].
  - apply inb_In in Hd. rewrite Hin in Hd. destruct (String.eqb_spec y dep) as [->|]; [eexists; split; [reflexivity | eexists; reflexivity]|].
    destruct (inb y others) eqn:E; [eexists; split; [reflexivity | eexists; reflexivity]|]. apply inb_false in E. tauto.
  - apply (@sum_accepted (iok (R := R)) false).
    + intros a b [c ->] [d ->]. eexists; split; [reflexivity | eexists; reflexivity].
    + intros v [c ->] _. reflexivity.
    + rewrite forallb_forall in Hd. rewrite Forall_forall in *. intros e He. apply IH; auto.
    + auto.
    + eexists; reflexivity.
  - apply andb_true_iff in Hd. destruct Hd as [Hd Hl]. apply Nat.eqb_eq in Hl. apply (@prod_accepted (iok (R := R))).
    + eexists; reflexivity.
    + intros v [c ->]. left. eauto.
    + intros; eexists; reflexivity.
    + rewrite forallb_forall in Hd. rewrite Forall_forall in *. intros e He. specialize (Hd e He). apply orb_true_iff in Hd. destruct Hd as [Hd|Hd]; [auto|]. right. apply IH; auto.
    + exact Hl.
Qed.

Lemma intg_accepted fl waa ds : forallb (density inputs ctx) ds = true -> forall ks a, length ks = length ds -> ook pairs a ->
  exists v, kintg_loop (kinner pairs dep others ctx) pairs fl waa ks ds a = Ok v /\ ook pairs v.
Proof.
  induction ds as [|d ds IH]; intros Hd ks a Hl Ha; destruct ks as [|k ks]; try discriminate; cbn [kintg_loop]; [eauto|].
  cbn [forallb] in Hd. apply andb_true_iff in Hd. destruct Hd as [H1 H2]. destruct (@density_accepted d H1) as (v & Hv & c & ->). unfold kinner at 1. rewrite Hv. cbn [bind].
  injection Hl as Hl. destruct (kzero (KNum c)); [apply IH; auto|].
  destruct Ha as [->|[f ->]]; cbn [kbin]; [|unfold bdim; rewrite Nat.eqb_refl]; cbn [bind]; apply IH; auto; right; eexists; reflexivity.
Qed.

Lemma layer_accepted fl e : layer_combination inputs ctx e = true -> supported fl e = true ->
  acc (ook pairs) (KArr N (fun p => if fst (nth p pairs (0, 0)) =? snd (nth p pairs (0, 0)) then r1 R else r0 R)) (kintg fl pairs dep others ctx) e.
Proof.
  induction e as [c|y|es IH|es IH|a b IHa IHb|a k IHa|f a IHa|n f|n D a IHa|q n m M a IHa|l nt ns w ks ds IH] using bexpr_ind'; intros Hd Hs; cbn [layer_combination supported] in Hd, Hs; try discriminate; unfold acc; cbn [kbld].
  - apply inb_In in Hd. rewrite Hin in Hd. destruct (String.eqb_spec y dep) as [->|]; [eexists; split; [reflexivity | right; eexists; reflexivity]|].
    destruct (inb y others) eqn:E; [eexists; split; [reflexivity | left; reflexivity]|]. apply inb_false in E. tauto.
  - destruct es as [|e0 es0]; [cbn; eexists; split; [reflexivity | left; reflexivity]|]. 
    assert (Hadd : forall a b, ook pairs a -> ook pairs b -> exists v, kbin (radd R) a b = Ok v /\ (kzero b = false -> ook pairs v)).
    { intros a b [->|[f ->]] [->|[g ->]]; cbn [kbin]; try (unfold bdim; rewrite Nat.eqb_refl); cbn [bind]; eexists; (split; [reflexivity|]); intros Hz;
      try (right; eexists; reflexivity). simpl in Hz. rewrite (proj2 (Req _ _) eq_refl) in Hz. discriminate. }
    rewrite forallb_forall in Hd, Hs. rewrite Forall_forall in IH.
    assert (HF : forall e, In e (e0 :: es0) -> acc (ook pairs) (KArr N (fun p => if fst (nth p pairs (0, 0)) =? snd (nth p pairs (0, 0)) then r1 R else r0 R)) (kintg fl pairs dep others ctx) e) by (intros e He; apply IH; auto).
    revert HF. generalize (e0 :: es0). clear - Hadd Req. intros es HF.
    assert (G : forall k a, (k = None \/ k = Some true) -> ook pairs a -> exists v, ksum_loop (kbld pairs dep others ctx (KArr N (fun p => if fst (nth p pairs (0, 0)) =? snd (nth p pairs (0, 0)) then r1 R else r0 R)) (kintg fl pairs dep others ctx)) N es k a = Ok v /\ ook pairs v).
    { induction es as [|e es IH]; intros k a Hk Ha; cbn [ksum_loop]; [eauto|].
      destruct (HF e (or_introl eq_refl)) as (w & Hw & Ow). rewrite Hw. cbn [bind]. destruct (kzero w) eqn:Z; [apply IH; auto; intros; apply HF; right; assumption|].
      destruct Ow as [->|[f ->]]; [simpl in Z; rewrite (proj2 (Req _ _) eq_refl) in Z; discriminate|].
      unfold is_kind_matrix. rewrite Nat.eqb_refl. cbn [bind].
      destruct (Hadd a (KArr N f) Ha (or_intror (ex_intro _ f eq_refl))) as (a' & Ea & Oa).
      destruct Hk as [->| ->]; cbn zeta; cbn [Bool.eqb]; rewrite Ea; cbn [bind]; apply IH; auto; intros; apply HF; right; assumption. }
    apply G; [auto | left; reflexivity].
  - apply andb_true_iff in Hd. destruct Hd as [Hd Hl]. apply Nat.eqb_eq in Hl. apply (@prod_accepted (ook pairs)).
    + left; reflexivity.
    + intros v [->|[f ->]]; [left; eauto|]. right. split; [eauto|]. intros g. right. eexists; reflexivity.
    + intros c [E|[f E]] Z; [|discriminate]. injection E as ->. simpl in Z. rewrite (proj2 (Req _ _) eq_refl) in Z. discriminate.
    + rewrite forallb_forall in Hd, Hs. rewrite Forall_forall in *. intros e He. specialize (Hd e He). apply orb_true_iff in Hd. destruct Hd as [Hd|Hd]; [auto|]. right. apply IH; auto.
    + exact Hl.
  - apply andb_true_iff in Hs. destruct Hs as [Hk Hs]. apply Nat.eqb_eq in Hk. unfold kintg. destruct fl as [wt|wt ex].
    + apply andb_true_iff in Hs. destruct Hs as [H1 H2]. destruct l as [l|]; [|discriminate]. apply negb_true_iff, Z.eqb_neq in H2.
      assert (Hw : wt && negb (nt =? ns) = false) by (destruct wt; simpl in *; [rewrite H1|]; reflexivity). rewrite Hw.
      assert (Hl : (0 <? Z.abs l)%Z = true) by (apply Z.ltb_lt; lia). rewrite Hl. apply intg_accepted; auto. left; reflexivity.
    + apply intg_accepted; auto. left; reflexivity.
Qed.
End Accept.

(** Supported combinations of layer potentials are accepted. *)
Theorem cluster_accepts : forall (R : rops) fl pairs ctx (ins : list (string * nat)) j y n (e : bexpr R),
  lawful R -> NoDup (map fst ins) -> nth_error ins j = Some (y, n) ->
  layer_combination (map fst ins) ctx e = true -> supported fl e = true ->
  exists v, cluster_bld fl pairs y (drop_nth j (map fst ins)) ctx e = Ok v.
Proof.
  intros R fl pairs ctx ins j y n e HR Hnd Hj Hl Hs. destruct (@setup R ctx ins Hnd j y n 0 Hj) as [Hin _].
  destruct (@layer_accepted R (proj2 HR) pairs y (drop_nth j (map fst ins)) ctx (map fst ins) Hin fl e Hl Hs) as (v & Hv & _). exists v. exact Hv.
Qed.
Print Assumptions cluster_accepts.

(** *** Examples: 3 sigma + S(2 sigma) on two nodes, with the block of target 1 and sources 0, 1 *)
Definition ex_lc : bexpr ZR := ESum [EProd [ENum (3%Z : ZR); sig]; sl (EProd [ENum (2%Z : ZR); sig])].
Definition ex_pairs : list (nat * nat) := [(1, 0); (1, 1)].
Example ex_cluster :
  lawful ZR /\ layer_combination ["sigma"] noctx ex_lc = true /\ supported (FQbx true) ex_lc = true /\
  (exists r, ref (FQbx true) (in_env noctx (unit_input ZR [("sigma", 2)] 0 1)) ex_lc = Ok r) /\
  match cluster_bld (FQbx true) ex_pairs "sigma" [] noctx ex_lc, bld (FQbx true) "sigma" 2 [] noctx ex_lc with
  | Ok v, Ok (MMat 2 2 F) => [block_entry v 0; block_entry v 1] = [44; 75]%Z /\ [F 1 0; F 1 1] = [44; 75]%Z
  | _, _ => False
  end.
Proof. split; [exact ZR_lawful|]. split; [reflexivity|]. split; [reflexivity|]. split; [vm_compute; eauto|]. vm_compute. split; reflexivity. Qed.
(** The same with two inputs, for the point-to-point builder without the diagonal. *)
Example ex_cluster_p2p :
  let e := ESum [EProd [ENum (3%Z : ZR); tau]; EIntG None 2 2 wts [kern] [ESum [sig; EProd [ENum (2%Z : ZR); tau]]]] in
  layer_combination ["sigma"; "tau"] noctx e = true /\ supported (FP2P true true) e = true /\
  match cluster_bld (FP2P true true) ex_pairs "tau" ["sigma"] noctx e with
  | Ok v => [block_entry v 0; block_entry v 1] = [440; 3]%Z
  | _ => False
  end.
Proof. vm_compute. repeat split; reflexivity. Qed.

(** *** C66: expressions the cluster builders treat differently from the dense builder *)
(** Accepted although the dense builder refuses them, since inside of layer potentials the input is
    replaced by the number one. *)
Definition accepted_only_by_clusters (e : bexpr ZR) : Prop :=
  (exists v, cluster_bld (FQbx true) ex_pairs "sigma" [] noctx e = Ok v) /\
  exists ex, bld (FQbx true) "sigma" 2 [] noctx e = Err ex.
Theorem cluster_affine_density_refuted : accepted_only_by_clusters (sl (ESum [ENum (1%Z : ZR); sig])).
Proof. split; vm_compute; eauto. Qed.
Theorem cluster_product_density_refuted : accepted_only_by_clusters (sl (EProd [sig; sig])).
Proof. split; vm_compute; eauto. Qed.
Theorem cluster_function_density_refuted : accepted_only_by_clusters (sl (ECall (fun z : ZR => (z * z)%Z : ZR) sig)).
Proof. split; vm_compute; eauto. Qed.
(** The operator is not even additive there. *)
Theorem cluster_accepts_nonlinear_refuted :
  exists r1 r2 r3 : nat -> ZR,
    ref (FQbx true) (in_env noctx [("sigma", (2, unit_at 0))]) (sl (EProd [sig; sig])) = Ok (RVec 2 r1) /\
    ref (FQbx true) (in_env noctx [("sigma", (2, fun i => rmul ZR 2%Z (unit_at 0 i)))]) (sl (EProd [sig; sig])) = Ok (RVec 2 r2) /\
    r3 = (fun t => rmul ZR 2%Z (r1 t)) /\ r2 1 <> r3 1 /\
    exists v, cluster_bld (FQbx true) ex_pairs "sigma" [] noctx (sl (EProd [sig; sig])) = Ok v.
Proof. do 3 eexists. split; [vm_compute; reflexivity|]. split; [vm_compute; reflexivity|]. split; [reflexivity|]. split; [vm_compute; discriminate | vm_compute; eauto]. Qed.
(** A nodal coefficient of a layer potential, which the dense builder handles, ends in an
    AttributeError from a misspelled attribute. *)
Theorem cluster_nodal_coefficient_refuted :
  cluster_bld (FQbx true) ex_pairs "sigma" [] noctx (ESum [EProd [ENodes ZR 3 xt; sl sig]]) = Err AttributeError /\
  cluster_bld (FQbx true) ex_pairs "sigma" [] noctx (ESum [ENodes ZR 3 xt]) = Err AttributeError /\
  exists k m F, bld (FQbx true) "sigma" 2 [] noctx (EProd [ENodes ZR 2 xt; sl sig]) = Ok (MMat k m F).
Proof. vm_compute. eauto 6. Qed.
(** Nodal values as many as the block has entries are taken for a block. *)
Theorem cluster_vector_taken_for_block_refuted :
  exists v, cluster_bld (FQbx true) ex_pairs "sigma" [] noctx (ESum [sl sig; ENodes ZR 2 xt]) = Ok v /\
  (exists ex, bld (FQbx true) "sigma" 2 [] noctx (ESum [sl sig; ENodes ZR 2 xt]) = Err ex).
Proof. vm_compute. eauto. Qed.
Print Assumptions cluster_affine_density_refuted.
Print Assumptions cluster_product_density_refuted.
Print Assumptions cluster_function_density_refuted.
Print Assumptions cluster_accepts_nonlinear_refuted.
Print Assumptions cluster_nodal_coefficient_refuted.
Print Assumptions cluster_vector_taken_for_block_refuted.
