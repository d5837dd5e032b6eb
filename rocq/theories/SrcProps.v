(** Properties C102-C107: what potential sources hand to the numerical kernels. *)
From Verif Require Import Base SrcModel SrcSpec SrcProofs SrcProofs2.
Set Implicit Arguments.
Open Scope string_scope.
Open Scope list_scope.
Open Scope nat_scope.

(** * C102: point-to-point evaluators *)

(** For every history of requests on one array context, by sources of one precision, every
    request is answered with an evaluator for exactly its kernels and in its precision, and two
    requests get the same object iff they name the same kernels. *)
Theorem p2p_every_history :
  forall (p : prec) (cs : list (psource * (list kern * option (list kern)))),
    (forall c, In c cs -> real_dtype (fst c) = RealT p) ->
    length (p2p_calls cs empty_actx) = length cs /\
    (forall i c, nth_error cs i = Some c ->
       exists P, nth_error (p2p_calls cs empty_actx) i = Some (Ok P) /\ suits p (snd c) P) /\
    (forall i j ci cj P Q,
       nth_error cs i = Some ci -> nth_error cs j = Some cj ->
       nth_error (p2p_calls cs empty_actx) i = Some (Ok P) -> nth_error (p2p_calls cs empty_actx) j = Some (Ok Q) ->
       (snd ci = snd cj <-> p_oid P = p_oid Q) /\ (snd ci = snd cj -> P = Q)).
Proof.
  intros p cs Hp. split; [apply calls_length|]. split.
  - intros i c Hc. destruct (@call_result cs i c Hc) as [(j & cj & P & o & Hf & Hj & HP & HR)|[_ (e & He & _)]].
    + exists P. split; [exact HR|]. destruct Hf as (ci & cj' & H1 & H2 & H3 & _).
      rewrite Hc in H1; inversion H1; subst ci. rewrite Hj in H2; inversion H2; subst cj'. rewrite H3.
      apply (@make_suits (fst cj) p (snd cj) o P); [|exact HP]. apply Hp. eapply nth_error_In. exact Hj.
    + exfalso. destruct (@make_total (fst c) p (fst (snd c)) (snd (snd c)) 0) as [P HP].
      * apply Hp. eapply nth_error_In. exact Hc.
      * congruence.
  - intros i j ci cj P Q Hi Hj HP HQ.
    pose proof (@result_kept cs empty_actx i ci P Hi HP) as LP. pose proof (@result_kept cs empty_actx j cj Q Hj HQ) as LQ.
    destruct (@final_ok cs empty_actx empty_fresh empty_inj) as [_ HI].
    assert (HE : snd ci = snd cj -> P = Q) by (intros E; rewrite E in LP; congruence).
    split; [|exact HE]. split; [intros E; rewrite (HE E); reflexivity|]. intros E. exact (HI _ _ _ _ LP LQ E).
Qed.
Print Assumptions p2p_every_history.

(** For every history whatsoever: a request is answered with the evaluator made for the first
    successful request for the same kernels; it fails iff there is none up to and including
    itself, with its own error, which is the lack of a complex type for its precision. *)
Theorem p2p_first_success_wins :
  forall cs i c, nth_error cs i = Some c ->
    (exists j cj P, first_success cs i j /\ nth_error cs j = Some cj /\
       nth_error (p2p_calls cs empty_actx) i = Some (Ok P) /\ (p_tgt P, p_src P) = snd c /\
       (if existsb is_complex_valued (fst (snd c)) then complex_dtype (fst cj) else Ok (real_dtype (fst cj))) = Ok (p_dtype P)) \/
    ((forall j, ~ first_success cs i j) /\ nth_error (p2p_calls cs empty_actx) i = Some (Err KeyError) /\
     complex_dtype (fst c) = Err KeyError /\ exists k, In k (fst (snd c)) /\ is_complex_valued k = true).
Proof.
  intros cs i c Hc. destruct (@call_result cs i c Hc) as [(j & cj & P & o & Hf & Hj & HP & HR)|[Hn (e & He & HR)]].
  - left. exists j, cj, P. split; [exact Hf|]. split; [exact Hj|]. split; [exact HR|].
    destruct Hf as (ci & cj' & H1 & H2 & H3 & _).
    rewrite Hc in H1; inversion H1; subst ci. rewrite Hj in H2; inversion H2; subst cj'.
    destruct (make_oid _ _ _ _ HP) as (d & E & _). rewrite H3. split; [subst P; destruct cj as [s [t sk]]; reflexivity|].
    unfold make_p2p in HP. destruct (if existsb is_complex_valued (fst (snd cj)) then complex_dtype (fst cj) else Ok (real_dtype (fst cj))) as [d'|]; simpl in HP; [|discriminate].
    inversion HP. reflexivity.
  - right. split; [exact Hn|]. unfold make_p2p in He.
    destruct (existsb is_complex_valued (fst (snd c))) eqn:Ex; simpl in He; [|discriminate].
    apply existsb_exists in Ex. unfold complex_dtype in *.
    destruct (real_dtype (fst c)) as [[|]| |]; simpl in He; try discriminate; inversion He; subst e; auto.
Qed.
Print Assumptions p2p_first_success_wins.

(** Two sources, four requests, three distinct evaluators. *)
Definition lap := Kern (Base 0 false) [] [] [] [].
Definition lap_dn := Kern (Base 0 false) [7] [] [] ["dsource_vec"].
Definition helm := Kern (Base 1 true) [] [] ["k"] [].
Example p2p_history :
  map (fun r => match r with Ok P => Some (p_dtype P, p_oid P) | Err _ => None end)
    (p2p_calls [(PSource (RealT Double), ([lap], None)); (PSource (RealT Double), ([helm], Some [helm]));
                (PSource (RealT Double), ([lap], None)); (PSource (RealT Double), ([lap], Some [lap_dn]))] empty_actx)
  = [Some (RealT Double, 0); Some (CplxT Double, 1); Some (RealT Double, 0); Some (RealT Double, 2)].
Proof. vm_compute. reflexivity. Qed.

(** * C103: ... but not across precisions *)

(** The claim without the restriction to one precision. *)
Definition p2p_suits_caller : Prop :=
  forall cs i c P p, nth_error cs i = Some c -> nth_error (p2p_calls cs empty_actx) i = Some (Ok P) ->
    real_dtype (fst c) = RealT p -> suits p (snd c) P.
(** A double-precision source that comes second is handed single-precision arithmetic. *)
Theorem p2p_mixed_precision_refuted : ~ p2p_suits_caller.
Proof.
  intros H.
  specialize (H [(PSource (RealT Single), ([lap], None)); (PSource (RealT Double), ([lap], None))] 1
    (PSource (RealT Double), ([lap], None)) (P2P [lap] None false (RealT Single) 0) Double eq_refl eq_refl eq_refl).
  destruct H as (_ & _ & _ & _ & H). assert (E : RealT Single = RealT Double); [|discriminate E].
  apply H. intros k [<-|[]]. reflexivity.
Qed.
Print Assumptions p2p_mixed_precision_refuted.
(** It holds for the first request for given kernels, in any history. *)
Theorem p2p_first_request_partial :
  forall cs i c p, nth_error cs i = Some c -> real_dtype (fst c) = RealT p ->
    (forall h ch, h < i -> nth_error cs h = Some ch -> snd ch <> snd c) ->
    exists P, nth_error (p2p_calls cs empty_actx) i = Some (Ok P) /\ suits p (snd c) P.
Proof.
  intros cs i c p Hc Hp Hn. destruct (@call_result cs i c Hc) as [(j & cj & P & o & Hf & Hj & HP & HR)|[_ (e & He & _)]].
  - exists P. split; [exact HR|]. destruct Hf as (ci & cj' & H1 & H2 & H3 & H4 & _).
    rewrite Hc in H1; inversion H1; subst ci. rewrite Hj in H2; inversion H2; subst cj'.
    destruct (Nat.eq_dec j i) as [->|Hji].
    + rewrite Hc in Hj; inversion Hj; subst cj. exact (@make_suits (fst c) p (snd c) o P Hp HP).
    + exfalso. apply (Hn j cj); auto. lia.
  - exfalso. destruct (@make_total (fst c) p (fst (snd c)) (snd (snd c)) 0 Hp) as [P HP]. congruence.
Qed.
Print Assumptions p2p_first_request_partial.

(** * C104: the number type of the FMM *)

(** If the densities are all real or all complex, the number type both FMM executors choose for
    expansions and results is complex iff a kernel or a density is, and has the source
    geometry's precision. *)
Theorem fmm_dtype_fits :
  forall s p wp i, real_dtype s = RealT p -> grouped i -> same_kind i ->
    (exists t, qbx_fmm_dtype s wp i = Ok t /\ fits p i t) /\ (exists t, unreg_fmm_dtype s wp i = Ok t /\ fits p i t).
Proof. intros. split; [apply qbx_fmm_dtype_fits|apply unreg_fmm_dtype_fits]; assumption. Qed.
Print Assumptions fmm_dtype_fits.

(** With one density -- the case of every operator without a sum of source kernels -- no
    restriction is left. *)
Theorem fmm_dtype_one_density :
  forall s p wp i d, real_dtype s = RealT p -> grouped i -> f_dens i = [d] ->
    (exists t, qbx_fmm_dtype s wp i = Ok t /\ fits p i t) /\ (exists t, unreg_fmm_dtype s wp i = Ok t /\ fits p i t).
Proof.
  intros s p wp i d Hs Hg Hd. apply fmm_dtype_fits; auto. unfold same_kind. rewrite Hd.
  intros t u [<-|[]] [<-|[]]. reflexivity.
Qed.
Print Assumptions fmm_dtype_one_density.

(** The number type of one (possibly nested) array is that of all its leaves; arrays of mixed
    types, empty object arrays and other objects are refused. *)
Fixpoint leaves (v : tyval) : list (option dtype) :=
  match v with
  | TDof t | TNumpy t | TDev t => [Some t]
  | TObj l => flat_map leaves l
  | TOther => [None]
  end.
Theorem entry_dtype_sound :
  forall v t, entry_dtype v = Ok t -> leaves v <> [] /\ forall x, In x (leaves v) -> x = Some t.
Proof.
  fix IH 1. intros v t H. destruct v as [u|u|l|u|]; simpl in H; try discriminate H; try (inversion H; subst; simpl; split; [discriminate|intros x [<-|[]]; reflexivity]).
  - match type of H with bind ?g _ = _ => destruct g as [ts|] eqn:E; simpl in H; [|discriminate] end.
    assert (G : Forall2 (fun v t => leaves v <> [] /\ forall x, In x (leaves v) -> x = Some t) l ts).
    { clear H. revert ts E. induction l as [|v l IHl]; intros ts E.
      - inversion E; subst. constructor.
      - destruct (entry_dtype v) as [t0|] eqn:Ev; simpl in E; [|discriminate].
        match type of E with bind ?g _ = _ => destruct g as [ts'|] eqn:E'; simpl in E; [|discriminate] end.
        inversion E; subst. constructor; [exact (IH v t0 Ev)|exact (IHl _ eq_refl)]. }
    destruct ts as [|t0 ts]; simpl in H; [discriminate|].
    destruct (forallb (dtype_eqb t0) ts) eqn:Ef; [|discriminate]. inversion H; subst t0.
    assert (Ha : forall u, In u (t :: ts) -> u = t).
    { intros u [->|Hu]; [reflexivity|]. rewrite forallb_forall in Ef. specialize (Ef u Hu).
      destruct t as [[]|[]|], u as [[]|[]|]; simpl in Ef; try discriminate; try reflexivity.
      apply Nat.eqb_eq in Ef. subst. reflexivity. }
    clear -G Ha. destruct l as [|x l0]; [inversion G|]. inversion G as [|? ? ? ? Hx HG]; subst. split.
    + simpl. destruct Hx as [H1 _]. destruct (leaves x); [congruence|discriminate].
    + intros y Hy. simpl in Hy. change (leaves x ++ flat_map leaves l0) with (flat_map leaves (x :: l0)) in Hy.
      apply in_flat_map in Hy. destruct Hy as (v & Hv & Hy).
      assert (exists u, In u (t :: ts) /\ forall z, In z (leaves v) -> z = Some u) as (u & Hu & Hz).
      { clear -G Hv. induction G as [|a b la lb Hab _ IHG]; [contradiction|]. destruct Hv as [->|Hv].
        - exists b. split; [left; reflexivity|]. apply Hab.
        - destruct (IHG Hv) as (u & Hu & Hz). exists u. split; [right; exact Hu|exact Hz]. }
      rewrite (Hz y Hy). rewrite (Ha u Hu). reflexivity.
Qed.
Print Assumptions entry_dtype_sound.

(** The kernel the unregularized FMM expands: what all target kernels are after dropping their
    target derivatives; if they do not agree, an assertion fails. *)
Theorem fmm_kernel_common :
  forall ks, ks <> [] ->
    (exists f, get_fmm_kernel ks = Ok (Some f) /\ forall k, In k ks -> tx_remove k = f) \/
    (get_fmm_kernel ks = Err AssertionError /\ exists k k', In k ks /\ In k' ks /\ tx_remove k <> tx_remove k').
Proof.
  intros [|k ks] H; [congruence|]. unfold get_fmm_kernel. simpl.
  destruct (@fmm_kernel_from (tx_remove k) ks _ eq_refl) as [[-> Ha]|[-> (k' & Hk' & Hne)]].
  - left. exists (tx_remove k). split; [reflexivity|]. intros k' [<-|Hk']; auto.
  - right. split; [reflexivity|]. exists k, k'. repeat split; [left; reflexivity|right; exact Hk'|auto].
Qed.
Print Assumptions fmm_kernel_common.

Example fmm_dtype_cases :
  let i := FInsn [lap; lap_dn] [lap] [RealT Double; RealT Single] in
  let j := FInsn [lap_dn] [lap] [CplxT Single] in
  grouped i /\ same_kind i /\ grouped j /\ same_kind j /\
  qbx_fmm_dtype (PSource (RealT Single)) Single i = Ok (RealT Single) /\
  unreg_fmm_dtype (PSource (RealT Double)) Double j = Ok (CplxT Double) /\
  get_fmm_kernel [lap_dn; Kern (Base 0 false) [7] [1] [] ["dsource_vec"]] = Ok (Some lap_dn).
Proof.
  simpl. repeat split; try discriminate.
  - exists (Base 0 false). simpl. intros k [<-|[<-|[<-|[]]]]; reflexivity.
  - intros t u [<-|[<-|[]]] [<-|[<-|[]]]; reflexivity.
  - exists (Base 0 false). simpl. intros k [<-|[<-|[]]]; reflexivity.
  - intros t u [<-|[]] [<-|[]]; reflexivity.
Qed.

(** * C105: ... but only the first density is looked at *)
Definition fmm_dtype_always_fits : Prop :=
  forall s p wp i, real_dtype s = RealT p -> grouped i -> exists t, qbx_fmm_dtype s wp i = Ok t /\ fits p i t.
(** A real density followed by a complex one: the FMM computes in real numbers. *)
Theorem fmm_dtype_mixed_refuted :
  ~ fmm_dtype_always_fits /\
  let i := FInsn [lap; lap_dn] [lap] [RealT Double; CplxT Double] in
  grouped i /\ involves_complex i /\
  qbx_fmm_dtype (PSource (RealT Double)) Double i = Ok (RealT Double) /\
  unreg_fmm_dtype (PSource (RealT Double)) Double i = Ok (RealT Double) /\
  qbx_fmm_dtype (PSource (RealT Double)) Double (FInsn [lap_dn; lap] [lap] [CplxT Double; RealT Double]) = Ok (CplxT Double).
Proof.
  set (i := FInsn [lap; lap_dn] [lap] [RealT Double; CplxT Double]).
  assert (Hg : grouped i).
  { repeat split; try discriminate. exists (Base 0 false). simpl. intros k [<-|[<-|[<-|[]]]]; reflexivity. }
  assert (Hc : involves_complex i).
  { right. exists (CplxT Double). split; [right; left; reflexivity|reflexivity]. }
  split.
  - intros H. destruct (H (PSource (RealT Double)) Double Double i eq_refl Hg) as (t & E & F).
    inversion E; subst t. destruct F as [F _]. specialize (F Hc). discriminate F.
  - split; [exact Hg|]. split; [exact Hc|]. repeat split; reflexivity.
Qed.
Print Assumptions fmm_dtype_mixed_refuted.
(** What is true of every instruction: the type is right for the first density. *)
Theorem fmm_dtype_first_density_partial :
  forall s p wp i d ds, real_dtype s = RealT p -> grouped i -> f_dens i = d :: ds ->
    exists t, qbx_fmm_dtype s wp i = Ok t /\ unreg_fmm_dtype s wp i = Ok t /\ fits p (FInsn (f_src i) (f_tgt i) [d]) t.
Proof.
  intros s p wp i d ds Hs (H1 & H2 & H3 & H4) Hd.
  destruct (@fmm_dtype_one_density s p wp (FInsn (f_src i) (f_tgt i) [d]) d Hs) as [(t & Ht & Ft) (u & Hu & _)]; [|reflexivity|].
  { repeat split; simpl; auto. discriminate. }
  destruct H4 as (b & Hb). destruct (involves_iff i Hb H1 H2) as (E1 & E2 & _).
  exists t. split; [|split; [|exact Ft]].
  - rewrite <- Ht. unfold qbx_fmm_dtype. rewrite Hd. reflexivity.
  - rewrite <- Ht. unfold qbx_fmm_dtype, unreg_fmm_dtype. rewrite Hd. simpl. unfold fmm_dtype. rewrite E1, E2. reflexivity.
Qed.
Print Assumptions fmm_dtype_first_density_partial.

(** * C106: kernel arguments *)
Section Args.
Variables E X : Type.
Variable evaluate : X -> result (value E).

(** The FMM gets exactly the arguments its kernels need, each the value of its expression with
    per-source arrays in the order of the tree's sources. *)
Theorem fmm_arguments :
  forall ids ks args n, NoDup (map fst args) ->
    (forall name, needed k_args ks name \/ needed k_sargs ks name ->
       exists x v, In (name, x) args /\ evaluate x = Ok v /\ per_source n v) ->
    (forall i, In i ids -> i < n) ->
    exists kd sd, extra_kwargs evaluate ids ks args = Ok (kd, sd) /\
      dict_of evaluate args (needed k_args ks) (reordered ids) kd /\
      dict_of evaluate args (needed k_sargs ks) (reordered ids) sd.
Proof.
  intros ids ks args n HN Ha Hi. destruct (@extra_total _ _ evaluate ids ks args n HN Ha Hi) as (kd & sd & H).
  exists kd, sd. split; [exact H|]. apply (@extra_ok _ _ evaluate ids ks args kd sd HN H).
Qed.
(** A missing argument is a KeyError. *)
Theorem fmm_arguments_missing :
  forall ids ks args n,
    (forall name x, In (name, x) args -> exists v, evaluate x = Ok v /\ per_source n v) ->
    (forall i, In i ids -> i < n) ->
    (exists name, (needed k_args ks name \/ needed k_sargs ks name) /\ ~ In name (map fst args)) ->
    extra_kwargs evaluate ids ks args = Err KeyError.
Proof. intros. eapply extra_missing; eauto. Qed.
(** Direct evaluation gets all arguments, flattened (or as they are, for point sources). *)
Theorem direct_arguments :
  forall flat args, NoDup (map fst args) -> (forall name x, In (name, x) args -> exists v, evaluate x = Ok v) ->
    exists d, evaluate_kernel_arguments evaluate flat args = Ok d /\
      dict_of evaluate args (fun name => In name (map fst args)) (fun v w => if flat then flattened v w else w = v) d.
Proof.
  intros flat args HN Ha. destruct (eval_total evaluate flat args Ha) as [d Hd]. exists d. split; [exact Hd|].
  apply (eval_ok evaluate flat args HN Hd).
Qed.
(** Both see the same data: what the FMM gets is what direct evaluation gets, with every array in
    the tree's source order. *)
Theorem fmm_and_direct_arguments_agree :
  forall ids ks args kd sd d name w,
    NoDup (map fst args) -> extra_kwargs evaluate ids ks args = Ok (kd, sd) ->
    evaluate_kernel_arguments evaluate true args = Ok d ->
    get kd name = Some w \/ get sd name = Some w ->
    exists u, get d name = Some u /\ reordered ids u w.
Proof.
  intros ids ks args kd sd d name w HN H Hd Hw.
  destruct (@extra_ok _ _ evaluate ids ks args kd sd HN H) as [[_ K] [_ S]]. destruct (@eval_ok _ _ evaluate true args d HN Hd) as [D1 D2].
  assert (exists x v, In (name, x) args /\ evaluate x = Ok v /\ reordered ids v w) as (x & v & Hx & Hv & Hr)
    by (destruct Hw as [Hw|Hw]; [apply (K _ _ Hw)|apply (S _ _ Hw)]).
  destruct (proj2 (D1 name)) as [u Hu]; [apply in_map_iff; exists (name, x); auto|].
  exists u. split; [exact Hu|]. destruct (D2 _ _ Hu) as (x' & v' & Hx' & Hv' & Hf).
  assert (x' = x) by (pose proof (In_get _ _ _ HN Hx); pose proof (In_get _ _ _ HN Hx'); congruence). subst x'.
  rewrite Hv in Hv'; inversion Hv'; subst v'. apply (reordered_flat ids w Hf). exact Hr.
Qed.
(** The matrix builders evaluate exactly the arguments they ask for. *)
Theorem matrix_arguments :
  forall include args, NoDup (map fst args) -> (forall name x, In (name, x) args -> exists v, evaluate x = Ok v) ->
    exists d, layer_potential_args evaluate include args = Ok d /\
      dict_of evaluate args
        (fun name => In name (map fst args) /\ match include with Some ns => In name ns | None => True end)
        (@flattened E) d.
Proof.
  intros include args HN Ha. unfold layer_potential_args.
  set (args' := match include with Some ns => filter (fun e => inb (fst e) ns) args | None => args end).
  assert (HN' : NoDup (map fst args')) by (destruct include; [apply NoDup_map_filter|]; exact HN).
  assert (Hin : forall e, In e args' <-> In e args /\ match include with Some ns => In (fst e) ns | None => True end).
  { intros e. unfold args'. destruct include as [ns|]; [rewrite filter_In, inb_In|]; tauto. }
  destruct (eval_total evaluate true args') as [d Hd].
  { intros name x Hx. apply (Ha name x). apply Hin. exact Hx. }
  exists d. split; [exact Hd|]. destruct (@eval_ok _ _ evaluate true args' d HN' Hd) as [D1 D2]. split.
  - intros name. rewrite D1. split.
    + intros Hi. apply in_map_iff in Hi. destruct Hi as (e & <- & He). apply Hin in He. split; [apply in_map|]; tauto.
    + intros [Hi Hn]. apply in_map_iff in Hi. destruct Hi as (e & <- & He). apply in_map. apply Hin. auto.
  - intros name w Hw. destruct (D2 _ _ Hw) as (x & v & Hx & Hv & Hf). apply Hin in Hx. exists x, v. tauto.
Qed.

(** * C107: strengths and the point source's executor *)

(** The QBX source's strengths: one per density, in order, each the pointwise product of weights
    times area elements with the density's values, flattened in the same order. *)
Theorem strengths_of_densities :
  forall (mul : E -> E -> E) waa ds,
    (forall d, In d ds -> exists gs, evaluate d = Ok (VDof gs) /\ map (@length E) gs = map (@length E) waa) ->
    exists fs, flat_strengths evaluate mul waa ds = Ok fs /\ length fs = length ds /\
      forall i d gs, nth_error ds i = Some d -> evaluate d = Ok (VDof gs) ->
        exists f, nth_error fs i = Some f /\ length f = length (concat waa) /\
          forall j w x, nth_error (concat waa) j = Some w -> nth_error (concat gs) j = Some x -> nth_error f j = Some (mul w x).
Proof.
  intros mul waa ds H. destruct (strengths_total evaluate mul waa ds H) as [fs Hfs]. exists fs. split; [exact Hfs|].
  pose proof (strengths_ok evaluate mul waa ds Hfs) as HF. clear Hfs H. split; [induction HF; simpl; auto|].
  induction HF as [|d f ds fs Hd HF IH]; intros [|i] d' gs Hi Hg; try discriminate.
  - inversion Hi; subst d'. exists f. split; [reflexivity|]. destruct Hd as (gs' & Hg' & Hl & ->).
    rewrite Hg in Hg'; inversion Hg'; subst gs'.
    assert (Hlen : length (concat gs) = length (concat waa)).
    { clear -Hl. revert gs Hl. induction waa as [|w waa IH]; intros [|g gs] Hl; simpl in Hl; try discriminate; [reflexivity|].
      inversion Hl. simpl. rewrite !app_length. rewrite (IH _ H1). lia. }
    unfold zip_mul. split; [rewrite map_length, combine_length; lia|]. intros j w x Hw Hx.
    revert Hw Hx Hlen. generalize (concat waa) (concat gs). intros la lb. revert lb j.
    induction la as [|a la IHl]; intros [|b lb] [|j] Hw Hx Hlen; simpl in *; try discriminate.
    + congruence.
    + apply IHl; auto.
  - exact (IH i d' gs Hi Hg).
Qed.
(** A density that is not a DOF array is a TypeError. *)
Theorem strengths_type_error :
  forall (mul : E -> E -> E) waa ds, (forall d, In d ds -> exists v, evaluate d = Ok v) ->
    (exists d v, In d ds /\ evaluate d = Ok v /\ forall gs, v <> VDof gs) ->
    flat_strengths evaluate mul waa ds = Err TypeError.
Proof. intros. apply strengths_type; assumption. Qed.

(** The point source's executor returns, for every output in order, its name and the potential
    that one P2P evaluator -- the array context's for the instruction's kernels -- computes at the
    output's targets for the output's kernel, from the evaluated densities and arguments; shaped
    like the target discretization if there is one, flat otherwise. *)
Theorem point_source_outputs :
  forall call_p2p places s nodes (i : pinsn X) a rs a',
    NoDup (map fst (pi_args i)) ->
    point_exec evaluate call_p2p places s nodes i a = (Ok rs, a') -> pi_outs i <> [] ->
    exists P args strengths,
      get_p2p s (pi_tgt i) (Some (pi_src i)) a = (Ok P, a') /\
      dict_of evaluate (pi_args i) (fun n => In n (map fst (pi_args i))) eq args /\
      Forall2 (fun d v => evaluate d = Ok v) (pi_dens i) strengths /\
      Forall2 (fun o r => fst r = o_name o /\ exists t each x,
         places (o_tgt o) = Ok t /\ call_p2p P (t_nodes t) nodes strengths args = Ok each /\ nth_error each (o_knl o) = Some x /\
         match t_groups t with
         | None => snd r = VArr x
         | Some ns => exists gs, snd r = VDof gs /\ (length x = fold_right plus 0 ns -> concat gs = x /\ map (@length E) gs = ns)
         end) (pi_outs i) rs.
Proof.
  intros call_p2p places s nodes i a rs a' HN H Ho. unfold point_exec in H.
  destruct (evaluate_kernel_arguments evaluate false (pi_args i)) as [args|] eqn:Ea; simpl in H; [|discriminate].
  destruct (mapM evaluate (pi_dens i)) as [st|] eqn:Es; simpl in H; [|discriminate].
  destruct (@point_outputs_none _ _ call_p2p places s nodes i args st (pi_outs i) a rs a' H) as [(E0 & _)|(P & HP & HF)]; [congruence|].
  exists P, args, st. split; [exact HP|]. split; [|split].
  - destruct (@eval_ok _ _ evaluate false (pi_args i) args HN Ea) as [D1 D2]. split; [exact D1|]. intros n w Hw. destruct (D2 _ _ Hw) as (x & v & A1 & A2 & A3).
    exists x, v. split; [exact A1|]. split; [exact A2|]. symmetry. exact A3.
  - apply mapM_iff. exact Es.
  - clear Ho H. induction HF as [|o r os rs' Ho _ IH]; constructor; [|exact IH]. destruct Ho as (Hn & t & each & x & A1 & A2 & A3 & A4). split; [exact Hn|].
    exists t, each, x. split; [exact A1|]. split; [exact A2|]. split; [exact A3|]. rewrite A4. unfold shape_as.
    destruct (t_groups t) as [ns|]; [|reflexivity]. exists (split ns x). split; [reflexivity|]. apply concat_split.
Qed.
(** It succeeds whenever everything it evaluates does. *)
Theorem point_source_succeeds :
  forall call_p2p places s p nodes (i : pinsn X) a, real_dtype s = RealT p ->
    (forall n x, In (n, x) (pi_args i) -> exists v, evaluate x = Ok v) ->
    (forall d, In d (pi_dens i) -> exists v, evaluate d = Ok v) ->
    (forall o, In o (pi_outs i) -> exists t, places (o_tgt o) = Ok t /\
       forall P st args, exists each x, call_p2p P (t_nodes t) nodes st args = Ok each /\ nth_error each (o_knl o) = Some x) ->
    exists rs a', point_exec evaluate call_p2p places s nodes i a = (Ok rs, a').
Proof.
  intros call_p2p places s p nodes i a Hs Ha Hd Ho. unfold point_exec.
  destruct (eval_total evaluate false (pi_args i) Ha) as [args ->]. simpl.
  assert (exists st, mapM evaluate (pi_dens i) = Ok st) as [st ->].
  { clear Ho. induction (pi_dens i) as [|d ds IH]; [exists []; reflexivity|].
    destruct (Hd d (or_introl eq_refl)) as [v Hv]. destruct IH as [vs Hvs]; [intros x Hx; apply Hd; right; exact Hx|].
    exists (v :: vs). simpl. rewrite Hv, Hvs. reflexivity. }
  simpl. destruct (get_p2p s (pi_tgt i) (Some (pi_src i)) a) as [[P|e] a1] eqn:Eg.
  - destruct (@point_outputs_total _ _ call_p2p places s nodes i args st (pi_outs i) a P a1 None [] Eg) as [rs Hrs].
    { intros o Hin. destruct (Ho o Hin) as (t & Ht & Hc). destruct (Hc P st args) as (each & x & A1 & A2). exists t, each, x. auto. }
    destruct (point_outputs _ _ _ _ _ _ _ _ _ _ _) as [r a2]. simpl in Hrs. subst r. eauto.
  - exfalso. destruct (get_cases _ _ _ _ Eg) as [(Q & _ & H & _)|[(_ & Q & _ & H & _)|(_ & e' & H & _)]]; try discriminate.
    destruct (@make_total s p (pi_tgt i) (Some (pi_src i)) (next_oid a) Hs) as [Q HQ]. congruence.
Qed.
End Args.
Print Assumptions fmm_arguments.
Print Assumptions fmm_arguments_missing.
Print Assumptions direct_arguments.
Print Assumptions fmm_and_direct_arguments_agree.
Print Assumptions matrix_arguments.
Print Assumptions strengths_of_densities.
Print Assumptions strengths_type_error.
Print Assumptions point_source_outputs.
Print Assumptions point_source_succeeds.

(** Three sources in two groups, a scalar and a vector argument, tree order 2,0,1. *)
Definition ex_eval (n : nat) : result (value nat) :=
  match n with
  | 0 => Ok (VScalar 42)
  | 1 => Ok (VObj [VDof [[10; 11]; [12]]; VArr [20; 21; 22]])
  | 2 => Ok (VDof [[1; 2]; [3]])
  | _ => Err UnknownVariable
  end.
Example args_example :
  extra_kwargs ex_eval [2; 0; 1] [helm; lap_dn] [("dsource_vec", 1); ("k", 0); ("unused", 0)]
    = Ok ([("k", VScalar 42)], [("dsource_vec", VObj [VArr [12; 10; 11]; VArr [22; 20; 21]])]) /\
  evaluate_kernel_arguments ex_eval true [("dsource_vec", 1); ("k", 0)]
    = Ok [("k", VScalar 42); ("dsource_vec", VObj [VArr [10; 11; 12]; VArr [20; 21; 22]])] /\
  layer_potential_args ex_eval (Some ["k"]) [("dsource_vec", 1); ("k", 0)] = Ok [("k", VScalar 42)] /\
  extra_kwargs ex_eval [2; 0; 1] [helm] [("dsource_vec", 1)] = Err KeyError /\
  flat_strengths ex_eval mult [[2; 2]; [5]] [2; 2] = Ok [[2; 4; 15]; [2; 4; 15]] /\
  flat_strengths ex_eval mult [[2; 2]; [5]] [2; 0] = Err TypeError.
Proof. vm_compute. repeat split; reflexivity. Qed.
(** Their hypotheses hold. *)
Example args_hypotheses :
  let args := [("dsource_vec", 1); ("k", 0); ("unused", 0)] in
  NoDup (map fst args) /\
  (forall name, needed k_args [helm; lap_dn] name \/ needed k_sargs [helm; lap_dn] name ->
     exists x v, In (name, x) args /\ ex_eval x = Ok v /\ per_source 3 v) /\
  (forall i, In i [2; 0; 1] -> i < 3).
Proof.
  simpl. split; [|split].
  - repeat constructor; simpl; intuition discriminate.
  - intros name [(k & [<-|[<-|[]]] & Hn)|(k & [<-|[<-|[]]] & Hn)]; simpl in Hn; try contradiction; destruct Hn as [<-|[]].
    + exists 0, (VScalar 42). repeat split; [right; left; reflexivity|constructor].
    + exists 1, (VObj [VDof [[10; 11]; [12]]; VArr [20; 21; 22]]). repeat split; [left; reflexivity|].
      constructor. repeat constructor.
  - intros i [<-|[<-|[<-|[]]]]; lia.
Qed.
Example point_example :
  let call (P : p2p) (t s : list (list nat)) (st : list (value nat)) (args : list (string * value nat)) := Ok [[7; 8; 9]; [1; 2; 3]] in
  let places (n : nat) := match n with 0 => Ok (Tgt [[0; 0; 0]] None) | 1 => Ok (Tgt [[0; 0; 0]] (Some [1; 2])) | _ => Err KeyError end in
  fst (point_exec ex_eval call places (PSource (RealT Double)) [[0; 0; 0]]
    (PInsn [Out "a" 1 0; Out "b" 0 1] [("k", 0)] [2] [helm] [helm; lap]) empty_actx)
  = Ok [("a", VDof [[7]; [8; 9]]); ("b", VArr [1; 2; 3])].
Proof. vm_compute. reflexivity. Qed.
