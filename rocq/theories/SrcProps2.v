(** C103, C105: exactly when the number types are right. *)
From Verif Require Import Base SrcModel SrcSpec SrcProofs SrcProps.
Set Implicit Arguments.
Open Scope list_scope. Open Scope nat_scope.

(** C103.  In every history, a request by a source of precision [p] is given the evaluator of the
    first successful request for the same kernels, and it fits exactly if the source of that
    request had the same precision. *)
Theorem p2p_suits_iff : forall cs i c p,
  nth_error cs i = Some c -> real_dtype (fst c) = RealT p ->
  exists j cj P, first_success cs i j /\ nth_error cs j = Some cj /\
    nth_error (p2p_calls cs empty_actx) i = Some (Ok P) /\
    (suits p (snd c) P <-> real_dtype (fst cj) = RealT p).
Proof.
  intros cs i c p Hc Hp. destruct (@call_result cs i c Hc) as [(j & cj & P & o & Hf & Hj & HP & HR)|[_ (e & He & _)]].
  - exists j, cj, P. repeat (split; [assumption|]).
    assert (Hs : snd cj = snd c).
    { destruct Hf as (ci & cj0 & H1 & H2 & H3 & _). congruence. }
    split.
    + intros (_ & _ & _ & H1 & H2). unfold make_p2p in HP. rewrite Hs in HP.
      destruct (existsb is_complex_valued (fst (snd c))) eqn:Ex.
      * apply existsb_exists in Ex. unfold complex_dtype in HP.
        destruct (real_dtype (fst cj)) as [[|]| |]; simpl in HP; try discriminate HP; injection HP as <-; specialize (H1 Ex); simpl in H1; congruence.
      * simpl in HP. injection HP as <-. simpl in H2. apply H2.
        intros k Hk'. destruct (is_complex_valued k) eqn:E; [|reflexivity].
        assert (existsb is_complex_valued (fst (snd c)) = true) by (apply existsb_exists; exists k; auto). congruence.
    + intros Hpj. rewrite <- Hs. exact (@make_suits (fst cj) p (snd cj) o P Hpj HP).
  - exfalso. destruct (@make_total (fst c) p (fst (snd c)) (snd (snd c)) 0 Hp) as [P HP]. congruence.
Qed.
Print Assumptions p2p_suits_iff.

(** C105.  The number type both executors choose fits exactly if a complex number among the later
    densities comes with a complex kernel or a complex first density. *)
Theorem fmm_dtype_fits_iff : forall s p wp i d ds,
  real_dtype s = RealT p -> grouped i -> f_dens i = d :: ds ->
  exists t, qbx_fmm_dtype s wp i = Ok t /\ unreg_fmm_dtype s wp i = Ok t /\
    (fits p i t <->
     ((exists u, In u ds /\ kind_c u = true) ->
      kind_c d = true \/ exists k, In k (f_src i ++ f_tgt i) /\ is_complex_valued k = true)).
Proof.
  intros s p wp i d ds Hs Hg Hd.
  destruct (@fmm_dtype_first_density_partial s p wp i d ds Hs Hg Hd) as (t & H1 & H2 & F1 & F2).
  exists t. split; [exact H1|]. split; [exact H2|]. unfold fits, involves_complex in *. cbn [f_src f_tgt f_dens] in *. rewrite Hd.
  assert (Dec : (exists k, In k (f_src i ++ f_tgt i) /\ is_complex_valued k = true) \/ ~ (exists k, In k (f_src i ++ f_tgt i) /\ is_complex_valued k = true)).
  { destruct (existsb is_complex_valued (f_src i ++ f_tgt i)) eqn:E.
    - left. apply existsb_exists. exact E.
    - right. intros H. apply existsb_exists in H. congruence. }
  split.
  - intros (G1 & G2) (u & Hu & Ku).
    assert (E : t = CplxT p) by (apply G1; right; exists u; split; [right; exact Hu|exact Ku]).
    destruct Dec as [Dec|Dec]; [right; exact Dec|left].
    destruct (kind_c d) eqn:Kd; [reflexivity|]. exfalso.
    assert (E2 : t = RealT p); [|congruence]. apply F2. intros [K|(v & [<-|[]] & Kv)]; [exact (Dec K)|congruence].
  - intros H. split.
    + intros [K|(v & [<-|Hv] & Kv)].
      * apply F1. left. exact K.
      * apply F1. right. exists d. split; [left; reflexivity|exact Kv].
      * destruct (H (ex_intro _ v (conj Hv Kv))) as [K|K]; apply F1; [right|left; exact K]. exists d. split; [left; reflexivity|exact K].
    + intros N. apply F2. intros [K|(v & [<-|[]] & Kv)]; apply N; [left; exact K|].
      right. exists d. split; [left; reflexivity|exact Kv].
Qed.
Print Assumptions fmm_dtype_fits_iff.

(** Both sides of both occur. *)
Example ex_p2p : forall q, (q = Single \/ q = Double) ->
  let cs := [(PSource (RealT q), ([lap], None)); (PSource (RealT Double), ([lap], @None (list kern)))] in
  exists P, nth_error (p2p_calls cs empty_actx) 1 = Some (Ok P) /\ (suits Double ([lap], None) P <-> q = Double).
Proof.
  intros q Hq cs. destruct (@p2p_suits_iff cs 1 _ Double eq_refl eq_refl) as (j & cj & P & Hf & Hj & HR & H).
  exists P. split; [exact HR|]. rewrite H. destruct Hf as (ci & cj' & H1 & H2 & H3 & H4 & H5 & H6).
  destruct j as [|[|j]]; [|exfalso|lia].
  - injection Hj as <-. simpl. split; intros E; [injection E; auto|subst; reflexivity].
  - destruct (H6 0 (PSource (RealT q), ([lap], None))) as (e & He); [lia|reflexivity|injection H1 as <-; reflexivity|]. discriminate He.
Qed.
Example ex_fmm : forall d, d = RealT Double \/ d = CplxT Double ->
  exists t, qbx_fmm_dtype (PSource (RealT Double)) Double (FInsn [lap; lap_dn] [lap] [d; CplxT Double]) = Ok t /\
  (fits Double (FInsn [lap; lap_dn] [lap] [d; CplxT Double]) t <-> d = CplxT Double).
Proof.
  intros d Hd. destruct (@fmm_dtype_fits_iff (PSource (RealT Double)) Double Double (FInsn [lap; lap_dn] [lap] [d; CplxT Double]) d [CplxT Double] eq_refl) as (t & H1 & _ & H).
  - repeat split; try discriminate. exists (Base 0 false). simpl. intros k [<-|[<-|[<-|[]]]]; reflexivity.
  - reflexivity.
  - exists t. split; [exact H1|]. rewrite H. split.
    + intros G. destruct G as [G|(k & Hk & Ck)]; [exists (CplxT Double); split; [left; reflexivity|reflexivity]| |].
      * destruct Hd as [-> | ->]; [discriminate G|reflexivity].
      * simpl in Hk. destruct Hk as [<-|[<-|[<-|[]]]]; discriminate Ck.
    + intros -> _. left. reflexivity.
Qed.
