(** C41: interleaving; C74: expansion centers and radii. *)
From Coq Require Import Permutation Ring.
From Verif Require Import Base DofModel MatModel MatProps SymProofs SymProofs2 IntlModel IntlSpec IntlProofs.
Set Implicit Arguments.
Open Scope string_scope. Open Scope list_scope. Open Scope nat_scope.

(** C41.  Two arrays on the same discretization are interleaved, whatever the order in which the
    work items run and whatever was in memory: the result has twice the unit DOFs in every group,
    and in the flat array entry 2 i is entry i of the first and 2 i + 1 that of the second one. *)
Theorem interleave_alternates : forall (T : Type) (sched : nat -> sub T -> list stmt * memory T), any_order sched ->
  forall gs c xs ys, on gs xs -> on gs ys ->
  exists zs, interleave_dof_arrays sched (elements gs) (ADof (Some c) xs) (ADof (Some c) ys) = Ok (ADof (Some c) zs) /\
    on (map (fun s => (fst s, 2 * snd s)) gs) zs /\
    alternates (flatten xs) (flatten ys) (flatten zs).
Proof.
  intros T sched Hs gs c xs ys Hx Hy.
  destruct (groups_ok Hs 0 Hx Hy) as (zs & Hz & Sz & Az). exists zs.
  unfold interleave_dof_arrays. cbn [opt_eqb]. rewrite Nat.eqb_refl. cbn [negb]. rewrite Hz.
  split; [reflexivity|]. split; [exact Sz|exact Az].
Qed.
Print Assumptions interleave_alternates.

(** The flat number of a DOF: element iel, unit DOF idof of a group g.  The DOF is followed by
    its plus-side companion. *)
Theorem interleave_in_place : forall (T : Type) (sched : nat -> sub T -> list stmt * memory T), any_order sched ->
  forall gs c xs ys zs, on gs xs -> on gs ys ->
  interleave_dof_arrays sched (elements gs) (ADof (Some c) xs) (ADof (Some c) ys) = Ok (ADof (Some c) zs) ->
  forall g x y, nth_error xs g = Some x -> nth_error ys g = Some y ->
  exists z, nth_error zs g = Some z /\ shape_of z = (dtype x, nel x, 2 * nunit x) /\
  forall iel idof, iel < nel x -> idof < nunit x ->
    val z iel (2 * idof) = val x iel idof /\ val z iel (2 * idof + 1) = val y iel idof.
Proof.
  intros T sched Hs gs c xs ys zs Hx Hy H.
  unfold interleave_dof_arrays in H. cbn [opt_eqb] in H. rewrite Nat.eqb_refl in H. cbn [negb] in H.
  apply bind_Ok in H. destruct H as (r & H & E). injection E; intros ->. clear E.
  set (g0 := 0) in H. clearbody g0. revert g0 xs ys zs Hx Hy H. induction gs as [|gr gs IH]; intros g0 xs ys zs Hx Hy H g x y Ex Ey.
  - destruct xs; [|discriminate]. destruct g; discriminate.
  - destruct xs as [|x' xs]; [discriminate|]. destruct ys as [|y' ys]; [discriminate|].
    injection Hx; intros Hx' E1. injection Hy; intros Hy' E2. rewrite <- E1 in E2. unfold shape_of in E2.
    injection E2; intros U N D. subst gr.
    cbn [elements map interleave_groups shape_of fst snd] in H.
    rewrite <- D, N, U, !Nat.eqb_refl in H. cbn [negb andb] in H.
    apply bind_Ok in H. destruct H as (r & Hr & E). injection E; intros <-. clear E.
    destruct g as [|g].
    + injection Ex; intros <-. injection Ey; intros <-. eexists. split; [reflexivity|]. split; [unfold shape_of, call_kernel; cbn [dtype nel nunit]; reflexivity|].
      intros iel idof Hi Hj. cbn [call_kernel val].
      assert (Hin : forall sec, In (sec, iel, idof) (fst (sched g0 x'))).
      { intros sec. eapply Permutation_in; [apply Permutation_sym; apply Hs|]. apply in_domain. lia. }
      split; [apply run_even|apply run_odd]; apply Hin.
    + cbn in Ex, Ey. destruct (IH (S g0) xs ys r Hx' Hy' Hr g x y Ex Ey) as (z & Ez & Hz). exists z. split; [exact Ez|exact Hz].
Qed.
Print Assumptions interleave_in_place.

(** C41.  Nothing else is accepted: both must be DOFArrays (TypeError), in the same array
    context and not frozen (ValueError), with the same dtypes and shapes in every group of the
    discretization. *)
Theorem interleave_rejects : forall (T : Type) (sched : nat -> sub T -> list stmt * memory T) groups a b,
  (a = AOther \/ b = AOther -> interleave_dof_arrays sched groups a b = Err TypeError) /\
  (forall c1 c2 xs ys, a = ADof c1 xs -> b = ADof c2 ys -> c1 <> c2 \/ c1 = None ->
     interleave_dof_arrays sched groups a b = Err ValueError) /\
  forall r, interleave_dof_arrays sched groups a b = Ok r ->
    exists c xs ys gs, a = ADof (Some c) xs /\ b = ADof (Some c) ys /\ groups = elements gs /\ on gs xs /\ on gs ys.
Proof.
  intros T sched groups a b. split; [|split].
  - intros [->| ->]; [reflexivity|]. destruct a; reflexivity.
  - intros c1 c2 xs ys -> -> H. unfold interleave_dof_arrays.
    destruct c1 as [c1|], c2 as [c2|]; cbn [opt_eqb]; try reflexivity.
    destruct (Nat.eqb_spec c1 c2) as [->|]; [|reflexivity]. destruct H; congruence.
  - intros r H. destruct a as [c1 xs|]; [|destruct b; discriminate]. destruct b as [c2 ys|]; [|discriminate].
    unfold interleave_dof_arrays in H. destruct (opt_eqb Nat.eqb c1 c2) eqn:E; [|discriminate]. cbn [negb] in H.
    destruct c1 as [c1|]; [|discriminate]. destruct c2 as [c2|]; [|discriminate]. apply Nat.eqb_eq in E. subst c2.
    apply bind_Ok in H. destruct H as (zs & Hz & _). destruct (groups_inv _ _ _ _ _ Hz) as (gs & -> & H1 & H2).
    exists c1, xs, ys, gs. auto.
Qed.
Print Assumptions interleave_rejects.

(** C41.  interleave is for node granularity only, and its result is for center granularity;
    interpolate never changes to center granularity. *)
Theorem interleave_from_nodes : forall d dd, as_dofdesc d = Ok dd ->
  interleave d = (if gran_eqb (granularity dd) NODE then Ok dd else Err ValueError) /\
  (forall f, interleave d = Ok f -> interleave_to_dd f = Ok (DD (geometry dd) (discr_stage dd) CENTER)) /\
  forall d' dd', as_dofdesc d' = Ok dd' ->
    (dd = dd' -> interpolate d d' = Ok ISame) /\
    (dd <> dd' -> interpolate d d' = if gran_eqb (granularity dd') CENTER then Err ValueError else Ok (INode dd dd')).
Proof.
  intros d dd Hd. split; [|split].
  - unfold interleave. rewrite Hd. cbn [bind]. destruct (gran_eqb (granularity dd) NODE); reflexivity.
  - intros f Hf. unfold interleave in Hf. rewrite Hd in Hf. cbn [bind] in Hf.
    destruct (gran_eqb (granularity dd) NODE); [|discriminate]. injection Hf; intros <-.
    unfold interleave_to_dd, dd_copy, dd_init. destruct dd as [g [s|] gr]; reflexivity.
  - intros d' dd' Hd'. unfold interpolate. rewrite Hd, Hd'. cbn [bind].
    assert (HE : dd_eqb dd dd' = true <-> dd = dd').
    { unfold dd_eqb. rewrite !andb_true_iff. destruct dd as [g s gr], dd' as [g' s' gr']. cbn [geometry discr_stage granularity].
      assert (Hst : forall x y, stage_eqb x y = true <-> x = y) by (intros [] []; cbn; split; congruence).
      assert (Hgr : forall x y, gran_eqb x y = true <-> x = y) by (intros [] []; cbn; split; congruence).
      assert (Hg : forall x y, geom_eqb x y = true <-> x = y).
      { intros [] []; cbn; try (split; congruence); try (rewrite Hst; split; congruence);
          try (rewrite Hgr; split; congruence); rewrite String.eqb_eq; split; congruence. }
      assert (Ho : forall (A : Type) (f : A -> A -> bool), (forall x y, f x y = true <-> x = y) ->
                 forall x y, opt_eqb f x y = true <-> x = y).
      { intros A f Hf [x|] [y|]; cbn; try (split; congruence). rewrite Hf. split; congruence. }
      rewrite (Ho _ _ Hg), (Ho _ _ Hst), Hgr. split; [intros [[-> ->] ->]; reflexivity|]. intros E. injection E; auto. }
    destruct (dd_eqb dd dd'); split; intros H; try reflexivity; exfalso; [apply H; apply HE; reflexivity|].
    apply HE in H. discriminate.
Qed.
Print Assumptions interleave_from_nodes.

Section C74.
Variable R : rops.
Variable Rth : ring_theory (r0 R) (r1 R) (radd R) (rmul R) (rsub R) (ropp R) eq.
Add Ring Rr74 : Rth.
Variable sched : nat -> sub R -> list stmt * memory R.
Hypothesis Hs : any_order sched.
Infix "+r" := (radd R) (at level 50, left associativity).
Infix "-r" := (rsub R) (at level 50, left associativity).
Infix "*r" := (rmul R) (at level 40, left associativity).

Lemma eval_interleave_ok gs (a b : darr R) : on gs a -> on gs b ->
  exists z, eval_interleave sched (elements gs) a b = Ok z /\ alternates (flatten a) (flatten b) (flatten z).
Proof.
  intros Ha Hb. unfold eval_interleave.
  destruct (interleave_alternates Hs 0 Ha Hb) as (z & Hz & _ & Az). rewrite Hz. exists z. split; [reflexivity|exact Az].
Qed.
Lemma copy_same (dd : dofdesc) : dd_copy dd GANone OSentinel ONone = Ok dd.
Proof. destruct dd as [g [s|] gr]; reflexivity. Qed.
Lemma copy_gran (dd : dofdesc) g : dd_copy dd GANone OSentinel (OGran g) = Ok (DD (geometry dd) (discr_stage dd) g).
Proof. destruct dd as [g' [s|] gr]; reflexivity. Qed.
Lemma interp_self dd : interpolate (LDesc dd) (LDesc dd) = Ok ISame.
Proof. exact (proj1 (proj2 (proj2 (@interleave_from_nodes (LDesc dd) dd eq_refl)) (LDesc dd) dd eq_refl) eq_refl). Qed.
Lemma interp_other dd dd' : dd <> dd' -> granularity dd' <> CENTER -> interpolate (LDesc dd) (LDesc dd') = Ok (INode dd dd').
Proof.
  intros H Hc. rewrite (proj2 (proj2 (proj2 (@interleave_from_nodes (LDesc dd) dd eq_refl)) (LDesc dd') dd' eq_refl) H).
  destruct (granularity dd'); [reflexivity|congruence|reflexivity].
Qed.

(** The granularity is kept or already NODE: the values at the nodes. *)
Lemma quad_nodes groups gran d dd h : as_dofdesc d = Ok dd -> gran = None \/ gran = Some (granularity dd) -> gran <> Some CENTER ->
  quad_resolution sched groups gran d h = Ok h.
Proof.
  intros Hd Hg Hne. unfold quad_resolution. rewrite Hd. cbn [bind].
  assert (Hc : dd_copy dd GANone OSentinel (match gran with None => ONone | Some g => OGran g end) = Ok dd).
  { destruct Hg as [-> | ->]; [apply copy_same|]. rewrite copy_gran. destruct dd; reflexivity. }
  rewrite Hc. cbn [bind]. destruct gran as [[| |]|]; try congruence; rewrite interp_self; reflexivity.
Qed.

(** C74.  The radii at the nodes are a fixed multiple of the mapping stretch factor h: half of
    it, a quarter of it on surfaces; danger zones have 3/4 and tunnels 1/2 of that radius.  At the centers both
    centers of a node have its radius.  There are no radii by element. *)
Theorem radii_of_stretch : (radd R (r1 R) (r1 R)) *r rinv R (radd R (r1 R) (r1 R)) = r1 R ->
  forall gs ambient_dim dim d dd h, as_dofdesc d = Ok dd -> granularity dd = NODE -> on gs h ->
  let G := elements gs in
  let two := r1 R +r r1 R in
  let real_dim := match dim with None => (ambient_dim - 1)%Z | Some k => k end in
  exists r dz tn, 
    (forall g, g = None \/ g = Some NODE ->
       expansion_radii sched G ambient_dim dim g d h = Ok r /\
       danger_zone_radii sched G ambient_dim dim g d h = Ok dz /\
       tunnel_radii sched G ambient_dim dim g d h = Ok tn) /\
    (forall i hi, nth_error (flatten h) i = Some hi ->
       exists ri di ti, nth_error (flatten r) i = Some ri /\ nth_error (flatten dz) i = Some di /\ nth_error (flatten tn) i = Some ti /\
       (real_dim <> 2%Z -> two *r ri = hi) /\ (real_dim = 2%Z -> two *r two *r ri = hi) /\
       two *r two *r di = (two +r r1 R) *r ri /\ two *r ti = ri) /\
    (exists rc, expansion_radii sched G ambient_dim dim (Some CENTER) d h = Ok rc /\
       alternates (flatten r) (flatten r) (flatten rc)) /\
    expansion_radii sched G ambient_dim dim (Some ELEMENT) d h = Err ValueError.
Proof.
  intros H2 gs ambient_dim dim d dd h Hd Hg Hh G tw real_dim.
  set (f := radii_factor R ambient_dim dim). set (r := dscale f h).
  exists r, (dscale (rmul R (radd R (two R) (r1 R)) (rmul R (half R) (half R))) r), (dscale (half R) r).
  assert (Q : forall g, g = None \/ g = Some NODE -> expansion_radii sched G ambient_dim dim g d h = Ok r).
  { intros g Hgg. unfold expansion_radii. rewrite (@quad_nodes G g d dd); [reflexivity|exact Hd| |].
    - rewrite Hg. exact Hgg.
    - destruct Hgg as [-> | ->]; discriminate. }
  split.
  { intros g Hgg. unfold danger_zone_radii, tunnel_radii. rewrite (Q g Hgg). auto. }
  split.
  { intros i hi Ei. unfold r. rewrite !flatten_scale.
    exists (f *r hi), ((two R +r r1 R) *r (half R *r half R) *r (f *r hi)), (half R *r (f *r hi)).
    split; [apply map_nth_error; exact Ei|]. split; [apply map_nth_error, map_nth_error; exact Ei|].
    split; [apply map_nth_error, map_nth_error; exact Ei|].
    change (r1 R +r r1 R) with tw in H2. change (rinv R tw) with (half R) in H2. change (two R) with tw.
    unfold f, radii_factor. fold real_dim.
    split; [|split; [|split]].
    - intros Hne. apply Z.eqb_neq in Hne. rewrite Hne. transitivity ((tw *r half R) *r hi); [ring|]. rewrite H2. ring.
    - intros ->. cbn [Z.eqb Pos.eqb]. transitivity ((tw *r half R) *r (tw *r half R) *r hi); [ring|]. rewrite H2. ring.
    - generalize (half R *r (if (real_dim =? 2)%Z then half R else r1 R) *r hi). intros rr.
      transitivity ((tw *r half R) *r (tw *r half R) *r ((tw +r r1 R) *r rr)); [ring|]. rewrite H2. ring.
    - generalize (half R *r (if (real_dim =? 2)%Z then half R else r1 R) *r hi). intros rr.
      transitivity ((tw *r half R) *r rr); [ring|]. rewrite H2. ring. }
  split.
  - unfold expansion_radii, quad_resolution. rewrite Hd. cbn [bind]. rewrite !copy_gran. cbn [bind].
    assert (HN : DD (geometry dd) (discr_stage dd) NODE = dd) by (destruct dd; cbn in *; congruence).
    rewrite HN, interp_self. cbn [bind].
    replace (interleave (LDesc dd)) with (Ok dd) by (unfold interleave; cbn [as_dofdesc bind]; rewrite Hg; reflexivity).
    cbn [bind eval_interpolate].
    destruct (eval_interleave_ok Hh Hh) as (z & Hz & Az). fold G in Hz. rewrite Hz. cbn [bind].
    eexists. split; [reflexivity|]. unfold r. rewrite !flatten_scale. fold f.
    destruct Az as (A1 & A2 & A3). split; [|split]; rewrite ?map_length; auto.
    intros i Hi. destruct (A3 i Hi) as [E1 E2]. rewrite !nth_error_map, E1, E2. auto.
  - unfold expansion_radii, quad_resolution. rewrite Hd. cbn [bind]. rewrite !copy_gran. cbn [bind].
    replace (interpolate (LDesc dd) (LDesc (DD (geometry dd) (discr_stage dd) ELEMENT)))
      with (Ok (INode dd (DD (geometry dd) (discr_stage dd) ELEMENT))); [reflexivity|].
    symmetry. apply interp_other; [|discriminate].
    intros E. apply (f_equal granularity) in E. rewrite Hg in E. discriminate.
Qed.

(** C74.  Centers 2 i and 2 i + 1 belong to node i: they are x_i - r_i n_i and x_i + r_i n_i, in
    every coordinate, and both have the radius r_i.  Without node granularity there are none. *)
Theorem centers_flank_nodes : forall gs ambient_dim source_dd x n h,
  on gs h -> Forall (on gs) x -> Forall (on gs) n -> length n = length x ->
  let G := elements gs in
  (granularity source_dd = NODE ->
   exists r cs rs, expansion_radii sched G ambient_dim None None (LDesc source_dd) h = Ok r /\
     flat_centers sched G ambient_dim source_dd x n h = Ok cs /\
     flat_expansion_radii sched G ambient_dim source_dd h = Ok rs /\
     length cs = length x /\ (forall c, In c cs -> length c = 2 * length (flatten h)) /\
     alternates (flatten r) (flatten r) rs /\
     forall k i xk nk ck xi ni ri, nth_error x k = Some xk -> nth_error n k = Some nk -> nth_error cs k = Some ck ->
       nth_error (flatten xk) i = Some xi -> nth_error (flatten nk) i = Some ni -> nth_error (flatten r) i = Some ri ->
       nth_error ck (2 * i) = Some (xi -r ri *r ni) /\ nth_error ck (2 * i + 1) = Some (xi +r ri *r ni)) /\
  (granularity source_dd <> NODE ->
     flat_expansion_radii sched G ambient_dim source_dd h = Err ValueError /\
     flat_centers sched G ambient_dim source_dd x n h = Err ValueError).
Proof.
  intros gs ambient_dim source_dd x n h Hh Hx Hn Hl G.
  set (dd := DD (geometry source_dd) (Some STAGE1) (granularity source_dd)).
  assert (H1 : to_stage1 source_dd = Ok dd) by (destruct source_dd as [g s gr]; reflexivity).
  set (f := radii_factor R ambient_dim None). set (r := dscale f h).
  split.
  - intros Hg.
    assert (HQ : forall d g, granularity d = NODE -> g = None \/ g = Some NODE -> expansion_radii sched G ambient_dim None g (LDesc d) h = Ok r).
    { intros d g Hd Hgg. unfold expansion_radii. rewrite (@quad_nodes G g (LDesc d) d); [reflexivity|reflexivity| |].
      - rewrite Hd. exact Hgg.
      - destruct Hgg as [-> | ->]; discriminate. }
    assert (Hr : on gs r) by (apply on_scale; exact Hh).
    assert (HI : interleave (LDesc dd) = Ok dd) by (unfold interleave; cbn [as_dofdesc bind]; unfold dd at 1; cbn [granularity]; rewrite Hg; reflexivity).
    exists r.
    (* one coordinate *)
    set (cc := fun (s : R) (p : darr R * darr R) => dmap2 (radd R) (fst p) (dmap2 (rmul R) (dscale s r) (snd p))).
    assert (HC : forall s p, on gs (fst p) -> on gs (snd p) -> on gs (cc s p)).
    { intros s p Hp1 Hp2. unfold cc. apply on_map2; [exact Hp1|]. apply on_map2; [apply on_scale; exact Hr|exact Hp2]. }
    assert (HM : exists zs, mapM (fun p => do _ <- interleave (LDesc dd); eval_interleave sched G (fst p) (snd p))
                   (combine (map (cc (ropp R (r1 R))) (combine x n)) (map (cc (r1 R)) (combine x n))) = Ok zs /\
                 length zs = length x /\
                 forall k xk nk z, nth_error x k = Some xk -> nth_error n k = Some nk -> nth_error zs k = Some z ->
                   alternates (flatten (cc (ropp R (r1 R)) (xk, nk))) (flatten (cc (r1 R) (xk, nk))) (flatten z)).
    { rewrite HI. cbn [bind]. clear -Hx Hn Hl Hs HC. revert n Hn Hl. induction x as [|x0 x IH]; intros [|n0 n] Hn Hl; try discriminate.
      - exists []. split; [reflexivity|]. split; [reflexivity|]. intros [|k]; discriminate.
      - inversion Hx as [|a1 a2 Hx0 Hx' E1]. inversion Hn as [|b1 b2 Hn0 Hn' E2]. subst.
        destruct (IH Hx' n Hn' ltac:(cbn in Hl; lia)) as (zs & Hz & Lz & Az).
        destruct (@eval_interleave_ok gs (cc (ropp R (r1 R)) (x0, n0)) (cc (r1 R) (x0, n0))) as (z & Hz0 & Az0); try (apply HC; assumption).
        fold G in Hz0. exists (z :: zs). cbn [combine map mapM fst snd]. rewrite Hz0. cbn [bind]. rewrite Hz. cbn [bind].
        split; [reflexivity|]. split; [cbn; lia|].
        intros [|k] xk nk z' E1 E2 E3; cbn in E1, E2, E3; [injection E1; injection E2; injection E3; intros <- <- <-; exact Az0|].
        eapply Az; eassumption. }
    destruct HM as (zs & Hz & Lz & Az).
    destruct (eval_interleave_ok Hr Hr) as (z & Hz' & Az'). fold G in Hz'.
    exists (map (@flatten R) zs), (flatten z).
    split; [apply HQ; auto|]. split; [|split; [|split; [|split; [|split]]]].
    + unfold flat_centers. rewrite H1. cbn [bind]. unfold interleaved_centers. cbn [as_dofdesc bind].
      unfold expansion_centers. rewrite (HQ dd (Some NODE)) by auto. cbn [bind].
      unfold cc in Hz. etransitivity; [apply (f_equal (fun m => bind m _) Hz)|]. reflexivity.
    + unfold flat_expansion_radii. rewrite H1. cbn [bind]. rewrite (HQ dd None) by auto. cbn [bind]. rewrite HI. cbn [bind].
      rewrite Hz'. reflexivity.
    + rewrite map_length. exact Lz.
    + intros c Hc. apply in_map_iff in Hc. destruct Hc as (z0 & <- & Hz0). apply In_nth_error in Hz0. destruct Hz0 as (k & Ek).
      assert (Hk : k < length x) by (rewrite <- Lz; apply nth_error_Some; unfold darr in *; congruence).
      destruct (nth_error x k) as [xk|] eqn:Exk; [|apply nth_error_None in Exk; lia].
      destruct (nth_error n k) as [nk|] eqn:Enk; [|apply nth_error_None in Enk; lia].
      destruct (Az k xk nk z0 Exk Enk Ek) as (A1 & _). rewrite A1. f_equal.
      apply on_length with (gs := gs); [|exact Hh]. apply HC; cbn [fst snd].
      * rewrite Forall_forall in Hx. apply Hx. eapply nth_error_In; eassumption.
      * rewrite Forall_forall in Hn. apply Hn. eapply nth_error_In; eassumption.
    + exact Az'.
    + intros k i xk nk ck xi ni ri Exk Enk Eck Exi Eni Eri.
      rewrite nth_error_map in Eck. unfold darr in *. destruct (nth_error zs k) as [z0|] eqn:Ez0; [|discriminate Eck]. injection Eck; intros <-.
      destruct (Az k xk nk z0 Exk Enk Ez0) as (A1 & A2 & A3).
      assert (Hxk : on gs xk) by (rewrite Forall_forall in Hx; apply Hx; eapply nth_error_In; eassumption).
      assert (Hnk : on gs nk) by (rewrite Forall_forall in Hn; apply Hn; eapply nth_error_In; eassumption).
      assert (HV : forall s, nth_error (flatten (cc s (xk, nk))) i = Some (xi +r s *r ri *r ni)).
      { intros s. unfold cc. cbn [fst snd].
        assert (On1 : on gs (dscale s r)) by (apply on_scale; exact Hr).
        assert (On2 : on gs (dmap2 (rmul R) (dscale s r) nk)) by (apply on_map2; assumption).
        rewrite (flatten_map2 _ Hxk On2). apply zipw_nth; [exact Exi|].
        rewrite (flatten_map2 _ On1 Hnk). apply zipw_nth; [|exact Eni].
        rewrite flatten_scale. apply map_nth_error. exact Eri. }
      destruct (A3 i) as [B1 B2].
      { apply nth_error_Some. rewrite HV. discriminate. }
      rewrite B1, B2, !HV. split; f_equal; ring.
  - intros Hg.
    assert (HI : interleave (LDesc dd) = Err ValueError).
    { unfold interleave. cbn [as_dofdesc bind]. unfold dd at 1. cbn [granularity]. destruct (granularity source_dd); [congruence| |]; reflexivity. }
    split.
    + unfold flat_expansion_radii. rewrite H1. cbn [bind]. unfold expansion_radii.
      rewrite (@quad_nodes G None (LDesc dd) dd); [|reflexivity|auto|discriminate]. cbn [bind]. rewrite HI. reflexivity.
    + unfold flat_centers. rewrite H1. cbn [bind]. unfold interleaved_centers. cbn [as_dofdesc bind].
      unfold expansion_centers, expansion_radii, quad_resolution. cbn [as_dofdesc bind]. rewrite copy_gran. cbn [bind].
      replace (interpolate (LDesc dd) (LDesc (DD (geometry dd) (discr_stage dd) NODE)))
        with (Ok (INode dd (DD (geometry dd) (discr_stage dd) NODE))); [reflexivity|].
      symmetry. apply interp_other; [|discriminate].
      intros E. apply (f_equal granularity) in E. apply Hg. exact E.
Qed.
End C74.
Print Assumptions radii_of_stretch.
Print Assumptions centers_flank_nodes.
