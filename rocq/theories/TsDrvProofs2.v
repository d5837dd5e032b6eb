From Coq Require Import Reals List Lia Lra.
From Coquelicot Require Import Coquelicot.
From Verif Require Import Base TsModel TsLeg TsSpec TsProofs TsProofs2 TsProofs3 TsProofs5 TsProofs6 TsDrvModel TsDrvSpec TsDrvProofs.
Import ListNotations.
Set Implicit Arguments.
Open Scope R_scope.

Lemma cpartial_eq f m p d : cpartial_at f m p d -> cpartial f m p = d.
Proof.
  intros [A B]. unfold cpartial. apply C_eq; cbn [fst snd]; now apply is_derive_unique.
Qed.
Lemma cpartial_real f m p d : partial_at f m p d -> cpartial_at (fun q => RtoC (f q)) m p (RtoC d).
Proof. intros H. unfold cpartial_at. apply cderiv_real. exact H. Qed.

Section Val.
Variable junk : nat -> R.
Variable cjunk : nat -> C.
Variable jfuns : nat -> C -> R -> bool -> option (list C * list C).
Variable a : args.
Variable K : tri R -> tri R -> tri R -> C.   (* center, source, target *)

Definition pcontrib (c t : tri R) (src : nat) : C :=
  let s := pt_at (sources a) src in
  ((if ifcharge a then num_at (charge a) src * K c s t else RtoC 0)
     + (if ifdipole a
        then num_at (dipstr a) src *
             (RtoC (co 0 (dip_at (dipvec a) src)) * cpartial (fun s => K c s t) 0 s
              + RtoC (co 1 (dip_at (dipvec a) src)) * cpartial (fun s => K c s t) 1 s
              + RtoC (co 2 (dip_at (dipvec a) src)) * cpartial (fun s => K c s t) 2 s)
        else RtoC 0))%C.
Definition gcontrib (c t : tri R) (m src : nat) : C :=
  if ifcharge a then (num_at (charge a) src * cpartial (K c (pt_at (sources a) src)) m t)%C else RtoC 0.

(** One source's evaluation adds its contribution. *)
Definition adds (c t : tri R) (src : nat) (j : fr (list C * list C * R)) : Prop :=
  forall r, r_center r = c -> r_target r = t -> r_j r = j ->
  let r' := local junk cjunk jfuns a (local junk cjunk jfuns a r (SetSource src)) (Accumulate src) in
  (ifpot a = true -> forall x, r_result r = Fin x -> r_result r' = Fin (x + pcontrib c t src)%C) /\
  (ifgrad a = true -> forall g, r_grad r = Fin g -> r_grad r' = Fin (tab (fun m => (co m g + gcontrib c t m src)%C))).

Lemma value_ok ctr tgt j :
  let c := pt_at (centers a) ctr in let t := pt_at (targets a) tgt in
  ts_helmholtz_precompute jfuns c t (order a) (ifgrad a) (helmholtz_k a) = j ->
  (forall src, In src (near_sources a ctr) -> adds c t src j) ->
  value junk cjunk jfuns a ctr tgt =
    (if ifpot a then Some (Fin (total (map (pcontrib c t) (near_sources a ctr)))) else None,
     if ifgrad a then Some (Fin (tab (fun m => total (map (gcontrib c t m) (near_sources a ctr))))) else None).
Proof.
  intros c t Hj Ha. unfold value, wof.
  assert (G : forall srcs r x g, (forall src, In src srcs -> adds c t src j) ->
    r_center r = c -> r_target r = t -> r_j r = j ->
    (ifpot a = true -> r_result r = Fin x -> r_result (runlocal junk cjunk jfuns a r (flat_map source_ops srcs)) = Fin (x + total (map (pcontrib c t) srcs))%C) /\
    (ifgrad a = true -> r_grad r = Fin g -> r_grad (runlocal junk cjunk jfuns a r (flat_map source_ops srcs)) = Fin (tab (fun m => (co m g + total (map (gcontrib c t m) srcs))%C)))).
  { clear Ha. induction srcs as [|s srcs IH]; intros r x g Ha H1 H2 H3.
    - cbn [flat_map runlocal fold_left map total]. split; intros _ ->.
      + f_equal. ring.
      + f_equal. apply tri_ext; cbn [co tab co0 co1 co2]; ring.
    - pose proof (Ha s (or_introl eq_refl) r H1 H2 H3) as [A B].
      set (r' := local junk cjunk jfuns a (local junk cjunk jfuns a r (SetSource s)) (Accumulate s)) in *.
      change (runlocal junk cjunk jfuns a r (flat_map source_ops (s :: srcs))) with (runlocal junk cjunk jfuns a r' (flat_map source_ops srcs)).
      destruct (IH r' (x + pcontrib c t s)%C (tab (fun m => (co m g + gcontrib c t m s)%C))) as [A' B']; auto.
      { intros src Hs. apply Ha. now right. }
      cbn [map total]. split.
      + intros Hp Hx. rewrite A' by auto. f_equal. ring.
      + intros Hg Hx. rewrite B' by auto. f_equal. apply tri_ext; cbn [co tab co0 co1 co2]; ring. }
  destruct (G (near_sources a ctr) (fresh jfuns a ctr tgt) (RtoC 0) (T3 (RtoC 0) (RtoC 0) (RtoC 0)) Ha) as [A B]; auto.
  f_equal.
  - destruct (ifpot a); [|reflexivity]. rewrite A by reflexivity. do 2 f_equal. ring.
  - destruct (ifgrad a); [|reflexivity]. rewrite B by reflexivity. do 2 f_equal.
    apply tri_ext; cbn [co tab co0 co1 co2]; ring.
Qed.
End Val.

Lemma laplace_adds junk cjunk jfuns a c t src j : ifdipole a && ifgrad a = false ->
  helmholtz_k a = RtoC 0 -> (order a < BUFSIZE)%nat -> t <> c -> pt_at (sources a) src <> c ->
  adds junk cjunk jfuns a (fun c s t => RtoC (laplace_qbx (order a) c s t)) c t src j.
Proof.
  intros Hdg Hk Hp Ht Hs r Hc Hr _ r'. subst r'. cbn [local accumulate r_result r_grad r_source r_target r_center r_dipole r_j].
  unfold accumulate. cbn [r_result r_grad r_source r_target r_center r_dipole r_j].
  rewrite Hc, Hr. set (s := pt_at (sources a) src) in *.
  unfold make_flags. destruct (Ceq_dec (helmholtz_k a) (RtoC 0)) as [_|N]; [|contradiction].
  cbn [laplace_s laplace_sp laplace_d helmholtz_s helmholtz_sp helmholtz_d].
  assert (PS : forall m, (m < 3)%nat -> cpartial (fun s => RtoC (laplace_qbx (order a) c s t)) m s = RtoC (sum_n (sder s c t m) (order a))).
  { intros m Hm. apply cpartial_eq, (@cpartial_real (fun s => laplace_qbx (order a) c s t)). now apply laplace_qbx_sder. }
  assert (PT : forall m, (m < 3)%nat -> cpartial (fun t => RtoC (laplace_qbx (order a) c s t)) m t = RtoC (sum_n (tder s c t m) (order a))).
  { intros m Hm. apply cpartial_eq, (@cpartial_real (fun t => laplace_qbx (order a) c s t)). now apply laplace_qbx_tder. }
  split.
  - intros Hpot x Hx. rewrite Hpot, Hx. cbn [andb]. unfold pcontrib. fold s. rewrite !PS by lia.
    destruct (ifcharge a); destruct (ifdipole a); cbn [fplus fbind];
      rewrite ?ts_laplace_s_ok by assumption; rewrite ?ts_laplace_d_ok by assumption; cbn [fplus fbind];
      f_equal; rewrite ?RtoC_plus, ?RtoC_mult; ring.
  - intros Hg g Hx. rewrite Hg, Hx. cbn [andb]. unfold gcontrib. fold s.
    destruct (ifcharge a); cbn [fbind].
    + rewrite ts_laplace_sp_ok by assumption. f_equal. apply tri_ext; rewrite !co_tab by lia; rewrite PT by lia; reflexivity.
    + f_equal. apply tri_ext; rewrite !co_tab by lia; ring.
Qed.

Lemma helmholtz_adds junk cjunk jfuns a c t src jf hf j : ifdipole a && ifgrad a = false ->
  helmholtz_k a <> RtoC 0 -> sph_bessel (helmholtz_k a) jf -> sph_hankel (helmholtz_k a) hf ->
  jfuns_contract (helmholtz_k a) jf jfuns ->
  (order a < BUFSIZE)%nat -> t <> c -> pt_at (sources a) src <> c ->
  above (helmholtz_k a) (eucl (pt_at (sources a) src) c) ->
  ts_helmholtz_precompute jfuns c t (order a) (ifgrad a) (helmholtz_k a) = Fin j ->
  adds junk cjunk jfuns a (fun c s t => helmholtz_qbx (helmholtz_k a) jf hf (order a) c s t) c t src (Fin j).
Proof.
  intros Hdg Hk Hb Hh Hj Hp Ht Hs Hab Hpre r Hc Hr Hrj r'. subst r'.
  cbn [local accumulate r_result r_grad r_source r_target r_center r_dipole r_j].
  unfold accumulate. cbn [r_result r_grad r_source r_target r_center r_dipole r_j].
  rewrite Hc, Hr, Hrj. rewrite <- dist_eucl in Hab. set (s := pt_at (sources a) src) in *.
  destruct j as [[js jd] jscale].
  unfold make_flags. destruct (Ceq_dec (helmholtz_k a) (RtoC 0)) as [|_]; [contradiction|].
  cbn [laplace_s laplace_sp laplace_d helmholtz_s helmholtz_sp helmholtz_d].
  set (k := helmholtz_k a) in *. set (p := order a) in *.
  assert (PS : forall m, (m < 3)%nat -> cpartial (fun s => helmholtz_qbx k jf hf p c s t) m s = (Ci * k * csum (hsder k jf hf s c t m) p)%C).
  { intros m Hm. apply cpartial_eq. apply helmholtz_qbx_sder; auto. apply Hh. }
  assert (PT : forall m, (m < 3)%nat -> cpartial (fun t => helmholtz_qbx k jf hf p c s t) m t = (Ci * k * csum (htder k jf hf s c t m) p)%C).
  { intros m Hm. apply cpartial_eq. apply helmholtz_qbx_tder; auto. apply Hb. }
  split.
  - intros Hpot x Hx. rewrite Hpot, Hx. cbn [andb]. unfold pcontrib. fold s. rewrite !PS by lia.
    assert (S1 : forall ch, ts_helmholtz_s junk cjunk s c t ch p k js jscale = Fin (ch * helmholtz_qbx k jf hf p c s t)%C).
    { intros ch. eapply ts_helmholtz_s_ok; eauto. }
    assert (D1 : forall dv ds, ts_helmholtz_d junk cjunk s c t dv ds p k js jscale = Fin (ds * (RtoC (co 0 dv) * (Ci * k * csum (hsder k jf hf s c t 0) p) + RtoC (co 1 dv) * (Ci * k * csum (hsder k jf hf s c t 1) p)
                   + RtoC (co 2 dv) * (Ci * k * csum (hsder k jf hf s c t 2) p)))%C).
    { intros dv ds. eapply ts_helmholtz_d_ok; eauto. }
    destruct (ifcharge a); destruct (ifdipole a); cbn [fplus fbind]; rewrite ?S1; cbn [fplus fbind]; rewrite ?D1; cbn [fplus fbind];
      f_equal; ring.
  - intros Hg g Hx. rewrite Hg in Hpre. rewrite Hg, Hx. cbn [andb]. unfold gcontrib. fold s.
    destruct (ifcharge a); cbn [fbind].
    + rewrite (@ts_helmholtz_sp_ok junk cjunk jfuns k jf hf Hk Hh Hj s c t Hs Ht Hab _ _ _ _ _ _ Hp Hpre).
      f_equal. apply tri_ext; rewrite !co_tab by lia; rewrite PT by lia; reflexivity.
    + f_equal. apply tri_ext; rewrite !co_tab by lia; ring.
Qed.
