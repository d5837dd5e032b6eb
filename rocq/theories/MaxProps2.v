(** C85, C86: worlds that meet the hypotheses of MaxProps.v, and the refutation of C86. *)
From Coq Require Import QArith Qcanon Ring.
From Verif Require Import Base MatModel PdeModel PdeSpec MaxModel MaxSpec MaxProofs MaxProofs2 MaxProofs3 MaxProps.
Set Implicit Arguments.
Open Scope string_scope.
Open Scope list_scope.
Open Scope nat_scope.

(** Gaussian rationals. *)
Definition gauss : Type := (Qc * Qc)%type.
Definition gq (z : Z) : gauss := (Q2Qc (inject_Z z), Q2Qc 0).
Definition gi : gauss := (Q2Qc 0, Q2Qc 1).
Definition gadd (x y : gauss) : gauss := (Qcplus (fst x) (fst y), Qcplus (snd x) (snd y)).
Definition gmul (x y : gauss) : gauss :=
  (Qcminus (Qcmult (fst x) (fst y)) (Qcmult (snd x) (snd y)), Qcplus (Qcmult (fst x) (snd y)) (Qcmult (snd x) (fst y))).
Definition gopp (x : gauss) : gauss := (Qcopp (fst x), Qcopp (snd x)).
Definition gsub (x y : gauss) : gauss := (Qcminus (fst x) (fst y), Qcminus (snd x) (snd y)).
Definition ginv (x : gauss) : gauss :=
  let n := Qcinv (Qcplus (Qcmult (fst x) (fst x)) (Qcmult (snd x) (snd x))) in
  (Qcmult (fst x) n, Qcopp (Qcmult (snd x) n)).
Definition geqb (x y : gauss) : bool := Qc_eq_bool (fst x) (fst y) && Qc_eq_bool (snd x) (snd y).
Definition GR : rops := mk_rops (gq 0) (gq 1) gadd gmul gsub gopp ginv geqb.

Lemma pair_eq (a b : gauss) : fst a = fst b -> snd a = snd b -> a = b.
Proof. destruct a, b. cbn [fst snd]. congruence. Qed.
Lemma q0 : Q2Qc (inject_Z 0) = Q2Qc 0. Proof. reflexivity. Qed.
Lemma q1 : Q2Qc (inject_Z 1) = Q2Qc 1. Proof. reflexivity. Qed.
Lemma GR_ring : ring_theory (r0 GR) (r1 GR) (radd GR) (rmul GR) (rsub GR) (ropp GR) eq.
Proof.
  constructor; intros; apply pair_eq; cbn -[Q2Qc inject_Z]; rewrite ?q0, ?q1; ring.
Qed.
Add Ring GRr : GR_ring.
Ltac gcalc := apply pair_eq; apply Qc_is_canon; vm_compute; reflexivity.

(** The world: normal e_z, basis e_x and e_y. Fields in the volume have the spatial dependency
    exp(i kappa x): the derivative along x is multiplication by i kappa with kappa = 2, along the
    other axes zero. The layer potential is the identity, its normal derivative jumps. *)
Definition kap : gauss := gmul gi (gq 2).
Definition ax (m : nat) : gauss := match m with 0 => kap | _ => gq 0 end.
Definition ghalf : gauss := ginv (gq 2).
Definition g_num (c : num) : gauss :=
  match c with
  | NInt z => of_Z GR z | NRat n d => gmul (of_Z GR n) (ginv (of_Z GR (Zpos d))) | NI => gi | _ => gq 0
  end.
Definition g_sqrt (x : gauss) : gauss := if geqb x (gq 4) then gq 2 else x.
Definition nz (i : nat) : gauss := match i with 2 => gq 1 | _ => gq 0 end.
Definition g_lp (tds : list nat) (l : lim) (k f : gauss) : gauss :=
  match l with
  | LNone => fold_right (fun m u => gmul (ax m) u) f tds
  | LAvg => match tds with [] => f | _ => gq 0 end
  | LSide s => match tds with [] => f | [a] => gopp (gmul (gmul (of_Z GR s) ghalf) (gmul (nz a) f)) | _ => gq 0 end
  end.
Definition g_var (x : string) : gauss :=
  if String.eqb x "four" then gq 4 else if String.eqb x "two" then gq 2 else gq 1.
Definition GW : mworld :=
  @mk_mworld GR g_var g_num g_sqrt (fun _ => gq 1) (fun _ => gq 0) nz
    (fun j i => if Nat.eqb i j then gq 1 else gq 0) g_lp.
Definition GD (m : nat) (f : GW) : GW := gmul (ax m) f.

Lemma GW_ok : mworld_ok GW.
Proof.
  constructor.
  - exact GR_ring.
  - reflexivity.
  - gcalc.
  - gcalc.
Qed.
Lemma GD_const c : constant GW GD c.
Proof. intros m f. change (rmul GR (ax m) (rmul GR c f) = rmul GR c (rmul GR (ax m) f)). ring. Qed.
Ltac gconst := match goal with |- forall _, constant _ _ _ => intro; apply GD_const | |- constant _ _ _ => apply GD_const end.
Lemma GW_volume : volume GW GD.
Proof.
  constructor.
  - intros m f g. change (rmul GR (ax m) (radd GR f g) = radd GR (rmul GR (ax m) f) (rmul GR (ax m) g)). ring.
  - intros m n f. change (rmul GR (ax m) (rmul GR (ax n) f) = rmul GR (ax n) (rmul GR (ax m) f)). ring.
  - intros c. apply GD_const.
Qed.
Lemma GW_helmholtz : helmholtz GW GD (gq 2).
Proof.
  constructor.
  - reflexivity.
  - intros f u. change (m_lp GW [] LNone (gq 2) f) with f in u.
    change (radd GR (radd GR (rmul GR kap (rmul GR kap u)) (rmul GR (gq 0) (rmul GR (gq 0) u))) (rmul GR (gq 0) (rmul GR (gq 0) u))
      = ropp GR (rmul GR (rmul GR (gq 2) (gq 2)) u)).
    replace (rmul GR kap (rmul GR kap u)) with (rmul GR (rmul GR kap kap) u) by ring.
    replace (rmul GR kap kap) with (ropp GR (rmul GR (gq 2) (gq 2))) by gcalc.
    change (gq 0) with (r0 GR). ring.
Qed.
Lemma GW_frame : frame GW.
Proof.
  constructor.
  - gcalc.
  - intros [|[|j]] Hj; [gcalc | gcalc | lia].
  - intros [|[|[|a]]] [|[|[|b]]] Ha Hb; try lia; gcalc.
Qed.
Lemma GW_jumps k : jumps GW k.
Proof.
  constructor.
  - reflexivity.
  - intros s a f Hs Ha.
    change (ropp GR (rmul GR (rmul GR (of_Z GR s) ghalf) (rmul GR (nz a) f))
      = rsub GR (gq 0) (rmul GR (rmul GR (of_Z GR s) (m_num GW (NRat 1 2))) (rmul GR (nz a) f))).
    replace (m_num GW (NRat 1 2)) with ghalf by gcalc. change (gq 0) with (r0 GR). ring.
Qed.

(** The dipole and the plane wave with wave number 2, and its non-zero field. *)
Example ex_point_source : exists f, point_source (MVar "two") [mint 0; mint 1; mint 0] = Ok f
  /\ maxwell GW GD (gq 2) (gq 1) (gq 1) (el_of GW f) (mag_of GW f) /\ mag_of GW f 1 <> gq 0.
Proof.
  destruct (@point_source_is_maxwell_field GW GW_ok GD (MVar "two") [mint 0; mint 1; mint 0]
    GW_volume GW_helmholtz (GD_const _) eq_refl) as (f & Ef & _ & _ & QH & Mx).
  exists f. split; [exact Ef|]. split; [exact Mx|].
  rewrite (QH 1) by lia. vm_compute. discriminate.
Qed.

Example ex_plane_wave : exists f,
  plane_wave [mint 0; mint 1; mint 3] [mint 2; mint 0; mint 0] (MVar "two") (MVar "four") (mint 1) = Ok f
  /\ maxwell GW GD (gq 1) (gq 4) (gq 1) (el_of GW f) (vmul GW (gq 1) (mag_of GW f)) /\ el_of GW f 2 = gq 3.
Proof.
  destruct (@plane_wave_is_maxwell_field GW GW_ok GD [mint 0; mint 1; mint 3] [mint 2; mint 0; mint 0]
    (MVar "two") (MVar "four") (mint 1) (gq 1) (gq 1) GW_volume eq_refl eq_refl) as (f & Ef & _ & _ & QE & Mx);
    try gconst; try gcalc.
  - intros [|[|[|m]]] Hm; try lia; gcalc.
  - exists f. split; [exact Ef|]. split; [exact Mx|]. rewrite QE by (lia || gcalc). gcalc.
Qed.

(** A current J = (0, 1, 0) is divergence-free here, and radiates. *)
Example ex_pec_field : exists f, pec_scattered_volume_field (MVar "two") [mint 0; mint 1] (mint 0) LNone = Ok f
  /\ maxwell GW GD (gq 2) (gq 1) (gq 1) (el_of GW f) (mag_of GW f) /\ el_of GW f 1 <> gq 0.
Proof.
  destruct (@pec_scattered_field_is_maxwell_field GW GW_ok GD (MVar "two") [mint 0; mint 1] (mint 0)
    GW_volume GW_helmholtz (GD_const _) eq_refl) as (f & Ef & _ & _ & _ & Mx).
  exists f. split; [exact Ef|]. split.
  - apply Mx. gcalc.
  - injection Ef as <-. vm_compute. discriminate.
Qed.

(** The incident field H = (1, 0, 0) is cancelled from inside by J = (0, 2, 0). *)
Example ex_pec_equations : exists f,
  pec_scattered_volume_field (MVar "k") [mint 0; mint 2] (mint 0) (LSide (-1)) = Ok f
  /\ veq GW (cross3 GW (nrm GW) (vplus GW (mat_ GW [mint 1; mint 0; mint 0]) (mag_of GW f))) (vzero GW).
Proof.
  destruct (@pec_equations_are_boundary_conditions GW GW_ok (MVar "k") 1 [mint 0; mint 2] (mint 0)
     [mint 0; mint 0; mint 0] [mint 1; mint 0; mint 0] GW_frame (GW_jumps _) (or_introl eq_refl) eq_refl eq_refl eq_refl)
    as (f & aj & bj & ar & br & Ef & _ & Eaj & Ebj & _ & _ & _ & _ & [T _] & _).
  exists f. split; [exact Ef|]. apply T. revert Eaj Ebj. intros Eaj Ebj.
  injection Eaj as <-. injection Ebj as <-. intros [|[|i]] Hi; try lia; gcalc.
Qed.

(** Two media: epsilon 4 inside, 1 outside; the incident H = (5/2, 0, 0) matches J = (0, 1, 0). *)
Definition two_media : mueller := mk_mueller (MVar "one") [mk_domain (MVar "four") (MVar "one"); mk_domain (MVar "one") (MVar "one")].
Example ex_mueller : exists f g,
  mueller_operator two_media [mint 0; mint 1; mint 0; mint 0; mint 0; mint 0] = Ok f
  /\ mueller_rhs two_media [mint 0; mint 0; mint 0] [MMul (mint 5) mhalf; mint 0; mint 0] = Ok g
  /\ mat_ GW f 1 = mat_ GW g 1 /\ mat_ GW f 1 <> gq 0.
Proof.
  destruct (@mueller_equations_are_transmission_conditions GW GW_ok two_media _ _
     [mint 0; mint 1; mint 0; mint 0; mint 0; mint 0] [mint 0; mint 0; mint 0] [MMul (mint 5) mhalf; mint 0; mint 0]
     eq_refl GW_frame (GW_jumps _) (GW_jumps _) eq_refl eq_refl eq_refl) as (f & g & Ef & Eg & _).
  exists f, g. split; [exact Ef|]. split; [exact Eg|].
  injection Ef as <-. injection Eg as <-. split; [gcalc | vm_compute; discriminate].
Qed.
Example ex_mueller_fields : let d := mk_domain (MVar "four") (MVar "one") in
  maxwell GW GD (gq 1) (gq 4) (gq 1)
    (mueller_el GW (gq 1) (gq 4) (gq 1) (gq 2) LNone (fun a => if Nat.eqb a 1 then gq 1 else gq 0) (vzero GW) (gq 0))
    (mueller_mag GW (gq 1) (gq 4) (gq 1) (gq 2) LNone (fun a => if Nat.eqb a 1 then gq 1 else gq 0) (vzero GW) (gq 0)).
Proof.
  intros d. apply mueller_fields_are_maxwell_fields; try gconst; auto using GW_ok, GW_volume, GW_helmholtz; gcalc.
Qed.
Example ex_one_domain : mueller_operator (mk_mueller (MVar "w") [mk_domain (mint 1) (mint 1)]) (map MVar ["a"; "b"; "c"; "d"; "e"; "f"]) = Err ValueError.
Proof. reflexivity. Qed.

(** The representation in a medium with k = omega eps = omega mu (here 2 = 1 * 2). *)
Definition one_medium : mueller := mk_mueller (MVar "one") [mk_domain (MVar "two") (MVar "two")].
Example ex_representation : exists f,
  mueller_representation one_medium 0 [mint 0; mint 1; mint 0; mint 0; mint 0; mint 0] = Ok f
  /\ maxwell GW GD (gq 1) (gq 2) (gq 2) (el_of GW f) (mag_of GW f).
Proof.
  destruct (@mueller_representation_is_maxwell_field_partial GW GW_ok GD one_medium 0 _
    [mint 0; mint 1; mint 0; mint 0; mint 0; mint 0] GW_volume eq_refl eq_refl) as (f & Ef & _ & _ & Mx);
    try gconst; try gcalc.
  - replace (mev GW (mueller_k one_medium (mk_domain (MVar "two") (MVar "two")))) with (gq 2) by gcalc. apply GW_helmholtz.
  - exists f. split; [exact Ef | exact Mx].
Qed.

(** C86 in general is false: with epsilon 4 and mu 1 the representation of a divergence-free
    current does not satisfy Faraday's law. *)
Theorem mueller_representation_is_maxwell_field_refuted :
  ~ (forall (W : mworld) (D : nat -> W -> W) o i d sol f,
      mworld_ok W -> volume W D -> nth_error (mu_domains o) i = Some d -> length sol = 6 ->
      let omega := mev W (mu_omega o) in
      let eps := mev W (d_eps d) in let mu := mev W (d_mu d) in let k := mev W (mueller_k o d) in
      let J := tangential W (mat_ W sol) in let M := tangential W (fun j => mat_ W sol (3 + j)%nat) in
      rmul W k k = rmul W (rmul W (rmul W omega omega) eps) mu ->
      helmholtz W D k -> constant W D omega -> constant W D eps -> constant W D mu ->
      pot_div W k J = rmul W (rmul W (im W) omega) (m_lp W [] LNone k (mat_ W sol 2)) ->
      pot_div W k M = rmul W (rmul W (im W) omega) (m_lp W [] LNone k (mat_ W sol 5)) ->
      mueller_representation o i sol = Ok f ->
      maxwell W D omega eps mu (el_of W f) (mag_of W f)).
Proof.
  intros H.
  set (o := mk_mueller (MVar "one") [mk_domain (MVar "four") (MVar "one")]).
  set (sol := [mint 0; mint 1; mint 0; mint 0; mint 0; mint 0]).
  destruct (mueller_representation o 0 sol) as [f|] eqn:Ef; [|discriminate].
  assert (K : mev GW (mueller_k o (mk_domain (MVar "four") (MVar "one"))) = gq 2) by gcalc.
  assert (M : maxwell GW GD (gq 1) (gq 4) (gq 1) (el_of GW f) (mag_of GW f)).
  { apply (H GW GD o 0 (mk_domain (MVar "four") (MVar "one")) sol f); try gconst; auto using GW_ok, GW_volume; rewrite ?K;
      auto using GW_helmholtz; gcalc. }
  pose proof (mx_faraday _ _ _ _ _ _ _ M 2 ltac:(lia)) as F. revert F.
  injection Ef as <-. vm_compute. discriminate.
Qed.

Print Assumptions point_source_is_maxwell_field.
Print Assumptions plane_wave_is_maxwell_field.
Print Assumptions pec_scattered_field_is_maxwell_field.
Print Assumptions pec_equations_are_boundary_conditions.
Print Assumptions mueller_equations_are_transmission_conditions.
Print Assumptions mueller_fields_are_maxwell_fields.
Print Assumptions mueller_needs_two_domains_and_six_unknowns.
Print Assumptions mueller_representation_is_maxwell_field_partial.
Print Assumptions mueller_representation_is_maxwell_field_refuted.
