(** C86: exactly when the Mueller representation is the pair of solved fields. *)
From Coq Require Import Ring.
From Verif Require Import Base MatModel PdeModel PdeSpec MaxModel MaxSpec MaxProofs MaxProofs2 MaxProofs3 MaxProps MaxProps2.
From Coq Require Import QArith Qcanon.
Open Scope nat_scope.
Set Implicit Arguments. 
Section P.
Variable W : mworld.
Hypothesis HW : mworld_ok W.
Add Ring WR : (mo_ring HW).
Local Notation "x + y" := (radd W x y). Local Notation "x * y" := (rmul W x y).
Local Notation "x - y" := (rsub W x y). Local Notation "- x" := (ropp W x).

(** C86.  The representation gives the electric and magnetic fields whose limits operator()
    couples, exactly if its coefficients [i k eps] and [i k mu] of the two vector potentials and
    theirs, [i omega mu eps], agree on these potentials. *)
Theorem mueller_representation_iff o i d sol f :
  nth_error (mu_domains o) i = Some d -> length sol = 6 ->
  let omega := mev W (mu_omega o) in
  let eps := mev W (d_eps d) in let mu := mev W (d_mu d) in let k := mev W (mueller_k o d) in
  let J := tangential W (mat_ W sol) in let M := tangential W (fun j => mat_ W sol (3 + j)%nat) in
  mueller_representation o i sol = Ok f ->
  (veq W (el_of W f) (mueller_el W omega eps mu k LNone J M (mat_ W sol 2)) <->
   forall a, (a < 3)%nat -> im W * eps * (k - omega * mu) * pot_S W LNone k J a = r0 W) /\
  (veq W (mag_of W f) (mueller_mag W omega eps mu k LNone J M (mat_ W sol 5)) <->
   forall a, (a < 3)%nat -> im W * mu * (k - omega * eps) * pot_S W LNone k M a = r0 W).
Proof.
  intros Hd L omega eps mu k J M Hf.
  destruct (@mueller_representation_vals W HW o i d sol Hd L) as (f' & Ef & _ & QE & QH).
  rewrite Ef in Hf. injection Hf as ->. fold eps mu k J M in QE, QH.
  split; split.
  - intros H a Ha. specialize (H a Ha). rewrite (QE a Ha) in H. unfold mueller_el in H.
    set (S := pot_S W LNone k J a) in *. set (X := mu * pot_rot W LNone k M a) in *. set (Y := pot_grad W LNone k (mat_ W sol 2) a) in *.
    replace (im W * eps * (k - omega * mu) * S) with ((im W * k * eps * S + X - Y) - (im W * omega * mu * eps * S + X - Y)) by ring.
    rewrite H. ring.
  - intros H a Ha. specialize (H a Ha). rewrite (QE a Ha). unfold mueller_el.
    set (S := pot_S W LNone k J a) in *. set (X := mu * pot_rot W LNone k M a) in *. set (Y := pot_grad W LNone k (mat_ W sol 2) a) in *.
    replace (im W * k * eps * S + X - Y) with (im W * eps * (k - omega * mu) * S + (im W * omega * mu * eps * S + X - Y)) by ring.
    rewrite H. ring.
  - intros H a Ha. specialize (H a Ha). rewrite (QH a Ha) in H. unfold mueller_mag in H.
    set (S := pot_S W LNone k M a) in *. set (X := eps * pot_rot W LNone k J a) in *. set (Y := pot_grad W LNone k (mat_ W sol 5) a) in *.
    replace (im W * mu * (k - omega * eps) * S) with ((- (im W * omega * mu * eps) * S + X + Y) - (- (im W * k * mu) * S + X + Y)) by ring.
    rewrite H. ring.
  - intros H a Ha. specialize (H a Ha). rewrite (QH a Ha). unfold mueller_mag.
    set (S := pot_S W LNone k M a) in *. set (X := eps * pot_rot W LNone k J a) in *. set (Y := pot_grad W LNone k (mat_ W sol 5) a) in *.
    replace (- (im W * omega * mu * eps) * S + X + Y) with (im W * mu * (k - omega * eps) * S + (- (im W * k * mu) * S + X + Y)) by ring.
    rewrite H. ring.
Qed.
End P.
Print Assumptions mueller_representation_iff.

(** Both sides occur: with epsilon = mu = 2 and omega = 1 the electric field is right, with
    epsilon = 4 and mu = 1 it is not. *)
Example ex_right : exists f,
  mueller_representation one_medium 0 [mint 0; mint 1; mint 0; mint 0; mint 0; mint 0] = Ok f /\
  veq GW (el_of GW f) (mueller_el GW (gq 1) (gq 2) (gq 2) (gq 2) LNone
    (tangential GW (mat_ GW [mint 0; mint 1; mint 0; mint 0; mint 0; mint 0]))
    (tangential GW (fun j => mat_ GW [mint 0; mint 1; mint 0; mint 0; mint 0; mint 0] (3 + j)))
    (mat_ GW [mint 0; mint 1; mint 0; mint 0; mint 0; mint 0] 2)).
Proof.
  destruct (mueller_representation one_medium 0 [mint 0; mint 1; mint 0; mint 0; mint 0; mint 0]) as [f|] eqn:E; [|discriminate].
  exists f. split; [reflexivity|].
  pose proof (@mueller_representation_iff GW GW_ok one_medium 0 (mk_domain (MVar "two") (MVar "two"))
    [mint 0; mint 1; mint 0; mint 0; mint 0; mint 0] f eq_refl eq_refl E) as (H & _).
  assert (K : mev GW (mueller_k one_medium (mk_domain (MVar "two") (MVar "two"))) = gq 2) by gcalc.
  rewrite K in H. apply H. intros [|[|[|a]]] Ha; [| | |lia]; gcalc.
Qed.
Example ex_wrong : exists f,
  mueller_representation (mk_mueller (MVar "one") [mk_domain (MVar "four") (MVar "one")]) 0
    [mint 0; mint 1; mint 0; mint 0; mint 0; mint 0] = Ok f /\
  ~ veq GW (el_of GW f) (mueller_el GW (gq 1) (gq 4) (gq 1) (gq 2) LNone
    (tangential GW (mat_ GW [mint 0; mint 1; mint 0; mint 0; mint 0; mint 0]))
    (tangential GW (fun j => mat_ GW [mint 0; mint 1; mint 0; mint 0; mint 0; mint 0] (3 + j)))
    (mat_ GW [mint 0; mint 1; mint 0; mint 0; mint 0; mint 0] 2)).
Proof.
  set (o := mk_mueller (MVar "one") [mk_domain (MVar "four") (MVar "one")]).
  destruct (mueller_representation o 0 [mint 0; mint 1; mint 0; mint 0; mint 0; mint 0]) as [f|] eqn:E; [|discriminate].
  exists f. split; [reflexivity|].
  pose proof (@mueller_representation_iff GW GW_ok o 0 (mk_domain (MVar "four") (MVar "one"))
    [mint 0; mint 1; mint 0; mint 0; mint 0; mint 0] f eq_refl eq_refl E) as (H & _).
  assert (K : mev GW (mueller_k o (mk_domain (MVar "four") (MVar "one"))) = gq 2) by gcalc.
  rewrite K in H. pose proof (proj1 H : _ -> _) as H1. intros V. specialize (H1 V). clear - H1. rename H1 into V.
  pose proof (V 0 ltac:(lia)) as V0. pose proof (V 1 ltac:(lia)) as V1. pose proof (V 2 ltac:(lia)) as V2.
  revert V0 V1 V2. vm_compute. intros. congruence.
Qed.
