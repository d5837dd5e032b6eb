(** Lemmas for C125: complex square roots. *)
From Coq Require Import Reals Lra.
From Coquelicot Require Import Complex.
From Verif Require Import Base MatModel PdeModel PdeSpec WgModel WgSpec WgSpec2.
Set Implicit Arguments.
Open Scope R_scope.

Lemma Csq_eq (a b : C) : (a * a = b * b)%C -> a = b \/ a = (- b)%C.
Proof.
  intros E.
  assert (P : ((a - b) * (a + b) = 0)%C). { replace ((a - b) * (a + b))%C with (a * a - b * b)%C by ring. rewrite E. ring. }
  destruct (Ceq_dec (a - b)%C 0) as [Z|NZ].
  - left. replace a with ((a - b) + b)%C by ring. rewrite Z. ring.
  - right. assert (Q : (a + b = 0)%C).
    { replace (a + b)%C with (/ (a - b) * ((a - b) * (a + b)))%C by (field; exact NZ). rewrite P. ring. }
    replace a with ((a + b) - b)%C by ring. rewrite Q. ring.
Qed.

Lemma decaying_unique x K L : decaying_root x K -> decaying_root x L -> K = L.
Proof.
  intros (A & B & C0) (A' & B' & C1).
  assert (E : (K * K = L * L)%C) by congruence.
  destruct (Csq_eq E) as [H|H]; [exact H|].
  destruct K as [a b], L as [a' b']. injection H as E1 E2. cbn [Re Im fst snd Copp] in *.
  assert (b = 0) by lra. assert (b' = 0) by lra. specialize (C0 H). specialize (C1 H0).
  apply injective_projections; cbn [fst snd]; lra.
Qed.

Lemma Ci2 : (Ci * Ci = - RtoC 1)%C.
Proof. unfold Ci. apply injective_projections; cbn; ring. Qed.
Lemma uhsr_decaying root (P : principal_root root) (x : C) :
  decaying_root x (c_ifneg (root x) (Ci * root (- x))%C (root x)).
Proof.
  destruct (P x) as [Sx Hx]. destruct (P (- x)%C) as [Sy Hy].
  unfold c_ifneg. destruct (Rlt_dec (Im (root x)) 0) as [N|N].
  - set (w := root x) in *. set (p := root (- x)%C) in *.
    assert (E : (p * p = (Ci * w) * (Ci * w))%C).
    { rewrite Sy. replace ((Ci * w) * (Ci * w))%C with ((Ci * Ci) * (w * w))%C by ring. rewrite Sx.
      rewrite Ci2. ring. }
    assert (pw : p = (Ci * w)%C).
    { destruct (Csq_eq E) as [H|H]; [exact H|]. exfalso. clearbody p w.
      destruct w as [a b]. subst p. unfold Ci in Hy. cbn [Re Im fst snd Copp Cmult] in *. lra. }
    rewrite pw. replace (Ci * (Ci * w))%C with (- w)%C.
    2: { replace (Ci * (Ci * w))%C with ((Ci * Ci) * w)%C by ring.
         rewrite Ci2. ring. }
    split; [rewrite <- Sx; ring|]. clearbody w. destruct w as [a b]. cbn [Re Im fst snd Copp] in *. split; lra.
  - split; [exact Sx|]. split; [lra|]. intros _. destruct Hx as [Hx|[Hx _]]; lra.
Qed.

(** A principal root exists. *)
Definition croot (z : C) : C :=
  (sqrt ((Cmod z + Re z) / 2), (if Rle_dec 0 (Im z) then 1 else -1) * sqrt ((Cmod z - Re z) / 2)).
Lemma croot_principal : principal_root croot.
Proof.
  intros [a b]. unfold croot, Cmod. cbn [Re Im fst snd].
  set (m := sqrt (a ^ 2 + b ^ 2)).
  assert (M0 : 0 <= m) by apply sqrt_pos.
  assert (M2 : m * m = a * a + b * b). { unfold m. rewrite sqrt_sqrt; [ring|nra]. }
  assert (A1 : 0 <= (m + a) / 2) by nra. assert (A2 : 0 <= (m - a) / 2) by nra.
  set (p := sqrt ((m + a) / 2)). set (q := sqrt ((m - a) / 2)).
  assert (P2 : p * p = (m + a) / 2) by (apply sqrt_sqrt; exact A1).
  assert (Q2 : q * q = (m - a) / 2) by (apply sqrt_sqrt; exact A2).
  assert (PQ : p * q = Rabs b / 2).
  { unfold p, q. rewrite <- sqrt_mult by assumption.
    replace ((m + a) / 2 * ((m - a) / 2)) with ((b / 2) * (b / 2)) by nra.
    change (sqrt (Rsqr (b / 2)) = Rabs b / 2). rewrite sqrt_Rsqr_abs. unfold Rdiv. rewrite Rabs_mult. f_equal. apply Rabs_pos_eq. lra. }
  assert (P0 : 0 <= p) by apply sqrt_pos. assert (Q0 : 0 <= q) by apply sqrt_pos.
  split.
  - unfold Cmult. cbn [fst snd]. destruct (Rle_dec 0 b) as [B|B].
    + rewrite Rabs_pos_eq in PQ by exact B. apply injective_projections; cbn [fst snd]; nra.
    + rewrite Rabs_left in PQ by lra. apply injective_projections; cbn [fst snd]; nra.
  - destruct (Rle_lt_or_eq_dec 0 p P0) as [Hp|Hp]; [left; exact Hp|]. right. split; [now symmetry|].
    destruct (Rle_dec 0 b) as [B|B]; [nra|]. exfalso. rewrite <- Hp in PQ. rewrite Rabs_left in PQ by lra. lra.
Qed.

Lemma CR_ring : ring_theory (r0 CR) (r1 CR) (radd CR) (rmul CR) (rsub CR) (ropp CR) eq.
Proof. constructor; intros; cbn; ring. Qed.
Lemma of_pos_CR p : of_pos CR p = RtoC (IZR (Zpos p)).
Proof.
  induction p as [p IH|p IH|]; cbn [of_pos].
  - rewrite IH. cbn [radd CR r1]. rewrite <- !RtoC_plus, <- !plus_IZR. do 2 f_equal. lia.
  - rewrite IH. cbn [radd CR]. rewrite <- RtoC_plus, <- plus_IZR. do 2 f_equal. lia.
  - reflexivity.
Qed.
Lemma of_Z_CR z : of_Z CR z = RtoC (IZR z).
Proof.
  destruct z as [|p|p]; [reflexivity|apply of_pos_CR|].
  cbn [of_Z]. rewrite of_pos_CR. cbn [ropp CR]. rewrite <- RtoC_opp, <- opp_IZR. reflexivity.
Qed.

Lemma complex_world_ok root var unk tan nor jac sqw lp : principal_root root ->
  wworld_ok (complex_world root var unk tan nor jac sqw lp).
Proof.
  intros P. constructor; cbn -[of_Z IZR].
  - exact CR_ring.
  - intros z. symmetry. apply of_Z_CR.
  - rewrite <- RtoC_plus. f_equal. lra.
  - rewrite of_Z_CR. rewrite <- RtoC_inv by lra. rewrite <- RtoC_mult. f_equal. lra.
  - unfold Ci. apply injective_projections; cbn; ring.
  - intros x. apply P.
  - intros c a b. unfold c_ifneg. destruct (Rlt_dec (Im c) 0); auto.
Qed.
