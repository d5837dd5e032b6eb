(** A concrete world for C75-C79, and C76: where the boundary value problem operators do not do
    what is documented. *)
From Coq Require Import Ring QArith Qcanon.
From Verif Require Import Base MatModel MatProofs PdeModel PdeSpec PdeProofs PdeProps SymProofs2.
Set Implicit Arguments.
Open Scope string_scope. Open Scope list_scope. Open Scope nat_scope.

(** Fields on two nodes, with rational values. *)
Definition F2 : Type := (Qc * Qc)%type.
Definition lift2 (f : Qc -> Qc -> Qc) (a b : F2) : F2 := (f (fst a) (fst b), f (snd a) (snd b)).
Definition cst (q : Q) : F2 := (Q2Qc q, Q2Qc q).
Definition PairR : rops :=
  mk_rops (cst 0) (cst 1) (lift2 Qcplus) (lift2 Qcmult) (lift2 Qcminus)
          (fun a => (Qcopp (fst a), Qcopp (snd a))) (fun a => (Qcinv (fst a), Qcinv (snd a)))
          (fun a b => Qc_eq_bool (fst a) (fst b) && Qc_eq_bool (snd a) (snd b)).
Lemma PairR_ring : ring_theory (r0 PairR) (r1 PairR) (radd PairR) (rmul PairR) (rsub PairR) (ropp PairR) eq.
Proof.
  constructor; intros; repeat match goal with x : car PairR |- _ => destruct x end;
  simpl; unfold lift2, cst; simpl; f_equal; ring.
Qed.

(** Operators commuting with the exchange of the two nodes. *)
Definition circ (c : Q * Q) (f : F2) : F2 :=
  (Qcplus (Qcmult (Q2Qc (fst c)) (fst f)) (Qcmult (Q2Qc (snd c)) (snd f)),
   Qcplus (Qcmult (Q2Qc (fst c)) (snd f)) (Qcmult (Q2Qc (snd c)) (fst f))).

(** The side of a limit; no preference and the average give 0. *)
Definition side_of (l : lim) : Q := match l with LSide 1 => 1 | LSide (-1) => -1 | _ => 0 end%Q.

Definition table (k : kernel) (tds : list nat) (l : lim) (on : bool) : Q * Q :=
  (if on then
    match kbase k, kdirs k, tds with
    | KLaplace _, [], [] => (2, 1)
    | KLaplace _, [_], [] => (1 + side_of l / 2, 0)
    | KLaplace _, [], [O] => (1 - side_of l / 2, 0)
    | KLaplace _, [_], [O] => (1 # 2, -1 # 4)
    | KLaplace _, [], [O; O] => (0, -1)
    | KStokeslet _ i j, [], [] => (inject_Z (Z.of_nat (1 + i + j)), inject_Z (Z.of_nat (i * j)))
    | KStokeslet _ i j, [], [m] => (inject_Z (Z.of_nat (1 + m * Nat.max i j)), 0)
    | KStresslet _ i j m, [], [] =>
        (inject_Z (Z.of_nat (1 + i + j + m))
         + (if (i =? 0) && (j =? m) || (j =? 0) && (i =? m) || (m =? 0) && (i =? j) then side_of l / 2 else 0), 0)
    | KStresslet _ i j m, [], [n] => (inject_Z (Z.of_nat (i + j + m + n)), 1)
    | KStokeslet _ _ _, _, _ | KStresslet _ _ _ _, _, _ => (0, 0)
    | KOther _ _ _, ["normal_dir"; "normal_dir"; "normal_dir"], [] => (1 - side_of l / 2, 0)
    | KOther _ _ _, ["normal_dir"; "normal_dir"; "normal_dir"], [O] => (2 + side_of l, 1)
    | KOther _ _ _, ["normal_dir"; "normal_dir"], [] => (1, 0)
    | KOther _ _ _, ["normal_dir"; "normal_dir"], [O] => (3 + side_of l / 2, 0)
    | KOther _ _ _, ["tangent_dir"; "tangent_dir"], _ => (1, 1)
    | _, [], [] => (3, 1)
    | _, [_], [] => (side_of l / 2, 1)
    | _, [], [O] => ((1 # 2) - side_of l / 2, 0)
    | _, [_], [O] => (1, 1)
    | _, [], [O; O] => (9 # 2, -1)
    | _, _, _ => (0, 0)
    end
  else match kdirs k with [] => (0, 5) | _ => (7, 0) end)%Q.

Definition pnum (c : num) : Q :=
  match c with NInt z => inject_Z z | NRat n d => n # d | NI => 5 | NPi => 3 | NUser _ => 1 end%Q.

Definition pw (vars : string -> F2) : world :=
  mk_world PairR vars (fun c => cst (pnum c))
    (fun _ g => cst (inject_Z (Z.of_nat ((2 + g) * (2 + g))))) (fun _ g => cst (inject_Z (Z.of_nat (2 + g))))
    (fun _ => cst 1)
    (fun _ _ g f => (let s := Qcmult (Q2Qc (inject_Z (Z.of_nat ((2 + g) * (2 + g))))) (Qcplus (fst f) (snd f)) in (s, s)))
    (fun _ _ _ => cst 1)
    (fun _ i _ => cst (if i =? 0 then 1 else 0)%Q)
    (fun p f => circ (table (rl_kernel p) (rl_tds p) (rl_lim p) (rl_src p =? rl_tgt p)) f).

Lemma Q2Qc_plus a b : Q2Qc (a + b) = Qcplus (Q2Qc a) (Q2Qc b).
Proof. apply Qc_is_canon. unfold Qcplus, Qcmult, Qcopp. cbn [this Q2Qc]. rewrite !Qred_correct. reflexivity. Qed.
Lemma Q2Qc_mult a b : Q2Qc (a * b) = Qcmult (Q2Qc a) (Q2Qc b).
Proof. apply Qc_is_canon. unfold Qcplus, Qcmult, Qcopp. cbn [this Q2Qc]. rewrite !Qred_correct. reflexivity. Qed.
Lemma Q2Qc_opp a : Q2Qc (- a) = Qcopp (Q2Qc a).
Proof. apply Qc_is_canon. unfold Qcplus, Qcmult, Qcopp. cbn [this Q2Qc]. rewrite !Qred_correct. reflexivity. Qed.

Lemma of_pos_cst p : of_pos PairR p = cst (inject_Z (Zpos p)).
Proof.
  induction p; simpl.
  - rewrite IHp. unfold lift2, cst. simpl. rewrite <- !Q2Qc_plus.
    assert (E : Q2Qc (1 + (inject_Z (Z.pos p) + inject_Z (Z.pos p))) = Q2Qc (inject_Z (Z.pos p~1))).
    { apply Qc_is_canon. cbn [this Q2Qc]. rewrite !Qred_correct. rewrite <- !inject_Z_plus.
      change 1%Q with (inject_Z 1). rewrite <- inject_Z_plus. replace (1 + (Z.pos p + Z.pos p))%Z with (Z.pos p~1) by lia. reflexivity. }
    rewrite E. reflexivity.
  - rewrite IHp. unfold lift2, cst. simpl. rewrite <- !Q2Qc_plus.
    assert (E : Q2Qc (inject_Z (Z.pos p) + inject_Z (Z.pos p)) = Q2Qc (inject_Z (Z.pos p~0))).
    { apply Qc_is_canon. cbn [this Q2Qc]. rewrite !Qred_correct. rewrite <- !inject_Z_plus.
      replace (Z.pos p + Z.pos p)%Z with (Z.pos p~0) by lia. reflexivity. }
    rewrite E. reflexivity.
  - reflexivity.
Qed.

Lemma of_Z_cst z : of_Z PairR z = cst (inject_Z z).
Proof.
  destruct z; simpl; [reflexivity|apply of_pos_cst|]. rewrite of_pos_cst. unfold cst. simpl. rewrite <- Q2Qc_opp.
  reflexivity.
Qed.

Lemma cst_mul a b : rmul PairR (cst a) (cst b) = cst (a * b).
Proof. unfold cst. simpl. unfold lift2. simpl. rewrite <- Q2Qc_mult. reflexivity. Qed.
Lemma cst_eq a b : (a == b)%Q -> cst a = cst b.
Proof. intros H. unfold cst. assert (E : Q2Qc a = Q2Qc b) by (apply Qc_is_canon; cbn [this Q2Qc]; rewrite !Qred_correct; auto). rewrite E. reflexivity. Qed.
Lemma cst_inv a : ~ (a == 0)%Q -> rmul PairR (cst a) (rinv PairR (cst a)) = r1 PairR.
Proof.
  intros H. simpl. unfold lift2, cst. simpl.
  assert (E : Qcmult (Q2Qc a) (Qcinv (Q2Qc a)) = Q2Qc 1).
  { apply Qcmult_inv_r. intros E. apply H. apply (f_equal this) in E. cbn [this Q2Qc] in E. rewrite <- (Qred_correct a), E. reflexivity. }
  rewrite E. reflexivity.
Qed.

Lemma pw_ok vars : world_ok (pw vars).
Proof.
  constructor.
  - exact PairR_ring.
  - intros z. symmetry. apply of_Z_cst.
  - intros n d. change (wR (pw vars)) with PairR. rewrite of_pos_cst, of_Z_cst.
    change (w_num (pw vars) (NRat n d)) with (cst (n # d)). rewrite cst_mul. apply cst_eq.
    unfold Qeq, Qmult, inject_Z; simpl. lia.
  - intros p. change (wR (pw vars)) with PairR. rewrite of_pos_cst. apply cst_inv. unfold Qeq; simpl. lia.
  - intros ad g. change (w_sqrtw (pw vars) ad g) with (cst (inject_Z (Z.of_nat (2 + g)))).
    change (w_jacw (pw vars) ad g) with (cst (inject_Z (Z.of_nat ((2 + g) * (2 + g))))).
    rewrite cst_mul. apply cst_eq. rewrite <- inject_Z_mult, <- Nat2Z.inj_mul. reflexivity.
  - intros ad g. apply cst_inv. unfold Qeq; simpl. lia.
  - intros p a b. simpl. unfold circ, lift2. simpl. f_equal; ring.
  - intros ad d g a b. simpl. unfold lift2. simpl. f_equal; ring.
Qed.


(** Calculating with these operators. *)
Lemma circ_ext a b a' b' f : (a == a')%Q -> (b == b')%Q -> circ (a, b) f = circ (a', b') f.
Proof.
  intros Ha Hb. unfold circ; cbn [fst snd].
  assert (E : Q2Qc a = Q2Qc a') by (apply Qc_is_canon; cbn [this Q2Qc]; rewrite !Qred_correct; auto).
  assert (E' : Q2Qc b = Q2Qc b') by (apply Qc_is_canon; cbn [this Q2Qc]; rewrite !Qred_correct; auto).
  rewrite E, E'. reflexivity.
Qed.
Lemma circ_add a b a' b' f : radd PairR (circ (a, b) f) (circ (a', b') f) = circ (a + a', b + b')%Q f.
Proof. simpl. unfold circ, lift2; cbn [fst snd]. rewrite !Q2Qc_plus. f_equal; ring. Qed.
Lemma circ_scale q a b f : rmul PairR (cst q) (circ (a, b) f) = circ (q * a, q * b)%Q f.
Proof. simpl. unfold circ, cst, lift2; cbn [fst snd]. rewrite !Q2Qc_mult. f_equal; ring. Qed.
Lemma circ_comp a b a' b' f : circ (a, b) (circ (a', b') f) = circ (a * a' + b * b', a * b' + b * a')%Q f.
Proof. unfold circ; cbn [fst snd]. rewrite !Q2Qc_plus, !Q2Qc_mult. f_equal; ring. Qed.
Lemma circ_id f : f = circ (1, 0)%Q f.
Proof. destruct f as [x y]. unfold circ; cbn [fst snd]. f_equal; change (Q2Qc 1) with 1%Qc; change (Q2Qc 0) with 0%Qc; ring. Qed.
Lemma circ_zero f : r0 PairR = circ (0, 0)%Q f.
Proof. destruct f as [x y]. unfold circ; cbn [fst snd]. simpl. unfold cst. f_equal; change (Q2Qc 0) with 0%Qc; ring. Qed.
Lemma circ_opp a b f : ropp PairR (circ (a, b) f) = circ (- a, - b)%Q f.
Proof. simpl. unfold circ; cbn [fst snd]. rewrite !Q2Qc_opp. f_equal; ring. Qed.
Lemma circ_sub a b a' b' f : rsub PairR (circ (a, b) f) (circ (a', b') f) = circ (a - a', b - b')%Q f.
Proof. simpl. unfold circ, lift2; cbn [fst snd]. unfold Qminus. rewrite !Q2Qc_plus, !Q2Qc_opp. f_equal; ring. Qed.

Definition ordinary (b : bkernel) : Prop :=
  match b with KStokeslet _ _ _ | KStresslet _ _ _ _ => False | _ => kdim (plain b) = 2 end.

(** The potentials of this world. *)
Definition tab (b : bkernel) (dirs : list string) (tds : list nat) (l : lim) : Q * Q := table (mk_kernel b dirs) tds l true.
Lemma pw_pot vars k tds l g ka f : pot (pw vars) k tds l g g ka f = circ (table k tds l true) f.
Proof. unfold pot. simpl. rewrite Nat.eqb_refl. reflexivity. Qed.

Lemma pw_SingleN vars ka b l g f : ordinary b -> SingleN (pw vars) ka (plain b) l g g f = circ (tab b [] [0] l) f.
Proof.
  intros Hb. unfold SingleN. rewrite (rsum_ext PairR) with (g := fun i => rmul PairR (cst (if i =? 0 then 1 else 0)%Q) (circ (tab b [] [i] l) f)).
  2:{ intros i _. rewrite pw_pot. reflexivity. }
  replace (kdim (plain b)) with 2 by (destruct b; simpl in Hb; auto; tauto).
  cbn [rsum Nat.eqb].
  destruct (tab b [] [0] l) as [p q] eqn:E0. destruct (tab b [] [1] l) as [p' q'] eqn:E1.
  rewrite (circ_zero f), !circ_scale, !circ_add. apply circ_ext; ring.
Qed.
Lemma pw_DoubleN vars ka b l g f : ordinary b -> DoubleN (pw vars) ka (plain b) l g g f = circ (tab b ["dsource_vec"] [0] l) f.
Proof.
  intros Hb. unfold DoubleN. rewrite (rsum_ext PairR) with (g := fun i => rmul PairR (cst (if i =? 0 then 1 else 0)%Q) (circ (tab b ["dsource_vec"] [i] l) f)).
  2:{ intros i _. rewrite pw_pot. reflexivity. }
  replace (kdim (plain b)) with 2 by (destruct b; simpl in Hb; auto; tauto).
  cbn [rsum Nat.eqb].
  destruct (tab b ["dsource_vec"] [0] l) as [p q] eqn:E0. destruct (tab b ["dsource_vec"] [1] l) as [p' q'] eqn:E1.
  rewrite (circ_zero f), !circ_scale, !circ_add. apply circ_ext; ring.
Qed.
Lemma pw_Single vars ka b l g f : Single (pw vars) ka (plain b) l g g f = circ (tab b [] [] l) f.
Proof. unfold Single. rewrite pw_pot. reflexivity. Qed.
Lemma pw_Double vars ka b l g f : Double (pw vars) ka (plain b) l g g f = circ (tab b ["dsource_vec"] [] l) f.
Proof. unfold Double. rewrite pw_pot. reflexivity. Qed.
Lemma pw_SingleNN vars ka b l g f : ordinary b -> SingleNN (pw vars) ka (plain b) l g g f = circ (tab b [] [0; 0] l) f.
Proof.
  intros Hb. unfold SingleNN. rewrite (rsum_ext PairR) with (g := fun i => rmul PairR (cst (if i =? 0 then 1 else 0)%Q) (rsum PairR (kdim (plain b)) (fun j => rmul PairR (cst (if j =? 0 then 1 else 0)%Q) (circ (tab b [] [i; j] l) f)))).
  2:{ intros i _. rewrite <- (rsum_mul_l PairR PairR_ring). apply rsum_ext. intros j _. rewrite pw_pot.
      symmetry. apply (Rmul_assoc PairR_ring). }
  replace (kdim (plain b)) with 2 by (destruct b; simpl in Hb; auto; tauto).
  cbn [rsum Nat.eqb].
  destruct (tab b [] [0; 0] l) as [p q] eqn:E0. destruct (tab b [] [0; 1] l) as [p' q'] eqn:E1.
  destruct (tab b [] [1; 0] l) as [p2 q2] eqn:E2. destruct (tab b [] [1; 1] l) as [p3 q3] eqn:E3.
  repeat (rewrite (circ_zero f) || rewrite circ_scale || rewrite circ_add). apply circ_ext; ring.
Qed.

Section PwJumps.
Variables (vars : string -> F2) (ka : list (string * rkval)) (b : bkernel) (g : nat).
Hypothesis Hb : ordinary b.

Lemma pw_single : single_continuous (pw vars) ka (plain b) g.
Proof. intros s s' f _ _. rewrite !pw_Single. destruct b; try reflexivity; simpl in Hb; tauto. Qed.
Lemma pw_doubleN : doubleN_continuous (pw vars) ka (plain b) g.
Proof. intros s s' f _ _. rewrite !pw_DoubleN by auto. destruct b; try reflexivity; simpl in Hb; tauto. Qed.
Lemma pw_jump s f : (s = 1 \/ s = -1)%Z -> signed (pw vars) s (half (pw vars) f) = circ (inject_Z s / 2, 0)%Q f.
Proof.
  intros Hs. unfold signed, half. change (wR (pw vars)) with PairR. rewrite of_Z_cst.
  change (w_num (pw vars) (NRat 1 2)) with (cst (1 # 2)). rewrite (circ_id f) at 1. rewrite !circ_scale.
  apply circ_ext; [field|ring].
Qed.
Lemma pw_double : double_jump (pw vars) ka (plain b) g.
Proof.
  intros s f Hs. rewrite !pw_Double, pw_jump by auto.
  destruct (tab b ["dsource_vec"] [] LAvg) as [p q] eqn:E. destruct (tab b ["dsource_vec"] [] (LSide s)) as [p' q'] eqn:E'.
  change (wR (pw vars)) with PairR. rewrite circ_add.
  destruct Hs as [-> | ->]; destruct b; simpl in Hb; try tauto; injection E as <- <-; injection E' as <- <-; apply circ_ext; vm_compute; reflexivity.
Qed.
Lemma pw_singleN : singleN_jump (pw vars) ka (plain b) g.
Proof.
  intros s f Hs. rewrite !pw_SingleN, pw_jump by auto.
  destruct (tab b [] [0] LAvg) as [p q] eqn:E. destruct (tab b [] [0] (LSide s)) as [p' q'] eqn:E'.
  change (wR (pw vars)) with PairR. rewrite circ_sub.
  destruct Hs as [-> | ->]; destruct b; simpl in Hb; try tauto; injection E as <- <-; injection E' as <- <-; apply circ_ext; vm_compute; reflexivity.
Qed.
End PwJumps.

Lemma pw_calderon vars g : calderon (pw vars) 2 g.
Proof.
  intros f. assert (Hb : ordinary (KLaplace 2)) by reflexivity.
  rewrite pw_DoubleN, pw_Single, !pw_SingleN by auto.
  change (w_num (pw vars) (NRat (-1) 4)) with (cst (-1 # 4)). change (wR (pw vars)) with PairR.
  replace (rmul PairR (cst (-1 # 4)) f) with (circ (-1 # 4, 0)%Q f).
  2:{ rewrite (circ_id f) at 2. rewrite circ_scale. apply circ_ext; reflexivity. }
  unfold tab, table. cbn [kbase kdirs].
  rewrite !circ_comp, circ_add. apply circ_ext; reflexivity.
Qed.

(** *** C75: the hypotheses of the theorems are met *)
Definition vs (x : string) : F2 := if (x =? "u")%string then (Q2Qc 6, Q2Qc (-2)) else cst 1.
Definition lap2 : kernel := plain (KLaplace 2).
Definition yuk2 : kernel := plain (KYukawa 2 "lam").
Definition dir_o : bvp_op := mk_bvp lap2 1 (NUser "a") true true [].
Definition neu_o (imp l2 : bool) : bvp_op := mk_bvp lap2 (-1) (NUser "a") imp l2 [].
Definition q2 (f : F2) : Q * Q := (this (fst f), this (snd f)).

Example ex_dirichlet :
  make_bvp lap2 1 (Some (NUser "a")) true true None = Ok dir_o /\
  world_ok (pw vs) /\ single_continuous (pw vs) [] lap2 3 /\ double_jump (pw vs) [] lap2 3 /\
  dirichlet_null dir_o /\ args_match lap2 [] /\
  match dirichlet_operator dir_o (PVar "u") (DGeo 3) [],
        dirichlet_representation dir_o (PVar "u") (fun x => Ok x) (LSide 1) (DGeo 3) (DGeo 3) [] with
  | Ok e, Ok r => q2 (ev (pw vs) 0 0 e) = (3, 7)%Q /\ q2 (ev (pw vs) 0 0 r) = (1 # 5, 1)%Q
  | _, _ => False end.
Proof.
  split; [reflexivity|]. split; [apply pw_ok|]. split; [apply pw_single; reflexivity|]. split; [apply pw_double; reflexivity|].
  split; [split; [eexists|]; reflexivity|]. split; [apply args_match_nil|]. vm_compute. split; reflexivity.
Qed.

Example ex_neumann : let o := neu_o true false in
  singleN_jump (pw vs) [] lap2 3 /\ doubleN_continuous (pw vs) [] lap2 3 /\ calderon (pw vs) 2 3 /\ neumann_null o /\
  match neumann_operator o (PVar "u") (DGeo 3) [],
        neumann_representation o (PVar "u") (fun p => normal_derivative 2 p (DGeo 3)) (LSide (-1)) (DGeo 3) (DGeo 3) [] with
  | Ok e, Ok r => q2 (ev (pw vs) 0 0 e) = (13 # 2, 1 # 2)%Q /\ q2 (ev (pw vs) 0 0 r) = (9 # 2, -3 # 2)%Q
  | _, _ => False end.
Proof.
  cbv zeta. split; [apply pw_singleN; reflexivity|]. split; [apply pw_doubleN; reflexivity|]. split; [apply pw_calderon|].
  split; [split; [eexists|]; reflexivity|]. vm_compute. split; reflexivity.
Qed.

(** *** C76 *)

(** Keyword arguments to DirichletOperator.operator have no effect at all. *)
Theorem dirichlet_operator_ignores_kwargs o u dd kw : dirichlet_operator o u dd kw = dirichlet_operator o u dd [].
Proof. reflexivity. Qed.

(** So an argument of the kernel passed that way is accepted by the representation and reported
    as missing by the operator, although both document it as passed on to the layer potentials. *)
Theorem dirichlet_kwargs_passed_on_refuted :
  exists o kw, make_bvp (plain (KHelmholtz 2 "k")) 1 None true false None = Ok o /\
    (exists r, dirichlet_representation o (PVar "u") (fun x => Ok x) (LSide 1) DNone DNone kw = Ok r) /\
    (exists e, neumann_operator o (PVar "u") DNone kw = Ok e) /\
    dirichlet_operator o (PVar "u") DNone kw = Err ValueError.
Proof.
  eexists _, [("k", KVUser "k")]. split; [reflexivity|]. split; [eexists; reflexivity|]. split; [eexists; vm_compute; reflexivity|reflexivity].
Qed.

(** With weighting, a coupling constant that is not zero and the default (improved) operator, the
    Neumann operator is not the boundary limit of the representation, in a world satisfying all of
    the hypotheses of [neumann_operator_is_limit] but the one on the options. *)
Theorem neumann_weighted_improved_refuted :
  exists W o e r, world_ok W /\ o_improved o = true /\ o_l2 o = true /\ (o_sign o = 1)%Z /\
    singleN_jump W [] (o_kernel o) 0 /\ doubleN_continuous W [] (o_kernel o) 0 /\ calderon W 2 0 /\
    ~ neumann_null o /\
    neumann_operator o (PVar "u") DNone [] = Ok e /\
    neumann_representation o (PVar "u") (fun p => normal_derivative 2 p DNone) (LSide (o_sign o)) DNone DNone [] = Ok r /\
    ev W 0 0 e <> rmul W (sqrt_weight W o 0) (ev W 0 0 r).
Proof.
  exists (pw vs), (mk_bvp lap2 1 (NUser "a") true true []). eexists _, _.
  split; [apply pw_ok|]. split; [reflexivity|]. split; [reflexivity|]. split; [reflexivity|].
  split; [apply pw_singleN; reflexivity|]. split; [apply pw_doubleN; reflexivity|]. split; [apply pw_calderon|].
  split; [intros (_ & E); discriminate E|].
  split; [vm_compute; reflexivity|]. split; [vm_compute; reflexivity|].
  intros E. apply (f_equal q2) in E. vm_compute in E. discriminate E.
Qed.

(** The default options do not work for kernels other than Laplace's and Helmholtz's, although the
    coupling constant is zero for them and the improved operator is documented as used only when
    it is not. *)
Theorem neumann_default_options_refuted :
  exists o, make_bvp yuk2 1 None true false (Some [("lam", KVUser "lam")]) = Ok o /\ o_alpha o = NInt 0 /\
    args_match yuk2 (o_kargs o) /\
    neumann_operator o (PVar "u") DNone [] = Err ValueError.
Proof.
  eexists. split; [reflexivity|]. split; [reflexivity|]. split; [|reflexivity].
  split; [repeat constructor; simpl; tauto|]. split; [simpl; tauto|]. simpl. intros [E|[]]. discriminate E.
Qed.

(** With explicit source and target, the inner potential of the Neumann representation is
    evaluated at the targets and then used as a density on the source. *)
Theorem neumann_representation_density_on_source_refuted :
  exists W o r, world_ok W /\ let v := unweighted W o 0 (ev W 0 0 (PVar "u")) in
    neumann_representation o (PVar "u") (fun x => Ok x) LNone (DGeo 0) (DGeo 1) [] = Ok r /\
    ev W 0 0 r <> rsub W (Single W [] lap2 LNone 0 1 v)
                    (rmul W (w_num W (o_alpha o)) (Double W [] lap2 LNone 0 1 (Single W [] lap2 (LSide 1) 0 0 v))).
Proof.
  exists (pw vs), (mk_bvp lap2 1 (NUser "a") true true []). eexists.
  split; [apply pw_ok|]. split; [vm_compute; reflexivity|].
  intros E. apply (f_equal q2) in E. vm_compute in E. discriminate E.
Qed.

(** prepare_rhs takes the weight of the default geometry, whatever the operator was built on. *)
Theorem prepare_rhs_matches_operator_refuted :
  exists W o u b e r, world_ok W /\ ~ dirichlet_null o /\ (o_sign o = -1)%Z /\
    single_continuous W [] (o_kernel o) 1 /\ double_jump W [] (o_kernel o) 1 /\
    dirichlet_operator o u (DGeo 1) [] = Ok e /\
    dirichlet_representation o u (fun x => Ok x) (LSide (o_sign o)) (DGeo 1) (DGeo 1) [] = Ok r /\
    ev W 0 0 r = ev W 0 0 b /\ ev W 0 0 e <> ev W 0 0 (bvp_prepare_rhs o b).
Proof.
  exists (pw vs), (mk_bvp lap2 (-1) (NInt 0) true true []), (PVar "u"). eexists _, _, _.
  split; [apply pw_ok|]. split; [intros (_ & E); discriminate E|]. split; [reflexivity|].
  split; [apply pw_single; reflexivity|]. split; [apply pw_double; reflexivity|].
  split; [vm_compute; reflexivity|]. split; [vm_compute; reflexivity|]. split; [reflexivity|].
  intros E. apply (f_equal q2) in E. vm_compute in E. discriminate E.
Qed.

Print Assumptions dirichlet_operator_ignores_kwargs.
Print Assumptions dirichlet_kwargs_passed_on_refuted.
Print Assumptions neumann_weighted_improved_refuted.
Print Assumptions neumann_default_options_refuted.
Print Assumptions neumann_representation_density_on_source_refuted.
Print Assumptions prepare_rhs_matches_operator_refuted.
