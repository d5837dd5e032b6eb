(** Examples for C41 and C74, over the rational numbers. *)
From Coq Require Import Permutation QArith Qcanon.
From Verif Require Import Base DofModel MatModel SymProofs SymProofs2 IntlModel IntlSpec IntlProofs IntlProps.
Set Implicit Arguments.
Open Scope string_scope. Open Scope list_scope. Open Scope nat_scope.

Definition QcR : rops := mk_rops (Q2Qc 0) (Q2Qc 1) Qcplus Qcmult Qcminus Qcopp Qcinv Qc_eq_bool.
Lemma QcR_ring : ring_theory (r0 QcR) (r1 QcR) (radd QcR) (rmul QcR) (rsub QcR) (ropp QcR) eq.
Proof. exact Qcrt. Qed.
Lemma QcR_two : rmul QcR (radd QcR (r1 QcR) (r1 QcR)) (rinv QcR (radd QcR (r1 QcR) (r1 QcR))) = r1 QcR.
Proof. apply Qc_is_canon. reflexivity. Qed.

(** Work items in reverse order, memory full of sevens. *)
Definition rsched (g : nat) (s : sub QcR) : list stmt * memory QcR :=
  (rev (domain (nel s) (nunit s)), fun _ _ => Q2Qc 7).
Lemma rsched_ok : any_order rsched.
Proof. intros g s. apply Permutation_sym, Permutation_rev. Qed.

(** Two groups: one element with two nodes, two elements with one node. *)
Definition gs2 : list (nat * nat * nat) := [(0, 1, 2); (0, 2, 1)].
Definition vals (l : list Z) : darr QcR :=
  let f k := Q2Qc (inject_Z (nth k l 0%Z)) in
  [Sub 0 1 2 (fun _ j => f j); Sub 0 2 1 (fun i _ => f (2 + i))].
Lemma vals_on l : on gs2 (vals l).
Proof. reflexivity. Qed.
Definition node_dd : dofdesc := DD (Some (GName "geo")) None NODE.
Definition zs_of (l : list QcR) : list Q := map this l.

Example ex_interleave : match interleave_dof_arrays rsched (elements gs2) (ADof (Some 3) (vals [1; 2; 3; 4]%Z)) (ADof (Some 3) (vals [5; 6; 7; 8]%Z)) with
  | Ok (ADof (Some 3) z) => zs_of (flatten z) = [1 # 1; 5 # 1; 2 # 1; 6 # 1; 3 # 1; 7 # 1; 4 # 1; 8 # 1]%Q
  | _ => False end.
Proof. vm_compute. reflexivity. Qed.
Example ex_frozen : interleave_dof_arrays rsched (elements gs2) (ADof None (vals [])) (ADof None (vals [])) = Err ValueError.
Proof. reflexivity. Qed.
Example ex_scalar : interleave_dof_arrays rsched (elements gs2) (ADof (Some 3) (vals [])) AOther = Err TypeError.
Proof. reflexivity. Qed.

(** Centers in the plane: nodes (x, 0) with normals (0, 1) and stretch 4: radius 2. *)
Example ex_centers : match flat_centers rsched (elements gs2) 2 node_dd
      [vals [1; 2; 3; 4]%Z; vals [0; 0; 0; 0]%Z] [vals [0; 0; 0; 0]%Z; vals [1; 1; 1; 1]%Z] (vals [4; 4; 4; 8]%Z),
    flat_expansion_radii rsched (elements gs2) 2 node_dd (vals [4; 4; 4; 8]%Z) with
  | Ok [cx; cy], Ok r =>
      zs_of cx = [1 # 1; 1 # 1; 2 # 1; 2 # 1; 3 # 1; 3 # 1; 4 # 1; 4 # 1]%Q /\
      zs_of cy = [-2 # 1; 2 # 1; -2 # 1; 2 # 1; -2 # 1; 2 # 1; -4 # 1; 4 # 1]%Q /\
      zs_of r = [2 # 1; 2 # 1; 2 # 1; 2 # 1; 2 # 1; 2 # 1; 4 # 1; 4 # 1]%Q
  | _, _ => False end.
Proof. vm_compute. repeat split. Qed.
(** The hypotheses of [centers_flank_nodes] and [radii_of_stretch] are met. *)
Example ex_hyps : any_order rsched /\ on gs2 (vals [4; 4; 4; 8]%Z) /\
  Forall (on gs2) [vals [1; 2; 3; 4]%Z; vals [0; 0; 0; 0]%Z] /\ granularity node_dd = NODE.
Proof. split; [exact rsched_ok|]. repeat split; repeat constructor. Qed.

(** C74.  Consequence: for unit normals both centers of a node are at distance radius from it. *)
Section Dist.
Variable R : rops.
Variable Rth : ring_theory (r0 R) (r1 R) (radd R) (rmul R) (rsub R) (ropp R) eq.
Add Ring Rr74b : Rth.
Variable sched : nat -> sub R -> list stmt * memory R.
Hypothesis Hs : any_order sched.
Theorem centers_at_radius : forall gs ambient_dim source_dd (x n : list (darr R)) h cs rs,
  on gs h -> Forall (on gs) x -> Forall (on gs) n -> length n = length x -> granularity source_dd = NODE ->
  flat_centers sched (elements gs) ambient_dim source_dd x n h = Ok cs ->
  flat_expansion_radii sched (elements gs) ambient_dim source_dd h = Ok rs ->
  let coord (l : list (list R)) k i := nth i (nth k l []) (r0 R) in
  let N := map (@flatten R) n in let X := map (@flatten R) x in
  forall i, i < length (flatten h) ->
  rsum R (length x) (fun k => rmul R (coord N k i) (coord N k i)) = r1 R ->
  forall b, b = 0 \/ b = 1 ->
  rsum R (length x) (fun k => rmul R (rsub R (coord cs k (2 * i + b)) (coord X k i)) (rsub R (coord cs k (2 * i + b)) (coord X k i)))
    = rmul R (nth (2 * i + b) rs (r0 R)) (nth (2 * i + b) rs (r0 R)).
Proof.
  intros gs ambient_dim source_dd x n h cs rs Hh Hx Hn Hl Hg Hc Hr coord N X i Hi Hu b Hb.
  destruct (@centers_flank_nodes R Rth sched Hs gs ambient_dim source_dd x n h Hh Hx Hn Hl) as [HA _].
  destruct (HA Hg) as (r & cs' & rs' & Er & Ec & Ers & Lc & _ & (A1 & A2 & A3) & HK). clear HA.
  rewrite Ec in Hc. injection Hc; intros <-. rewrite Ers in Hr. injection Hr; intros <-.
  assert (Lr : length (flatten r) = length (flatten h)).
  { unfold expansion_radii in Er. apply bind_Ok in Er. destruct Er as (q & Hq & E). injection E; intros <-.
    rewrite (@quad_nodes R sched (elements gs) None (LDesc source_dd) source_dd) in Hq by (auto; discriminate).
    injection Hq; intros <-. rewrite flatten_scale, map_length. reflexivity. }
  destruct (nth_error (flatten r) i) as [ri|] eqn:Eri; [|apply nth_error_None in Eri; lia].
  destruct (A3 i) as [B1 B2]; [lia|]. rewrite Eri in B1, B2.
  assert (Hrb : nth (2 * i + b) rs' (r0 R) = ri).
  { destruct Hb as [-> | ->]; [rewrite Nat.add_0_r|]; apply nth_error_nth; assumption. }
  rewrite Hrb.
  transitivity (rsum R (length x) (fun k => rmul R (rmul R ri ri) (rmul R (coord N k i) (coord N k i)))).
  - apply (MatProofs.rsum_ext R). intros k Hk.
    destruct (nth_error x k) as [xk|] eqn:Exk; [|apply nth_error_None in Exk; lia].
    destruct (nth_error n k) as [nk|] eqn:Enk; [|apply nth_error_None in Enk; lia].
    destruct (nth_error cs' k) as [ck|] eqn:Eck; [|exfalso; apply nth_error_None in Eck; rewrite Lc in Eck; exact (Nat.lt_irrefl _ (Nat.lt_le_trans _ _ _ Hk Eck))].
    assert (Lx : length (flatten xk) = length (flatten h)).
    { apply on_length with (gs := gs); [|exact Hh]. rewrite Forall_forall in Hx. apply Hx. eapply nth_error_In; eassumption. }
    assert (Ln : length (flatten nk) = length (flatten h)).
    { apply on_length with (gs := gs); [|exact Hh]. rewrite Forall_forall in Hn. apply Hn. eapply nth_error_In; eassumption. }
    destruct (nth_error (flatten xk) i) as [xi|] eqn:Exi; [|apply nth_error_None in Exi; lia].
    destruct (nth_error (flatten nk) i) as [ni|] eqn:Eni; [|apply nth_error_None in Eni; lia].
    destruct (HK k i xk nk ck xi ni ri Exk Enk Eck Exi Eni Eri) as [C1 C2].
    assert (E1 : coord X k i = xi).
    { unfold coord, X. rewrite (nth_error_nth _ _ _ (map_nth_error (@flatten R) _ _ Exk)). apply nth_error_nth. exact Exi. }
    assert (E2 : coord N k i = ni).
    { unfold coord, N. rewrite (nth_error_nth _ _ _ (map_nth_error (@flatten R) _ _ Enk)). apply nth_error_nth. exact Eni. }
    assert (E3 : exists s, (s = r1 R \/ s = ropp R (r1 R)) /\ coord cs' k (2 * i + b) = radd R xi (rmul R s (rmul R ri ni))).
    { unfold coord. rewrite (nth_error_nth _ _ _ Eck).
      destruct Hb as [-> | ->]; [rewrite Nat.add_0_r, (nth_error_nth _ _ _ C1); exists (ropp R (r1 R))|
        rewrite (nth_error_nth _ _ _ C2); exists (r1 R)]; (split; [auto|ring]). }
    destruct E3 as (s & Hsgn & E3). rewrite E1, E2, E3. destruct Hsgn as [-> | ->]; ring.
  - rewrite (MatProofs.rsum_mul_l R Rth). rewrite Hu. ring.
Qed.
End Dist.
Print Assumptions centers_at_radius.
