(** Properties C04, C05, C08.  Vocabulary: CompSpec.v ([accepted], [no_capture],
    [limits_distinct], [rename], [same_but_limit]). *)
From Verif Require Import Base SchedModel CompModel CompSpec CompProofs CompProofs2 CompProofs3 CompProofs4.
From Coq Require Import Permutation.
Set Implicit Arguments.

(** ** C04 *)
(** Compilation never fails on accepted expressions. *)
Theorem compile_total : forall ple kfeat gorder,
  (forall l, Permutation (gorder l) l) ->
  forall e, accepted e -> no_capture e -> limits_distinct e ->
  exists code r, compile ple kfeat gorder e = Ok (code, r).
Proof.
  intros ple kfeat gorder Hg e Ha Hc Hl.
  exact (@compile_ok ple kfeat gorder Hg e Ha Hc Hl unit tt (fun _ => Ok tt) (fun _ _ => Ok tt)
    (fun _ _ => Ok tt) (fun _ _ => Ok tt) (fun _ => tt) (fun _ _ _ _ _ _ => Ok tt)
    (fun x => match x with tt => eq_refl end) (fun _ _ _ _ _ _ _ _ => eq_refl) (fun _ => None)).
Qed.
Print Assumptions compile_total.

(** Compile, schedule and execute returns [r] exactly when evaluating the
    expression node by node in the caller's context gives [r].  All value
    operations are arbitrary (partial) functions; [0 + x] is [x], and a layer
    potential does not depend on the order of its (kernel, density) pairs. *)
Theorem compile_and_run_correct : forall ple kfeat gorder,
  (forall l, Permutation (gorder l) l) ->
  forall e, accepted e -> no_capture e -> limits_distinct e ->
  forall (V : Type) (vzero : V) vlit vadd vop vsub varr vpot,
  (forall x, vadd vzero x = Ok x) ->
  (forall tk ps ps' ks l s t, Permutation ps ps' ->
     vpot tk ps ks l s t = vpot tk ps' ks l s t) ->
  forall (c : ctx V) r,
  (exists c', compile_and_run vzero vlit vadd vop vsub varr vpot ple kfeat gorder e c = Ok (r, c'))
  <-> evalx vzero vlit vadd vop vsub varr vpot true c e = Ok r.
Proof.
  intros ple kfeat gorder Hg e Ha Hc Hl V vzero vlit vadd vop vsub varr vpot Hz Hp c r.
  exact (@compile_and_run_l ple kfeat gorder Hg e Ha Hc Hl V vzero vlit vadd vop vsub varr vpot Hz Hp c r).
Qed.
Print Assumptions compile_and_run_correct.

(** Non-vacuity: [2 * cse(S(cse(x)) + D(cse(x)), "u") + S(S(cse(x)))], with the
    two potentials of equal density evaluated together. *)
Section Ex.
Local Open Scope string_scope.
Local Open Scope Z_scope.
Definition ex_add (a b : Z) : result Z := Ok (a + b).
Definition ex_lit (k : nat) : result Z := Ok (Z.of_nat k).
Definition ex_op (k : nat) (vs : list Z) : result Z := Ok (fold_right Z.mul 1 vs).
Definition ex_sub (k : nat) (v : Z) : result Z := Ok (v + Z.of_nat k).
Definition ex_arr (vs : list Z) : Z := fold_right (fun v a => v + 100 * a) 0 vs.
Definition ex_pot (tk : nat) (ps : list (nat * Z)) (ks : list (string * Z)) (l : limit) (s t : nat)
    : result Z :=
  Ok (fold_right Z.add (match l with LInt z => z | _ => 7 end)
       (map (fun p => (Z.of_nat (fst p) + 1) * snd p * (Z.of_nat tk + 1)) ps)).
Definition ex_ple (p q : nat * expr) : bool := Nat.leb (fst p) (fst q).
Definition ex_kf (s k : nat) : nat := 0.
Definition ex_go (l : list expr) : list expr := rev l.
Definition ex_run (e : expr) (c : ctx Z) : option Z :=
  match compile_and_run 0 ex_lit ex_add ex_op ex_sub ex_arr ex_pot ex_ple ex_kf ex_go e c with
  | Ok (r, _) => Some r | Err _ => None end.
Definition ex_den (e : expr) (c : ctx Z) : option Z :=
  match evalx 0 ex_lit ex_add ex_op ex_sub ex_arr ex_pot true c e with
  | Ok r => Some r | Err _ => None end.

Definition cx := CSE (Op 5 [Lit 3; Var "x"]) (Some "d") true.
Definition pS l d := IntG 0 [(0%nat, d)] l 0 0 [].
Definition pD l d := IntG 1 [(0%nat, d)] l 0 0 [].
Definition ex_e : expr :=
  Sum [Op 2 [Lit 2; CSE (Sum [pS (LInt 1) cx; pD (LInt 1) cx]) (Some "u") true];
       pS (LInt 1) (pS (LInt 1) cx); IntG 2 [(1%nat, cx); (0%nat, Var "y")] LNone 0 1 [("k", SubV "w" 3)]].
Definition ex_c : ctx Z := upd (upd (upd (fun _ => None) "x" 5) "y" 11) "w" 2.

Example ex_code :
  match compile ex_ple ex_kf ex_go ex_e with
  | Ok (code, r) => Some (map cassg code, r)
  | Err _ => None
  end
  = Some ([["d"]; ["_expr0"; "_expr1"]; ["_expr2"]; ["_expr3"]; ["_expr4"]; ["_expr5"];
           ["_expr6"]; ["_expr7"]], NIR "_expr7").
Proof. vm_compute. reflexivity. Qed.

Example ex_value : ex_run ex_e ex_c = Some 241 /\ ex_den ex_e ex_c = Some 241.
Proof. split; vm_compute; reflexivity. Qed.

(** The boolean subexpression list, to check the hypotheses by computation. *)
Fixpoint subs (e : expr) : list expr :=
  e :: match e with
       | Var _ | NIR _ | SubV _ _ | Lit _ => []
       | Sum cs | Op _ cs | Arr cs => flat_map subs cs
       | CSE c _ _ => subs c
       | IntG _ ps _ _ _ ks =>
           flat_map (fun p => match p with (_, d) => subs d end) ps
           ++ flat_map (fun p => match p with (_, d) => subs d end) ks
       end.
Lemma subs_self e : In e (subs e).
Proof. destruct e; simpl; auto. Qed.
Lemma subs_child e : forall x, In x (subs e) -> forall c, In c (children x) -> In c (subs e).
Proof.
  induction e as [n|n|n k|k|cs IH|k cs IH|cs IH|ch p s IH|tk ps l s t ks IH1 IH2] using expr_ind';
    intros x Hx c Hc; simpl in Hx.
  - destruct Hx as [<-|[]]; destruct Hc.
  - destruct Hx as [<-|[]]; destruct Hc.
  - destruct Hx as [<-|[]]; destruct Hc.
  - destruct Hx as [<-|[]]; destruct Hc.
  - simpl. right. rewrite Forall_forall in IH. destruct Hx as [<-|Hx]; apply in_flat_map.
    + simpl in Hc. exists c. split; [exact Hc|apply subs_self].
    + apply in_flat_map in Hx. destruct Hx as (y & Hy & Hx). exists y. split; [exact Hy|]. eapply IH; eauto.
  - simpl. right. rewrite Forall_forall in IH. destruct Hx as [<-|Hx]; apply in_flat_map.
    + simpl in Hc. exists c. split; [exact Hc|apply subs_self].
    + apply in_flat_map in Hx. destruct Hx as (y & Hy & Hx). exists y. split; [exact Hy|]. eapply IH; eauto.
  - simpl. right. rewrite Forall_forall in IH. destruct Hx as [<-|Hx]; apply in_flat_map.
    + simpl in Hc. exists c. split; [exact Hc|apply subs_self].
    + apply in_flat_map in Hx. destruct Hx as (y & Hy & Hx). exists y. split; [exact Hy|]. eapply IH; eauto.
  - simpl. right. destruct Hx as [<-|Hx].
    + simpl in Hc. destruct Hc as [<-|[]]. apply subs_self.
    + eapply IH; eauto.
  - simpl. right. rewrite Forall_forall in IH1, IH2. apply in_app_iff.
    destruct Hx as [<-|Hx].
    + simpl in Hc. apply in_app_iff in Hc.
      destruct Hc as [Hc|Hc]; [left|right]; apply in_map_iff in Hc; destruct Hc as ([k d] & <- & Hd);
        apply in_flat_map; exists (k, d); (split; [exact Hd|apply subs_self]).
    + apply in_app_iff in Hx. destruct Hx as [Hx|Hx]; [left|right]; apply in_flat_map in Hx;
        destruct Hx as ([k d] & Hd & Hx); apply in_flat_map; exists (k, d); (split; [exact Hd|]).
      * eapply (IH1 (k, d) Hd); eauto.
      * eapply (IH2 (k, d) Hd); eauto.
Qed.
Lemma subs_sub e x : sub e x -> In x (subs e).
Proof. intros H. induction H as [|y c Hy IH Hc]; [apply subs_self|]. eapply subs_child; eauto. Qed.

(** A name [n] equal to a candidate of prefix [Some p] starts with [p]. *)
Fixpoint starts (p n : string) : bool :=
  match p, n with
  | EmptyString, _ => true
  | String a p', String b n' => Ascii.eqb a b && starts p' n'
  | _, _ => false
  end.
Lemma starts_app p q : starts p (String.append p q) = true.
Proof. induction p as [|a p IH]; simpl; [reflexivity|]. rewrite Ascii.eqb_refl. exact IH. Qed.
Lemma cand_starts p i : starts (match p with None => "_expr" | Some q => q end) (cand p i) = true.
Proof.
  destruct p as [q|]; unfold cand; [|apply starts_app]. destruct i; [|apply starts_app].
  rewrite <- (starts_app q ""). f_equal. clear. induction q; simpl; congruence.
Qed.

Example ex_hyps : accepted ex_e /\ no_capture ex_e /\ limits_distinct ex_e.
Proof.
  split; [|split].
  - intros x Hx. apply subs_sub in Hx. cbn in Hx.
    repeat (destruct Hx as [<-|Hx]; [simpl; auto; try (split; discriminate); try discriminate|]).
    destruct Hx.
  - assert (Hp : forall p, (exists c, sub ex_e (CSE c p true)) -> p = Some "d" \/ p = Some "u").
    { intros p [c Hc]. apply subs_sub in Hc. cbn in Hc.
      repeat (destruct Hc as [Hc|Hc]; [try discriminate Hc; injection Hc; intros; subst; auto|]). destruct Hc. }
    assert (Hn : forall n, starts "_expr" n = false -> starts "d" n = false -> starts "u" n = false ->
              ~ may_generate ex_e n).
    { intros n H1 H2 H3 (p & i & -> & Hc). pose proof (cand_starts p i) as Hs.
      destruct Hc as [->|Hc]; [congruence|]. destruct (Hp p Hc) as [->| ->]; congruence. }
    intros x Hx. apply subs_sub in Hx. cbn in Hx.
    repeat (destruct Hx as [<-|Hx]; [simpl; auto; try (apply Hn; reflexivity)|]). destruct Hx.
  - intros tk ps s t ks tk' ps' s' t' ks' H1 H2. apply subs_sub in H2. cbn in H2.
    repeat (destruct H2 as [H2|H2]; [discriminate H2|]). destruct H2.
Qed.
Example ex_oracles : (forall x, ex_add 0 x = Ok x) /\ (forall l, Permutation (ex_go l) l) /\
  (forall tk ps ps' ks l s t, Permutation ps ps' -> ex_pot tk ps ks l s t = ex_pot tk ps' ks l s t).
Proof.
  split; [reflexivity|]. split; [intros l; symmetry; apply Permutation_rev|].
  intros tk ps ps' ks l s t Hp. unfold ex_pot. f_equal.
  assert (H : forall (b : Z) (l l' : list Z), Permutation l l' -> fold_right Z.add b l = fold_right Z.add b l').
  { intros b m m' Hm. induction Hm; simpl; lia. }
  apply H. apply Permutation_map. exact Hp.
Qed.
End Ex.

(** ** C05 *)
(** The full property is false: an input called [_expr0] is overwritten by the
    compiler's temporary of that name, although all oracles are well-behaved and
    the renaming is injective. *)
Definition cap_f (n : string) : string :=
  if String.eqb n "y" then "_expr0"%string else if String.eqb n "_expr0" then "y"%string else n.
Definition cap_e : expr := Sum [Op 1 [Lit 2; Var "x"]; Var "y"].
Definition cap_c : ctx Z := upd (upd (fun _ => None) "x"%string 5%Z) "_expr0"%string 1%Z.

Theorem user_names_captured_refuted :
  (forall a b, cap_f a = cap_f b -> a = b) /\ accepted cap_e /\ limits_distinct cap_e /\
  ex_run cap_e (fun n => cap_c (cap_f n)) = Some 11%Z /\
  ex_run (rename cap_f cap_e) cap_c = Some 20%Z.
Proof.
  split; [|split; [|split; [|split]]].
  - intros a b. unfold cap_f.
    destruct (String.eqb_spec a "y") as [->|Ha]; destruct (String.eqb_spec b "y") as [->|Hb]; auto.
    + destruct (String.eqb_spec b "_expr0") as [->|Hb']; [discriminate|]. intros E. exfalso. auto.
    + destruct (String.eqb_spec a "_expr0") as [->|Ha']; [discriminate|]. intros E. exfalso. auto.
    + destruct (String.eqb_spec a "_expr0") as [->|Ha']; destruct (String.eqb_spec b "_expr0") as [->|Hb']; auto;
        intros E; exfalso; congruence.
  - intros x Hx. apply subs_sub in Hx. cbn in Hx.
    repeat (destruct Hx as [<-|Hx]; [simpl; auto; try discriminate|]). destruct Hx.
  - intros tk ps s t ks tk' ps' s' t' ks' H1 H2. apply subs_sub in H2. cbn in H2.
    repeat (destruct H2 as [H2|H2]; [discriminate H2|]). destruct H2.
  - vm_compute. reflexivity.
  - vm_compute. reflexivity.
Qed.
Print Assumptions user_names_captured_refuted.

(** What holds: renaming is harmless as long as no name, old or new, is one the
    compiler may generate. *)
Theorem rename_inputs_partial : forall ple kfeat gorder,
  (forall l, Permutation (gorder l) l) ->
  forall (V : Type) (vzero : V) vlit vadd vop vsub varr vpot,
  (forall x, vadd vzero x = Ok x) ->
  (forall tk ps ps' ks l s t, Permutation ps ps' ->
     vpot tk ps ks l s t = vpot tk ps' ks l s t) ->
  forall f e (c : ctx V), accepted e -> limits_distinct e -> no_capture e -> no_capture (rename f e) ->
  forall r,
  (exists c', compile_and_run vzero vlit vadd vop vsub varr vpot ple kfeat gorder (rename f e) c = Ok (r, c'))
  <-> (exists c', compile_and_run vzero vlit vadd vop vsub varr vpot ple kfeat gorder e
                    (fun n => c (f n)) = Ok (r, c')).
Proof. intros. apply rename_ok; assumption. Qed.
Print Assumptions rename_inputs_partial.

(** ** C08 *)
(** Whatever the tuple hash, two layer potentials that differ only in the limits
    -1 and -2 compare equal ... *)
Theorem forced_limit_distinguished_refuted : forall H hk hd hnone havg,
  exists a b, a <> b /\ g_lim a = LInt (-1) /\ g_lim b = LInt (-2) /\
    intg_eq H hk hd hnone havg a b = true.
Proof.
  intros H hk hd hnone havg.
  exists (MkIntG 0 [0] [0] (LInt (-1)) 0 0 []), (MkIntG 0 [0] [0] (LInt (-2)) 0 0 []).
  split; [discriminate|]. split; [reflexivity|]. split; [reflexivity|].
  exact (intg_conflated H hk hd hnone havg (MkIntG 0 [0] [0] (LInt (-1)) 0 0 []) eq_refl).
Qed.
Print Assumptions forced_limit_distinguished_refuted.

(** ... so that a bound expression containing both evaluates to a wrong value. *)
Theorem forced_limit_compile_refuted :
  exists e, accepted e /\ no_capture e /\
    ex_den e ex_c = Some 12%Z /\ ex_run e ex_c = Some 16%Z.
Proof.
  exists (Op 0 [pS (LInt (-1)) (Var "x"); pS (LInt (-2)) (Var "x")]).
  split; [|split; [|split; vm_compute; reflexivity]].
  - intros x Hx. apply subs_sub in Hx. cbn in Hx.
    repeat (destruct Hx as [<-|Hx]; [simpl; auto; try (split; discriminate); try discriminate|]). destruct Hx.
  - intros x Hx. apply subs_sub in Hx. cbn in Hx.
    repeat (destruct Hx as [<-|Hx]; [simpl; auto|]); try destruct Hx;
    intros (p & i & E & [->|[c Hc]]).
    + pose proof (cand_starts None i) as Hs. rewrite <- E in Hs. discriminate Hs.
    + apply subs_sub in Hc. cbn in Hc. repeat (destruct Hc as [Hc|Hc]; [discriminate Hc|]). destruct Hc.
    + pose proof (cand_starts None i) as Hs. rewrite <- E in Hs. discriminate Hs.
    + apply subs_sub in Hc. cbn in Hc. repeat (destruct Hc as [Hc|Hc]; [discriminate Hc|]). destruct Hc.
Qed.
Print Assumptions forced_limit_compile_refuted.

(** What holds for every hash: equality is an equivalence relation, implies equal
    hashes and agreement of all other fields ... *)
Theorem intg_eq_equivalence_partial : forall H hk hd hnone havg,
  let eq := intg_eq H hk hd hnone havg in
  (forall a, eq a a = true) /\ (forall a b, eq a b = true -> eq b a = true) /\
  (forall a b c, eq a b = true -> eq b c = true -> eq a c = true) /\
  (forall a b, eq a b = true ->
     intg_hash H hk hd hnone havg a = intg_hash H hk hd hnone havg b /\ same_but_limit a b).
Proof.
  intros H hk hd hnone havg eq. split; [apply intg_eq_refl|]. split; [apply intg_eq_sym|].
  split; [apply intg_eq_trans|]. intros a b Hab. apply intg_eq_spec. exact Hab.
Qed.
Print Assumptions intg_eq_equivalence_partial.

(** ... and for a collision-free hash it is equality if the limit -1 is left out. *)
Theorem intg_eq_exact_partial : forall H hk hd hnone havg,
  (forall l l' : list Z, H l = H l' -> l = l') ->
  hnone <> havg -> (forall z, In z [-2; -1; 1; 2]%Z -> hnone <> z /\ havg <> z) ->
  forall a b,
  In (g_lim a) [LNone; LAvg; LInt (-2); LInt 1; LInt 2] ->
  In (g_lim b) [LNone; LAvg; LInt (-2); LInt 1; LInt 2] ->
  (intg_eq H hk hd hnone havg a b = true <-> a = b).
Proof. intros. apply intg_eq_exact; assumption. Qed.
Print Assumptions intg_eq_exact_partial.

(** The collision-free hypothesis can be met. *)
Fixpoint enc (l : list Z) : positive :=
  match l with
  | [] => xH
  | z :: l' => (fix go (n : nat) (p : positive) : positive :=
                  match n with O => xO p | Datatypes.S n' => xI (go n' p) end)
               (Z.to_nat (if (z <? 0)%Z then - z - z - 1 else z + z)) (enc l')
  end.
Example ex_hash : forall l l', Zpos (enc l) = Zpos (enc l') -> l = l'.
Proof.
  assert (G : forall n m p q,
    (fix go (n : nat) (p : positive) : positive := match n with O => xO p | Datatypes.S n' => xI (go n' p) end) n p
    = (fix go (n : nat) (p : positive) : positive := match n with O => xO p | Datatypes.S n' => xI (go n' p) end) m q ->
    n = m /\ p = q).
  { induction n as [|n IH]; intros [|m] p q E; try discriminate E.
    - injection E as E. auto.
    - injection E as E. apply IH in E. destruct E as [-> ->]. auto. }
  induction l as [|z l IH]; intros [|w l'] E; [reflexivity| | |]; injection E as E; cbn [enc] in E.
  - destruct (Z.to_nat _) in E; discriminate E.
  - destruct (Z.to_nat _) in E; discriminate E.
  - apply G in E. destruct E as [E1 E2]. f_equal; [|apply IH; congruence].
    revert E1. destruct (Z.ltb_spec z 0), (Z.ltb_spec w 0); lia.
Qed.
