From Coq Require Import QArith Permutation.
From Verif Require Import Base RefineModel AssocModel FmmModel FmmProofs FmlModel KrnModel.
Set Implicit Arguments.
Open Scope nat_scope.

Lemma NoDup_left A (l l' : list A) : NoDup (l ++ l') -> NoDup l.
Proof. induction l as [|a l IH]; cbn; intros ND; [constructor|]. inversion ND; subst. constructor; [|auto]. intros I. apply H1. apply in_or_app. auto. Qed.
Lemma NoDup_right A (l l' : list A) : NoDup (l ++ l') -> NoDup l'.
Proof. induction l as [|a l IH]; cbn; intros ND; [exact ND|]. inversion ND; subst. auto. Qed.
Lemma NoDup_concat_nth (ls : list (list nat)) : NoDup (concat ls) -> forall t l, nth_error ls t = Some l -> NoDup l.
Proof.
  induction ls as [|a ls IH]; intros ND [|t] l E; try discriminate; cbn in *.
  - injection E as <-. apply NoDup_left in ND. exact ND.
  - apply NoDup_right in ND. eauto.
Qed.
Lemma NoDup_app_disjoint A (l l' : list A) x : NoDup (l ++ l') -> In x l -> In x l' -> False.
Proof. induction l as [|a l IH]; cbn; intros ND I J; [exact I|]. inversion ND; subst. destruct I as [->|I]; [apply H1; apply in_or_app; auto|eauto]. Qed.
Lemma concat_disjoint (ls : list (list nat)) : NoDup (concat ls) -> forall t t' l l' i, nth_error ls t = Some l -> nth_error ls t' = Some l' -> In i l -> In i l' -> t = t'.
Proof.
  assert (H : forall (ls : list (list nat)) t l i, nth_error ls t = Some l -> In i l -> In i (concat ls)).
  { intros ls0 t l i E I. apply in_concat. exists l. split; [eapply nth_error_In; eassumption|exact I]. }
  induction ls as [|a ls IH]; intros ND [|t] [|t'] l l' i E E' I I'; try discriminate; try reflexivity; cbn in *.
  - injection E as <-. exfalso. eapply NoDup_app_disjoint; [exact ND|exact I|]. eapply H; eassumption.
  - injection E' as <-. exfalso. eapply NoDup_app_disjoint; [exact ND|exact I'|]. eapply H; eassumption.
  - f_equal. apply NoDup_right in ND. eapply IH; eauto.
Qed.
Lemma nth_error_nth' A (l : list A) t d : t < length l -> nth_error l t = Some (nth t l d).
Proof. revert t; induction l as [|a l IH]; intros [|t] L; cbn in *; try lia; [reflexivity|]. apply IH. lia. Qed.
Lemma nth_error_ext A (l l' : list A) : length l = length l' -> (forall i, i < length l -> nth_error l i = nth_error l' i) -> l = l'.
Proof.
  revert l'; induction l as [|a l IH]; intros [|b l'] L E; cbn in *; try lia; [reflexivity|].
  pose proof (E 0 ltac:(lia)) as E0. cbn in E0. injection E0 as ->. f_equal. apply IH; [lia|]. intros i Hi. apply (E (Datatypes.S i)). lia.
Qed.
Lemma nth_same A (a : list A) i x d : i < length a -> nth i (set_nth a i x) d = x.
Proof. intros L. rewrite nth_set_nth, Nat.eqb_refl. apply Nat.ltb_lt in L. rewrite L. reflexivity. Qed.
Lemma nth_diff A (a : list A) i j x d : j <> i -> nth j (set_nth a i x) d = nth j a d.
Proof. intros N. rewrite nth_set_nth. apply Nat.eqb_neq in N. rewrite N. reflexivity. Qed.

Section Machine.
Variable R : Type.
Notation cmd := (cmd R).
Notation memory := (list R).

(** Complete executions of a stack within a set of cells. *)
Inductive exs (S : nat -> Prop) : list cmd -> env -> memory -> env -> memory -> Prop :=
| XNil p m : exs S [] p m p m
| XSkip k p m p' m' : exs S k p m p' m' -> exs S (Skip :: k) p m p' m'
| XLet x (e : env -> value) k p m p' m' : exs S k (assign_var p x (e p)) m p' m' -> exs S (Let x e :: k) p m p' m'
| XLoad x (a : env -> nat) e k p m p' m' : S (a p) -> exs S k (assign_var p x (e (nth_error m (a p)))) m p' m' -> exs S (Load x a e :: k) p m p' m'
| XStore (a : env -> nat) (f : env -> R -> R) k p m p' m' : S (a p) -> exs S k p (write_cell m (a p) (f p)) p' m' -> exs S (Store a f :: k) p m p' m'
| XSeq c1 c2 k p m p' m' : exs S (c1 :: c2 :: k) p m p' m' -> exs S (Seq c1 c2 :: k) p m p' m'
| XFor x (lo hi : env -> nat) c k p m p' m' : exs S (map (iteration x c) (seq (lo p) (hi p - lo p)) ++ k) p m p' m' -> exs S (For x lo hi c :: k) p m p' m'
| XIf (t : env -> bool) c k p m p' m' : exs S (if t p then c :: k else k) p m p' m' -> exs S (If t c :: k) p m p' m'.

Lemma exs_app S k1 k2 p m p1 m1 p' m' : exs S k1 p m p1 m1 -> exs S k2 p1 m1 p' m' -> exs S (k1 ++ k2) p m p' m'.
Proof.
  intros E E2. induction E; cbn [app]; try (constructor; auto; fail).
  - exact E2.
  - constructor. rewrite <- app_assoc in IHE. auto.
  - constructor. destruct (t p); cbn [app] in IHE; auto.
Qed.
Lemma exs_cons S c k p m p1 m1 p' m' : exs S [c] p m p1 m1 -> exs S k p1 m1 p' m' -> exs S (c :: k) p m p' m'.
Proof. apply (@exs_app S [c] k). Qed.
Lemma exs_mono (S S' : nat -> Prop) k p m p' m' : (forall x, S x -> S' x) -> exs S k p m p' m' -> exs S' k p m p' m'.
Proof. intros I E. induction E; constructor; auto. Qed.

Lemma nth_error_set_nth A (a : list A) i v j : nth_error (set_nth a i v) j = if j =? i then (if i <? length a then Some v else None) else nth_error a j.
Proof.
  revert i j; induction a as [|x a IH]; intros [|i] [|j]; cbn; try reflexivity.
  - destruct (j =? i); reflexivity.
  - rewrite IH. destruct (j =? i); [|reflexivity]. reflexivity.
Qed.
Lemma write_cell_nth (m : memory) i f j : nth_error (write_cell m i f) j = if j =? i then option_map f (nth_error m j) else nth_error m j.
Proof.
  unfold write_cell. destruct (j =? i) eqn:E.
  - apply Nat.eqb_eq in E as ->. destruct (nth_error m i) eqn:N; [|exact N].
    rewrite nth_error_set_nth, Nat.eqb_refl. assert (L : i < length m) by (apply nth_error_Some; congruence).
    apply Nat.ltb_lt in L. rewrite L. reflexivity.
  - destruct (nth_error m i); [|reflexivity]. rewrite nth_error_set_nth, E. reflexivity.
Qed.
Lemma write_cell_length (m : memory) i f : length (write_cell m i f) = length m.
Proof. unfold write_cell. destruct (nth_error m i); [apply set_nth_length|reflexivity]. Qed.

(** Only the cells of the set matter, and only they change. *)
Lemma exs_agree (S : nat -> Prop) k p m p' m' : exs S k p m p' m' -> forall m2, (forall x, S x -> nth_error m x = nth_error m2 x) ->
  exists m2', exs S k p m2 p' m2' /\ (forall x, S x -> nth_error m' x = nth_error m2' x).
Proof.
  intros E. induction E; intros m2 A.
  - exists m2. split; [constructor|exact A].
  - destruct (IHE m2 A) as (m2' & E2 & A2). exists m2'. split; [constructor|]; auto.
  - destruct (IHE m2 A) as (m2' & E2 & A2). exists m2'. split; [constructor|]; auto.
  - destruct (IHE m2 A) as (m2' & E2 & A2). exists m2'. split; [constructor; [auto|]|auto]. rewrite <- (A _ H). exact E2.
  - destruct (IHE (write_cell m2 (a p) (f p))) as (m2' & E2 & A2).
    { intros x Sx. rewrite !write_cell_nth, (A x Sx). reflexivity. }
    exists m2'. split; [constructor|]; auto.
  - destruct (IHE m2 A) as (m2' & E2 & A2). exists m2'. split; [constructor|]; auto.
  - destruct (IHE m2 A) as (m2' & E2 & A2). exists m2'. split; [constructor|]; auto.
  - destruct (IHE m2 A) as (m2' & E2 & A2). exists m2'. split; [constructor|]; auto.
Qed.
Lemma exs_outside (S : nat -> Prop) k p m p' m' x : exs S k p m p' m' -> ~ S x -> nth_error m' x = nth_error m x.
Proof.
  intros E N. induction E; auto. rewrite IHE by exact N. rewrite write_cell_nth. destruct (x =? a p) eqn:Q; [|reflexivity].
  apply Nat.eqb_eq in Q as ->. contradiction.
Qed.
Lemma exs_length S k p m p' m' : exs S k p m p' m' -> length m' = length m.
Proof. intros E. induction E; auto. rewrite IHE. apply write_cell_length. Qed.

(** Loops. *)
Lemma exs_for S x lo hi c (I : nat -> env -> memory -> Prop) p m :
  lo p <= hi p ->
  I (lo p) p m ->
  (forall k p1 m1, lo p <= k < hi p -> I k p1 m1 -> exists p2 m2, exs S [c] (assign_var p1 x (VNum k)) m1 p2 m2 /\ I (Datatypes.S k) p2 m2) ->
  exists p' m', exs S [For x lo hi c] p m p' m' /\ I (hi p) p' m'.
Proof.
  intros L I0 St.
  assert (G : forall n j p1 m1, lo p <= j -> j + n = hi p -> I j p1 m1 -> exists p' m', exs S (map (iteration x c) (seq j n)) p1 m1 p' m' /\ I (hi p) p' m').
  { induction n as [|n IH]; intros j p1 m1 Lj E Ij.
    - exists p1, m1. split; [constructor|]. replace (hi p) with j by lia. exact Ij.
    - destruct (St j p1 m1) as (p2 & m2 & E2 & I2); [lia|exact Ij|].
      destruct (IH (Datatypes.S j) p2 m2) as (p' & m' & E' & I'); [lia|lia|exact I2|].
      exists p', m'. split; [|exact I']. cbn [seq map]. apply exs_cons with (p1 := p2) (m1 := m2); [|exact E'].
      unfold iteration. constructor. constructor. exact E2. }
  destruct (G (hi p - lo p) (lo p) p m) as (p' & m' & E & I'); [lia|lia|exact I0|].
  exists p', m'. split; [|exact I']. constructor. rewrite app_nil_r. exact E.
Qed.

(** ** Interleaving *)

Lemma nth_error_set_same A (a : list A) i v : i < length a -> nth_error (set_nth a i v) i = Some v.
Proof. intros L. rewrite nth_error_set_nth, Nat.eqb_refl. apply Nat.ltb_lt in L. rewrite L. reflexivity. Qed.
Lemma nth_error_set_other A (a : list A) i v j : j <> i -> nth_error (set_nth a i v) j = nth_error a j.
Proof. intros N. rewrite nth_error_set_nth. apply Nat.eqb_neq in N. rewrite N. reflexivity. Qed.

Section Inv.
Variable final : memory.
Variable S : nat -> nat -> Prop.   (* cells of a worker *)
Hypothesis disjoint : forall t t' x, S t x -> S t' x -> t = t'.
Variable m0 : memory.
Definition inv (st : mstate R) : Prop :=
  length (envs st) = length (todo st) /\ length (mem st) = length m0
  /\ (forall t k p, nth_error (todo st) t = Some k -> nth_error (envs st) t = Some p ->
        exists p' m', exs (S t) k p (mem st) p' m' /\ forall x, S t x -> nth_error m' x = nth_error final x)
  /\ (forall x, (forall t, t < length (todo st) -> ~ S t x) -> nth_error (mem st) x = nth_error m0 x).

Lemma step1_exs T c k p (m : memory) p' m' k1 p1 m1 : exs T (c :: k) p m p' m' -> step1 c k p m = (k1, p1, m1) ->
  exs T k1 p1 m1 p' m' /\ length m1 = length m /\ (forall x, ~ T x -> nth_error m1 x = nth_error m x).
Proof.
  intros E Q. inversion E; subst; cbn in Q; injection Q as <- <- <-; (split; [assumption|split; [|intros; try reflexivity]]); try reflexivity.
  - apply write_cell_length.
  - rewrite write_cell_nth. destruct (x =? a p) eqn:X; [|reflexivity]. apply Nat.eqb_eq in X as ->. contradiction.
Qed.
Lemma inv_step st t : inv st -> inv (step st t).
Proof.
  intros (L & LM & W & O). unfold step.
  destruct (nth_error (todo st) t) as [[|c k]|] eqn:Et; try (repeat split; assumption).
  destruct (nth_error (envs st) t) as [p|] eqn:Ep; [|repeat split; assumption].
  destruct (step1 c k p (mem st)) as ((k1, p1), m1) eqn:Q.
  destruct (W t (c :: k) p Et Ep) as (p' & m' & E & F).
  destruct (step1_exs E Q) as (E1 & L1 & O1).
  assert (Lt : t < length (todo st)) by (apply nth_error_Some; congruence).
  assert (Lp : t < length (envs st)) by (apply nth_error_Some; congruence).
  unfold inv; cbn [todo envs mem]. rewrite !set_nth_length. split; [exact L|]. split; [congruence|]. split.
  - intros t' k' q Ek Eq. destruct (Nat.eq_dec t' t) as [->|N].
    + rewrite nth_error_set_same in Ek by exact Lt. rewrite nth_error_set_same in Eq by exact Lp.
      injection Ek as <-. injection Eq as <-. exists p', m'. auto.
    + rewrite nth_error_set_other in Ek, Eq by exact N. destruct (W t' k' q Ek Eq) as (q' & n' & E' & F').
      destruct (@exs_agree (S t') _ _ _ _ _ E' m1) as (n2 & E2 & A2).
      { intros x Sx. symmetry. apply O1. intros Tx. apply N. eapply disjoint; eassumption. }
      exists q', n2. split; [exact E2|]. intros x Sx. rewrite <- A2 by exact Sx. auto.
  - intros x Nx. rewrite O1 by (apply Nx; exact Lt). auto.
Qed.
Lemma inv_run sched : forall st, inv st -> inv (run st sched).
Proof. induction sched as [|t sched IH]; intros st I; [exact I|]. cbn. apply IH. apply inv_step. exact I. Qed.
End Inv.

(** ** A kernel whose work items use disjoint cells *)
Section Disjoint.
Variable K : kernel R.
Variable n : nat.
Variable m0 final : memory.
Variable cells : nat -> nat -> Prop.
Hypothesis cells_disjoint : forall i j x, i < n -> j < n -> cells i x -> cells j x -> i = j.
Hypothesis cells_dec : forall i x, {cells i x} + {~ cells i x}.
Hypothesis final_length : length final = length m0.
Hypothesis item : forall i p, i < n -> exists p' m', exs (cells i) [k_body K] (assign_var p (k_iname K) (VNum i)) m0 p' m'
  /\ forall x, cells i x -> nth_error m' x = nth_error final x.
Hypothesis rest : forall x, (forall i, i < n -> ~ cells i x) -> nth_error final x = nth_error m0 x.

Definition cells_of (l : list nat) (x : nat) : Prop := exists i, In i l /\ cells i x.
Lemma items_exs l : NoDup l -> (forall i, In i l -> i < n) -> forall p m, (forall x, cells_of l x -> nth_error m x = nth_error m0 x) ->
  exists p' m', exs (cells_of l) (map (iteration (k_iname K) (k_body K)) l) p m p' m' /\ forall x, cells_of l x -> nth_error m' x = nth_error final x.
Proof.
  intros ND. induction l as [|i l IH]; intros Hl p m A.
  - exists p, m. split; [constructor|]. intros x (i & [] & _).
  - inversion ND as [|? ? Ni ND']; subst.
    destruct (item p (i := i)) as (p1 & mi & E & F); [apply Hl; left; reflexivity|].
    destruct (@exs_agree _ _ _ _ _ _ E m) as (m1 & E1 & A1).
    { intros x Cx. symmetry. apply A. exists i. split; [left; reflexivity|exact Cx]. }
    destruct (IH ND' (fun j J => Hl j (or_intror J)) p1 m1) as (p' & m' & E' & F').
    { intros x (j & J & Cx). rewrite (@exs_outside _ _ _ _ _ _ x E1); [apply A; exists j; split; [right; exact J|exact Cx]|].
      intros Cx'. apply Ni. replace i with j; [exact J|]. apply (cells_disjoint (x := x)); auto; apply Hl; [right; exact J|left; reflexivity]. }
    exists p', m'. split.
    + cbn [map]. apply exs_cons with (p1 := p1) (m1 := m1).
      * unfold iteration. constructor. constructor. eapply exs_mono; [|exact E1]. intros x Cx. exists i. split; [left; reflexivity|exact Cx].
      * eapply exs_mono; [|exact E']. intros x (j & J & Cx). exists j. split; [right; exact J|exact Cx].
    + intros x (j & [<-|J] & Cx).
      * destruct (in_dec Nat.eq_dec i l) as [I'|N]; [contradiction|].
        rewrite (@exs_outside _ _ _ _ _ _ x E'); [rewrite <- A1 by exact Cx; apply F; exact Cx|].
        intros (j & J & Cx'). apply Ni. replace i with j; [exact J|]. apply (cells_disjoint (x := x)); auto; apply Hl; [right; exact J|left; reflexivity].
      * apply F'. exists j. auto.
Qed.


Definition worker_cells (assign : list (list nat)) (t x : nat) : Prop := cells_of (nth t assign []) x.

Lemma initial_inv assign es : Permutation (concat assign) (seq 0 n) -> length es = length assign ->
  inv final (worker_cells assign) m0 (initial K assign es m0).
Proof.
  intros P L.
  assert (ND : NoDup (concat assign)) by (eapply Permutation_NoDup; [symmetry; exact P|apply seq_NoDup]).
  assert (LT : forall t l i, nth_error assign t = Some l -> In i l -> i < n).
  { intros t l i E I. assert (J : In i (seq 0 n)).
    { eapply Permutation_in; [exact P|]. apply in_concat. exists l. split; [eapply nth_error_In; eassumption|exact I]. }
    apply in_seq in J. lia. }
  unfold inv, initial; cbn [todo envs mem]. rewrite map_length. split; [exact L|]. split; [reflexivity|]. split.
  - intros t k p Ek Ep. rewrite nth_error_map in Ek. destruct (nth_error assign t) as [l|] eqn:El; [|discriminate].
    injection Ek as <-. unfold worker_cells. rewrite (nth_error_nth _ _ _ El).
    apply items_exs; [eapply NoDup_concat_nth; eassumption|intros; eapply LT; eassumption|reflexivity].
  - reflexivity.
Qed.
Lemma worker_disjoint assign : Permutation (concat assign) (seq 0 n) ->
  forall t t' x, worker_cells assign t x -> worker_cells assign t' x -> t = t'.
Proof.
  intros P t t' x (i & I & Ci) (j & J & Cj).
  assert (ND : NoDup (concat assign)) by (eapply Permutation_NoDup; [symmetry; exact P|apply seq_NoDup]).
  assert (Lt : t < length assign) by (destruct (Nat.ltb_spec t (length assign)) as [H|H]; [exact H|rewrite nth_overflow in I by lia; contradiction]).
  assert (Lt' : t' < length assign) by (destruct (Nat.ltb_spec t' (length assign)) as [H|H]; [exact H|rewrite nth_overflow in J by lia; contradiction]).
  assert (LT : forall t i, t < length assign -> In i (nth t assign []) -> i < n).
  { intros u i' L I'. assert (Q : In i' (seq 0 n)).
    { eapply Permutation_in; [exact P|]. apply in_concat. exists (nth u assign []). split; [apply nth_In; exact L|exact I']. }
    apply in_seq in Q. lia. }
  assert (i = j) as -> by (eapply cells_disjoint; eauto).
  eapply concat_disjoint; [exact ND| | |exact I|exact J]; apply nth_error_nth'; assumption.
Qed.

Lemma finished_final assign st : Permutation (concat assign) (seq 0 n) -> length (todo st) = length assign ->
  inv final (worker_cells assign) m0 st -> finished st -> mem st = final.
Proof.
  intros P LT (L & LM & W & O) F. apply nth_error_ext; [congruence|]. intros x Hx.
  assert (D : (exists t, t < length assign /\ worker_cells assign t x) \/ (forall i, i < n -> ~ cells i x)).
  { destruct (existsb (fun i => if cells_dec i x then true else false) (seq 0 n)) eqn:B.
    - left. apply existsb_exists in B. destruct B as (i & Hi & Ci). destruct (cells_dec i x) as [C|]; [|discriminate].
      assert (I : In i (concat assign)) by (eapply Permutation_in; [symmetry; exact P|exact Hi]).
      apply in_concat in I. destruct I as (l & Il & Ii). destruct (In_nth _ _ [] Il) as (t & Lt & Et).
      exists t. split; [exact Lt|]. exists i. rewrite Et. auto.
    - right. intros i Hi Ci. assert (X : existsb (fun i => if cells_dec i x then true else false) (seq 0 n) = true).
      { apply existsb_exists. exists i. split; [apply in_seq; lia|]. destruct (cells_dec i x); [reflexivity|contradiction]. }
      congruence. }
  destruct D as [(t & Lt & C)|N].
  - rewrite <- LT in Lt. pose proof Lt as Lt'. rewrite <- L in Lt'.
    destruct (W t [] (nth t (envs st) (fun _ => VJunk))) as (p' & m' & E & G).
    + rewrite (nth_error_nth' _ [] Lt). f_equal. unfold finished in F. rewrite Forall_forall in F. apply F. apply nth_In. exact Lt.
    + apply nth_error_nth'. exact Lt'.
    + inversion E; subst. apply G. exact C.
  - rewrite O; [symmetry; apply rest; exact N|]. intros t Lt (i & I & Ci). rewrite LT in Lt. apply (N i); [|exact Ci].
    assert (Q : In i (seq 0 n)). { eapply Permutation_in; [exact P|]. apply in_concat. exists (nth t assign []). split; [apply nth_In; exact Lt|exact I]. }
    apply in_seq in Q. lia.
Qed.

Lemma step_todo_length (st : mstate R) t : length (todo (step st t)) = length (todo st).
Proof.
  unfold step. destruct (nth_error (todo st) t) as [[|c k]|]; try reflexivity. destruct (nth_error (envs st) t) as [p|]; [|reflexivity].
  destruct (step1 c k p (mem st)) as ((k', p'), m'). cbn. apply set_nth_length.
Qed.
Lemma run_todo_length sched : forall st : mstate R, length (todo (run st sched)) = length (todo st).
Proof. induction sched as [|t sched IH]; intros st; cbn; [reflexivity|]. unfold run in IH. rewrite IH. apply step_todo_length. Qed.

Lemma launched_final assign es sched : Permutation (concat assign) (seq 0 n) -> length es = length assign ->
  finished (run (initial K assign es m0) sched) -> mem (run (initial K assign es m0) sched) = final.
Proof.
  intros P L F. apply finished_final with (assign := assign); [exact P| | |exact F].
  - rewrite run_todo_length. cbn. apply map_length.
  - apply inv_run; [apply worker_disjoint; exact P|]. apply initial_inv; assumption.
Qed.
(** One worker. *)
Lemma exs_run S k p m p' m' : exs S k p m p' m' -> exists j, run (MS [k] [p] m) (repeat 0 j) = MS [[]] [p'] m'.
Proof.
  intros E. induction E; try (destruct IHE as (j & IH); exists (Datatypes.S j); exact IH).
  exists 0. reflexivity.
Qed.
Lemma launch_exists : launch K n m0 final.
Proof.
  assert (P : Permutation (concat [seq 0 n]) (seq 0 n)) by (cbn; rewrite app_nil_r; reflexivity).
  destruct (@items_exs (seq 0 n) (seq_NoDup n 0)) with (p := fun _ : string => VJunk) (m := m0) as (p' & m' & E & F).
  { intros i I. apply in_seq in I. lia. } { reflexivity. }
  destruct (exs_run E) as (j & RJ).
  assert (Fi : finished (run (initial K [seq 0 n] [fun _ => VJunk] m0) (repeat 0 j))).
  { unfold initial. cbn [map]. rewrite RJ. constructor; [reflexivity|constructor]. }
  rewrite <- (@launched_final [seq 0 n] [fun _ => VJunk] (repeat 0 j) P eq_refl Fi).
  apply Launched; [exact P|reflexivity|exact Fi].
Qed.
Lemma launch_unique m' : 1 <= n \/ k_assume K = false -> launch K n m0 m' -> m' = final.
Proof.
  intros A L. inversion L as [assign es sched P Le F|m'' N As]; subst; [apply launched_final; assumption|].
  destruct A as [A|A]; [lia|congruence].
Qed.
Lemma launch_iff m' : 1 <= n \/ k_assume K = false -> (launch K n m0 m' <-> m' = final).
Proof. intros A. split; [apply launch_unique; exact A|]. intros ->. exact launch_exists. Qed.
End Disjoint.

(** ** A kernel whose work items write the same values *)
Section Constant.
Variable v : nat -> R.
Variable ok : nat -> R -> Prop.     (* what a cell may contain *)
Inductive exw : list cmd -> env -> list nat -> Prop :=
| WNil p : exw [] p []
| WSkip k p W : exw k p W -> exw (Skip :: k) p W
| WLet x (e : env -> value) k p W : exw k (assign_var p x (e p)) W -> exw (Let x e :: k) p W
| WStore (a : env -> nat) (f : env -> R -> R) k p W : (forall r, ok (a p) r -> f p r = v (a p)) -> exw k p W -> exw (Store a f :: k) p (a p :: W)
| WSeq c1 c2 k p W : exw (c1 :: c2 :: k) p W -> exw (Seq c1 c2 :: k) p W
| WFor x (lo hi : env -> nat) c k p W : exw (map (iteration x c) (seq (lo p) (hi p - lo p)) ++ k) p W -> exw (For x lo hi c :: k) p W
| WIf (t : env -> bool) c k p W : exw (if t p then c :: k else k) p W -> exw (If t c :: k) p W.
(** Private variables do not survive between work items, so the writes of an item have to be
    known for all of them. *)
Variable K : kernel R.
Variable n : nat.
Variable m0 final : memory.
Variable W : nat -> list nat.      (* cells written by an item *)
Hypothesis item : forall i p k V, i < n -> (forall p', exw k p' V) -> exw (k_body K :: k) (assign_var p (k_iname K) (VNum i)) (W i ++ V).
Hypothesis ok_v : forall i x, i < n -> In x (W i) -> ok x (v x).
Hypothesis ok_m0 : forall x r, nth_error m0 x = Some r -> ok x r.
Hypothesis final_length : length final = length m0.
Hypothesis final_in : forall i x, i < n -> In x (W i) -> x < length m0 -> nth_error final x = Some (v x).
Hypothesis final_out : forall x, (forall i, i < n -> ~ In x (W i)) -> nth_error final x = nth_error m0 x.
Definition D (x : nat) : Prop := exists i, i < n /\ In x (W i).

Lemma items_exw l : (forall i, In i l -> i < n) -> forall p, exw (map (iteration (k_iname K) (k_body K)) l) p (flat_map W l).
Proof.
  induction l as [|i l IH]; intros Hl p; cbn [map flat_map]; [constructor|].
  unfold iteration at 1. constructor. constructor. apply item; [apply Hl; left; reflexivity|]. intros p'. apply IH. intros j J. apply Hl. right. exact J.
Qed.
Definition winv (st : mstate R) : Prop :=
  length (envs st) = length (todo st) /\ length (mem st) = length m0
  /\ exists Ws, length Ws = length (todo st)
  /\ (forall t k p, nth_error (todo st) t = Some k -> nth_error (envs st) t = Some p -> exw k p (nth t Ws []))
  /\ (forall t x, In x (nth t Ws []) -> D x)
  /\ (forall x, x < length m0 -> D x -> nth_error (mem st) x = Some (v x) \/ exists t, t < length Ws /\ In x (nth t Ws []))
  /\ (forall x r, nth_error (mem st) x = Some r -> ok x r)
  /\ (forall x, ~ D x -> nth_error (mem st) x = nth_error m0 x).
Lemma step1_exw c k p V (m : memory) k1 p1 m1 : exw (c :: k) p V -> step1 c k p m = (k1, p1, m1) ->
  exists V1, exw k1 p1 V1 /\ ((V1 = V /\ m1 = m) \/ exists a f, V = a :: V1 /\ m1 = write_cell m a f /\ forall r, ok a r -> f r = v a).
Proof.
  intros E Q. inversion E; subst; cbn in Q; injection Q as <- <- <-; try (eexists; split; [eassumption|left; split; reflexivity]).
  eexists. split; [eassumption|]. right. eexists. eexists. split; [reflexivity|]. split; [reflexivity|]. assumption.
Qed.
Lemma winv_step st t : winv st -> winv (step st t).
Proof.
  intros I0. pose proof I0 as (L & LM & Ws & LW & X & P & C & OK & O). unfold step.
  destruct (nth_error (todo st) t) as [[|c k]|] eqn:Et; try exact I0.
  destruct (nth_error (envs st) t) as [p|] eqn:Ep; [|exact I0].
  destruct (step1 c k p (mem st)) as ((k1, p1), m1) eqn:Q.
  assert (Lt : t < length (todo st)) by (apply nth_error_Some; congruence).
  assert (Lp : t < length (envs st)) by (apply nth_error_Some; congruence).
  destruct (@step1_exw _ _ _ _ _ _ _ _ (X t _ _ Et Ep) Q) as (V1 & E1 & Cases).
  assert (Sub : forall x, In x V1 -> In x (nth t Ws [])).
  { destruct Cases as [(-> & _)|(a & f & -> & _)]; intros x I; [exact I|right; exact I]. }
  unfold winv; cbn [todo envs mem]. rewrite !set_nth_length. split; [exact L|]. split.
  { destruct Cases as [(_ & ->)|(a & f & _ & -> & _)]; [exact LM|]. rewrite write_cell_length. exact LM. }
  exists (set_nth Ws t V1). split; [rewrite set_nth_length; exact LW|]. split; [|split; [|split; [|split]]].
  - intros t' k' q Ek Eq. destruct (Nat.eq_dec t' t) as [->|N].
    + rewrite nth_error_set_same in Ek by exact Lt. rewrite nth_error_set_same in Eq by exact Lp.
      injection Ek as <-. injection Eq as <-. rewrite nth_same by lia. exact E1.
    + rewrite nth_error_set_other in Ek, Eq by exact N. rewrite nth_diff by exact N. auto.
  - intros t' x Ix. destruct (Nat.eq_dec t' t) as [->|N]; [rewrite nth_same in Ix by lia; eauto|rewrite nth_diff in Ix by exact N; eauto].
  - intros x Hx Dx. destruct (C x Hx Dx) as [Y|(t' & Lt' & It')].
    + left. destruct Cases as [(_ & ->)|(a & f & _ & -> & F)]; [exact Y|]. rewrite write_cell_nth, Y. destruct (x =? a) eqn:Q'; [|reflexivity].
      apply Nat.eqb_eq in Q' as ->. cbn. rewrite F by (apply OK; exact Y). reflexivity.
    + destruct (Nat.eq_dec t' t) as [->|N].
      * destruct Cases as [(-> & ->)|(a & f & EV & -> & F)].
        -- right. exists t. rewrite set_nth_length. split; [exact Lt'|]. rewrite nth_same by exact Lt'. exact It'.
        -- rewrite EV in It'. destruct It' as [<-|It'].
           ++ left. rewrite write_cell_nth, Nat.eqb_refl.
              destruct (nth_error (mem st) a) eqn:Ea; [cbn; rewrite F by (apply OK; exact Ea); reflexivity|]. apply nth_error_None in Ea. lia.
           ++ right. exists t. rewrite set_nth_length. split; [exact Lt'|]. rewrite nth_same by exact Lt'. exact It'.
      * right. exists t'. rewrite set_nth_length. split; [exact Lt'|]. rewrite nth_diff by exact N. exact It'.
  - intros x r. destruct Cases as [(_ & ->)|(a & f & EV & -> & F)]; [apply OK|].
    rewrite write_cell_nth. destruct (x =? a) eqn:Q'; [|apply OK]. apply Nat.eqb_eq in Q' as ->. destruct (nth_error (mem st) a) as [r0|] eqn:Ea; [|discriminate].
    cbn. rewrite F by (apply OK; exact Ea). intros [= <-]. destruct (P t a) as (i & Hi & Ii); [rewrite EV; left; reflexivity|]. eapply ok_v; eassumption.
  - intros x Nx. destruct Cases as [(_ & ->)|(a & f & EV & -> & F)]; [auto|].
    rewrite write_cell_nth. destruct (x =? a) eqn:Q'; [|auto]. apply Nat.eqb_eq in Q' as ->. exfalso. apply Nx. apply (P t). rewrite EV. left. reflexivity.
Qed.
Lemma winv_run sched : forall st, winv st -> winv (run st sched).
Proof. induction sched as [|t sched IH]; intros st I; [exact I|]. cbn. apply IH. apply winv_step. exact I. Qed.
Lemma winv_initial assign es : Permutation (concat assign) (seq 0 n) -> length es = length assign -> winv (initial K assign es m0).
Proof.
  intros P L. unfold winv, initial; cbn [todo envs mem]. rewrite map_length. split; [exact L|]. split; [reflexivity|].
  assert (LT : forall l i, In l assign -> In i l -> i < n).
  { intros l i Il I. assert (J : In i (seq 0 n)). { eapply Permutation_in; [exact P|]. apply in_concat. eauto. } apply in_seq in J. lia. }
  exists (map (flat_map W) assign). split; [apply map_length|]. split; [|split; [|split; [|split; [exact ok_m0|]]]].
  - intros t k p Ek Ep. rewrite nth_error_map in Ek. destruct (nth_error assign t) as [l|] eqn:El; [|discriminate]. injection Ek as <-.
    replace (nth t (map (flat_map W) assign) []) with (flat_map W l).
    + apply items_exw. intros i. apply LT. eapply nth_error_In; exact El.
    + symmetry. apply nth_error_nth. rewrite nth_error_map, El. reflexivity.
  - intros t x I. destruct (nth_error assign t) as [l|] eqn:El.
    + rewrite (nth_error_nth (map (flat_map W) assign) t [] (x := flat_map W l)) in I by (rewrite nth_error_map, El; reflexivity).
      apply in_flat_map in I. destruct I as (i & Ii & Ix). exists i. split; [|exact Ix]. apply (LT l i); [eapply nth_error_In; exact El|exact Ii].
    + apply nth_error_None in El. rewrite nth_overflow in I by (rewrite map_length; exact El). contradiction.
  - intros x Hx (i & Hi & Ix). right.
    assert (I : In i (concat assign)) by (eapply Permutation_in; [symmetry; exact P|apply in_seq; lia]).
    apply in_concat in I. destruct I as (l & Il & Ii). destruct (In_nth _ _ [] Il) as (t & Lt & Et).
    exists t. rewrite map_length. split; [exact Lt|]. rewrite (nth_error_nth (map (flat_map W) assign) t [] (x := flat_map W l)).
    + apply in_flat_map. eauto.
    + rewrite nth_error_map, (nth_error_nth' _ [] Lt), Et. reflexivity.
  - reflexivity.
Qed.
Lemma exw_nil p V : exw [] p V -> V = [].
Proof. intros E. inversion E. reflexivity. Qed.
Lemma const_final st : winv st -> finished st -> mem st = final.
Proof.
  intros (L & LM & Ws & LW & X & P & C & OK & O) F. apply nth_error_ext; [congruence|]. intros x Hx.
  destruct (in_dec Nat.eq_dec x (flat_map W (seq 0 n))) as [I|N].
  - apply in_flat_map in I. destruct I as (i & Hi & Ix). assert (Hi' : i < n) by (apply in_seq in Hi; lia).
    rewrite (final_in Hi' Ix) by lia. destruct (C x ltac:(lia) (ex_intro _ i (conj Hi' Ix))) as [Y|(t & Lt & It)]; [exact Y|].
    assert (E : exw [] (nth t (envs st) (fun _ => VJunk)) (nth t Ws [])).
    { apply X with (t := t).
      - rewrite (nth_error_nth' (todo st) []) by lia. f_equal. unfold finished in F. rewrite Forall_forall in F. apply F. apply nth_In. lia.
      - apply nth_error_nth'. lia. }
    rewrite (exw_nil E) in It. contradiction.
  - assert (N' : forall i, i < n -> ~ In x (W i)) by (intros i Hi Ix; apply N; apply in_flat_map; exists i; split; [apply in_seq; lia|exact Ix]).
    rewrite final_out by exact N'. apply O. intros (i & Hi & Ix). exact (N' i Hi Ix).
Qed.
Lemma exw_exists k p V m : exw k p V -> exists j p' m', run (MS [k] [p] m) (repeat 0 j) = MS [[]] [p'] m'.
Proof.
  intros E. revert m. induction E; intros m; try (destruct (IHE m) as (j & p' & m' & IH); exists (Datatypes.S j), p', m'; exact IH).
  - exists 0, p, m. reflexivity.
  - destruct (IHE (write_cell m (a p) (f p))) as (j & p' & m' & IH). exists (Datatypes.S j), p', m'. exact IH.
Qed.
Lemma const_launch_iff m' : k_assume K = false -> (launch K n m0 m' <-> m' = final).
Proof.
  intros As.
  assert (U : forall assign es sched, Permutation (concat assign) (seq 0 n) -> length es = length assign ->
    finished (run (initial K assign es m0) sched) -> mem (run (initial K assign es m0) sched) = final).
  { intros assign es sched P Le F. apply const_final; [|exact F]. apply winv_run. apply winv_initial; assumption. }
  split.
  - intros L. inversion L as [assign es sched P Le F|m'' N As']; subst; [apply U; assumption|congruence].
  - intros ->. assert (P : Permutation (concat [seq 0 n]) (seq 0 n)) by (cbn; rewrite app_nil_r; reflexivity).
    destruct (@exw_exists _ _ _ m0 (items_exw (seq 0 n) ltac:(intros i I; apply in_seq in I; lia) (fun _ => VJunk))) as (j & p' & mm & RJ).
    assert (Fi : finished (run (initial K [seq 0 n] [fun _ => VJunk] m0) (repeat 0 j))).
    { unfold initial. cbn [map]. rewrite RJ. constructor; [reflexivity|constructor]. }
    rewrite <- (U [seq 0 n] [fun _ => VJunk] (repeat 0 j) P eq_refl Fi). apply Launched; [exact P|reflexivity|exact Fi].
Qed.
End Constant.
End Machine.
