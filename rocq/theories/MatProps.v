(** Theorems about build_matrix and the matrix builders (C33, C34, C63, C64). *)
From Coq Require Import Ring InitialRing.
From Verif Require Import Base SymProofs SymProofs2 MatModel MatSpec MatProofs MatProofs2 MatProofs3 MatProofs4 MatProofs5.
Set Implicit Arguments.
Open Scope string_scope.
Open Scope list_scope.
Open Scope nat_scope.

(** Names and sizes of the inputs. *)
Definition input_sizes (R : rops) (ins : list (string * (nat * (nat -> R)))) : list (string * nat) :=
  map (fun p => (fst p, fst (snd p))) ins.
Arguments input_sizes {R} ins.

(** *** C33 *)

(** Several inputs: for expressions linear in them, the matrix applied to the densities is the
    value of the expressions at the densities. *)
Theorem built_matrix_applies : forall (R : rops) ctx (ins : list (string * (nat * (nat -> R)))) exprs M,
  lawful R -> NoDup (map fst ins) ->
  (forall e, In e exprs -> linear (map fst ins) ctx e = true /\ tame (map fst ins) ctx e /\
                           exists r, ref (FQbx true) (in_env ctx ins) e = Ok r) ->
  build_matrix ctx (input_sizes ins) exprs = Ok M ->
  applies_like (FQbx true) ctx ins exprs M.
Proof.
  intros R ctx ins exprs M HR Hnd He HM. apply whole_applies; auto.
  - intros e Hi. apply He. exact Hi.
  - intros e Hi. destruct (He e Hi) as (Hl & Ht & r & Hr). 
    destruct (@linear_additive R (proj1 HR) (FQbx true) (map fst ins) ctx (length ins) (in_env ctx ins) (fun j => in_env ctx (only R j ins))) with (e := e) (r := r) as (rs & Hrs & Hs); auto.
    + intros j Hj y Hy. rewrite (@in_env_notin R ctx ins y Hy). apply in_env_notin. rewrite only_names. exact Hy.
    + intros y v Hy Hv. destruct (@name_index R ins y Hy) as (k & Hk & <-).
      rewrite (env_full _ _ Hnd Hk) in Hv. injection Hv as <-. 
      set (d := (EmptyString, (0, fun _ : nat => r0 R))) in *.
      exists (fun j => RVec (fst (snd (nth k ins d))) (if k =? j then snd (snd (nth k ins d)) else fun _ => r0 R)). split.
      * intros j Hj. apply (@env_only R ctx ins Hnd j k Hj Hk).
      * right. do 2 eexists. exists (fun j => if k =? j then snd (snd (nth k ins d)) else fun _ => r0 R). split; [reflexivity|]. split; [reflexivity|].
        intros i Hi'. transitivity (rsum R (length ins) (fun j => rmul R (if k =? j then r1 R else r0 R) (snd (snd (nth k ins d)) i))).
        -- symmetry. apply (@rsum_eye R (proj1 HR) (length ins) k (fun _ => snd (snd (nth k ins d)) i) Hk).
        -- apply rsum_ext. intros j Hj. destruct (k =? j); [apply (Ring_theory.Rmul_1_l (proj1 HR)) | apply (Ring_theory.Rmul_0_l (Eqsth R) (Eq_ext _ _ _) (proj1 HR))].
    + exists r, rs. auto.
Qed.
Print Assumptions built_matrix_applies.

(** One input: no need to require linearity. *)
Theorem built_matrix_applies_single : forall (R : rops) ctx y n (x : nat -> R) exprs M,
  lawful R ->
  (forall e, In e exprs -> tame [y] ctx e /\ exists r, ref (FQbx true) (in_env ctx [(y, (n, x))]) e = Ok r) ->
  build_matrix ctx [(y, n)] exprs = Ok M ->
  applies_like (FQbx true) ctx [(y, (n, x))] exprs M.
Proof.
  intros R ctx y n x exprs M HR He HM. apply whole_applies; auto.
  - simpl. constructor; [tauto | constructor].
  - intros e Hi. apply He. exact Hi.
  - intros e Hi. destruct (He e Hi) as (Ht & r & Hr). exists r, (fun _ => r). split; [exact Hr|]. split.
    + intros j Hj. simpl in Hj. assert (j = 0) by lia. subst j. exact Hr.
    + intros Hz. destruct r as [c|k g].
      * rewrite (Hz 0 c) in * by (auto; simpl; lia). left. auto.
      * right. exists k, g, (fun _ => g). split; [reflexivity|]. split; [auto|]. intros i Hi'. simpl.
        symmetry. apply (Ring_theory.Radd_0_l (proj1 HR)).
Qed.
Print Assumptions built_matrix_applies_single.

(** Consequence: with one input the value of an accepted expression is a linear function of it. *)
Theorem accepted_expressions_are_linear : forall (R : rops) ctx y n (e : bexpr R) M, lawful R -> tame [y] ctx e ->
  build_matrix ctx [(y, n)] [e] = Ok M ->
  forall (x1 x2 x3 : nat -> R) n1 g1 n2 g2 n3 g3 c,
  (forall i, i < n -> x3 i = radd R (x1 i) (rmul R c (x2 i))) ->
  ref (FQbx true) (in_env ctx [(y, (n, x1))]) e = Ok (RVec n1 g1) ->
  ref (FQbx true) (in_env ctx [(y, (n, x2))]) e = Ok (RVec n2 g2) ->
  ref (FQbx true) (in_env ctx [(y, (n, x3))]) e = Ok (RVec n3 g3) ->
  n1 = n2 /\ n2 = n3 /\ forall i, i < n3 -> g3 i = radd R (g1 i) (rmul R c (g2 i)).
Proof.
  intros R ctx y n e M HR Ht HM x1 x2 x3 n1 g1 n2 g2 n3 g3 c Hx H1 H2 H3.
  assert (G : forall x k g, ref (FQbx true) (in_env ctx [(y, (n, x))]) e = Ok (RVec k g) ->
              k = nrows M /\ forall i, i < k -> g i = radd R (r0 R) (rsum R n (fun l => rmul R (entry M i l) (x l)))).
  { intros x k g Hr. destruct (@built_matrix_applies_single R ctx y n x [e] M HR) as (ns & Hl & Hnr & _ & Hrow); auto.
    - intros e' [<-|[]]. split; [exact Ht|]. eauto.
    - simpl in Hl. destruct ns as [|k' [|? ?]]; try discriminate. simpl in Hnr. destruct (Hrow 0 e eq_refl) as (g' & Hr' & Hg).
      rewrite Hr in Hr'. injection Hr' as -> ->. simpl in Hg. simpl. split; [lia|]. intros i Hi. rewrite Hg by auto. reflexivity. }
  destruct (G _ _ _ H1) as [E1 G1], (G _ _ _ H2) as [E2 G2], (G _ _ _ H3) as [E3 G3].
  split; [congruence|]. split; [congruence|]. intros i Hi. rewrite G1, G2, G3 by congruence.
  pose proof (proj1 HR) as Rth. rewrite !(Ring_theory.Radd_0_l Rth). rewrite <- (rsum_mul_l R Rth), <- (rsum_add R Rth). apply rsum_ext.
  intros l Hl. rewrite Hx by auto. rewrite (Ring_theory.Rmul_comm Rth (entry M i l)), (Ring_theory.Rdistr_l Rth).
  rewrite (Ring_theory.Rmul_comm Rth (x1 l)). f_equal. rewrite <- !(Ring_theory.Rmul_assoc Rth). f_equal. apply (Ring_theory.Rmul_comm Rth).
Qed.
Print Assumptions accepted_expressions_are_linear.

(** Either builder, one input: a matrix it returns applies like the expression. *)
Theorem builder_column_applies : forall (R : rops) fl ctx y n (x : nat -> R) e k m f r, lawful R -> tame [y] ctx e ->
  bld fl y n [] ctx e = Ok (MMat k m f) -> ref fl (in_env ctx [(y, (n, x))]) e = Ok r ->
  m = n /\ exists g, r = RVec k g /\ forall i, i < k -> g i = rsum R n (fun j => rmul R (f i j) (x j)).
Proof.
  intros R fl ctx y n x e k m f r HR Ht HV Hr.
  apply (@bld_sound R (proj1 HR) (proj2 HR) fl y n [] ctx [y] x (in_env ctx [(y, (n, x))])) with (e := e) (V := MMat k m f) (r := r); auto.
  - intros z. simpl. split; [intros [->|[]]; auto | intros [->|[]]; auto].
  - intros z v Hv. simpl in Hv. destruct (String.eqb_spec z y) as [->|Hz].
    + injection Hv as <-. auto.
    + right; right. split; [exact Hz|]. split; [auto|]. destruct (ctx z) as [c|]; [|discriminate]. injection Hv as <-. eauto.
Qed.
Print Assumptions builder_column_applies.

(** A product of two factors that are both matrices is refused as nonlinear; so is a function of
    a matrix. *)
Theorem nonlinear_products_raise : forall (R : rops) fl y n others ctx (es1 es2 es3 : list (bexpr R)) a b ka ma fa kb mb fb,
  (forall e, In e (es1 ++ es2) -> exists v, bld fl y n others ctx e = Ok v /\ is_zero v = false /\ kind_of v <> KMat /\ exists c, v = MNum c) ->
  bld fl y n others ctx a = Ok (MMat ka ma fa) -> bld fl y n others ctx b = Ok (MMat kb mb fb) ->
  bld fl y n others ctx (EProd (es1 ++ a :: es2 ++ b :: es3)) = Err RuntimeError.
Proof.
  intros R fl y n others ctx es1 es2 es3 a b ka ma fa kb mb fb Hes Ha Hb. cbn [bld].
  assert (G : forall es rest mat c, (forall e, In e es -> In e (es1 ++ es2)) -> exists c', 
              prod_loop (bld fl y n others ctx) (es ++ rest) mat (MNum c) = prod_loop (bld fl y n others ctx) rest mat (MNum c')).
  { induction es as [|e es IH]; intros rest mat c Hi; [simpl; eauto|].
    destruct (Hes e (Hi e (or_introl eq_refl))) as (v & Hv & Hz & _ & d & ->).
    destruct (IH rest mat (rmul R c d)) as (c' & Hc'); [intros e' He'; apply Hi; right; exact He'|].
    exists c'. simpl app. cbn [prod_loop]. rewrite Hv. cbn [bind]. rewrite Hz. simpl nbin. cbn [bind]. exact Hc'. }
  destruct (G es1 (a :: es2 ++ b :: es3) None (r1 R)) as (c1 & ->); [intros e He; apply in_app_iff; auto|].
  cbn [prod_loop]. rewrite Ha. cbn [bind is_zero].
  destruct (G es2 (b :: es3) (Some (ka, ma, fa)) c1) as (c2 & ->); [intros e He; apply in_app_iff; auto|].
  cbn [prod_loop]. rewrite Hb. reflexivity.
Qed.
Print Assumptions nonlinear_products_raise.

Theorem nonlinear_functions_raise : forall (R : rops) fl y n others ctx (h : R -> R) a k m f,
  bld fl y n others ctx a = Ok (MMat k m f) -> bld fl y n others ctx (ECall h a) = Err RuntimeError.
Proof. intros R fl y n others ctx h a k m f Ha. cbn [bld]. rewrite Ha. reflexivity. Qed.
Print Assumptions nonlinear_functions_raise.

(** Linear combinations of layer potentials are accepted by every column's builder. *)
Theorem combinations_are_accepted : forall (R : rops) w ctx (ins : list (string * (nat * (nat -> R)))) e r j y n x,
  lawful R -> NoDup (map fst ins) -> nth_error ins j = Some (y, (n, x)) ->
  combination (map fst ins) ctx e = true -> tame (map fst ins) ctx e ->
  ref (FQbx w) (in_env ctx (only R j ins)) e = Ok r ->
  exists V, bld (FQbx w) y n (drop_nth j (map fst ins)) ctx e = Ok V /\
            (V = MNum (r0 R) \/ exists k f, V = MMat k n f).
Proof.
  intros R w ctx ins e r j y n x HR Hnd Hj Hc Ht Hr.
  assert (Hlt : j < length ins) by (apply nth_error_Some; rewrite Hj; discriminate).
  set (d := (EmptyString, (0, fun _ : nat => r0 R))).
  assert (Hn : nth j ins d = (y, (n, x))) by (apply nth_error_nth; exact Hj).
  assert (Ey : nth j (map fst ins) EmptyString = y) by (change EmptyString with (fst d); rewrite map_nth, Hn; reflexivity).
  assert (En : nth j (map (fun p => fst (snd p)) ins) 0 = n) by (change 0 with ((fun p : string * (nat * (nat -> R)) => fst (snd p)) d); rewrite map_nth, Hn; reflexivity).
  assert (Hin : forall z, In z (map fst ins) <-> z = y \/ In z (drop_nth j (map fst ins))).
  { intros z. rewrite <- Ey. apply In_drop_nth; [rewrite map_length; exact Hlt | exact Hnd]. }
  pose proof (@env_col R ctx ins Hnd j Hlt) as He. fold d in He. rewrite Ey, En, Hn in He. cbn [snd] in He.
  destruct (@combination_good R (proj1 HR) (proj2 HR) w y n (drop_nth j (map fst ins)) ctx (map fst ins) x (in_env ctx (only R j ins)) Hin He e Hc Ht r Hr) as (V & HV & HVk).
  exists V. split; [exact HV|]. destruct HVk as [-> | HVk]; [auto|]. right.
  pose proof (@bld_sound R (proj1 HR) (proj2 HR) (FQbx w) y n (drop_nth j (map fst ins)) ctx (map fst ins) x (in_env ctx (only R j ins)) Hin He e Ht V r HV Hr) as Hrep.
  destruct V as [| |k m f|]; try discriminate. simpl in Hrep. destruct Hrep as [-> _]. eauto.
Qed.
Print Assumptions combinations_are_accepted.

(** *** C34: assembly *)
Theorem blocks_are_assembled : forall (R : rops) (blocks : list (list (mval R))) nc M, lawful R ->
  (forall row, In row blocks -> length row = nc) -> bmat nc blocks = Ok M ->
  exists rs cs, length cs = nc /\ block_shapes blocks rs cs /\ assembled blocks rs cs M.
Proof.
  intros R blocks nc M HR Hrow HM. destruct (@bmat_rs_cs R (proj2 HR) _ _ _ HM Hrow) as (rs & cs & H1 & H2 & H3 & _). eauto.
Qed.
Print Assumptions blocks_are_assembled.

(** Exactly the consistent arrays of blocks with something in every block row and column are
    accepted. *)
Theorem assembly_succeeds_iff : forall (R : rops) (blocks : list (list (mval R))) nc, lawful R ->
  (forall row, In row blocks -> length row = nc) ->
  ((exists M, bmat nc blocks = Ok M) <->
   exists rs cs, length cs = nc /\ block_shapes blocks rs cs /\
     (forall i, i < length rs -> exists j k m f, j < nc /\ nth j (nth i blocks []) MDof = MMat k m f) /\
     (forall j, j < nc -> exists i k m f, i < length rs /\ nth j (nth i blocks []) MDof = MMat k m f)).
Proof.
  intros R blocks nc HR Hrow.
  assert (Hz : forall c : R, c = r0 R -> reqb R c (r0 R) = true) by (intros c ->; apply (proj2 HR); reflexivity).
  split.
  - intros [M HM]. destruct (@bmat_rs_cs R (proj2 HR) _ _ _ HM Hrow) as (rs & cs & H1 & H2 & _ & H4 & H5).
    exists rs, cs. split; [exact H1|]. split; [exact H2|]. destruct H2 as (_ & _ & Hsh). split.
    + intros i Hi. destruct (H4 i Hi) as (j & Hj & E). specialize (Hsh i j Hi ltac:(lia)). exists j.
      destruct (nth j (nth i blocks []) MDof) as [c|? ?|k m f|]; try contradiction; [simpl in E; rewrite Hz in E by auto; discriminate|]. exists k, m, f. auto.
    + intros j Hj. destruct (H5 j Hj) as (i & Hi & E). specialize (Hsh i j Hi ltac:(lia)). exists i.
      destruct (nth j (nth i blocks []) MDof) as [c|? ?|k m f|]; try contradiction; [simpl in E; rewrite Hz in E by auto; discriminate|]. exists k, m, f. auto.
  - intros (rs & cs & <- & Hsh & Hr & Hc). apply (@bmat_total R (proj2 HR) blocks rs cs Hsh).
    + intros i Hi. destruct (Hr i Hi) as (j & k & m & f & Hj & E). exists j. split; [exact Hj|]. rewrite E. reflexivity.
    + intros j Hj. destruct (Hc j Hj) as (i & k & m & f & Hi & E). exists i. split; [exact Hi|]. rewrite E. reflexivity.
Qed.
Print Assumptions assembly_succeeds_iff.

(** *** Examples over the integers *)
Definition ZR : rops := mk_rops 0%Z 1%Z Z.add Z.mul Z.sub Z.opp (fun z => z) Z.eqb.
Lemma ZR_lawful : lawful ZR.
Proof. split; [exact Zth | intros a b; apply Z.eqb_eq]. Qed.

Definition noctx : string -> option (cval ZR) := fun _ => None.
(** A kernel with entries 10 t + s + 1, weights s + 2. *)
Definition kern : lpk ZR := mk_lpk ZR (fun t s => 10 * Z.of_nat t + Z.of_nat s + 1)%Z (fun t s => 100 + 10 * Z.of_nat t + Z.of_nat s)%Z.
Definition wts (s : nat) : ZR := (Z.of_nat s + 2)%Z.
Definition sl (d : bexpr ZR) : bexpr ZR := EIntG (Some 1%Z) 2 2 wts [kern] [d].
Definition sig : bexpr ZR := EVar "sigma".
Definition tau : bexpr ZR := EVar "tau".
Definition xs (i : nat) : ZR := (Z.of_nat i + 5)%Z.
Definition xt (i : nat) : ZR := (7 - Z.of_nat i)%Z.
(** sigma and tau on two nodes each; output one: sigma/2 (here 3 sigma) + S(tau), output two:
    S(sigma) - nodes * tau. *)
Definition ex_ins : list (string * (nat * (nat -> ZR))) := [("sigma", (2, xs)); ("tau", (2, xt))].
Definition ex_exprs : list (bexpr ZR) :=
  [ESum [EProd [ENum (3%Z : ZR); sig]; sl tau]; ESum [sl sig; EProd [ENum ((-1)%Z : ZR); ENodes ZR 2 xt; tau]]].
Definition ex_matrix : matrix ZR := match build_matrix noctx (input_sizes ex_ins) ex_exprs with Ok M => M | Err _ => mk_matrix ZR 0 0 (fun _ _ => 0%Z) end.
Example ex_built : build_matrix noctx (input_sizes ex_ins) ex_exprs = Ok ex_matrix
  /\ nrows ex_matrix = 4 /\ ncols ex_matrix = 4
  /\ map (fun i => map (entry ex_matrix i) (seq 0 4)) (seq 0 4)
     = [[3; 0; 2; 6]; [0; 3; 22; 36]; [2; 6; -7; 0]; [22; 36; 0; -6]]%Z.
Proof. repeat split; vm_compute; reflexivity. Qed.
Example ex_hypotheses : lawful ZR /\ NoDup (map fst ex_ins) /\
  forall e, In e ex_exprs -> linear (map fst ex_ins) noctx e = true /\ tame (map fst ex_ins) noctx e /\
                             exists r, ref (FQbx true) (in_env noctx ex_ins) e = Ok r.
Proof.
  split; [exact ZR_lawful|]. split; [repeat constructor; simpl; intuition discriminate|].
  intros e [<-|[<-|[]]]; (split; [vm_compute; reflexivity|]; split; [cbn; intuition | vm_compute; eauto]).
Qed.
Example ex_single : lawful ZR /\ tame ["sigma"] noctx (sl (EProd [sig; ENodes ZR 2 xt])) /\
  (exists r, ref (FQbx true) (in_env noctx [("sigma", (2, xs))]) (sl (EProd [sig; ENodes ZR 2 xt])) = Ok r) /\
  is_ok (build_matrix noctx [("sigma", 2)] [sl (EProd [sig; ENodes ZR 2 xt])]) = true.
Proof. split; [exact ZR_lawful|]. split; [cbn; intuition|]. split; [vm_compute; eauto | vm_compute; reflexivity]. Qed.
Example ex_p2p : match bld (FP2P false true) "sigma" 2 [] noctx (EIntG None 2 2 wts [kern] [sig]) with
                 | Ok (MMat 2 2 f) => map (fun i => map (f i) [0; 1]) [0; 1] = [[0; 101]; [110; 0]]%Z
                 | _ => False end.
Proof. vm_compute. reflexivity. Qed.
Example ex_nonlinear : bld (FQbx true) "sigma" 2 [] noctx (EProd [ENum (2%Z : ZR); sig; ENum (3%Z : ZR); sl sig]) = Err RuntimeError.
Proof. vm_compute. reflexivity. Qed.
Example ex_combination : combination (map fst ex_ins) noctx (ESum [EProd [ENum (3%Z : ZR); sig]; sl tau]) = true
  /\ exists r, ref (FQbx true) (in_env noctx (only ZR 1 ex_ins)) (ESum [EProd [ENum (3%Z : ZR); sig]; sl tau]) = Ok r.
Proof. split; vm_compute; eauto. Qed.
Example ex_inconsistent_blocks_refused :
  bmat 2 [[MMat 2 2 (fun _ _ => 1%Z : ZR); MMat 3 2 (fun _ _ => 1%Z : ZR)]] = Err ValueError
  /\ is_ok (bmat 2 [[MMat 2 2 (fun _ _ => 1%Z : ZR); MNum (0%Z : ZR)]; [MNum (0%Z : ZR); MMat 3 1 (fun _ _ => 1%Z : ZR)]]) = true.
Proof. split; vm_compute; reflexivity. Qed.

(** *** C63: what the builder accepts although the matrix is wrong *)

(** The expression has a value, a matrix is built, and it does not apply like the expression. *)
Definition silently_wrong (ctx : string -> option (cval ZR)) ins e : Prop :=
  NoDup (map fst ins) /\ (exists r, ref (FQbx true) (in_env ctx ins) e = Ok r) /\
  exists M, build_matrix ctx (input_sizes ins) [e] = Ok M /\ ~ applies_like (FQbx true) ctx ins [e] M.

(** A one-row check: the first value of the first expression. *)
Definition first_value (ctx : string -> option (cval ZR)) ins exprs : option Z :=
  match build_matrix ctx (input_sizes ins) exprs with
  | Ok M => Some (rsum ZR (length ins) (fun j => rsum ZR (nth j (map (fun p => fst (snd p)) ins) 0) (fun l =>
              rmul ZR (entry M 0 (off (map (fun p => fst (snd p)) ins) j + l)) (snd (snd (nth j ins (EmptyString, (0, fun _ => r0 ZR)))) l))))
  | Err _ => None
  end.
Definition true_value (ctx : string -> option (cval ZR)) ins e : option Z :=
  match ref (FQbx true) (in_env ctx ins) e with Ok (RVec (S _) g) => Some (g 0) | _ => None end.

Lemma wrong_first_value ctx ins e v w : NoDup (map fst ins) -> first_value ctx ins [e] = Some v -> true_value ctx ins e = Some w -> v <> w -> silently_wrong ctx ins e.
Proof.
  intros Hnd Hv Hw Hne. unfold first_value in Hv. destruct (build_matrix ctx (input_sizes ins) [e]) as [M|] eqn:HM; [|discriminate].
  unfold true_value in Hw. destruct (ref (FQbx true) (in_env ctx ins) e) as [[c|[|n] g]|] eqn:Hr; try discriminate. injection Hw as <-. injection Hv as <-.
  split; [exact Hnd|]. split; [eauto|]. exists M. split; [exact HM|]. intros (ns & Hl & _ & _ & H).
  destruct (H 0 e eq_refl) as (g' & Hr' & Hg). rewrite Hr in Hr'. injection Hr' as En ->. apply Hne. rewrite (Hg 0) by lia. reflexivity.
Qed.

(** A power of the input: the matrix is that of the input itself. *)
Theorem powers_of_inputs_accepted_refuted : silently_wrong noctx [("sigma", (2, xs))] (EPow sig 2).
Proof. apply (@wrong_first_value _ _ _ 5%Z 25%Z); [repeat constructor; simpl; tauto | vm_compute; reflexivity | vm_compute; reflexivity | discriminate]. Qed.
(** A layer potential divided by a nodal function: columns are scaled, not rows. *)
Definition signs (i : nat) : ZR := match i with O => 1%Z | _ => (-1)%Z end.
Theorem quotients_by_vectors_refuted : silently_wrong noctx [("sigma", (2, xs))] (EQuot (sl sig) (ENodes ZR 2 signs)).
Proof. apply (@wrong_first_value _ _ _ (-26)%Z 46%Z); [repeat constructor; simpl; tauto | vm_compute; reflexivity | vm_compute; reflexivity | discriminate]. Qed.
(** A product of two different inputs vanishes. *)
Theorem products_of_inputs_refuted : silently_wrong noctx ex_ins (ESum [sig; tau; EProd [sig; tau]]).
Proof. apply (@wrong_first_value _ _ _ 12%Z 47%Z); [repeat constructor; simpl; intuition discriminate | vm_compute; reflexivity | vm_compute; reflexivity | discriminate]. Qed.
(** A DOF array from the context is not multiplied. *)
Definition kappa_ctx : string -> option (cval ZR) := fun x => if String.eqb x "kappa" then Some (CDof 2 (fun _ => 3%Z : ZR)) else None.
Theorem context_coefficients_dropped_refuted : silently_wrong kappa_ctx [("sigma", (2, xs))] (EProd [EVar "kappa"; sig]).
Proof. apply (@wrong_first_value _ _ _ 5%Z 15%Z); [repeat constructor; simpl; tauto | vm_compute; reflexivity | vm_compute; reflexivity | discriminate]. Qed.
Print Assumptions powers_of_inputs_accepted_refuted.
Print Assumptions quotients_by_vectors_refuted.
Print Assumptions products_of_inputs_refuted.
Print Assumptions context_coefficients_dropped_refuted.

(** *** C64: what the builder refuses although the matrix is well defined *)
Definition needlessly_refused (ctx : string -> option (cval ZR)) ins e : Prop :=
  NoDup (map fst ins) /\ linear (map fst ins) ctx e = true /\ tame (map fst ins) ctx e /\
  (exists n g, ref (FQbx true) (in_env ctx ins) e = Ok (RVec n g)) /\
  exists ex, build_matrix ctx (input_sizes ins) [e] = Err ex.

(** An input that no output depends on. *)
Theorem unused_inputs_refuted : needlessly_refused noctx ex_ins sig.
Proof.
  split; [repeat constructor; simpl; intuition discriminate|]. split; [reflexivity|]. split; [cbn; auto|]. split; vm_compute; eauto.
Qed.
(** A coefficient that is the sum of a number and a nodal function. *)
Theorem mixed_coefficients_refuted : needlessly_refused noctx [("sigma", (2, xs))] (EProd [ESum [ENum (1%Z : ZR); ENodes ZR 2 xt]; sig]).
Proof.
  split; [repeat constructor; simpl; tauto|]. split; [reflexivity|]. split; [cbn; intuition|]. split; vm_compute; eauto.
Qed.
(** An interpolated nodal function as a coefficient. *)
Theorem interpolated_coefficients_refuted :
  needlessly_refused noctx [("sigma", (2, xs))] (EProd [EInterp true 2 2 (fun i j => (if i =? j then 1%Z else 0%Z) : ZR) (ENodes ZR 2 xt); sig]).
Proof.
  split; [repeat constructor; simpl; tauto|]. split; [reflexivity|]. split; [|split; vm_compute; eauto].
  cbn. split; [split; [auto|]|split; auto]. intros i Hi. destruct i as [|[|i]]; [reflexivity | reflexivity | lia].
Qed.
(** The numerical derivative of an input. *)
Theorem derivatives_of_inputs_refuted : needlessly_refused noctx [("sigma", (2, xs))] (ERefDeriv 2 (fun _ _ => 1%Z : ZR) sig).
Proof.
  split; [repeat constructor; simpl; tauto|]. split; [reflexivity|]. split; [cbn; auto|]. split; vm_compute; eauto.
Qed.
Print Assumptions unused_inputs_refuted.
Print Assumptions mixed_coefficients_refuted.
Print Assumptions interpolated_coefficients_refuted.
Print Assumptions derivatives_of_inputs_refuted.
