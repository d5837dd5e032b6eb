(** C123, C124: binding an expression and calling what comes back. *)
From Coq Require Import QArith_base Permutation.
From Verif Require Import Base DofModel DofProps SymModel SymSpec SymProofs SymProofs2 TagModel SchedModel BindModel BindSpec BindProofs.
From Verif Require CompModel CompSpec CompProps TagSpec TagProps SymProps.
Set Implicit Arguments.

(** * C123 *)

Lemma run_prepared_value : forall V (J : head -> list V -> result V) add zero arr, evaluator J add zero arr ->
  forall ple kfeat gorder, (forall l, Permutation (gorder l) l) ->
  forall e, well_formed e -> compilable e -> forall (c : ctx V) r,
  (exists c', run_prepared J add zero arr ple kfeat gorder e c = Ok (r, c')) <-> seval J c e = Ok r.
Proof.
  intros V J add zero arr EV ple kfeat gorder Hg e W C c r. unfold run_prepared. cbv zeta.
  rewrite (@CompProps.compile_and_run_correct ple kfeat gorder Hg _ (enc_accepted (heads e) W C) (enc_no_capture (heads e) W C)
    (enc_limits (heads e) W C) V zero (fun k => head_at J (heads e) k []) add (head_at J (heads e))
    (fun _ _ => Err TypeError) arr (pot_at J (heads e)) (ev_zero EV)
    (fun tk ps ps' ks l s t => @pot_at_perm _ _ _ _ _ EV (heads e) tk ps ps' ks l s t) c r).
  rewrite (enc_eval EV c W (occ_here e)). reflexivity.
Qed.

(** Binding an expression and calling the result with variables [c] returns the value of the
    bound expression, and fails iff that value cannot be computed, whatever the order in
    which the compiler forms groups of layer potentials. *)
Theorem bound_call_is_value : forall V (J : head -> list V -> result V) add zero arr, evaluator J add zero arr ->
  forall ple kfeat gorder, (forall l, Permutation (gorder l) l) ->
  forall ps ds dt e b, well_formed e -> bind_expression ps ds dt e = Ok b -> compilable b ->
  forall (c : ctx V) r,
  (exists c', bind_and_call J add zero arr ple kfeat gorder ps ds dt e c = Ok (r, c')) <-> seval J c b = Ok r.
Proof.
  intros V J add zero arr EV ple kfeat gorder Hg ps ds dt e b W B C c r. unfold bind_and_call. rewrite B. cbn [bind].
  apply run_prepared_value; auto. eapply bind_wf; eauto.
Qed.
Print Assumptions bound_call_is_value.

(** Hence the grouping and ordering choices are not observable, ... *)
Theorem bound_call_deterministic : forall V (J : head -> list V -> result V) add zero arr, evaluator J add zero arr ->
  forall ple kfeat gorder ple' kfeat' gorder',
  (forall l, Permutation (gorder l) l) -> (forall l, Permutation (gorder' l) l) ->
  forall ps ds dt e b, well_formed e -> bind_expression ps ds dt e = Ok b -> compilable b ->
  forall (c : ctx V) r,
  (exists c', bind_and_call J add zero arr ple kfeat gorder ps ds dt e c = Ok (r, c'))
  <-> (exists c', bind_and_call J add zero arr ple' kfeat' gorder' ps ds dt e c = Ok (r, c')).
Proof.
  intros V J add zero arr EV ple kfeat gorder ple' kfeat' gorder' Hg Hg' ps ds dt e b W B C c r.
  rewrite (@bound_call_is_value V J add zero arr EV ple kfeat gorder Hg ps ds dt e b W B C).
  rewrite (@bound_call_is_value V J add zero arr EV ple' kfeat' gorder' Hg' ps ds dt e b W B C). reflexivity.
Qed.
Print Assumptions bound_call_deterministic.

(** ... and variables that do not occur do not matter. *)
Theorem bound_call_depends_on_its_variables : forall V (J : head -> list V -> result V) add zero arr, evaluator J add zero arr ->
  forall ple kfeat gorder, (forall l, Permutation (gorder l) l) ->
  forall ps ds dt e b, well_formed e -> bind_expression ps ds dt e = Ok b -> compilable b ->
  forall (c d : ctx V), (forall n cs, occurs b (Node (HVar n) cs) -> c n = d n) -> forall r,
  (exists c', bind_and_call J add zero arr ple kfeat gorder ps ds dt e c = Ok (r, c'))
  <-> (exists d', bind_and_call J add zero arr ple kfeat gorder ps ds dt e d = Ok (r, d')).
Proof.
  intros V J add zero arr EV ple kfeat gorder Hg ps ds dt e b W B C c d E r.
  rewrite (@bound_call_is_value V J add zero arr EV ple kfeat gorder Hg ps ds dt e b W B C c r).
  rewrite (@bound_call_is_value V J add zero arr EV ple kfeat gorder Hg ps ds dt e b W B C d r).
  rewrite (@seval_ext V J c d b E). reflexivity.
Qed.
Print Assumptions bound_call_depends_on_its_variables.

(** * C124 *)

(** An expression that leaves nothing to binding is bound as it is, ... *)
Theorem settled_expression_bound_as_is : forall ps ds dt e, settled ps e -> bind_expression ps ds dt e = Ok e.
Proof. intros ps ds dt e H. apply prepare_settled. exact H. Qed.
Print Assumptions settled_expression_bound_as_is.

(** ... so that the call returns its value, whatever the default locations. *)
Theorem settled_call_is_value : forall V (J : head -> list V -> result V) add zero arr, evaluator J add zero arr ->
  forall ple kfeat gorder, (forall l, Permutation (gorder l) l) ->
  forall ps ds dt e, well_formed e -> compilable e -> settled ps e -> forall (c : ctx V) r,
  (exists c', bind_and_call J add zero arr ple kfeat gorder ps ds dt e c = Ok (r, c')) <-> seval J c e = Ok r.
Proof.
  intros V J add zero arr EV ple kfeat gorder Hg ps ds dt e W C S c r.
  apply bound_call_is_value; auto. apply settled_expression_bound_as_is. exact S.
Qed.
Print Assumptions settled_call_is_value.

(** The limit "avg" on the QBX source itself: calling the bound layer potential gives half the
    sum of the potentials from the two sides. [g] is the layer potential with the limit 1. *)
Theorem average_call_is_half_the_sum : forall V (J : head -> list V -> result V) add zero arr, evaluator J add zero arr ->
  forall ple kfeat gorder, (forall l, Permutation (gorder l) l) ->
  forall name ds dt tk sks nd s t names cs,
  let pot l := Node (HIntG (IntG tk sks nd l s t names)) cs in
  let b := Node HProd [Node (HConst (1 # 2)) []; Node HSum [pot (LInt 1); pot (LInt (-1))]] in
  well_formed (pot LAvg) -> settled [(name, PQbx)] (pot (LInt 1)) -> geometry s = Some name ->
  compilable b ->
  bind_expression [(name, PQbx)] ds dt (pot LAvg) = Ok b /\
  forall (c : ctx V) r,
  (exists c', bind_and_call J add zero arr ple kfeat gorder [(name, PQbx)] ds dt (pot LAvg) c = Ok (r, c'))
  <-> exists vs half outside inside total,
        mapM (seval J c) cs = Ok vs
        /\ J (HConst (1 # 2)) [] = Ok half
        /\ J (HIntG (IntG tk sks nd (LInt 1) s t names)) vs = Ok outside
        /\ J (HIntG (IntG tk sks nd (LInt (-1)) s t names)) vs = Ok inside
        /\ add outside inside = Ok total
        /\ J HProd [half; total] = Ok r.
Proof.
  intros V J add zero arr EV ple kfeat gorder Hg name ds dt tk sks nd s t names cs pot b W S Gs C.
  assert (B : bind_expression [(name, PQbx)] ds dt (pot LAvg) = Ok b).
  { unfold bind_expression, prepare_expr_exact.
    assert (Sc : forall x, In x cs -> settled [(name, PQbx)] x) by (intros x Hx; eapply settled_child; [exact S|exact Hx]).
    assert (T1 := target_settled ds dt S). unfold pot in T1. cbn [to_target_tag_exact] in T1.
    assert (M : mapM (loc_tag_exact ds ds) cs = Ok cs) by (apply mapM_id; intros x Hx; eapply loc_settled; apply Sc; exact Hx).
    assert (Fs : fill s ds = s /\ fill t dt = t).
    { destruct S as (A & _). split; eapply explicit_fill, A; try apply occ_here; [left; reflexivity|right; left; reflexivity]. }
    destruct Fs as [Fs Ft].
    assert (T : to_target_tag_exact ds dt (pot LAvg) = Ok (pot LAvg)).
    { unfold pot. cbn [to_target_tag_exact]. rewrite M. cbn [bind]. unfold tag_node, tag_head. cbn. rewrite Fs, Ft. reflexivity. }
    rewrite T. cbn [bind].
    assert (D : settled [(name, PQbx)] (pot (LInt 1))) by exact S. destruct D as (_ & _ & D & _).
    destruct (D _ _ (occ_here _)) as (D1 & D2 & _ & D3). cbn [g_src g_tgt g_lim] in D1, D2, D3.
    destruct (D3 name (or_introl eq_refl) Gs) as [((E1 & E2) & _)|(_ & L)].
    2:{ exfalso. destruct L as [L|[L|L]]; discriminate. }
    assert (P : preprocess_all [(name, PQbx)] (pot LAvg) = Ok b).
    { cbn [preprocess_all preprocess_place fst snd].
      assert (Q : qbx_pre name (pot LAvg) = Ok b).
      { unfold pot. cbn [qbx_pre g_src g_lim]. rewrite Gs. cbn [opt_eqb].
        assert (X : geom_eqb name name = true) by (apply geom_eqb_eq; reflexivity). rewrite X. cbn [negb].
        rewrite mapM_id by (intros x Hx; eapply qbx_settled; [apply Sc; exact Hx|left; reflexivity]). cbn [bind].
        assert (Y : is_self (IntG tk sks nd LAvg s t names) = true) by (apply is_self_spec; split; cbn; congruence).
        rewrite Y. reflexivity. }
      rewrite Q. reflexivity. }
    rewrite P. cbn [bind]. unfold interp.
    assert (Ip : forall n l, (1 <= n)%nat -> interp_pre n [(name, PQbx)] STAGE2 (pot l) = Ok (pot l)).
    { intros n l Hn. destruct n; [lia|]. unfold pot. cbn [interp_pre g_tgt g_src].
      destruct (discr_stage t); [|contradiction]. cbn [g_src]. destruct (discr_stage s); [reflexivity|contradiction]. }
    assert (Iz : forall n, (4 <= n)%nat -> interp_pre n [(name, PQbx)] STAGE2 b = Ok b).
    { intros n Hn. destruct n as [|[|n]]; [lia|lia|]. unfold b. cbn [interp_pre mapM bind].
      rewrite !Ip by lia. reflexivity. }
    apply Iz. unfold b. cbn [size fold_right]. lia. }
  split; [exact B|]. intros c r.
  rewrite (@bound_call_is_value V J add zero arr EV ple kfeat gorder Hg _ ds dt _ b W B C c r).
  unfold b, pot. cbn [seval mapM bind].
  destruct (J (HConst (1 # 2)) []) as [half|x] eqn:Eh; cbn [bind].
  2:{ split; [discriminate|]. intros (vs & h & o & i & t0 & _ & X & _). discriminate. }
  destruct (mapM (seval J c) cs) as [vs|x] eqn:Ev; cbn [bind].
  2:{ split; [discriminate|]. intros (vs & h & o & i & t0 & X & _). discriminate. }
  destruct (J (HIntG (IntG tk sks nd (LInt 1) s t names)) vs) as [o|x] eqn:Eo; cbn [bind].
  2:{ split; [discriminate|]. intros (vs' & h & o & i & t0 & X & _ & Y & _). injection X as <-. congruence. }
  destruct (J (HIntG (IntG tk sks nd (LInt (-1)) s t names)) vs) as [i|x] eqn:Ei; cbn [bind].
  2:{ split; [discriminate|]. intros (vs' & h & o' & i & t0 & X & _ & _ & Y & _). injection X as <-. congruence. }
  rewrite (ev_sum EV). cbn [add_up]. rewrite (ev_zero EV). cbn [bind].
  destruct (add o i) as [tot|x] eqn:Ea; cbn [bind].
  2:{ split; [discriminate|]. intros (vs' & h & o' & i' & t0 & X & _ & Y & Z & U & _). injection X as <-. congruence. }
  split.
  - intros H. exists vs, half, o, i, tot. auto 10.
  - intros (vs' & h & o' & i' & t0 & X1 & X2 & X3 & X4 & X5 & X6). injection X1 as <-. injection X2 as <-.
    rewrite Eo in X3. rewrite Ei in X4. injection X3 as <-. injection X4 as <-. rewrite Ea in X5. injection X5 as <-. exact X6.
Qed.
Print Assumptions average_call_is_half_the_sum.

(** More generally, if filling in the locations leaves nothing else to do, that is all binding
    does: every node stays where it is, and its unspecified locations come from the default
    source and target as in C17. *)
Theorem binding_fills_in_locations : forall ps ds dt e,
  (forall f t cs, occurs e (Node (HInterp f t) cs) -> exists c, cs = [c]) -> settled ps (to_target_tag ds dt e) ->
  geometry ds <> None -> geometry dt <> None ->
  exists b, bind_expression ps ds dt e = Ok b /\
  forall p h cs, at_path e p = Some (Node h cs) ->
    exists h' cs', at_path b p = Some (Node h' cs') /\ length cs' = length cs /\ blank h' = blank h
      /\ Forall2 (fun (rd d' : role * dofdesc) => resolved ds dt (inside_intg e p) (fst rd) (snd rd) (snd d'))
           (locations h) (locations h').
Proof.
  intros ps ds dt e A S Gs Gt. exists (to_target_tag ds dt e). split.
  - unfold bind_expression.
    assert (A' : TagSpec.arity_ok e) by (intros f t cs (p & O); apply (A f t); eapply path_occurs; exact O).
    assert (P : TagSpec.all_proper (to_target_tag ds dt e)).
    { intros f t cs (p & O). destruct S as (_ & B & _). apply (B f t cs). eapply path_occurs. exact O. }
    destruct (@TagProps.binding_without_trivial_interpolations ps ds dt e A' P) as [E _].
    unfold prepare_expr_exact. rewrite E. cbn [bind].
    rewrite (preprocess_settled (ps' := ps) S (incl_refl _)). cbn [bind]. unfold interp. apply interp_settled; [exact S|lia].
  - intros p h cs H. exact (@SymProps.binding_resolves_locations ds dt e p h cs Gs Gt H).
Qed.
Print Assumptions binding_fills_in_locations.

(** ** Non-vacuity *)
Fixpoint subterms (e : sexpr) : list sexpr := let 'Node h cs := e in e :: flat_map subterms cs.
Lemma occurs_subterms e x : occurs e x -> In x (subterms e).
Proof.
  induction 1 as [e|h cs c x Hc _ IH]; [destruct e; left; reflexivity|].
  right. apply in_flat_map. eauto.
Qed.
Section Examples.
Local Open Scope string_scope.
Local Open Scope Z_scope.
Fixpoint kern_weight (k : kern) : Z :=
  match k with
  | KBase n => Z.of_nat n + 1
  | KAxisTgt _ k | KDirTgt _ k => 10 * kern_weight k
  | KAxisSrc _ k | KDirSrc _ k => 7 * kern_weight k
  end.
Definition ex_add (a b : Z) : result Z := Ok (a + b).
Definition ex_pot (g : intg) (vs : list Z) : Z :=
  kern_weight (g_tk g) * fold_right Z.add 0 (map (fun p => kern_weight (fst p) * snd p) (combine (g_sks g) vs))
  + match g_lim g with LInt z => z | LNone => 1000 | LAvg => 5000 end
  + 3 * fold_right Z.add 0 (skipn (length (g_sks g)) vs).
(** Twice every value, to have halves. *)
Definition ex_J (h : head) (vs : list Z) : result Z :=
  match h with
  | HConst q => Ok (Qnum q)
  | HSum => add_up ex_add 0 vs
  | HProd => Ok (fold_right Z.mul 1 vs)
  | HCse _ _ => match vs with [v] => Ok v | _ => Err TypeError end
  | HArray => Ok (fold_right (fun v a => v + 100 * a) 0 vs)
  | HIntG g => Ok (ex_pot g vs)
  | HInterp _ _ => match vs with [v] => Ok (v + 1) | _ => Err TypeError end
  | _ => Err NotImplementedError
  end.
Lemma ex_evaluator : evaluator ex_J ex_add 0 (fun vs => fold_right (fun v a => v + 100 * a) 0 vs).
Proof.
  split; try reflexivity.
  intros tk ps ps' n l s t names ws P _. cbn [ex_J]. unfold ex_pot. cbn [g_tk g_sks g_lim].
  assert (C : forall (ps : list (kern * Z)) ws, combine (map fst ps) (map snd ps ++ ws) = ps).
  { clear. induction ps as [|[k v] ps IH]; intros ws; [reflexivity|]. cbn. rewrite IH. reflexivity. }
  assert (K : forall (ps : list (kern * Z)) ws, skipn (length (map fst ps)) (map snd ps ++ ws) = ws).
  { clear. induction ps as [|[k v] ps IH]; intros ws; [reflexivity|]. cbn. apply IH. }
  rewrite !C, !K. f_equal. f_equal. f_equal. f_equal.
  clear -P. induction P as [|x l l' _ IH|x y l|? ? ? _ IH1 _ IH2]; cbn; try lia.
Qed.

Definition exd (s : stage) : dofdesc := DD (Some (GName "q")) (Some s) NODE.
Definition ext : dofdesc := DD (Some (GName "out")) (Some STAGE1) NODE.
Definition sigma : sexpr := Node (HCse None 0) [Node (HVar "sigma") []].
(** A single layer with the limit "avg" on the source, and the same kernel evaluated away from it,
    for the density sigma and the kernel argument k. *)
Definition ex_g (l : limit) (t : dofdesc) : sexpr :=
  Node (HIntG (IntG (KBase 1) [KBase 2] 1 l (exd QUAD_STAGE2) t ["k"])) [sigma; Node (HVar "wave") []].
Definition ex_e : sexpr := Node HSum [ex_g LAvg (exd QUAD_STAGE2); ex_g LNone ext].
Definition ex_b : sexpr :=
  Node HSum [Node HProd [Node (HConst (1 # 2)) [];
                         Node HSum [ex_g (LInt 1) (exd QUAD_STAGE2); ex_g (LInt (-1)) (exd QUAD_STAGE2)]]; ex_g LNone ext].
Definition ex_ps : places := [(GName "q", PQbx); (GName "out", PTarget)].
Ltac by_terms O := apply occurs_subterms in O; cbn in O;
  repeat (destruct O as [O|O]; [try discriminate O; injection O; intros; subst; clear O|]); try destruct O.
Example ex_bound : well_formed ex_e /\ bind_expression ex_ps (exd STAGE1) ext ex_e = Ok ex_b /\ compilable ex_b.
Proof.
  split; [|split; [vm_compute; reflexivity|]].
  - intros h cs O. apply occurs_subterms in O. cbn in O.
    repeat (destruct O as [O|O]; [injection O; intros; subst; cbn; eauto; try discriminate; try (split; [|split]; lia)|]). destruct O.
  - split; [|split; [|split]].
    + intros g cs O. by_terms O; discriminate.
    + intros p s c O N. by_terms O; contradiction.
    + intros n cs O [(i & E)|(p & s & cs' & O' & _ & E)].
      * by_terms O; match goal with H : context[numbered] |- _ => discriminate H end.
      * by_terms O'; destruct E.
    + intros (g & g' & cs & cs' & O & O' & L & L'). by_terms O'; discriminate L'.
Qed.
Definition ex_c : ctx Z := fun n => if String.eqb n "sigma" then Some 5 else if String.eqb n "wave" then Some 2 else None.
Example ex_run : exists c', bind_and_call ex_J ex_add 0 (fun vs => fold_right (fun v a => v + 100 * a) 0 vs)
    (fun _ _ => true) (fun _ _ => 0%nat) (fun l => l) ex_ps (exd STAGE1) ext ex_e ex_c = Ok (1108, c').
Proof.
  apply (@bound_call_is_value _ _ _ _ _ ex_evaluator (fun _ _ => true) (fun _ _ => 0%nat) (fun l => l) (fun l => Permutation_refl l)
           ex_ps (exd STAGE1) ext ex_e ex_b (proj1 ex_bound) (proj1 (proj2 ex_bound)) (proj2 (proj2 ex_bound)) ex_c 1108).
  vm_compute. reflexivity.
Qed.
Example ex_settled : settled ex_ps (ex_g (LInt 1) (exd QUAD_STAGE2)) /\ settled ex_ps (ex_g LNone ext)
  /\ settled [(GName "q", PQbx)] (ex_g (LInt 1) (exd QUAD_STAGE2)).
Proof.
  assert (X : forall d, In d [exd QUAD_STAGE2; exd STAGE1; ext] -> explicit d).
  { intros d [<-|[<-|[<-|[]]]]; eexists; (split; [reflexivity|split; discriminate]). }
  split; [|split].
  all: split; [|split; [|split]].
  all: try (intros h cs r d O I; by_terms O; cbn in I; repeat destruct I as [I|I]; try injection I as <- <-; try destruct I; apply X; cbn; auto; fail).
  all: try (intros f t cs O; by_terms O; fail).
  all: try (intros a d cs O; by_terms O; fail).
  all: intros g cs O; by_terms O; cbn; (split; [discriminate|split; [discriminate|split; [intros Q; repeat destruct Q as [Q|Q]; try discriminate Q; try destruct Q|]]]).
  all: intros name I G; injection G as <-; (left; split; [split; reflexivity|auto; fail]) || (right; split; [intros [G1 G2]; discriminate|auto]).
Qed.
(** Sources and targets left to the defaults. *)
Definition open_e : sexpr :=
  Node (HIntG (IntG (KBase 1) [KBase 2] 1 LNone (DD None (Some QUAD_STAGE2) NODE) (DD None None NODE) [])) [Node (HOnes (DD None None NODE)) []].
Example fills_in : settled ex_ps (to_target_tag (exd STAGE1) ext open_e)
  /\ bind_expression ex_ps (exd QUAD_STAGE2) ext open_e
     = Ok (Node (HIntG (IntG (KBase 1) [KBase 2] 1 LNone (exd QUAD_STAGE2) ext [])) [Node (HOnes (exd QUAD_STAGE2)) []]).
Proof.
  split; [|reflexivity].
  assert (X : forall d, In d [exd QUAD_STAGE2; exd STAGE1; ext] -> explicit d).
  { intros d [<-|[<-|[<-|[]]]]; eexists; (split; [reflexivity|split; discriminate]). }
  split; [|split; [|split]].
  - intros h cs r d O I. by_terms O; cbn in I; repeat destruct I as [I|I]; try injection I as <- <-; try destruct I; apply X; cbn; auto.
  - intros f t cs O; by_terms O.
  - intros g cs O. by_terms O. cbn. split; [discriminate|]. split; [discriminate|]. split; [auto|].
    intros name I G. injection G as <-. right. split; [intros [G1 G2]; discriminate|auto].
  - intros a d cs O; by_terms O.
Qed.
End Examples.
