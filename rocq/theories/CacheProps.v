(** Property C07.  Vocabulary: CacheSpec.v. *)
From Verif Require Import Base CacheModel CacheSpec CacheProofs.
Set Implicit Arguments.

(** After any history of evaluations of bound expressions of a collection (with
    arbitrary arguments, also failing ones), an evaluation returns what evaluating
    without caches returns, provided long-lived subexpressions have no free variables. *)
Theorem cse_caches_transparent : forall (V : Type) vconst vop (freeze thaw : V -> V) is_number,
  (forall v, thaw (freeze v) = v) -> (forall v, is_number (freeze v) = is_number v) ->
  forall exprs, (forall b, closed_cses (exprs b)) ->
  forall (history : list (nat * cenv V)) b (c : cenv V),
  fst (call vconst vop freeze thaw is_number exprs
         (calls vconst vop freeze thaw is_number exprs (world0 V) history) (b, c))
  = cden vconst vop c (exprs b).
Proof.
  intros V vconst vop freeze thaw is_number Ht Hn exprs Hc h b c.
  destruct (@calls_struct V vconst vop freeze thaw is_number exprs h (world0 V) (winv0 V)) as [H1 _].
  pose proof (@calls_vals V vconst vop freeze thaw is_number Ht Hn exprs Hc h (world0 V) (winv0 V)
    (@wvals0 V vconst vop thaw is_number)) as H2.
  exact (proj1 (@call_vals V vconst vop freeze thaw is_number Ht Hn exprs Hc _ (b, c) H1 H2)).
Qed.
Print Assumptions cse_caches_transparent.

(** For arbitrary expressions: no key is ever computed and stored twice in one
    cache, and no evaluation removes or changes an entry. *)
Theorem cse_caches_monotone : forall (V : Type) vconst vop (freeze thaw : V -> V) is_number exprs
  (h h' : list (nat * cenv V)),
  let run := calls vconst vop freeze thaw is_number exprs in
  one_entry_per_key (run (world0 V) h) /\
  entries_kept (run (world0 V) h) (run (run (world0 V) h) h').
Proof.
  intros V vconst vop freeze thaw is_number exprs h h' run.
  destruct (@calls_struct V vconst vop freeze thaw is_number exprs h (world0 V) (winv0 V)) as [H1 _].
  destruct (@calls_struct V vconst vop freeze thaw is_number exprs h' _ H1) as [_ H2].
  split; [exact (proj1 H1)|exact H2].
Qed.
Print Assumptions cse_caches_monotone.

(** Evaluating an expression all of whose common subexpressions have EVALUATION
    scope leaves every cache alone. *)
Theorem evaluation_scope_uncached : forall (V : Type) vconst vop (freeze thaw : V -> V) is_number c e
  (st : caches V), only_evaluation_scope e ->
  snd (ceval vconst vop freeze thaw is_number c e st) = st.
Proof. intros. apply only_eval_same. assumption. Qed.
Print Assumptions evaluation_scope_uncached.

(** The short cut of [eval] for already cached long-lived expressions is dead
    code: it looks for a key no evaluation ever stores. *)
Theorem eval_short_cut_never_taken : forall (V : Type) vconst vop (freeze thaw : V -> V) is_number exprs
  (h : list (nat * cenv V)) b,
  fast_path thaw is_number (exprs b)
    (Caches (w_e (calls vconst vop freeze thaw is_number exprs (world0 V) h) b)
            (w_d (calls vconst vop freeze thaw is_number exprs (world0 V) h))) = None.
Proof.
  intros V vconst vop freeze thaw is_number exprs h b.
  destruct (@calls_struct V vconst vop freeze thaw is_number exprs h (world0 V) (winv0 V)) as [[_ H] _].
  apply fast_path_none. exact H.
Qed.
Print Assumptions eval_short_cut_never_taken.

(** Without the restriction on free variables the caches are not transparent:
    evaluating [cse(x)] (scope EXPRESSION or DISCRETIZATION) with x=1, then x=2. *)
Definition zenv (z : Z) : cenv Z := fun n => if String.eqb n "x" then Some z else None.
Definition zcall sc := call (fun _ => Err ValueError) (fun _ _ => Err ValueError)
  (fun v : Z => v) (fun v => v) (fun _ => false) (fun _ => Cse (CVar "x") None sc).
Theorem cse_caches_transparent_refuted : forall sc, sc <> ScEval ->
  fst (zcall sc (snd (zcall sc (world0 Z) (0, zenv 1%Z))) (0, zenv 2%Z)) = Ok 1%Z /\
  cden (fun _ => Err ValueError) (fun _ _ => Err ValueError) (zenv 2%Z) (Cse (CVar "x") None sc) = Ok 2%Z.
Proof. intros [| |] H; [destruct H; reflexivity| |]; split; reflexivity. Qed.
Print Assumptions cse_caches_transparent_refuted.

(** Non-vacuity: a bound expression with nested long-lived subexpressions and an
    argument outside of them, evaluated after a failing call. *)
Definition exq : nat -> cexpr := fun b =>
  COp b [Cse (COp 1 [Const 2; Cse (COp 2 [Const 3]) None ScDiscr]) (Some "w"%string) ScExpr; CVar "x";
         Cse (COp 2 [Const 3]) None ScDiscr].
Definition exop (k : nat) (vs : list Z) : result Z := Ok (fold_right Z.add (Z.of_nat k) vs).
Example exq_closed : forall b, closed_cses (exq b).
Proof. intros b. simpl. repeat split; intros; reflexivity. Qed.
Example exq_run :
  let run := calls (fun k => Ok (Z.of_nat k)) exop (fun v => (v + 1)%Z) (fun v => (v - 1)%Z) (fun _ => false) exq in
  let w := run (world0 Z) [(0, fun _ => None); (1, zenv 5%Z); (0, zenv 6%Z)] in
  (length (w_e w 0), length (w_e w 1), length (w_d w),
   fst (call (fun k => Ok (Z.of_nat k)) exop (fun v => (v + 1)%Z) (fun v => (v - 1)%Z) (fun _ => false) exq w (0, zenv 7%Z)))
  = (1, 1, 1, Ok 20%Z).
Proof. vm_compute. reflexivity. Qed.
Example exq_hyps : (forall v : Z, (v + 1 - 1)%Z = v).
Proof. intros v. lia. Qed.
