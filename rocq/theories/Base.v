(** Shared vocabulary of all model files: Python exceptions as values, names,
    and finite sets of names represented as duplicate-free lists. *)
From Coq Require Export String.
From Coq Require Export List Arith ZArith Lia Bool.
Export ListNotations.
Set Implicit Arguments.

(** Exceptions that the modelled code raises (class names of the Python
    exceptions; messages are not modelled unless a property mentions them). *)
Inductive exn : Type :=
| ValueError | KeyError | TypeError | RuntimeError | AssertionError
| IndexError | AttributeError | NotImplementedError | ZeroDivisionError
| UnknownVariable | TargetAssociationFailed | RefinementNeeded | NoStatement
| OutOfFuel.

(** Result of a Python call: a value or a raised exception. *)
Inductive result (A : Type) : Type :=
| Ok : A -> result A
| Err : exn -> result A.
Arguments Ok {A} _.
Arguments Err {A} _.

Definition bind {A B : Type} (x : result A) (f : A -> result B) : result B :=
  match x with Ok a => f a | Err e => Err e end.

Definition is_ok {A : Type} (x : result A) : bool :=
  match x with Ok _ => true | Err _ => false end.

Declare Scope result_scope.
Delimit Scope result_scope with result.
Notation "'do' x <- a ; b" := (bind a (fun x => b))
  (at level 200, x pattern, a at level 100, b at level 200, right associativity)
  : result_scope.
Open Scope result_scope.

(** [mapM f xs]: Python's [[f(x) for x in xs]] with exceptions. *)
Section MapM.
Variables A B : Type.
Variable f : A -> result B.
Fixpoint mapM (xs : list A) : result (list B) :=
  match xs with
  | [] => Ok []
  | x :: xs' => do y <- f x; do ys <- mapM xs'; Ok (y :: ys)
  end.
End MapM.

(** Finite sets of strings as lists. *)
Definition inb (x : string) (l : list string) : bool := existsb (String.eqb x) l.
Definition subset (xs ys : list string) : bool := forallb (fun x => inb x ys) xs.
Definition diff (xs ys : list string) : list string :=
  filter (fun x => negb (inb x ys)) xs.
Definition add1 (l : list string) (x : string) : list string :=
  if inb x l then l else l ++ [x].
Definition union (xs ys : list string) : list string := fold_left add1 ys xs.

Lemma inb_In x l : inb x l = true <-> In x l.
Proof.
  unfold inb. rewrite existsb_exists. split.
  - intros [y [Hy He]]. apply String.eqb_eq in He. subst. exact Hy.
  - intros H. exists x. split; [exact H | apply String.eqb_refl].
Qed.

Lemma inb_false x l : inb x l = false <-> ~ In x l.
Proof.
  rewrite <- inb_In. destruct (inb x l); split; intros H.
  - discriminate H.
  - exfalso. apply H. reflexivity.
  - intros H'. discriminate H'.
  - reflexivity.
Qed.

Lemma subset_spec xs ys : subset xs ys = true <-> (forall x, In x xs -> In x ys).
Proof.
  unfold subset. rewrite forallb_forall. split; intros H x Hx.
  - apply inb_In. apply H. exact Hx.
  - apply inb_In. apply H. exact Hx.
Qed.

Lemma In_diff x xs ys : In x (diff xs ys) <-> In x xs /\ ~ In x ys.
Proof.
  unfold diff. rewrite filter_In. rewrite negb_true_iff, inb_false. tauto.
Qed.

Lemma In_add1 x l y : In x (add1 l y) <-> In x l \/ x = y.
Proof.
  unfold add1. destruct (inb y l) eqn:E.
  - apply inb_In in E. split; [tauto|]. intros [H|H]; [exact H|subst; exact E].
  - rewrite in_app_iff. simpl. split; [intros [H|[H|[]]]|intros [H|H]]; auto.
Qed.

Lemma In_union x xs ys : In x (union xs ys) <-> In x xs \/ In x ys.
Proof.
  unfold union. revert xs. induction ys as [|y ys IH]; intros xs; simpl.
  - tauto.
  - rewrite IH, In_add1. split.
    + intros [[H|H]|H]; subst; auto.
    + intros [H|[H|H]]; subst; auto.
Qed.

Lemma NoDup_snoc {A : Type} (l : list A) x : NoDup l -> ~ In x l -> NoDup (l ++ [x]).
Proof.
  intros Hl Hx. induction Hl as [|y l Hy Hl IH]; simpl.
  - constructor; [tauto|constructor].
  - constructor.
    + rewrite in_app_iff. simpl. intros [H|[H|[]]].
      * exact (Hy H).
      * subst. apply Hx. left. reflexivity.
    + apply IH. intros H. apply Hx. right. exact H.
Qed.

Lemma NoDup_add1 l x : NoDup l -> NoDup (add1 l x).
Proof.
  intros H. unfold add1. destruct (inb x l) eqn:E; [exact H|].
  apply NoDup_snoc; [exact H|]. apply inb_false. exact E.
Qed.

Lemma NoDup_union xs ys : NoDup xs -> NoDup (union xs ys).
Proof.
  unfold union. revert xs. induction ys as [|y ys IH]; intros xs H; simpl; [exact H|].
  apply IH. apply NoDup_add1. exact H.
Qed.

Lemma NoDup_filter' {A : Type} (f : A -> bool) l : NoDup l -> NoDup (filter f l).
Proof.
  intros H. induction H as [|x l Hx H IH]; simpl; [constructor|].
  destruct (f x); [constructor|]; auto. rewrite filter_In. tauto.
Qed.

Lemma NoDup_diff xs ys : NoDup xs -> NoDup (diff xs ys).
Proof. apply NoDup_filter'. Qed.

Lemma mapM_length {A B : Type} (f : A -> result B) xs ys :
  mapM f xs = Ok ys -> length ys = length xs.
Proof.
  revert ys. induction xs as [|x xs IH]; simpl; intros ys H.
  - injection H as H. subst. reflexivity.
  - destruct (f x) as [y|e]; simpl in H; [|discriminate H].
    destruct (mapM f xs) as [ys'|e]; simpl in H; [|discriminate H].
    injection H as H. subst. simpl. rewrite (IH ys' eq_refl). reflexivity.
Qed.
