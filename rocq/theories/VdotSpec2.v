(** The vector space of the values of one layout, with entrywise arithmetic. *)
From Coq Require Import Reals Eqdep_dec.
From Coquelicot Require Import Complex.
From Verif Require Import Base GmresModel GmresSpec VdotModel VdotSpec VdotProofs.
Set Implicit Arguments.

Section Sp.
Variable L : layout.
Definition vec : Type := { v : value | layout_eqb (layout_of v) L = true }.
Definition val (u : vec) : value := proj1_sig u.
Lemma vec_layout (u : vec) : layout_of (val u) = L.
Proof. apply layout_eqb_eq. exact (proj2_sig u). Qed.
Definition mkvec (v : value) (H : layout_of v = L) : vec := exist _ v (proj2 (layout_eqb_eq (layout_of v) L) H).
Lemma op2_layout f (u v : vec) : layout_of (vmap2 f (val u) (val v)) = L.
Proof.
  assert (E : layout_of (val u) = layout_of (val v)) by (rewrite !vec_layout; reflexivity).
  rewrite (proj1 (vmap2_ok f (val u) (val v) E)). apply vec_layout.
Qed.
Definition op2 (f : C -> C -> C) (u v : vec) : vec := mkvec _ (op2_layout f u v).

(** The operators [u + v], [u - v], [c * u] (entry by entry) and the literal 0. *)
Definition vec_ops : vops vec C :=
  VOps (op2 Cplus) (op2 Cminus) (fun c u => op2 (fun a _ => Cmult c a) u u) (RtoC 0).

Lemma vec_ext (u v : vec) : entries (val u) = entries (val v) -> u = v.
Proof.
  intros H. assert (E : val u = val v) by (apply entries_inj; [rewrite !vec_layout; reflexivity|exact H]).
  destruct u as [u Hu], v as [v Hv]. simpl in E. subst v. f_equal. apply UIP_dec. exact Bool.bool_dec.
Qed.
Lemma entries_op2 f u v : entries (val (op2 f u v)) = map2 f (entries (val u)) (entries (val v)).
Proof. apply vmap2_ok. rewrite !vec_layout. reflexivity. Qed.
Definition vec_of (g : nat -> C) : vec := mkvec _ (proj1 (build_ok L g 0)).
Lemma entries_vec_of g : entries (val (vec_of g)) = map g (seq 0 (size L)).
Proof. apply build_ok. Qed.
Lemma vec_length (u : vec) : length (entries (val u)) = size L.
Proof. rewrite entries_length, vec_layout. reflexivity. Qed.

(** The squared Euclidean norm: the sum of |u_i|^2. *)
Definition norm2 (u : vec) : R :=
  fold_right Rplus 0%R (map (fun c : C => (fst c * fst c + snd c * snd c)%R) (entries (val u))).

Lemma map2_ext3 (f g : C -> C -> C) l : (forall a b, f a b = g a b) -> forall l', map2 f l l' = map2 g l l'.
Proof. intros H. induction l as [|a l IH]; intros [|b l']; simpl; try reflexivity. rewrite H, IH. reflexivity. Qed.

(** They form a vector space. *)
Definition vec_space : vspace vec_ops.
Proof.
  refine (@VSpace vec C vec_ops (vec_of (fun _ => RtoC 0)) (fun u => op2 (fun a _ => Copp a) u u) _ _ _ _ _ _ _);
  intros; apply vec_ext; cbn [vadd vsub vscale kzero vec_ops]; rewrite ?entries_op2, ?entries_vec_of.
  - generalize (entries (val w)), (entries (val v)), (entries (val u)).
    induction l as [|a l IH]; intros [|b l1] [|c l2]; simpl; try reflexivity. rewrite IH. f_equal. ring.
  - generalize (entries (val v)), (entries (val u)).
    induction l as [|a l IH]; intros [|b l1]; simpl; try reflexivity. rewrite IH. f_equal. ring.
  - rewrite <- (vec_length u). generalize 0. induction (entries (val u)) as [|a l IH]; intros k; simpl; [reflexivity|].
    rewrite IH. f_equal. ring.
  - rewrite <- (vec_length u). generalize 0. induction (entries (val u)) as [|a l IH]; intros k; simpl; [reflexivity|].
    rewrite <- IH. f_equal. ring.
  - generalize (entries (val v)), (entries (val u)).
    induction l as [|a l IH]; intros [|b l1]; simpl; try reflexivity. rewrite IH. f_equal.
  - generalize (entries (val v)), (entries (val u)).
    induction l as [|a l IH]; intros [|b l1]; simpl; try reflexivity. rewrite IH. f_equal. ring.
  - rewrite <- (vec_length u). generalize 0. induction (entries (val u)) as [|a l IH]; intros k; simpl; [reflexivity|].
    rewrite <- IH. f_equal. ring.
Defined.

(** The product gmres computes when no inner product is given. *)
Definition default_dot (mixed : list C -> list value -> result C) (actx : bool) (u v : vec) : C :=
  match structured_vdot mixed actx (val u) (val v) with Ok r => r | Err _ => RtoC 0 end.
End Sp.
