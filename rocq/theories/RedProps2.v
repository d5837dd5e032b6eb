(** C111: exactly when ones, coordinates and weights have the granularity asked for. *)
From Coq Require Import Reals.
From Coquelicot Require Import Complex.
From Verif Require Import Base DofModel RedModel RedSpec.
Set Implicit Arguments.
Open Scope list_scope. Open Scope nat_scope.

(** The shape an array on a discretization with nodes in shape [s] should have. *)
Definition shape_of_granularity (g : gran) (s : list (list nat)) : list (list nat) :=
  match g with NODE => s | ELEMENT => map (map (fun _ => 1)) s | CENTER => map (map (fun n => 2 * n)) s end.

Lemma map2_iff (f : nat -> nat) k s : (forall n, n = f n <-> n = k) ->
  (s = map (map f) s <-> forall l n, In l s -> In n l -> n = k).
Proof.
  intros Hf. split.
  - induction s as [|l s IH]; intros E l' n Hl Hn; [destruct Hl|]. cbn [map] in E. injection E as E1 E2.
    destruct Hl as [<-|Hl]; [|eapply IH; eauto].
    clear - E1 Hn Hf. induction l as [|m l IH]; [destruct Hn|]. cbn [map] in E1. injection E1 as E1 E2.
    destruct Hn as [<-|Hn]; [apply Hf; exact E1|auto].
  - intros H. induction s as [|l s IH]; [reflexivity|]. cbn [map]. f_equal.
    + assert (Hl : forall n, In n l -> n = k) by (intros n; apply H; left; reflexivity). clear - Hl Hf.
      induction l as [|n l IH]; [reflexivity|]. cbn [map]. f_equal; [apply Hf; apply Hl; left; reflexivity|].
      apply IH. intros m Hm. apply Hl. right. exact Hm.
    + apply IH. intros l' n Hl. apply H. right. exact Hl.
Qed.

(** C111.  They always have one value per node, so that the shape is the one asked for exactly if
    values per node were asked for, or values per element and every element has one node (or values
    per center, of which there are two per node, and there are no nodes). *)
Theorem property_granularity_iff : forall dsc ctx dd d s e a,
  dsc (geometry dd) (discr_stage dd) = Ok d ->
  (forall u, In u (d_nodes d) -> shape u = s) -> shape (d_weights d) = s ->
  e = XOnes dd \/ (exists axis, e = XCoord axis dd) \/ e = XWeight dd ->
  ev dsc ctx e = Ok (VArr a) ->
  shape a = s /\
  (shape a = shape_of_granularity (granularity dd) s <->
   granularity dd = NODE \/ (granularity dd = ELEMENT /\ forall l n, In l s -> In n l -> n = 1) \/
   (granularity dd = CENTER /\ forall l n, In l s -> In n l -> n = 0)).
Proof.
  intros dsc ctx dd d s e a Hd Hn Hw He Ha.
  assert (S : shape a = s).
  { destruct He as [->|[(axis & ->)| ->]]; cbn [ev] in Ha; rewrite Hd in Ha; cbn [bind] in Ha.
    - destruct (d_nodes d) as [|u us]; [discriminate Ha|]. injection Ha as <-. rewrite <- (Hn u (or_introl eq_refl)).
      unfold shape. cbn [groups]. rewrite map_map. apply map_ext. intros g. rewrite map_map. apply map_ext. intros row. apply map_length.
    - destruct (nth_error (d_nodes d) axis) as [u|] eqn:E; [|discriminate Ha]. injection Ha as <-. apply Hn. eapply nth_error_In. exact E.
    - injection Ha as <-. exact Hw. }
  split; [exact S|]. rewrite S. unfold shape_of_granularity. destruct (granularity dd).
  - split; auto.
  - rewrite (@map2_iff _ 0) by (intros n; lia). split; [auto|]. intros [H|[[H _]|[_ H]]]; [discriminate H|discriminate H|exact H].
  - rewrite (@map2_iff _ 1) by (intros n; lia). split; [auto|]. intros [H|[[_ H]|[H _]]]; [discriminate H|exact H|discriminate H].
Qed.
Print Assumptions property_granularity_iff.

(** Elements with one node, and with three. *)
Definition one_node : arr := Arr false [[[RtoC 1]; [RtoC 2]]].
Definition three_nodes : arr := Arr false [[[RtoC 1; RtoC 2; RtoC 3]]].
Definition on (u : arr) : option geom -> option stage -> result discr := fun _ _ => Ok (Discr [u] u u).
Example ex_granularity : forall u, u = one_node \/ u = three_nodes -> exists a,
  ev (on u) (fun _ => None) (XOnes (DD None None ELEMENT)) = Ok (VArr a) /\
  (shape a = shape_of_granularity ELEMENT (shape u) <-> u = one_node).
Proof.
  intros u Hu. destruct (ev (on u) (fun _ => None) (XOnes (DD None None ELEMENT))) as [[| a |]|] eqn:E; try discriminate E.
  exists a. split; [reflexivity|].
  assert (Hs : forall v, In v [u] -> shape v = shape u) by (intros v [<-|[]]; reflexivity).
  destruct (@property_granularity_iff (on u) (fun _ => None) (DD None None ELEMENT) _ (shape u) _ a eq_refl Hs eq_refl (or_introl eq_refl) E) as (_ & H).
  cbn [granularity] in H. rewrite H. split.
  - intros [G|[[_ G]|[G _]]]; [discriminate G| |discriminate G]. destruct Hu as [->| ->]; [reflexivity|]. exfalso.
    specialize (G [3] 3 (or_introl eq_refl) (or_introl eq_refl)). discriminate G.
  - intros ->. right. left. split; [reflexivity|]. intros l n [<-|[]] [<-|[<-|[]]]; reflexivity.
Qed.
