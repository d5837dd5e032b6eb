From Coq Require Import Reals Lra.
From Coquelicot Require Import Coquelicot.
From Verif Require Import Base DofModel RedModel RedSpec.
Set Implicit Arguments.
Open Scope string_scope. Open Scope list_scope. Open Scope nat_scope.

Definition map2 {A B D : Type} (f : A -> B -> D) (l : list A) (m : list B) : list D := map (fun p => f (fst p) (snd p)) (combine l m).

Lemma map2_cons (A B D : Type) (f : A -> B -> D) a l b m : map2 f (a :: l) (b :: m) = f a b :: map2 f l m.
Proof. reflexivity. Qed.
Lemma map2_len (A B D : Type) (f : A -> B -> D) l m : length l = length m -> length (map2 f l m) = length l.
Proof. intros H. unfold map2. rewrite map_length, combine_length, H. apply Nat.min_id. Qed.
Lemma map2_app (A B D : Type) (f : A -> B -> D) l m l' m' :
  length l = length m -> map2 f (l ++ l') (m ++ m') = map2 f l m ++ map2 f l' m'.
Proof.
  revert m. induction l as [|a l IH]; intros [|b m] H; try discriminate; [reflexivity|].
  cbn [app]. rewrite !map2_cons. cbn [app]. f_equal. apply IH. cbn in H. lia.
Qed.
Lemma map2_concat (A B D : Type) (f : A -> B -> D) (l : list (list A)) (m : list (list B)) :
  map (@length _) l = map (@length _) m -> concat (map2 (map2 f) l m) = map2 f (concat l) (concat m).
Proof.
  revert m. induction l as [|a l IH]; intros [|b m] H; try discriminate; [reflexivity|].
  cbn [map] in H. injection H; intros H1 H2. rewrite map2_cons. cbn [concat]. rewrite map2_app by exact H2.
  f_equal. apply IH. exact H1.
Qed.
Lemma concat_len (A : Type) (l : list (list A)) : length (concat l) = list_sum (map (@length _) l).
Proof. induction l as [|a l IH]; [reflexivity|]. cbn [concat map list_sum fold_right]. rewrite app_length, IH. reflexivity. Qed.

Lemma zipM_ok (A B D : Type) (f : A -> B -> result D) g l m :
  length l = length m -> (forall p, In p (combine l m) -> f (fst p) (snd p) = Ok (g (fst p) (snd p))) ->
  zipM f l m = Ok (map2 g l m).
Proof.
  revert m. induction l as [|a l IH]; intros [|b m] H Hf; try discriminate; [reflexivity|].
  cbn [zipM]. pose proof (Hf (a, b) (or_introl eq_refl)) as H1. cbn [fst snd] in H1. rewrite H1. cbn [bind].
  rewrite IH; [reflexivity|cbn in H; lia|]. intros p Hp. apply Hf. right. exact Hp.
Qed.
Lemma bcast_same (A B D : Type) (f : A -> B -> result D) l m : length l = length m -> bcast f l m = zipM f l m.
Proof. intros H. unfold bcast. rewrite H, Nat.eqb_refl. reflexivity. Qed.
Lemma combine_in_map (A B E : Type) (f : A -> E) (g : B -> E) l m : map f l = map g m ->
  forall p, In p (combine l m) -> f (fst p) = g (snd p).
Proof.
  revert m. induction l as [|a l IH]; intros [|b m] H p Hp; try discriminate; [destruct Hp|].
  cbn [map] in H. injection H; intros H1 H2. destruct Hp as [<-|Hp]; [exact H2|]. eapply IH; eassumption.
Qed.
Lemma map_eq_len (A B E : Type) (f : A -> E) (g : B -> E) l m : map f l = map g m -> length l = length m.
Proof. intros H. apply (f_equal (@length _)) in H. rewrite !map_length in H. exact H. Qed.

Lemma vbin_arrays f u v : shape u = shape v ->
  vbin f (VArr u) (VArr v) = Ok (VArr (Arr (cplx u || cplx v) (map2 (map2 (map2 f)) (groups u) (groups v)))).
Proof.
  intros H. cbn [vbin].
  rewrite (zipM_ok (bcast (bcast (fun x y => Ok (f x y)))) (map2 (map2 f))); [reflexivity|exact (map_eq_len _ _ _ _ H)|].
  intros [g1 g2] Hp. cbn [fst snd]. pose proof (combine_in_map _ _ _ _ H _ Hp) as Hg. cbn [fst snd] in Hg.
  rewrite bcast_same by exact (map_eq_len _ _ _ _ Hg). apply zipM_ok; [exact (map_eq_len _ _ _ _ Hg)|].
  intros [r1 r2] Hq. cbn [fst snd]. pose proof (combine_in_map _ _ _ _ Hg _ Hq) as Hr. cbn [fst snd] in Hr.
  rewrite bcast_same by exact Hr. apply zipM_ok; [exact Hr|]. intros p _. reflexivity.
Qed.
Lemma map2_lengths (A B D : Type) (f : A -> B -> D) (l : list (list A)) (m : list (list B)) :
  map (@length _) l = map (@length _) m -> map (@length _) (map2 (map2 f) l m) = map (@length _) l.
Proof.
  revert m. induction l as [|a l IH]; intros [|b m] H; try discriminate; [reflexivity|].
  cbn [map] in H. injection H; intros H1 H2. rewrite map2_cons. cbn [map]. rewrite map2_len by exact H2. f_equal. apply IH. exact H1.
Qed.
Lemma shape_map2 f b u v : shape u = shape v -> shape (Arr b (map2 (map2 (map2 f)) (groups u) (groups v))) = shape u.
Proof.
  unfold shape. cbn [groups]. generalize (groups u) (groups v). intros l. induction l as [|a l IH]; intros [|c m] H; try discriminate; [reflexivity|].
  cbn [map] in H. injection H; intros H1 H2. rewrite map2_cons. cbn [map]. f_equal; [apply map2_lengths; exact H2|]. apply IH. exact H1.
Qed.
Lemma entries_map2 f b u v : shape u = shape v ->
  entries (Arr b (map2 (map2 (map2 f)) (groups u) (groups v))) = map2 f (entries u) (entries v).
Proof.
  unfold shape, entries. cbn [groups]. intros H.
  assert (G : map (@length _) (map (@concat C) (groups u)) = map (@length _) (map (@concat C) (groups v))).
  { revert H. generalize (groups u) (groups v). intros l. induction l as [|a l IH]; intros [|c m] H; try discriminate; [reflexivity|].
    cbn [map] in H |- *. injection H; intros H1 H2. f_equal; [rewrite !concat_len, H2; reflexivity|apply IH; exact H1]. }
  rewrite <- (map2_concat _ _ _ G). f_equal. revert H. generalize (groups u) (groups v). clear.
  intros l. induction l as [|a l IH]; intros [|c m] H; try discriminate; [reflexivity|].
  cbn [map] in H. injection H; intros H1 H2. rewrite map2_cons. cbn [map]. rewrite map2_cons. f_equal; [apply map2_concat; exact H2|apply IH; exact H1].
Qed.
Lemma shape_map f b u : shape (Arr b (map (map (map f)) (groups u))) = shape u.
Proof.
  unfold shape. cbn [groups]. rewrite map_map. apply map_ext. intros g. rewrite map_map. apply map_ext. intros r. apply map_length.
Qed.
Lemma concat_map_map (A B : Type) (f : A -> B) l : concat (map (map f) l) = map f (concat l).
Proof. induction l as [|a l IH]; [reflexivity|]. cbn [map concat]. rewrite map_app, IH. reflexivity. Qed.
Lemma entries_map f b u : entries (Arr b (map (map (map f)) (groups u))) = map f (entries u).
Proof.
  unfold entries. cbn [groups]. rewrite map_map. rewrite <- concat_map_map. f_equal. rewrite map_map. apply map_ext. intros g. apply concat_map_map.
Qed.
Lemma entries_len u : length (entries u) = size (shape u).
Proof.
  unfold entries, size, shape. rewrite concat_len, map_map. f_equal. rewrite map_map. apply map_ext. intros g. rewrite concat_len. reflexivity.
Qed.

(** Values of a given shape, as functions of the flat number of the node. *)
Definition has (s : list (list nat)) (b : bool) (F : nat -> C) (v : val) : Prop :=
  exists a, v = VArr a /\ shape a = s /\ cplx a = b /\ entries a = map F (seq 0 (size s)).

Lemma list_as_map (A : Type) (l : list A) d : l = map (fun i => nth i l d) (seq 0 (length l)).
Proof.
  apply nth_ext with (d := d) (d' := d); [rewrite map_length, seq_length; reflexivity|].
  intros n Hn. rewrite nth_indep with (l := map _ _) (d' := (fun i => nth i l d) 0) by (rewrite map_length, seq_length; exact Hn).
  rewrite (map_nth (fun i => nth i l d)), seq_nth by exact Hn. reflexivity.
Qed.
Lemma has_arr a s : shape a = s -> has s (cplx a) (value_at a) (VArr a).
Proof.
  intros <-. exists a. split; [reflexivity|]. split; [reflexivity|]. split; [reflexivity|].
  unfold value_at. rewrite <- entries_len. apply list_as_map.
Qed.
Lemma has_ext s b F G v : (forall i, i < size s -> F i = G i) -> has s b F v -> has s b G v.
Proof.
  intros H (a & E1 & E2 & E3 & E4). exists a. split; [exact E1|]. split; [exact E2|]. split; [exact E3|]. rewrite E4.
  apply map_ext_in. intros i Hi. apply H. apply in_seq in Hi. lia.
Qed.
Lemma map2_map (A B D E : Type) (f : A -> B -> D) (F : E -> A) (G : E -> B) l : map2 f (map F l) (map G l) = map (fun i => f (F i) (G i)) l.
Proof. induction l as [|x l IH]; [reflexivity|]. cbn [map]. rewrite map2_cons, IH. reflexivity. Qed.
Lemma has_bin f s b b' F G u v : has s b F u -> has s b' G v ->
  exists w, vbin f u v = Ok w /\ has s (b || b') (fun i => f (F i) (G i)) w.
Proof.
  intros (x & -> & Hx & Bx & Ex) (y & -> & Hy & By & Ey). rewrite vbin_arrays by congruence. eexists. split; [reflexivity|].
  eexists. split; [reflexivity|]. rewrite shape_map2 by congruence. split; [exact Hx|]. split; [cbn [cplx]; congruence|].
  rewrite entries_map2 by congruence. rewrite Ex, Ey. apply map2_map.
Qed.
Lemma has_num f s b c b' F v : has s b' F v -> exists w, vbin f (VNum b c) v = Ok w /\ has s (b || b') (fun i => f c (F i)) w.
Proof.
  intros (x & -> & Hx & Bx & Ex). cbn [vbin]. eexists. split; [reflexivity|]. eexists. split; [reflexivity|].
  rewrite shape_map, entries_map. split; [exact Hx|]. split; [cbn [cplx]; congruence|]. rewrite Ex, map_map. reflexivity.
Qed.
Lemma has_num_r f s b c b' F v : has s b' F v -> exists w, vbin f v (VNum b c) = Ok w /\ has s (b' || b) (fun i => f (F i) c) w.
Proof.
  intros (x & -> & Hx & Bx & Ex). cbn [vbin]. eexists. split; [reflexivity|]. eexists. split; [reflexivity|].
  rewrite shape_map, (entries_map (fun x => f x c)). split; [exact Hx|]. split; [cbn [cplx]; congruence|]. rewrite Ex, map_map. reflexivity.
Qed.
Lemma has_map f g s b F v : has s b F v -> exists w, vmap f g v = Ok w /\ has s (g b) (fun i => f (F i)) w.
Proof.
  intros (x & -> & Hx & Bx & Ex). cbn [vmap]. eexists. split; [reflexivity|]. eexists. split; [reflexivity|].
  rewrite shape_map, entries_map. split; [exact Hx|]. split; [cbn [cplx]; congruence|]. rewrite Ex, map_map. reflexivity.
Qed.

(** ** Reductions *)
Lemma csum_app l m : csum (l ++ m) = Cplus (csum l) (csum m).
Proof. unfold csum. induction l as [|x l IH]; cbn [app fold_right]; [ring|]. rewrite IH. ring. Qed.
Lemma csum_concat l : csum (map csum l) = csum (concat l).
Proof. induction l as [|x l IH]; [reflexivity|]. cbn [map concat]. rewrite csum_app, <- IH. reflexivity. Qed.

Lemma rext_max x l : (In (rext Rmax x l) (x :: l) /\ forall y, In y (x :: l) -> y <= rext Rmax x l)%R.
Proof.
  revert x. induction l as [|z l IH]; intros x; cbn [rext].
  - split; [left; reflexivity|]. intros y [<-|[]]. apply Rle_refl.
  - destruct (IH (Rmax x z)) as [H1 H2]. split.
    + destruct H1 as [H1|H1]; [|right; right; exact H1]. rewrite <- H1. unfold Rmax. destruct (Rle_dec x z); [right; left|left]; reflexivity.
    + intros y [<-|[<-|Hy]].
      * eapply Rle_trans; [apply (Rmax_l x z)|]. apply H2. left. reflexivity.
      * eapply Rle_trans; [apply (Rmax_r x z)|]. apply H2. left. reflexivity.
      * apply H2. right. exact Hy.
Qed.
Lemma rext_min x l : (In (rext Rmin x l) (x :: l) /\ forall y, In y (x :: l) -> rext Rmin x l <= y)%R.
Proof.
  revert x. induction l as [|z l IH]; intros x; cbn [rext].
  - split; [left; reflexivity|]. intros y [<-|[]]. apply Rle_refl.
  - destruct (IH (Rmin x z)) as [H1 H2]. split.
    + destruct H1 as [H1|H1]; [|right; right; exact H1]. rewrite <- H1. unfold Rmin. destruct (Rle_dec x z); [left|right; left]; reflexivity.
    + intros y [<-|[<-|Hy]].
      * eapply Rle_trans; [|apply (Rmin_l x z)]. apply H2. left. reflexivity.
      * eapply Rle_trans; [|apply (Rmin_r x z)]. apply H2. left. reflexivity.
      * apply H2. right. exact Hy.
Qed.

(** A reduction succeeds for sums, and for extrema of nonempty lists of real numbers. *)
Lemma reduce_ok r (b : bool) l : (r = RSum \/ (b = false /\ l <> [])) -> (b = false -> forall x, In x l -> snd x = 0%R) ->
  exists m, reduce r b l = Ok m /\ reduces r l m /\ (b = false -> snd m = 0%R).
Proof.
  intros Hr Hp. destruct r.
  - exists (csum l). split; [destruct l; reflexivity|]. split; [reflexivity|]. intros Hb. specialize (Hp Hb). clear - Hp.
    unfold csum. induction l as [|x l IH]; [reflexivity|]. cbn [fold_right]. cbn. rewrite (Hp x (or_introl eq_refl)).
    rewrite IH by (intros; apply Hp; right; assumption). lra.
  - destruct Hr as [Hr|[Hb Hl]]; [discriminate|]. destruct l as [|x l]; [congruence|]. subst b. cbn [reduce]. eexists. split; [reflexivity|].
    destruct (rext_min (fst x) (map fst l)) as [H1 H2]. change (fst x :: map fst l) with (map fst (x :: l)) in *.
    split; [|reflexivity]. cbn [reduces]. split.
    + apply in_map_iff in H1. destruct H1 as (y & E & Hy). replace (RtoC _) with y; [exact Hy|].
      rewrite <- E. destruct y as [y1 y2]. unfold RtoC. cbn [fst]. f_equal. apply (Hp eq_refl (y1, y2) Hy).
    + intros y Hy. unfold RtoC. cbn [fst]. apply H2. apply in_map. exact Hy.
  - destruct Hr as [Hr|[Hb Hl]]; [discriminate|]. destruct l as [|x l]; [congruence|]. subst b. cbn [reduce]. eexists. split; [reflexivity|].
    destruct (rext_max (fst x) (map fst l)) as [H1 H2]. change (fst x :: map fst l) with (map fst (x :: l)) in *.
    split; [|reflexivity]. cbn [reduces]. split.
    + apply in_map_iff in H1. destruct H1 as (y & E & Hy). replace (RtoC _) with y; [exact Hy|].
      rewrite <- E. destruct y as [y1 y2]. unfold RtoC. cbn [fst]. f_equal. apply (Hp eq_refl (y1, y2) Hy).
    + intros y Hy. unfold RtoC. cbn [fst]. apply H2. apply in_map. exact Hy.
Qed.
Lemma reduce_fails r (b : bool) l : r <> RSum -> b = true \/ l = [] -> exists e, reduce r b l = Err e.
Proof. intros Hr H. destruct r; [congruence| |]; (destruct l; [eexists; reflexivity|destruct H as [->|]; [eexists; reflexivity|discriminate]]). Qed.

Lemma mapM_rel (A B : Type) (f : A -> result B) (P : A -> B -> Prop) l :
  (forall x, In x l -> exists y, f x = Ok y /\ P x y) -> exists ys, mapM f l = Ok ys /\ Forall2 P l ys.
Proof.
  induction l as [|x l IH]; intros H; [exists []; split; [reflexivity|constructor]|].
  destruct (H x (or_introl eq_refl)) as (y & E & Hy). destruct IH as (ys & E' & Hys); [intros; apply H; right; assumption|].
  exists (y :: ys). cbn [mapM]. rewrite E. cbn [bind]. rewrite E'. cbn [bind]. split; [reflexivity|constructor; assumption].
Qed.

Lemma node_reduce_ok r a : proper a -> (r = RSum \/ (cplx a = false /\ no_empty_group (shape a))) ->
  exists m, node_reduce r (VArr a) = Ok (VNum (cplx a) m) /\ reduces r (entries a) m /\ (cplx a = false -> snd m = 0%R).
Proof.
  intros Hp Hr. unfold node_reduce.
  destruct (@mapM_rel group C (fun g => reduce r (cplx a) (concat g)) (fun g m => reduces r (concat g) m /\ (cplx a = false -> snd m = 0%R)) (groups a)) as (gs & E & Hgs).
  { intros g Hg. apply reduce_ok.
    - destruct Hr as [Hr|[Hb [_ He]]]; [left; exact Hr|right]. split; [exact Hb|]. intros E.
      apply (He (map (@length _) g)); [apply in_map; exact Hg|]. rewrite <- concat_len, E. reflexivity.
    - intros Hb x Hx. apply (Hp Hb). unfold entries. apply in_concat. exists (concat g). split; [apply in_map; exact Hg|exact Hx]. }
  rewrite E. cbn [bind].
  destruct (@reduce_ok r (cplx a) gs) as (m & Em & Hm & Hs).
  { destruct Hr as [Hr|[Hb [He _]]]; [left; exact Hr|right]. split; [exact Hb|]. intros ->.
    inversion Hgs as [E0|]. apply He. unfold shape. rewrite <- E0. reflexivity. }
  { intros Hb x Hx. clear - Hgs Hb Hx. induction Hgs as [|g m l l' H H' IH]; [destruct Hx|]. destruct Hx as [<-|Hx]; [apply H; exact Hb|auto]. }
  rewrite Em. cbn [bind]. exists m. split; [reflexivity|]. split; [|exact Hs].
  unfold entries. clear - Hgs Hm. destruct r; cbn [reduces] in *.
  - subst m. change (fold_right Cplus (RtoC 0)) with csum in *. rewrite <- csum_concat. f_equal.
    induction Hgs as [|g m l l' [H _] H' IH]; [reflexivity|]. cbn [map]. f_equal; [|exact IH]. exact H.
  - destruct Hm as [H1 H2]. split.
    + clear H2. induction Hgs as [|g x l l' [[H _] _] H' IH]; [destruct H1|]. cbn [map concat]. apply in_or_app. destruct H1 as [<-|H1]; [left; exact H|right; auto].
    + intros x Hx. clear H1. induction Hgs as [|g y l l' [[_ H] _] H' IH]; [destruct Hx|].
      cbn [map concat] in Hx. apply in_app_or in Hx. destruct Hx as [Hx|Hx].
      * eapply Rle_trans; [apply H2; left; reflexivity|]. apply H. exact Hx.
      * apply IH; [|exact Hx]. intros; apply H2; right; assumption.
  - destruct Hm as [H1 H2]. split.
    + clear H2. induction Hgs as [|g x l l' [[H _] _] H' IH]; [destruct H1|]. cbn [map concat]. apply in_or_app. destruct H1 as [<-|H1]; [left; exact H|right; auto].
    + intros x Hx. clear H1. induction Hgs as [|g y l l' [[_ H] _] H' IH]; [destruct Hx|].
      cbn [map concat] in Hx. apply in_app_or in Hx. destruct Hx as [Hx|Hx].
      * eapply Rle_trans; [apply H; exact Hx|]. apply H2; left; reflexivity.
      * apply IH; [|exact Hx]. intros; apply H2; right; assumption.
Qed.
