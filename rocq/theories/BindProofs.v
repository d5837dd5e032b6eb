(** Lemmas for BindProps.v. *)
From Coq Require Import QArith_base Permutation.
From Verif Require Import Base DofModel DofProps SymModel SymSpec SymProofs SymProofs2 TagModel SchedModel BindModel BindSpec.
From Verif Require CompModel CompSpec.
Set Implicit Arguments.
Open Scope nat_scope.

Section Position.
Variable A : Type.
Variable dec : forall a b : A, {a = b} + {a <> b}.
Lemma position_nth x l : In x l -> nth_error l (position dec x l) = Some x.
Proof.
  induction l as [|y l IH]; intros []; cbn [position].
  - subst y. destruct (dec x x); [reflexivity|contradiction].
  - destruct (dec y x) as [->|]; [reflexivity|]. cbn. apply IH. assumption.
Qed.
End Position.

Lemma occurs_heads e h cs : occurs e (Node h cs) -> In h (heads e).
Proof.
  intros H. remember (Node h cs) as x. induction H as [x|h' cs' c x Hc _ IH]; [subst x|].
  - left. reflexivity.
  - right. apply in_flat_map. exists c. auto.
Qed.
Lemma kerns_of g l : In (HIntG g) l -> forall k, In k (g_tk g :: g_sks g) -> In k (kerns_in l).
Proof.
  intros H k Hk. apply in_flat_map. exists g. split; [|exact Hk]. apply in_flat_map. exists (HIntG g). split; [exact H|left; reflexivity].
Qed.
Lemma dds_of g l : In (HIntG g) l -> forall k, In k [g_src g; g_tgt g] -> In k (dds_in l).
Proof.
  intros H k Hk. apply in_flat_map. exists g. split; [|exact Hk]. apply in_flat_map. exists (HIntG g). split; [exact H|left; reflexivity].
Qed.
Lemma lim_of_comp l : lim_of (comp_limit l) = l. Proof. destruct l; reflexivity. Qed.

Lemma mapM_pairs (K A B : Type) (f : A -> result B) (ns : list K) (l : list A) : length ns = length l ->
  mapM (fun p => match p with (k, d) => do v <- f d; Ok (k, v) end) (combine ns l)
  = (do vs <- mapM f l; Ok (combine ns vs)).
Proof.
  revert l. induction ns as [|k ns IH]; intros [|x l] H; try discriminate; [reflexivity|].
  cbn [combine mapM]. destruct (f x) as [v|]; cbn [bind]; [|reflexivity].
  rewrite IH by (cbn in H; lia). destruct (mapM f l); reflexivity.
Qed.
Lemma mapM_map_in (A B C : Type) (f : B -> result C) (g : A -> B) (h : A -> result C) l :
  (forall x, In x l -> f (g x) = h x) -> mapM f (map g l) = mapM h l.
Proof.
  induction l as [|x l IH]; intros H; [reflexivity|]. cbn [map mapM]. rewrite (H x (or_introl eq_refl)).
  destruct (h x); cbn [bind]; [|reflexivity]. rewrite IH; [reflexivity|]. intros y Hy. apply H. right. exact Hy.
Qed.
Lemma mapM_split (A B : Type) (f : A -> result B) a b :
  mapM f (a ++ b) = (do x <- mapM f a; do y <- mapM f b; Ok (x ++ y)).
Proof.
  induction a as [|x a IH]; cbn [app mapM bind].
  - destruct (mapM f b); reflexivity.
  - destruct (f x) as [v|]; cbn [bind]; [|reflexivity]. rewrite IH. destruct (mapM f a); cbn [bind]; [|reflexivity].
    destruct (mapM f b); reflexivity.
Qed.
Lemma map_fst_combine (A B : Type) (a : list A) (b : list B) : length a = length b -> map fst (combine a b) = a.
Proof. revert b. induction a as [|x a IH]; intros [|y b] H; try discriminate; cbn; [reflexivity|]. rewrite IH; [reflexivity|cbn in H; lia]. Qed.
Lemma map_snd_combine (A B : Type) (a : list A) (b : list B) : length a = length b -> map snd (combine a b) = b.
Proof. revert b. induction a as [|x a IH]; intros [|y b] H; try discriminate; cbn; [reflexivity|]. rewrite IH; [reflexivity|cbn in H; lia]. Qed.

Section Eval.
Variable V : Type.
Variable J : head -> list V -> result V.
Variable add : V -> V -> result V.
Variable zero : V.
Variable arr : list V -> V.
Hypothesis EV : evaluator J add zero arr.

Lemma vsum_add_up acc vs : CompModel.vsum add acc vs = add_up add acc vs.
Proof. revert acc. induction vs as [|v vs IH]; intros acc; [reflexivity|]. cbn. destruct (add acc v); cbn; auto. Qed.

Notation ceval tbl := (CompModel.evalx zero (fun k => head_at J tbl k []) add (head_at J tbl)
    (fun _ _ => Err TypeError) arr (pot_at J tbl) true).

Lemma head_at_position tbl h vs : In h tbl -> head_at J tbl (position head_dec h tbl) vs = J h vs.
Proof. intros H. unfold head_at. rewrite (position_nth head_dec _ _ H). reflexivity. Qed.

Lemma pot_at_position tbl g ds ws : In (HIntG g) tbl -> length ds = length (g_sks g) -> g_nd g = length (g_sks g) ->
  length ws = length (g_kargs g) ->
  pot_at J tbl (position kern_dec (g_tk g) (kerns_in tbl))
    (combine (map (fun x => position kern_dec x (kerns_in tbl)) (g_sks g)) ds) (combine (g_kargs g) ws)
    (comp_limit (g_lim g)) (position dd_dec (g_src g) (dds_in tbl)) (position dd_dec (g_tgt g) (dds_in tbl))
  = J (HIntG g) (ds ++ ws).
Proof.
  intros H Ld Ln Lw. unfold pot_at.
  rewrite (position_nth kern_dec _ _ (kerns_of g tbl H (or_introl eq_refl))).
  rewrite (position_nth dd_dec _ _ (dds_of g tbl H (or_introl eq_refl))).
  rewrite (position_nth dd_dec _ _ (dds_of g tbl H (or_intror (or_introl eq_refl)))).
  assert (E : forall sks ds, incl sks (g_sks g) -> length ds = length sks ->
     mapM (fun p : nat * V => match nth_error (kerns_in tbl) (fst p) with Some k => Ok k | None => Err OutOfFuel end)
       (combine (map (fun x => position kern_dec x (kerns_in tbl)) sks) ds) = Ok sks).
  { induction sks as [|k sks IH]; intros [|d0 ds0] I L; try discriminate; [reflexivity|].
    cbn [map combine mapM fst]. rewrite (position_nth kern_dec k (kerns_in tbl)).
    2:{ apply (kerns_of g tbl H). right. apply I. left. reflexivity. }
    cbn [bind]. rewrite IH; [reflexivity| |cbn in L; lia]. intros x Hx. apply I. right. exact Hx. }
  rewrite E by (auto; apply incl_refl).
  rewrite lim_of_comp. rewrite combine_length, map_length, Ld, Nat.min_id, <- Ln.
  rewrite !map_fst_combine by lia. rewrite !map_snd_combine by (rewrite ?map_length; lia).
  destruct g; reflexivity.
Qed.

Lemma enc_eval c root : well_formed root -> forall e, occurs root e ->
  ceval (heads root) c (enc (heads root) e) = seval J c e.
Proof.
  intros W e. induction e as [h cs IH] using sexpr_ind'. intros Ho.
  assert (Hh : In h (heads root)) by exact (occurs_heads Ho).
  assert (Wh := W _ _ Ho).
  assert (IH' : forall x, In x cs -> ceval (heads root) c (enc (heads root) x) = seval J c x).
  { rewrite Forall_forall in IH. intros x Hx. apply IH; [exact Hx|]. eapply occurs_trans; [exact Ho|].
    eapply occ_child; [exact Hx|apply occ_here]. }
  clear IH.
  assert (Op : ceval (heads root) c (CompModel.Op (position head_dec h (heads root)) (map (enc (heads root)) cs))
     = (do vs <- mapM (seval J c) cs; J h vs)).
  { cbn [CompModel.evalx]. rewrite (mapM_map_in _ _ _ _ IH').
    destruct (mapM (seval J c) cs); cbn [bind]; [|reflexivity]. apply head_at_position. exact Hh. }
  assert (Lf : match cs with
         | [] => ceval (heads root) c (CompModel.Lit (position head_dec h (heads root)))
         | _ => ceval (heads root) c (CompModel.Op (position head_dec h (heads root)) (map (enc (heads root)) cs))
         end = (do vs <- mapM (seval J c) cs; J h vs)).
  { destruct cs as [|x cs]; [|exact Op]. cbn. apply head_at_position. exact Hh. }
  destruct h; cbn [enc seval];
    try (destruct cs; exact Lf).
  - cbn. unfold CompModel.get. destruct (c n); reflexivity.
  - cbn [CompModel.evalx]. rewrite (mapM_map_in _ _ _ _ IH').
    destruct (mapM (seval J c) cs); cbn [bind]; [|reflexivity]. rewrite (ev_sum EV). apply vsum_add_up.
  - destruct Wh as (x & ->). cbn [CompModel.evalx map mapM]. rewrite (IH' x (or_introl eq_refl)).
    destruct (seval J c x); cbn [bind]; [|reflexivity]. rewrite (ev_cse EV). reflexivity.
  - cbn [CompModel.evalx]. rewrite (mapM_map_in _ _ _ _ IH').
    destruct (mapM (seval J c) cs); cbn [bind]; [|reflexivity]. rewrite (ev_array EV). reflexivity.
  - destruct Wh as (L1 & L2 & _). cbn [CompModel.evalx].
    assert (F1 : length (firstn (g_nd g) (map (enc (heads root)) cs)) = length (g_sks g)) by (rewrite firstn_length, map_length; lia).
    assert (F2 : length (skipn (g_nd g) (map (enc (heads root)) cs)) = length (g_kargs g)) by (rewrite skipn_length, map_length; lia).
    rewrite mapM_pairs by (rewrite map_length; lia). rewrite mapM_pairs by lia.
    assert (Ecs : cs = firstn (g_nd g) cs ++ skipn (g_nd g) cs) by (symmetry; apply firstn_skipn).
    rewrite firstn_map, skipn_map.
    rewrite (mapM_map_in _ _ (seval J c) (firstn (g_nd g) cs)).
    2:{ intros x Hx. apply IH'. rewrite Ecs. apply in_or_app. left. exact Hx. }
    rewrite (mapM_map_in _ _ (seval J c) (skipn (g_nd g) cs)).
    2:{ intros x Hx. apply IH'. rewrite Ecs. apply in_or_app. right. exact Hx. }
    assert (Em : mapM (seval J c) cs = (do x <- mapM (seval J c) (firstn (g_nd g) cs); do y <- mapM (seval J c) (skipn (g_nd g) cs); Ok (x ++ y))) by (rewrite <- mapM_split, <- Ecs; reflexivity).
    rewrite Em.
    destruct (mapM (seval J c) (firstn (g_nd g) cs)) as [ds|] eqn:E1; cbn [bind]; [|reflexivity].
    destruct (mapM (seval J c) (skipn (g_nd g) cs)) as [ws|] eqn:E2; cbn [bind]; [|reflexivity].
    apply mapM_length in E1. apply mapM_length in E2. rewrite firstn_length in E1. rewrite skipn_length in E2.
    apply pot_at_position; [exact Hh|lia|exact L1|lia].
Qed.

Lemma pot_at_perm tbl tk ps ps' ks l s t : Permutation ps ps' ->
  pot_at J tbl tk ps ks l s t = pot_at J tbl tk ps' ks l s t.
Proof.
  intros P. unfold pot_at.
  destruct (nth_error (kerns_in tbl) tk) as [k|]; [|reflexivity].
  set (f := fun p : nat * V => match nth_error (kerns_in tbl) (fst p) with Some k => Ok k | None => Err OutOfFuel end).
  assert (X : forall ps, (exists qs, Forall2 (fun p q => f p = Ok (fst q) /\ snd p = snd q) ps qs) \/ mapM f ps = Err OutOfFuel).
  { induction ps0 as [|p ps0 IH]; [left; exists []; constructor|].
    destruct (nth_error (kerns_in tbl) (fst p)) as [k1|] eqn:Ek.
    - assert (Ef : f p = Ok k1) by (unfold f; rewrite Ek; reflexivity).
      destruct IH as [(qs & F)|E].
      + left. exists ((k1, snd p) :: qs). constructor; [|exact F]. split; [exact Ef|reflexivity].
      + right. cbn [mapM]. rewrite Ef. cbn [bind]. rewrite E. reflexivity.
    - right. cbn [mapM]. assert (Ef : f p = Err OutOfFuel) by (unfold f; rewrite Ek; reflexivity). rewrite Ef. reflexivity. }
  destruct (nth_error (dds_in tbl) s) as [sd|]; [|destruct (mapM f ps), (mapM f ps'); reflexivity].
  destruct (nth_error (dds_in tbl) t) as [td|]; [|destruct (mapM f ps), (mapM f ps'); reflexivity].
  assert (Y : forall qs, Forall2 (fun p q => f p = Ok (fst q) /\ snd p = snd q) ps qs ->
              exists qs', Permutation qs qs' /\ Forall2 (fun p q => f p = Ok (fst q) /\ snd p = snd q) ps' qs').
  { intros qs F. eapply Permutation_Forall2; eassumption. }
  assert (Z : forall ps qs, Forall2 (fun p q => f p = Ok (fst q) /\ snd p = snd q) ps qs ->
     mapM f ps = Ok (map fst qs) /\ map snd qs = map snd ps /\ length qs = length ps).
  { induction 1 as [|p q l1 l2 [A B] _ (I1 & I2 & I3)]; [auto|]. cbn. rewrite A. cbn. rewrite I1. cbn. rewrite B, I2, I3. auto. }
  destruct (X ps) as [(qs & F)|E].
  - destruct (Z _ _ F) as (E & S & L). destruct (Y qs F) as (qs' & P' & F'). destruct (Z _ _ F') as (E' & S' & L'). rewrite E, E'.
    rewrite <- S, <- S', <- L, <- L', <- (Permutation_length P').
    apply (ev_pairs EV); [exact P'|rewrite !map_length; reflexivity].
  - destruct (X ps') as [(qs & F)|E'].
    + exfalso. destruct (Permutation_Forall2 (Permutation_sym P) F) as (qs' & _ & F').
      destruct (Z _ _ F') as (E2 & _). congruence.
    + rewrite E, E'. reflexivity.
Qed.
End Eval.

(** ** Subexpressions of the encoded expression *)
Lemma children_enc tbl h cs : well_formed (Node h cs) -> forall x, In x (CompSpec.children (enc tbl (Node h cs))) ->
  exists e, In e cs /\ x = enc tbl e.
Proof.
  intros W x Hx. pose proof (W h cs (occ_here _)) as Wh.
  assert (M : In x (map (enc tbl) cs) -> exists e, In e cs /\ x = enc tbl e).
  { intros H. apply in_map_iff in H. destruct H as (e & <- & He). eauto. }
  assert (Lf : In x (CompSpec.children match cs with
         | [] => CompModel.Lit (position head_dec h tbl)
         | _ => CompModel.Op (position head_dec h tbl) (map (enc tbl) cs)
         end) -> exists e, In e cs /\ x = enc tbl e).
  { destruct cs as [|y cs]; [intros []|]. exact M. }
  destruct h; cbn [enc] in Hx; try (apply Lf; exact Hx); try (apply M; exact Hx).
  - destruct Hx.
  - destruct Wh as (y & ->). cbn in Hx. destruct Hx as [<-|[]]. exists y. split; [left|]; reflexivity.
  - destruct Wh as (L1 & L2 & _). cbn [CompSpec.children] in Hx.
    rewrite !map_snd_combine in Hx by (rewrite ?map_length, ?firstn_length, ?skipn_length, ?map_length; lia).
    rewrite firstn_skipn in Hx. apply M. exact Hx.
Qed.
Lemma well_formed_sub e x : well_formed e -> occurs e x -> well_formed x.
Proof. intros W H h cs O. apply W. eapply occurs_trans; eassumption. Qed.
Lemma sub_enc tbl root : well_formed root -> forall x, CompSpec.sub (enc tbl root) x ->
  exists e, occurs root e /\ x = enc tbl e.
Proof.
  intros W x H. induction H as [|y z Hy IH Hz].
  - exists root. split; [apply occ_here|reflexivity].
  - destruct IH as ([h cs] & O & ->). destruct (children_enc tbl (well_formed_sub W O) z Hz) as (e & He & ->).
    exists e. split; [|reflexivity]. eapply occurs_trans; [exact O|]. eapply occ_child; [exact He|apply occ_here].
Qed.

(** ** What the compiler needs, for the encoded expression *)
Lemma append_assoc a b c : String.append (String.append a b) c = String.append a (String.append b c).
Proof. induction a as [|x a IH]; cbn; [reflexivity|]. rewrite IH. reflexivity. Qed.
Lemma cand_none i : CompModel.cand None i = numbered "_expr" i.
Proof. reflexivity. Qed.
Lemma cand_some p i : CompModel.cand (Some p) i = p \/ exists j, (2 <= j)%nat /\ CompModel.cand (Some p) i = numbered (String.append p "_") j.
Proof.
  destruct i as [|i]; [left; reflexivity|]. right. exists (S (S i)). split; [lia|]. unfold numbered. rewrite append_assoc. reflexivity.
Qed.

Definition shape (tbl : list head) (e : sexpr) : Prop :=
  match e with
  | Node (HVar n) _ => enc tbl e = CompModel.Var n
  | Node HSum cs => enc tbl e = CompModel.Sum (map (enc tbl) cs)
  | Node HArray cs => enc tbl e = CompModel.Arr (map (enc tbl) cs)
  | Node (HCse p s) [c] => enc tbl e = CompModel.CSE (enc tbl c) p (Nat.eqb s 0)
  | Node (HIntG g) cs => exists tk ps s t ks, enc tbl e = CompModel.IntG tk ps (comp_limit (g_lim g)) s t ks
  | _ => (exists k, enc tbl e = CompModel.Lit k) \/ (exists k l, enc tbl e = CompModel.Op k l)
  end.
Lemma enc_shape tbl e : shape tbl e.
Proof.
  destruct e as [h cs].
  destruct h; cbn [shape enc]; try reflexivity;
    try (destruct cs; [left; eexists; reflexivity|right; do 2 eexists; reflexivity]).
  - destruct cs as [|c [|? ?]]; [right; do 2 eexists; reflexivity|reflexivity|right; do 2 eexists; reflexivity].
  - do 5 eexists. reflexivity.
Qed.
Ltac by_shape tbl e H :=
  let S := fresh "S" in
  pose proof (enc_shape tbl e) as S; destruct e as [h cs]; destruct h; cbn [shape] in S;
    try (rewrite S in H; discriminate H); try (destruct S as [(? & S)|(? & ? & S)]; rewrite S in H; discriminate H).

Lemma enc_intg_inv tbl e tk ps l s t ks : enc tbl e = CompModel.IntG tk ps l s t ks ->
  exists g cs, e = Node (HIntG g) cs /\ l = comp_limit (g_lim g).
Proof.
  intros H. by_shape tbl e H.
  - destruct cs as [|c [|? ?]]; [destruct S as [(? & S)|(? & ? & S)]| |destruct S as [(? & S)|(? & ? & S)]]; rewrite S in H; discriminate H.
  - destruct S as (? & ? & ? & ? & ? & S). rewrite S in H. injection H as _ _ <- _ _ _. eauto.
Qed.
Lemma enc_cse_inv tbl e c p b : enc tbl e = CompModel.CSE c p b ->
  exists s x, e = Node (HCse p s) [x] /\ c = enc tbl x /\ b = Nat.eqb s 0.
Proof.
  intros H. by_shape tbl e H.
  - destruct cs as [|y [|? ?]]; [destruct S as [(? & S)|(? & ? & S)]| |destruct S as [(? & S)|(? & ? & S)]]; rewrite S in H; try discriminate H.
    injection H as <- <- <-. eauto.
  - destruct S as (? & ? & ? & ? & ? & S). rewrite S in H. discriminate H.
Qed.
Lemma enc_var_inv tbl e n : enc tbl e = CompModel.Var n -> exists cs, e = Node (HVar n) cs.
Proof.
  intros H. by_shape tbl e H.
  - rewrite S in H. injection H as <-. eauto.
  - destruct cs as [|y [|? ?]]; [destruct S as [(? & S)|(? & ? & S)]| |destruct S as [(? & S)|(? & ? & S)]]; rewrite S in H; discriminate H.
  - destruct S as (? & ? & ? & ? & ? & S). rewrite S in H. discriminate H.
Qed.
Lemma enc_not_special tbl e : (forall n, enc tbl e <> CompModel.NIR n) /\ (forall n k, enc tbl e <> CompModel.SubV n k).
Proof.
  split; intros; intros H; by_shape tbl e H;
    try (destruct cs as [|y [|? ?]]; [destruct S as [(? & S)|(? & ? & S)]| |destruct S as [(? & S)|(? & ? & S)]]; rewrite S in H; discriminate H);
    destruct S as (? & ? & ? & ? & ? & S); rewrite S in H; discriminate H.
Qed.
Lemma enc_sum_inv tbl e l : enc tbl e = CompModel.Sum l -> exists cs, e = Node HSum cs /\ l = map (enc tbl) cs.
Proof.
  intros H. by_shape tbl e H.
  - rewrite S in H. injection H as <-. eauto.
  - destruct cs as [|y [|? ?]]; [destruct S as [(? & S)|(? & ? & S)]| |destruct S as [(? & S)|(? & ? & S)]]; rewrite S in H; discriminate H.
  - destruct S as (? & ? & ? & ? & ? & S). rewrite S in H. discriminate H.
Qed.

Lemma enc_accepted tbl e : well_formed e -> compilable e -> CompSpec.accepted (enc tbl e).
Proof.
  intros W (Cavg & Ccse & _ & _) x Hx. destruct (sub_enc tbl W Hx) as (y & Oy & ->).
  destruct (enc tbl y) as [n|n|n k|k|l|k l|l|c p b|tk ps l s t ks] eqn:Ey; auto.
  - apply (proj1 (enc_not_special tbl y) n Ey).
  - destruct (enc_sum_inv _ _ Ey) as (cs & -> & ->). pose proof (W _ _ Oy) as Wy. cbn in Wy. destruct cs; [contradiction|discriminate].
  - destruct (enc_cse_inv _ _ Ey) as (s & z & -> & -> & Eb). destruct b; [exact I|].
    intros u Hu. destruct (CompModel.is_intg u) eqn:Eu; [exfalso|reflexivity].
    assert (Wz : well_formed z) by (eapply well_formed_sub; [exact W|]; eapply occurs_trans; [exact Oy|]; eapply occ_child; [left; reflexivity|apply occ_here]).
    destruct (sub_enc tbl Wz Hu) as (v & Ov & ->).
    destruct (enc tbl v) eqn:Ev; try discriminate Eu. destruct (enc_intg_inv _ _ Ev) as (g & cs & -> & _).
    apply (Ccse p s z Oy) with (g := g) (cs := cs); [|exact Ov]. intros ->. discriminate Eb.
  - destruct (enc_intg_inv _ _ Ey) as (g & cs & -> & ->). split.
    + pose proof (W _ _ Oy) as (L1 & L2 & L3). cbn [enc] in Ey. injection Ey as _ <- _ _ _. intros E.
      apply (f_equal (@length _)) in E. rewrite combine_length, map_length, firstn_length, map_length in E. cbn in E. lia.
    + specialize (Cavg _ _ Oy). destruct (g_lim g); cbn; [discriminate|contradiction|discriminate].
Qed.
Lemma enc_no_capture tbl e : well_formed e -> compilable e -> CompSpec.no_capture (enc tbl e).
Proof.
  intros W (_ & _ & Cn & _) x Hx. destruct (sub_enc tbl W Hx) as (y & Oy & ->).
  destruct (enc tbl y) as [n|n|n k|k|l|k l|l|c p b|tk ps l s t ks] eqn:Ey; auto.
  - destruct (enc_var_inv _ _ Ey) as (cs & ->). intros (p & i & -> & G). apply (Cn _ _ Oy).
    destruct p as [p|]; [|left; exists i; reflexivity].
    right. destruct G as [G|(c & G)]; [discriminate|]. destruct (sub_enc tbl W G) as (z & Oz & Ez).
    destruct (enc_cse_inv _ _ (eq_sym Ez)) as (s & u & -> & -> & Es). exists (Some p), s, [u].
    split; [exact Oz|]. split; [symmetry in Es; apply Nat.eqb_eq in Es; exact Es|].
    destruct (cand_some p i) as [->|(j & Hj & ->)]; [left; reflexivity|right; eauto].
  - exfalso. apply (proj2 (enc_not_special tbl y) n k Ey).
Qed.
Lemma enc_limits tbl e : well_formed e -> compilable e -> CompSpec.limits_distinct (enc tbl e).
Proof.
  intros W (_ & _ & _ & Cl) tk ps s t ks tk' ps' s' t' ks' H H'.
  destruct (sub_enc tbl W H) as (y & Oy & Ey). destruct (sub_enc tbl W H') as (y' & Oy' & Ey').
  destruct (enc_intg_inv _ _ (eq_sym Ey)) as (g & cs & -> & El). destruct (enc_intg_inv _ _ (eq_sym Ey')) as (g' & cs' & -> & El').
  apply Cl. exists g, g', cs, cs'. repeat split; auto.
  - destruct (g_lim g); cbn in El; congruence.
  - destruct (g_lim g'); cbn in El'; congruence.
Qed.

(** ** Settled expressions *)
Lemma mapM_id (A : Type) (f : A -> result A) l : (forall x, In x l -> f x = Ok x) -> mapM f l = Ok l.
Proof.
  induction l as [|x l IH]; intros H; [reflexivity|]. cbn [mapM]. rewrite (H x (or_introl eq_refl)). cbn [bind].
  rewrite IH; [reflexivity|]. intros y Hy. apply H. right. exact Hy.
Qed.
Lemma settled_child ps h cs c : settled ps (Node h cs) -> In c cs -> settled ps c.
Proof.
  intros (A & B & C & D) Hc. assert (O : forall x, occurs c x -> occurs (Node h cs) x) by (intros x Hx; eapply occ_child; eauto).
  split; [|split; [|split]].
  - intros h' cs' r d Ho. apply (A h' cs' r d). auto.
  - intros f t cs' Ho. apply (B f t cs'). auto.
  - intros g cs' Ho. apply (C g cs'). auto.
  - intros a d cs' Ho. apply (D a d cs'). auto.
Qed.
Lemma explicit_default ds dt d : explicit d -> default_dofdesc ds dt d = d.
Proof. intros (g & E & N & M). unfold default_dofdesc. rewrite E. destruct g; congruence. Qed.
Lemma explicit_fill ds d : explicit d -> fill d ds = d.
Proof. intros (g & E & N & M). unfold fill. rewrite E. reflexivity. Qed.
Lemma tag_head_settled ps ds dt h cs : settled ps (Node h cs) -> tag_head ds dt h = h.
Proof.
  intros (A & _). assert (A' := fun r d H => A h cs r d (occ_here _) H).
  destruct h; cbn [tag_head]; try reflexivity.
  all: cbn [locations] in A'.
  all: try (rewrite (@explicit_default ds dt dd); [reflexivity|]; eapply A'; left; reflexivity).
  all: rewrite ?explicit_fill; try reflexivity; try (eapply A'; ((left; reflexivity) || (right; left; reflexivity))).
  destruct g. reflexivity.
Qed.
Lemma tag_node_settled ps ds dt h cs : settled ps (Node h cs) -> tag_node ds dt h cs = Ok (Node h cs).
Proof.
  intros H. unfold tag_node. rewrite (tag_head_settled ds dt H). destruct h; try reflexivity.
  destruct cs as [|c [|? ?]]; try reflexivity. unfold new_interpolation.
  destruct H as (_ & B & _). destruct (dd_eqb from_dd to_dd) eqn:E; [|reflexivity]. apply dd_eqb_eq in E. exfalso. eapply B; [apply occ_here|exact E].
Qed.
Lemma loc_settled ps ds dt e : settled ps e -> loc_tag_exact ds dt e = Ok e.
Proof.
  revert ds dt. induction e as [h cs IH] using sexpr_ind'. intros ds dt H. cbn [loc_tag_exact].
  rewrite mapM_id.
  - cbn [bind]. eapply tag_node_settled. exact H.
  - rewrite Forall_forall in IH. intros x Hx. apply IH; [exact Hx|]. eapply settled_child; eauto.
Qed.
Lemma target_settled ps ds dt e : settled ps e -> to_target_tag_exact ds dt e = Ok e.
Proof.
  revert ds dt. induction e as [h cs IH] using sexpr_ind'. intros ds dt H. rewrite Forall_forall in IH.
  assert (G : (do cs' <- mapM (to_target_tag_exact ds dt) cs; tag_node ds dt h cs') = Ok (Node h cs)).
  { rewrite mapM_id; [cbn [bind]; eapply tag_node_settled; exact H|]. intros x Hx. apply IH; [exact Hx|]. eapply settled_child; eauto. }
  destruct h; cbn [to_target_tag_exact]; try exact G.
  rewrite mapM_id; [cbn [bind]; eapply tag_node_settled; exact H|]. intros x Hx. eapply loc_settled, settled_child; eauto.
Qed.
Lemma qbx_settled ps name e : settled ps e -> In (name, PQbx) ps -> qbx_pre name e = Ok e.
Proof.
  intros H Hin. induction e as [h cs IH] using sexpr_ind'. rewrite Forall_forall in IH.
  assert (M : mapM (qbx_pre name) cs = Ok cs) by (apply mapM_id; intros x Hx; apply IH; [exact Hx|]; eapply settled_child; eauto).
  destruct (SymProofs.head_dec h) as [(g & ->)|N].
  2:{ rewrite qbx_pre_other by exact N. rewrite M. reflexivity. }
  cbn [qbx_pre]. destruct (opt_eqb geom_eqb (geometry (g_src g)) (Some name)) eqn:Eg; cbn [negb]; [|reflexivity].
  apply opt_geom_eq in Eg. destruct H as (_ & _ & C & _). destruct (C g cs (occ_here _)) as (_ & _ & _ & Q).
  rewrite M. cbn [bind]. destruct (Q name Hin Eg) as [((S1 & S2) & L)|(S & L)].
  - assert (Es : is_self g = true) by (apply is_self_spec; split; congruence). rewrite Es.
    destruct L as [-> | ->]; reflexivity.
  - assert (Es : is_self g = false) by (apply is_self_false; intros [S1 S2]; apply S; split; congruence). rewrite Es.
    destruct L as [-> | [-> | ->]]; reflexivity.
Qed.
Lemma unreg_settled ps name e : settled ps e -> In PUnreg (map snd ps) -> unreg_pre name e = Ok e.
Proof.
  intros H Hin. induction e as [h cs IH] using sexpr_ind'. rewrite Forall_forall in IH.
  assert (M : mapM (unreg_pre name) cs = Ok cs) by (apply mapM_id; intros x Hx; apply IH; [exact Hx|]; eapply settled_child; eauto).
  destruct h; cbn [unreg_pre]; rewrite ?M; try reflexivity.
  destruct H as (_ & _ & C & _). destruct (C g cs (occ_here _)) as (_ & _ & U & _).
  rewrite (U Hin). cbn [one_sided bind]. unfold with_lim. rewrite <- (U Hin). destruct g. reflexivity.
Qed.
Lemma preprocess_settled ps ps' e : settled ps e -> incl ps' ps -> preprocess_all ps' e = Ok e.
Proof.
  intros H. induction ps' as [|[n p] ps' IH]; intros I; [reflexivity|]. cbn [preprocess_all].
  assert (E : preprocess_place (n, p) e = Ok e).
  { unfold preprocess_place. cbn [fst snd]. destruct p; try reflexivity.
    - eapply qbx_settled; [exact H|]. apply I. left. reflexivity.
    - eapply unreg_settled; [exact H|]. change PUnreg with (snd (n, PUnreg)). apply in_map. apply I. left. reflexivity. }
  rewrite E. cbn [bind]. apply IH. intros x Hx. apply I. right. exact Hx.
Qed.
Lemma size_child h cs c : In c cs -> (size c < size (Node h cs))%nat.
Proof.
  cbn [size]. induction cs as [|x cs IH]; intros []; cbn [fold_right].
  - subst x. lia.
  - specialize (IH H). lia.
Qed.
Lemma interp_settled ps fs e : settled ps e -> forall n, (size e <= n)%nat -> interp_pre n ps fs e = Ok e.
Proof.
  induction e as [h cs IH] using sexpr_ind'. rewrite Forall_forall in IH. intros H n Hn.
  destruct n as [|n]; [cbn in Hn; lia|].
  assert (M : mapM (interp_pre n ps fs) cs = Ok cs).
  { apply mapM_id. intros x Hx. apply IH; [exact Hx|eapply settled_child; eauto|]. pose proof (size_child h cs x Hx). lia. }
  destruct h; cbn [interp_pre]; rewrite ?M; try reflexivity.
  - assert (E : has_stage dd QUAD_STAGE2 = false).
    { destruct H as (_ & _ & _ & D). specialize (D _ _ _ (occ_here _)). unfold has_stage.
      destruct (opt_eqb stage_eqb (discr_stage dd) (Some QUAD_STAGE2)) eqn:E; [|reflexivity].
      apply (opt_eqb_eq _ stage_eqb_eq) in E. contradiction. }
    rewrite E. reflexivity.
  - destruct H as (_ & _ & C & _). destruct (C g cs (occ_here _)) as (S1 & S2 & _).
    destruct (discr_stage (g_tgt g)) eqn:Et; [|contradiction]. destruct (discr_stage (g_src g)) eqn:Es; [|contradiction]. reflexivity.
Qed.
Lemma prepare_settled ps ds dt e : settled ps e -> prepare_expr_exact ps ds dt e = Ok e.
Proof.
  intros H. unfold prepare_expr_exact. rewrite (target_settled ds dt H). cbn [bind].
  rewrite (preprocess_settled (ps' := ps) H (incl_refl _)). cbn [bind]. unfold interp. apply interp_settled; [exact H|lia].
Qed.

(** ** Binding keeps the numbers of operands right *)
Definition wf_node (h : head) (n : nat) : Prop :=
  match h with
  | HVar _ => n = 0
  | HCse _ _ | HInterp _ _ => n = 1
  | HSum => n <> 0
  | HIntG g => g_nd g = length (g_sks g) /\ n = g_nd g + length (g_kargs g) /\ g_nd g <> 0
  | _ => True
  end.
Lemma wf_here h cs : match h with
    | HVar _ => cs = []
    | HCse _ _ | HInterp _ _ => exists c : sexpr, cs = [c]
    | HSum => cs <> []
    | HIntG g => g_nd g = length (g_sks g) /\ length cs = (g_nd g + length (g_kargs g))%nat /\ g_nd g <> 0%nat
    | _ => True
    end <-> wf_node h (length cs).
Proof.
  destruct h; cbn; try tauto.
  - destruct cs; cbn; split; intros; congruence || lia || auto.
  - destruct cs; cbn; split; intros; congruence || lia || auto.
  - destruct cs as [|c [|? ?]]; cbn; split; try (intros (? & ?)); intros; try congruence; try lia; eauto.
  - destruct cs as [|c [|? ?]]; cbn; split; try (intros (? & ?)); intros; try congruence; try lia; eauto.
Qed.
Lemma wf_unfold h cs : well_formed (Node h cs) <-> wf_node h (length cs) /\ forall c, In c cs -> well_formed c.
Proof.
  split.
  - intros W. split; [apply wf_here; exact (W h cs (occ_here _))|]. intros c Hc. eapply well_formed_sub; [exact W|]. eapply occ_child; [exact Hc|apply occ_here].
  - intros [A B] h' cs' O. inversion O as [e1|h1 cs1 c e1 Hc Oc]; subst.
    + apply wf_here. exact A.
    + exact (B c Hc h' cs' Oc).
Qed.
Lemma wf_tag ds dt h n : wf_node (tag_head ds dt h) n <-> wf_node h n.
Proof. destruct h; reflexivity. Qed.
Lemma mapM_wf (f : sexpr -> result sexpr) cs cs' : mapM f cs = Ok cs' -> (forall c, In c cs -> well_formed c) ->
  (forall c c', In c cs -> well_formed c -> f c = Ok c' -> well_formed c') ->
  length cs' = length cs /\ forall c, In c cs' -> well_formed c.
Proof.
  revert cs'. induction cs as [|c cs IH]; intros cs' H W F; cbn [mapM] in H.
  - injection H as <-. split; [reflexivity|intros ? []].
  - destruct (f c) as [c1|] eqn:E; cbn [bind] in H; [|discriminate]. destruct (mapM f cs) as [cs1|] eqn:M; cbn [bind] in H; [|discriminate].
    injection H as <-. destruct (IH cs1 eq_refl) as [L A]; [intros x Hx; apply W; right; exact Hx|intros x y Hx; apply F; right; exact Hx|].
    split; [cbn; lia|]. intros x [<-|Hx]; [|exact (A x Hx)]. apply (F c c1); [left; reflexivity|apply W; left; reflexivity|exact E].
Qed.
Lemma tag_node_wf ds dt h cs e' : wf_node h (length cs) -> (forall c, In c cs -> well_formed c) -> tag_node ds dt h cs = Ok e' -> well_formed e'.
Proof.
  intros A B H. unfold tag_node in H.
  assert (D : tag_head ds dt h = tag_head ds dt h) by reflexivity.
  assert (G : well_formed (Node (tag_head ds dt h) cs)) by (apply wf_unfold; split; [apply wf_tag; exact A|exact B]).
  destruct (tag_head ds dt h) as [| | | | | | | | | | | | | | | | | |f t| | |]; try (injection H as <-; exact G).
  destruct cs as [|c [|? ?]]; try (injection H as <-; exact G). unfold new_interpolation in H.
  destruct (dd_eqb f t); [|injection H as <-; exact G].
  assert (Wc : well_formed c) by (apply B; left; reflexivity).
  destruct c as [[] ?]; try discriminate H; injection H as <-; exact Wc.
Qed.
Lemma loc_wf ds dt e : forall e', well_formed e -> loc_tag_exact ds dt e = Ok e' -> well_formed e'.
Proof.
  revert ds dt. induction e as [h cs IH] using sexpr_ind'. intros ds dt e' W H. cbn [loc_tag_exact] in H. apply wf_unfold in W. destruct W as [A B].
  destruct (mapM (loc_tag_exact ds dt) cs) as [cs'|] eqn:M; cbn [bind] in H; [|discriminate].
  rewrite Forall_forall in IH. destruct (mapM_wf _ _ M B) as [L C]; [intros c c' Hc Wc; apply (IH c Hc ds dt c' Wc)|].
  eapply tag_node_wf; [rewrite L; exact A|exact C|exact H].
Qed.
Lemma target_wf ds dt e : forall e', well_formed e -> to_target_tag_exact ds dt e = Ok e' -> well_formed e'.
Proof.
  revert ds dt. induction e as [h cs IH] using sexpr_ind'. intros ds dt e' W H. apply wf_unfold in W. destruct W as [A B].
  rewrite Forall_forall in IH.
  assert (G : (do cs' <- mapM (to_target_tag_exact ds dt) cs; tag_node ds dt h cs') = Ok e' -> well_formed e').
  { clear H. intros H. destruct (mapM (to_target_tag_exact ds dt) cs) as [cs'|] eqn:M; cbn [bind] in H; [|discriminate].
    destruct (mapM_wf _ _ M B) as [L C]; [intros c c' Hc Wc; apply (IH c Hc ds dt c' Wc)|].
    eapply tag_node_wf; [rewrite L; exact A|exact C|exact H]. }
  destruct h; cbn [to_target_tag_exact] in H; try exact (G H).
  destruct (mapM (loc_tag_exact ds ds) cs) as [cs'|] eqn:M; cbn [bind] in H; [|discriminate].
  destruct (mapM_wf _ _ M B) as [L C]; [intros c c' Hc Wc; apply loc_wf; exact Wc|].
  eapply tag_node_wf; [rewrite L; exact A|exact C|exact H].
Qed.
Lemma wf_intg g g' n : g_nd g' = g_nd g -> g_sks g' = g_sks g -> g_kargs g' = g_kargs g -> wf_node (HIntG g) n -> wf_node (HIntG g') n.
Proof. intros E1 E2 E3. cbn. rewrite E1, E2, E3. auto. Qed.
Lemma qbx_wf name e : forall e', well_formed e -> qbx_pre name e = Ok e' -> well_formed e'.
Proof.
  induction e as [h cs IH] using sexpr_ind'. intros e' W H. pose proof W as W0. apply wf_unfold in W. destruct W as [A B].
  rewrite Forall_forall in IH.
  assert (G : forall cs', mapM (qbx_pre name) cs = Ok cs' -> length cs' = length cs /\ forall c, In c cs' -> well_formed c).
  { intros cs' M. eapply mapM_wf; eauto. }
  destruct (SymProofs.head_dec h) as [(g & ->)|N].
  2:{ rewrite qbx_pre_other in H by exact N. destruct (mapM (qbx_pre name) cs) as [cs'|] eqn:M; cbn [bind] in H; [|discriminate].
      injection H as <-. destruct (G _ eq_refl) as [L C]. apply wf_unfold. rewrite L. auto. }
  cbn [qbx_pre] in H. destruct (negb (opt_eqb geom_eqb (geometry (g_src g)) (Some name))); [injection H as <-; exact W0|].
  assert (P : forall cs', mapM (qbx_pre name) cs = Ok cs' -> forall l, well_formed (Node (HIntG (with_lim g l)) cs')).
  { intros cs' M l. destruct (G _ M) as [L C]. apply wf_unfold. rewrite L. split; [|exact C]. revert A. apply wf_intg; reflexivity. }
  assert (Pg : forall cs', mapM (qbx_pre name) cs = Ok cs' -> well_formed (Node (HIntG g) cs')).
  { intros cs' M. destruct (G _ M) as [L C]. apply wf_unfold. rewrite L. auto. }
  assert (K : (do cs' <- mapM (qbx_pre name) cs;
        if negb (is_self g) then
          if is_avg (g_lim g) || one_sided (g_lim g) then Err ValueError
          else Ok (Node (HIntG g) cs')
        else
          match g_lim g with
          | LNone => Err ValueError
          | LAvg => Ok (Node HProd [num qhalf; Node HSum
                          [Node (HIntG (with_lim g (LInt 1))) cs';
                           Node (HIntG (with_lim g (LInt (-1)))) cs']])
          | l => if two_sided l then Err ValueError else Ok (Node (HIntG g) cs')
          end) = Ok e' -> well_formed e').
  { clear H. intros H. destruct (mapM (qbx_pre name) cs) as [cs'|] eqn:M; cbn [bind] in H; [|discriminate].
    destruct (negb (is_self g)).
    - destruct (is_avg (g_lim g) || one_sided (g_lim g))%bool; [discriminate|]. injection H as <-. apply Pg. reflexivity.
    - destruct (g_lim g) as [| |z]; [discriminate| |].
      + injection H as <-. apply wf_unfold. split; [exact I|]. intros c [<-|[<-|[]]].
        * apply wf_unfold. split; [exact I|intros ? []].
        * apply wf_unfold. split; [cbn; lia|]. intros c [<-|[<-|[]]]; apply P; reflexivity.
      + destruct (two_sided (LInt z)); [discriminate|]. injection H as <-. apply Pg. reflexivity. }
  destruct (g_lim g) as [| |[| |]]; try exact (K H). discriminate H.
Qed.
Lemma unreg_wf name e : forall e', well_formed e -> unreg_pre name e = Ok e' -> well_formed e'.
Proof.
  induction e as [h cs IH] using sexpr_ind'. intros e' W H. apply wf_unfold in W. destruct W as [A B].
  rewrite Forall_forall in IH.
  assert (G : forall cs', mapM (unreg_pre name) cs = Ok cs' -> length cs' = length cs /\ forall c, In c cs' -> well_formed c).
  { intros cs' M. eapply mapM_wf; eauto. }
  assert (K : forall h', wf_node h' (length cs) -> (do cs' <- mapM (unreg_pre name) cs; Ok (Node h' cs')) = Ok e' -> well_formed e').
  { clear H. intros h' A' H. destruct (mapM (unreg_pre name) cs) as [cs'|] eqn:M; cbn [bind] in H; [|discriminate].
    injection H as <-. destruct (G _ eq_refl) as [L C]. apply wf_unfold. rewrite L. auto. }
  destruct h; cbn [unreg_pre] in H; try exact (K _ A H).
  destruct (one_sided (g_lim g)); [discriminate|]. refine (K _ _ H). revert A. apply wf_intg; reflexivity.
Qed.
Lemma preprocess_wf ps : forall e e', well_formed e -> preprocess_all ps e = Ok e' -> well_formed e'.
Proof.
  induction ps as [|[n p] ps IH]; intros e e' W H; cbn [preprocess_all] in H; [injection H as <-; exact W|].
  destruct (preprocess_place (n, p) e) as [e1|] eqn:E; cbn [bind] in H; [|discriminate]. apply (IH e1 e'); [|exact H].
  unfold preprocess_place in E. cbn [fst snd] in E.
  destruct p; [eapply qbx_wf; eauto|eapply unreg_wf; eauto|injection E as <-; exact W|injection E as <-; exact W].
Qed.
Lemma stage_tag_wf s e : well_formed e -> well_formed (stage_tag s e).
Proof.
  induction e as [h cs IH] using sexpr_ind'. intros W. pose proof W as W0. apply wf_unfold in W. destruct W as [A B].
  rewrite Forall_forall in IH.
  assert (K : forall h', (forall n, wf_node h n -> wf_node h' n) -> well_formed (Node h' (map (stage_tag s) cs))).
  { intros h' E. apply wf_unfold. rewrite map_length. split; [auto|]. intros c Hc. apply in_map_iff in Hc. destruct Hc as (x & <- & Hx). auto. }
  destruct h; cbn [stage_tag]; try (apply K; auto; fail).
  - destruct (has_stage dd s); [exact W0|]. apply wf_unfold. split; [exact I|exact B].
  - destruct (has_stage dd s); [exact W0|]. apply K. auto.
Qed.
Lemma interpolate_wf e f t e' : well_formed e -> interpolate e f t = Ok e' -> well_formed e'.
Proof.
  unfold interpolate. intros W H. destruct (dd_eqb f t); [injection H as <-; exact W|]. destruct (gran_eqb (granularity t) CENTER); [discriminate|].
  injection H as <-. apply wf_unfold. split; [reflexivity|]. intros c [<-|[]]. exact W.
Qed.
Lemma interp_wf ps fs : forall n e e', well_formed e -> interp_pre n ps fs e = Ok e' -> well_formed e'.
Proof.
  induction n as [|n IH]; intros [h cs] e' W H; [discriminate|]. pose proof W as W0. apply wf_unfold in W. destruct W as [A B].
  assert (K : (do cs' <- mapM (interp_pre n ps fs) cs; Ok (Node h cs')) = Ok e' -> well_formed e').
  { clear H. intros H. destruct (mapM (interp_pre n ps fs) cs) as [cs'|] eqn:M; cbn [bind] in H; [|discriminate].
    injection H as <-. destruct (mapM_wf _ _ M B) as [L C]; [intros c c' _; apply IH|]. apply wf_unfold. rewrite L. auto. }
  destruct h; cbn [interp_pre] in H; try exact (K H).
  - destruct (negb (has_stage dd QUAD_STAGE2)); [injection H as <-; exact W0|].
    destruct (get_geometry ps (geometry dd)) as [p|]; cbn [bind] in H; [|discriminate].
    destruct p; try (injection H as <-; exact W0).
    destruct (interp_pre n ps fs (stage_tag fs (Node (HNumRefDer axes dd) cs))) as [e1|] eqn:E; cbn [bind] in H; [|discriminate].
    eapply interpolate_wf; [|exact H]. eapply IH; [|exact E]. apply stage_tag_wf. exact W0.
  - set (g1 := match discr_stage (g_tgt g) with None => with_tgt g (set_stage (g_tgt g) STAGE1) | Some _ => g end) in H.
    assert (A1 : wf_node (HIntG g1) (length cs)) by (revert A; subst g1; destruct (discr_stage (g_tgt g)); [auto|apply wf_intg; reflexivity]).
    assert (W1 : well_formed (Node (HIntG g1) cs)) by (apply wf_unfold; auto). clearbody g1. clear A W0.
    cbv zeta in H. destruct (discr_stage (g_src g1)); [injection H as <-; exact W1|].
    destruct (get_geometry ps (geometry (g_src g1))) as [p|]; cbn [bind] in H; [|discriminate].
    destruct p; try (injection H as <-; exact W1).
    set (from_dd := set_stage (g_src g1) STAGE1) in *. set (to_dd := set_stage from_dd QUAD_STAGE2) in *.
    match type of H with (do ds <- ?M1; do ks <- ?M2; _) = _ => destruct M1 as [ds|] eqn:M1e; cbn [bind] in H; [|discriminate];
      destruct M2 as [ks|] eqn:M2e; cbn [bind] in H; [|discriminate] end.
    injection H as <-.
    assert (I1 : forall c, In c (firstn (g_nd g1) cs) -> In c cs) by (intros c Hc; rewrite <- (firstn_skipn (g_nd g1) cs); apply in_or_app; left; exact Hc).
    assert (I2 : forall c, In c (skipn (g_nd g1) cs) -> In c cs) by (intros c Hc; rewrite <- (firstn_skipn (g_nd g1) cs); apply in_or_app; right; exact Hc).
    destruct (mapM_wf _ _ M1e) as [L1 C1]; [auto| |].
    { intros c c' _ Wc Hc. destruct (interp_pre n ps fs c) as [c1|] eqn:E; cbn [bind] in Hc; [|discriminate]. eapply interpolate_wf; [|exact Hc]. eapply IH; eauto. }
    destruct (mapM_wf _ _ M2e) as [L2 C2]; [auto| |].
    { assert (F : forall c c', well_formed c -> (do c1 <- interp_pre n ps fs (stage_tag fs c); interpolate c1 (set_stage from_dd fs) to_dd) = Ok c' -> well_formed c').
      { intros c c' Wc Hc. destruct (interp_pre n ps fs (stage_tag fs c)) as [c1|] eqn:E; cbn [bind] in Hc; [|discriminate].
        eapply interpolate_wf; [|exact Hc]. eapply IH; [|exact E]. apply stage_tag_wf. exact Wc. }
      intros c c' _ Wc Hc. destruct c as [hc cc]. destruct hc; cbn [componentwise] in Hc; try exact (F _ _ Wc Hc).
      destruct (mapM (fun c0 => do c1 <- interp_pre n ps fs (stage_tag fs c0); interpolate c1 (set_stage from_dd fs) to_dd) cc) as [cc'|] eqn:M; cbn [bind] in Hc; [|discriminate].
      injection Hc as <-. apply wf_unfold in Wc. destruct Wc as [_ Bc]. destruct (mapM_wf _ _ M Bc) as [_ C]; [intros x y _; apply F|].
      apply wf_unfold. split; [exact I|exact C]. }
    apply wf_unfold. split.
    + rewrite app_length, L1, L2, <- app_length, firstn_skipn. revert A1. apply wf_intg; reflexivity.
    + intros c Hc. apply in_app_or in Hc. destruct Hc; auto.
Qed.
Lemma bind_wf ps ds dt e e' : well_formed e -> prepare_expr_exact ps ds dt e = Ok e' -> well_formed e'.
Proof.
  intros W H. unfold prepare_expr_exact in H.
  destruct (to_target_tag_exact ds dt e) as [e1|] eqn:E1; cbn [bind] in H; [|discriminate].
  destruct (preprocess_all ps e1) as [e2|] eqn:E2; cbn [bind] in H; [|discriminate].
  eapply interp_wf; [|exact H]. eapply preprocess_wf; [|exact E2]. eapply target_wf; eauto.
Qed.

(** ** Values depend on the variables that occur *)
Lemma seval_ext (V : Type) (J : head -> list V -> result V) c c' e :
  (forall n cs, occurs e (Node (HVar n) cs) -> c n = c' n) -> seval J c e = seval J c' e.
Proof.
  induction e as [h cs IH] using sexpr_ind'. intros H. rewrite Forall_forall in IH.
  assert (M : mapM (seval J c) cs = mapM (seval J c') cs).
  { clear -IH H. assert (G : forall x, In x cs -> seval J c x = seval J c' x).
    { intros x Hx. apply IH; [exact Hx|]. intros n cs' O. apply (H n cs'). eapply occ_child; eauto. }
    clear IH H. induction cs as [|x cs IH]; [reflexivity|]. cbn [mapM]. rewrite (G x (or_introl eq_refl)).
    destruct (seval J c' x); cbn [bind]; [|reflexivity]. rewrite IH; [reflexivity|]. intros y Hy. apply G. right. exact Hy. }
  destruct h; cbn [seval]; rewrite ?M; try reflexivity. rewrite (H n cs (occ_here _)). reflexivity.
Qed.

Lemma path_occurs e p x : at_path e p = Some x -> occurs e x.
Proof.
  revert e. induction p as [|i p IH]; intros [h cs] H; cbn [at_path sexpr_children] in H.
  - injection H as <-. apply occ_here.
  - destruct (nth_error cs i) as [c|] eqn:E; [|discriminate]. eapply occ_child; [eapply nth_error_In; exact E|apply IH; exact H].
Qed.
