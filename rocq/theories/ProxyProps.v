(** C40: expressions for proxy interactions. *)
From Verif Require Import Base DofModel SymModel SymSpec SymProofs SymProofs2 ProxyModel ProxySpec ProxyProofs ProxyProofs2.
From Coq Require Import QArith_base.
Set Implicit Arguments.

(** In every arithmetic interpretation, the prepared expression is exactly the sum of
    the prepared layer potentials, each with its constant weights. *)
Theorem proxy_keeps_weighted_potentials :
  forall bargs ds dt e ts e' (R : cring) (J : head -> list (cr R) -> cr R) phi,
  combination e ts -> ~ operator_free e -> prepare_proxy bargs ds dt e = Ok e' ->
  arithmetic_interpretation R J ->
  (forall g cs n', prepare_proxy bargs ds dt (Node (HIntG g) cs) = Ok n' ->
     phi (Node (HIntG g) cs) = value J n') ->
  value J e' = weighted_sum R J phi ts.
Proof.
  intros bargs ds dt e ts e' R J phi C NF E HJ HP.
  destruct (collect_combination C) as (e1 & E1 & Hi & Hv).
  destruct (Hv (proj2 (has_intg_true e) NF)) as [G V].
  unfold prepare_proxy in E. rewrite E1 in E. cbn [bind] in E.
  destruct (remove_transf bargs e1) as [e2|] eqn:E2; cbn [bind] in E; [|discriminate].
  assert (X : e' = replace_dd ds dt e2) by congruence. subst e'.
  rewrite <- (V R J phi HJ).
  apply (@remove_value R J bargs ds dt phi); [|exact G|exact E2].
  intros g cs n' En. apply HP. unfold prepare_proxy. cbn [collect bind]. rewrite En. reflexivity.
Qed.

(** A sum without layer potentials becomes 0. *)
Theorem proxy_drops_other_terms : forall bargs ds dt cs,
  operator_free (Node HSum cs) -> prepare_proxy bargs ds dt (Node HSum cs) = Ok (num q0).
Proof.
  intros bargs ds dt cs F. unfold prepare_proxy. cbn [collect].
  assert (Y : exists cs', mapM collect cs = Ok cs' /\ Forall (fun c' => has_intg c' = false) cs').
  { apply mapM_total'. intros c Hc. apply collect_free. eapply free_child; eauto. }
  destruct Y as (cs' & E & N). rewrite E. rewrite Forall_forall in N. cbn [bind].
  rewrite (filter_none _ _ N). reflexivity.
Qed.

(** A prepared layer potential has no derivatives, the requested source and target, and
    the same base kernels, densities' number and limit. *)
Theorem proxy_layer_potential : forall bargs ds dt g cs e',
  prepare_proxy bargs ds dt (Node (HIntG g) cs) = Ok e' ->
  exists g' cs', e' = Node (HIntG g') cs'
    /\ g_src g' = ds /\ g_tgt g' = dt /\ g_lim g' = g_lim g /\ g_nd g' = g_nd g
    /\ has_target_derivative (g_tk g') = false /\ base_kernel (g_tk g') = base_kernel (g_tk g)
    /\ Forall2 (fun k k' => has_source_derivative k' = false /\ base_kernel k' = base_kernel k) (g_sks g) (g_sks g')
    /\ (has_source_derivative (g_tk g) = false -> g_tk g' = KBase (base_kernel (g_tk g)))
    /\ (Forall (fun k => has_target_derivative k = false) (g_sks g) ->
          g_sks g' = map (fun k => KBase (base_kernel k)) (g_sks g)).
Proof.
  intros bargs ds dt g cs e' E. unfold prepare_proxy in E. cbn [collect bind] in E.
  destruct (remove_transf bargs _) as [e2|] eqn:E2; cbn [bind] in E; [|discriminate].
  assert (X : e' = replace_dd ds dt e2) by congruence. subst e'.
  destruct (remove_intg _ _ _ E2) as (g' & cs' & -> & A & B & C & D & _ & _ & _).
  cbn [replace_dd replace_head]. eexists _, _. split; [reflexivity|].
  cbn [g_src g_tgt g_lim g_nd g_tk g_sks]. rewrite A, B.
  destruct (strip_target_ok (g_tk g)) as (S1 & S2 & S3).
  repeat split; auto.
  - clear. induction (g_sks g) as [|k l IH]; cbn [map]; constructor; [|exact IH].
    destruct (strip_source_ok k) as (P & Q & _). auto.
  - intros F. apply map_ext_in. intros k Hk. rewrite Forall_forall in F.
    apply strip_source_ok. auto.
Qed.

(** The preparation succeeds for layer potentials as users build them, without
    directional target derivatives; a product of two operators is rejected. *)
Theorem proxy_succeeds : forall bargs ds dt e ts,
  combination e ts ->
  (forall g cs, occurs e (Node (HIntG g) cs) ->
     strippable bargs g /\ has_dir_target (g_tk g) = false
     /\ length (g_kargs g) = length (skipn (g_nd g) cs)) ->
  exists e', prepare_proxy bargs ds dt e = Ok e'.
Proof.
  intros bargs ds dt e ts C H. destruct (collect_combination C) as (e1 & E1 & _).
  unfold prepare_proxy. rewrite E1. cbn [bind].
  destruct (@remove_ok bargs e1) as [e2 E2].
  - intros g cs Ho. apply H. eapply collect_occurs; eauto.
  - rewrite E2. cbn. eauto.
Qed.
Theorem proxy_rejects_operator_products : forall bargs ds dt g cs g' cs',
  prepare_proxy bargs ds dt (Node HProd [Node (HIntG g) cs; Node (HIntG g') cs']) = Err RuntimeError.
Proof. reflexivity. Qed.

(** Replacing locations: node types, operands and all other attributes are kept, the
    descriptors are as specified. *)
Theorem proxy_locations : forall ds dt e p h cs, at_path e p = Some (Node h cs) ->
  exists h' cs', at_path (replace_dd ds dt e) p = Some (Node h' cs')
    /\ length cs' = length cs /\ blank h' = blank h
    /\ Forall (fun rd => replaced ds dt h (fst rd) (snd rd)) (locations h').
Proof.
  intros ds dt e p h cs H. eexists _, _. split; [apply replace_path; exact H|].
  split; [apply map_length|]. split; [destruct h; reflexivity|].
  destruct h; cbn; repeat constructor; cbn.
  unfold fill. intros E. rewrite E. cbn. destruct (geometry dt); [reflexivity|exact E].
Qed.

(** ** Non-vacuity *)
Definition ss : sexpr := Node (HVar "sigma") [].
Definition d0 : dofdesc := DD None None NODE.
Definition dlp' (dens : sexpr) : sexpr :=
  Node (HIntG (IntG (KBase 0) [KDirSrc "n" (KBase 0)] 1 LAvg d0 d0 ["n"%string])) [dens; Node (HNodeCoord 0 d0) []].
Definition slp' (dens : sexpr) : sexpr := Node (HIntG (IntG (KBase 0) [KBase 0] 1 LAvg d0 d0 [])) [dens].
Definition nb (_ : nat) : list string := [].
Definition ps : dofdesc := DD (Some (GName "p")) None NODE.
Definition pt : dofdesc := DD (Some (GName "q")) None NODE.
Definition c12 : Q := 1%Z # 2.
Definition op : sexpr := Node HSum [Node HProd [num c12; ss]; Node HProd [ss; num c12; dlp' ss]].

Lemma free_ss : operator_free ss.
Proof. apply has_intg_false. reflexivity. Qed.
Example ex_combination : combination op [([c12], dlp' ss)] /\ ~ operator_free op.
Proof.
  split.
  - apply (@cb_sum _ [[]; [([c12], dlp' ss)]]). repeat constructor.
    + apply has_intg_false. reflexivity.
    + apply (@cb_prod [ss; num c12] (dlp' ss) [] [([], dlp' ss)]).
      * apply cb_intg.
      * apply has_intg_true. reflexivity.
      * repeat constructor; apply has_intg_false; reflexivity.
      * repeat constructor. discriminate.
  - apply has_intg_true. reflexivity.
Qed.
Example ex_prepared :
  prepare_proxy nb ps pt op
  = Ok (Node HProd [num c12; Node (HIntG (IntG (KBase 0) [KBase 0] 1 LAvg ps pt [])) [ss]]).
Proof. reflexivity. Qed.
Example ex_strippable : forall g cs, occurs op (Node (HIntG g) cs) ->
     strippable nb g /\ has_dir_target (g_tk g) = false
     /\ length (g_kargs g) = length (skipn (g_nd g) cs).
Proof.
  intros g cs H.
  repeat (apply occurs_inv in H; destruct H as [H|(c & Hc & H)];
    [try discriminate; inversion H; subst; clear H|
     cbn in Hc; repeat (destruct Hc as [<-|Hc]; [|try contradiction]); try contradiction]);
  try (repeat split; try (constructor; [reflexivity|constructor]);
       [cbn; intros k [<-|[]]; reflexivity|cbn; auto]; fail);
  repeat (apply occurs_inv in H; destruct H as [H|(c & Hc & H)];
    [try discriminate; inversion H; subst; clear H|
     cbn in Hc; repeat (destruct Hc as [<-|Hc]; [|try contradiction]); try contradiction]);
  try (repeat split; try (constructor; [reflexivity|constructor]);
       [cbn; intros k [<-|[]]; reflexivity|cbn; auto]; fail).
Qed.

(** ** Refutations *)
(** Terms that are not operators disappear only inside sums: on their own they stay, and
    products lose their non-constant factors; likewise for denominators. *)
Theorem proxy_only_potentials_refuted :
  prepare_proxy nb ps pt ss = Ok ss
  /\ prepare_proxy nb ps pt (Node HProd [num c12; ss]) = Ok (num c12)
  /\ prepare_proxy nb ps pt (Node HQuot [slp' ss; Node HProd [ss; ss]])
     = Ok (Node HQuot [Node (HIntG (IntG (KBase 0) [KBase 0] 1 LAvg ps pt [])) [ss]; num q1]).
Proof. repeat split. Qed.

(** A layer potential in the density of one without derivatives keeps its derivatives. *)
Theorem proxy_strips_every_potential_refuted :
  exists e' g cs, prepare_proxy nb ps pt (slp' (dlp' ss)) = Ok e'
    /\ occurs e' (Node (HIntG g) cs) /\ existsb has_source_derivative (g_sks g) = true.
Proof.
  eexists _, _, _. split; [reflexivity|]. split.
  - eapply occurs_child; [left; reflexivity|]. apply occ_here.
  - reflexivity.
Qed.

(** What is inside a density is moved to the targets, not to the sources. *)
Theorem proxy_density_locations_refuted :
  prepare_proxy nb ps pt (slp' (Node (HOnes d0) []))
  = Ok (Node (HIntG (IntG (KBase 0) [KBase 0] 1 LAvg ps pt [])) [Node (HOnes pt) []])
  /\ to_target_tag ps pt (slp' (Node (HOnes d0) []))
  = Node (HIntG (IntG (KBase 0) [KBase 0] 1 LAvg ps pt [])) [Node (HOnes ps) []].
Proof. split; reflexivity. Qed.

(** Directional target derivatives cannot be prepared: their vector is left over. *)
Theorem proxy_directional_target_refuted :
  let g := IntG (KDirTgt "t" (KBase 0)) [KBase 0] 1 LAvg d0 d0 ["t"%string] in
  check_kargs nb g = true
  /\ prepare_proxy nb ps pt (Node (HIntG g) [ss; ss]) = Err ValueError.
Proof. split; reflexivity. Qed.

Print Assumptions proxy_keeps_weighted_potentials.
Print Assumptions proxy_drops_other_terms.
Print Assumptions proxy_layer_potential.
Print Assumptions proxy_succeeds.
Print Assumptions proxy_rejects_operator_products.
Print Assumptions proxy_locations.
Print Assumptions proxy_only_potentials_refuted.
Print Assumptions proxy_strips_every_potential_refuted.
Print Assumptions proxy_density_locations_refuted.
Print Assumptions proxy_directional_target_refuted.
