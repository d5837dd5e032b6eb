(** C57, C58: the executors of the unregularized source. *)
From Coq Require Import QArith Permutation.
From Verif Require Import Base SymProofs SymProofs2 RefineModel RefineSpec AssocModel AssocSpec AssocProps FmmModel FmmSpec FmmProofs FmmProofs2 FmmProofs3 FmmProofs4 FmmProps UnregModel.
Set Implicit Arguments.
Open Scope nat_scope.

(** * Specification *)

(** Each output gets, under its own name, the full potential of its own kernel at each of the
    points [pts] of its own target, evaluated without expansions about centers; [P] is the list
    of points target numbers refer to. *)
Definition unreg_value (nsrc : nat) (P : list pt) (o : output) (pts : list pt) (r : string * list (list contr)) : Prop :=
  fst r = o_name o /\ length (snd r) = length pts
  /\ forall i, i < length pts -> exists u, u < length P /\ nth_pt P u = nth_pt pts i
       /\ Permutation (nth i (snd r) []) (full_potential (o_knl o) (seq 0 nsrc) nsrc Point u).
(** The points a target name denotes. *)
Definition denotes (place : nat -> result ugeom) (stage_of : nat -> option stage) (t : nat) (pts : list pt) : Prop :=
  match place t with
  | Ok (UPoints x) => pts = x
  | Ok (UDiscr x) => pts = x
  | Ok (ULpot f) => pts = f (stage_of t)
  | Err _ => False
  end.
(** The points boxes and lists have to be built for: those of every distinct target, once each. *)
Definition gathered (place : nat -> result ugeom) (stage_of : nat -> option stage) (outs : list output) (P : list pt) : Prop :=
  exists ts xs, NoDup ts /\ (forall t, In t ts <-> exists o, In o outs /\ o_tgt o = t)
    /\ Forall2 (denotes place stage_of) ts xs /\ P = concat xs.
Definition fmm_contract_at (nsrc : nat) (fmm : list pt -> ftree * ftrav) (x : list pt) : Prop :=
  fmm_ok (fst (fmm x)) (snd (fmm x)) /\ ft_ntgt (fst (fmm x)) = length x /\ ft_nsrc (fst (fmm x)) = nsrc.
Definition fmm_contract (nsrc : nat) (fmm : list pt -> ftree * ftrav) : Prop :=
  forall x, fmm_contract_at nsrc fmm x.

(** * Direct *)
Theorem unreg_direct_outputs place stage_of nsrc nknl outs :
  (forall o, In o outs -> (exists g, place (o_tgt o) = Ok g) /\ o_knl o < nknl) ->
  exists res, unreg_direct place stage_of nsrc nknl outs = Ok res
    /\ Forall2 (fun o r => exists pts, denotes place stage_of (o_tgt o) pts /\ unreg_value nsrc pts o pts r) outs res.
Proof.
  induction outs as [|o outs IH]; intros H; [exists []; split; [reflexivity|constructor]|].
  destruct IH as (res & E & F); [intros o' I; apply H; right; exact I|]. destruct (H o (or_introl eq_refl)) as ((g & G) & K).
  unfold unreg_direct in *. cbn [mapM]. rewrite G. cbn [bind]. apply Nat.ltb_lt in K. rewrite K. cbn [bind]. rewrite E. cbn [bind]. eexists. split; [reflexivity|]. constructor; [|exact F].
  exists (target_or_discr g (stage_of (o_tgt o))). split; [unfold denotes; rewrite G; destruct g; reflexivity|]. split; [reflexivity|]. cbn [snd]. unfold p2p. split; [rewrite map_length; apply seq_length|].
  intros i I. exists i. split; [exact I|]. split; [reflexivity|]. rewrite nth_map_seq by exact I. rewrite <- eval_map_full. unfold all_sources.
  rewrite map_ext_in with (g := fun s => (nth s (seq 0 nsrc) 0, s)); [apply Permutation_refl|]. intros s Hs. apply in_seq in Hs. rewrite seq_nth by lia. reflexivity.
Qed.
Print Assumptions unreg_direct_outputs.

(** It succeeds only then. *)
Theorem unreg_direct_succeeds place stage_of nsrc nknl outs :
  (exists res, unreg_direct place stage_of nsrc nknl outs = Ok res)
  <-> forall o, In o outs -> (exists g, place (o_tgt o) = Ok g) /\ o_knl o < nknl.
Proof.
  split; [|intros H; destruct (@unreg_direct_outputs place stage_of nsrc nknl outs H) as (res & E & _); eauto].
  intros (res & E) o I. apply mapM_Ok_inv in E. destruct (Forall2_In_l E I) as (r & _ & R). apply bind_Ok in R. destruct R as (g & G & R).
  destruct (o_knl o <? nknl) eqn:K; [|discriminate]. split; [eauto|apply Nat.ltb_lt; exact K].
Qed.
Print Assumptions unreg_direct_succeeds.

(** * FMM *)
Section Gather.
Variable place : nat -> result ugeom.
Definition uinv (d : list (nat * nat)) (gs : list ugeom) : Prop :=
  map snd d = seq 0 (length d) /\ length gs = length d
  /\ (forall k, k < length d -> exists g, nth_error gs k = Some g /\ place (fst (nth k d (0, 0))) = Ok g)
  /\ NoDup (map fst d).
Lemma find_none d t : find (fun e : nat * nat => fst e =? t) d = None -> ~ In t (map fst d).
Proof.
  intros F I. apply in_map_iff in I. destruct I as (e & E & I). apply find_none with (x := e) in F; [|exact I]. rewrite E, Nat.eqb_refl in F. discriminate.
Qed.
Lemma unreg_gather_ok outs : forall d gs, uinv d gs ->
  (forall o, In o outs -> (exists g, place (o_tgt o) = Ok g) /\ match o_limit o with Some z => Z.abs z <> 1%Z | None => True end) ->
  exists d' gs', unreg_gather place outs d gs = Ok (d', gs') /\ uinv d' gs' /\ incl (map fst d) (map fst d')
    /\ (forall o, In o outs -> In (o_tgt o) (map fst d')) /\ (forall t, In t (map fst d') -> In t (map fst d) \/ exists o, In o outs /\ o_tgt o = t).
Proof.
  induction outs as [|o outs IH]; intros d gs U H; cbn [unreg_gather].
  - exists d, gs. split; [reflexivity|]. split; [exact U|]. split; [apply incl_refl|]. split; [contradiction|auto].
  - destruct (H o (or_introl eq_refl)) as ((g & G) & L).
    assert (C : match o_limit o with Some z => (Z.abs z =? 1)%Z | None => false end = false) by (destruct (o_limit o); [apply Z.eqb_neq; exact L|reflexivity]). rewrite C.
    assert (H' : forall o', In o' outs -> (exists g, place (o_tgt o') = Ok g) /\ match o_limit o' with Some z => Z.abs z <> 1%Z | None => True end) by (intros o' I; apply H; right; exact I).
    destruct (find (fun e => fst e =? o_tgt o) d) as [e|] eqn:F.
    + destruct (IH d gs U H') as (d' & gs' & E & U' & IN & A & B). exists d', gs'. split; [exact E|]. split; [exact U'|]. split; [exact IN|]. split.
      * intros o' [<- | I]; [|apply A; exact I]. apply IN. apply find_some in F. destruct F as (I & E0). apply Nat.eqb_eq in E0. rewrite <- E0. apply in_map. exact I.
      * intros t I. destruct (B t I) as [X|(o' & X & Y)]; [auto|]. right. exists o'. split; [right; exact X|exact Y].
    + rewrite G. cbn [bind]. destruct U as (U1 & U2 & U3 & U4).
      assert (U' : uinv (d ++ [(o_tgt o, length gs)]) (gs ++ [g])).
      { unfold uinv. split; [|split; [|split]].
        - rewrite map_app, app_length, U1, U2. cbn [map snd length]. rewrite seq_app. reflexivity.
        - rewrite !app_length, U2. reflexivity.
        - intros k K. rewrite app_length in K. cbn in K. destruct (Nat.eq_dec k (length d)) as [->|N].
          + exists g. rewrite <- U2 at 1. rewrite nth_error_app2, Nat.sub_diag by lia. rewrite app_nth2, Nat.sub_diag by lia. split; [reflexivity|exact G].
          + rewrite nth_error_app1 by lia. rewrite app_nth1 by lia. apply U3. lia.
        - rewrite map_app. cbn [map fst]. apply NoDup_Add with (a := o_tgt o) (l := map fst d); [rewrite <- (app_nil_r (map fst d)) at 1; apply Add_app|].
          split; [exact U4|apply find_none; exact F]. }
      destruct (IH _ _ U' H') as (d' & gs' & E & U'' & IN & A & B). exists d', gs'. split; [exact E|]. split; [exact U''|]. rewrite map_app in IN. split; [intros t I; apply IN; apply in_app_iff; auto|]. split.
      * intros o' [<- | I]; [|apply A; exact I]. apply IN. apply in_app_iff. right. left. reflexivity.
      * intros t I. destruct (B t I) as [X|(o' & X & Y)]; [|right; exists o'; split; [right; exact X|exact Y]]. rewrite map_app in X. apply in_app_iff in X. destruct X as [X|[X|[]]]; [auto|].
        right. exists o. split; [left; reflexivity|exact X].
Qed.
End Gather.

(** Both give the right values for point and discretization targets, so they agree. *)
Theorem unreg_fmm_outputs place stage_of nsrc nknl fmm outs :
  (forall o, In o outs -> (exists x, place (o_tgt o) = Ok (UPoints x) \/ place (o_tgt o) = Ok (UDiscr x)) /\ o_knl o < nknl
      /\ match o_limit o with Some z => Z.abs z <> 1%Z | None => True end) ->
  exists P, gathered place stage_of outs P /\
    (fmm_contract_at nsrc fmm P ->
     exists res, unreg_fmm place nsrc nknl fmm outs = Ok res
    /\ Forall2 (fun o r => exists pts, denotes place stage_of (o_tgt o) pts /\ unreg_value nsrc P o pts r) outs res).
Proof.
  intros H. destruct (@unreg_gather_ok place outs [] []) as (d & gs & G & (U1 & U2 & U3 & U4) & _ & A & B).
  { unfold uinv. cbn. split; [reflexivity|]. split; [reflexivity|]. split; [intros; lia|constructor]. }
  { intros o I. destruct (H o I) as ((x & X) & _ & L). split; [destruct X; eauto|exact L]. }
  assert (ND : exists xs, mapM nodes_of gs = Ok xs).
  { apply mapM_total. intros g Ig. apply In_nth_error in Ig. destruct Ig as (k & Ek). assert (K : k < length d) by (rewrite <- U2; apply nth_error_Some; congruence).
    destruct (U3 k K) as (g' & Eg & Pg). assert (g' = g) by congruence. subst g'.
    destruct (B (fst (nth k d (0, 0)))) as [[]|(o & Io & Eo)]; [apply in_map; apply nth_In; exact K|]. destruct (H o Io) as ((x & X) & _). rewrite Eo in X. rewrite Pg in X.
    destruct X as [X|X]; injection X as ->; cbn; eauto. }
  destruct ND as (xs & NX). unfold unreg_fmm. rewrite G. cbn [bind]. rewrite NX. cbn [bind].
  set (ts := map (fun x => (x, 0%Z)) xs). set (P := target_points [] ts).
  assert (LP : length P = total ts) by (unfold P; rewrite target_points_eq; cbn [app]; apply total_concat).
  exists P. split.
  { exists (map fst d), xs. split; [exact U4|]. split.
    { intros t. split; [intros I; destruct (B t I) as [[]|(o & X & Y)]; eauto|intros (o & X & <-); apply A; exact X]. }
    split; [|unfold P; rewrite target_points_eq; cbn [app]; unfold ts; rewrite map_map; cbn [fst]; rewrite map_id; reflexivity].
    apply mapM_Ok_inv in NX. apply Forall2_intro_nth; [rewrite map_length, <- U2; exact (Forall2_len NX)|].
    intros k t x Et Ex. rewrite nth_error_map in Et. destruct (nth_error d k) as [e|] eqn:Ed; [|discriminate]. cbn in Et. injection Et as <-.
    assert (K : k < length d) by (apply nth_error_Some; congruence). destruct (U3 k K) as (g & Eg & Pg).
    rewrite (nth_error_nth _ _ (0, 0) Ed) in Pg. destruct (Forall2_nth_error _ NX Eg) as (x' & Ex' & Nx). assert (x' = x) by congruence. subst x'.
    unfold denotes. rewrite Pg. destruct g; cbn in Nx; try discriminate; injection Nx as ->; reflexivity. }
  intros FC. destruct FC as (OK & NT & NS). destruct (fmm P) as [T V]. cbn [fst snd] in OK, NT, NS.
  assert (TT : ttc_ok 0 (ft_ntgt T) (repeat (-1)%Z (length P))).
  { rewrite NT. split; [apply repeat_length|]. split; [lia|]. split; [intros; lia|]. intros u _ U. left. rewrite nth_indep with (d' := (-1)%Z) by (rewrite repeat_length; exact U). apply nth_rep. }
  set (pots := drive_fmm T V 0 (repeat (-1)%Z (length P)) (seq 0 nsrc) nknl).
  assert (LX : length xs = length gs) by (apply (mapM_length _ _ NX)). apply mapM_Ok_inv in NX.
  assert (Q : forall o, In o outs -> exists r pts, match find (fun e => fst e =? o_tgt o) d with
      | None => Err KeyError
      | Some (_, n) => match nth_error pots (o_knl o) with
        | None => Err IndexError
        | Some p => Ok (o_name o, slice p (nth n (discr_starts 0 ts) 0) (nth (n + 1) (discr_starts 0 ts) 0)) end end = Ok r
      /\ denotes place stage_of (o_tgt o) pts /\ unreg_value nsrc P o pts r).
  { intros o I. destruct (H o I) as ((x & X) & K & _).
    destruct (find (fun e => fst e =? o_tgt o) d) as [[t n]|] eqn:F; [|exfalso; exact (find_none _ _ F (A o I))].
    apply find_some in F. destruct F as (ID & ET). cbn [fst] in ET. apply Nat.eqb_eq in ET. subst t. apply In_nth with (d := (0, 0)) in ID. destruct ID as (m & M & EM).
    assert (Emn : n = m). { assert (Y : nth m (map snd d) 0 = m) by (rewrite U1, seq_nth by exact M; reflexivity). rewrite (@nth_map_d _ _ snd d m (0, 0) 0 M), EM in Y. exact Y. }
    subst m. destruct (U3 n M) as (g & Eg & Pg). rewrite EM in Pg. cbn [fst] in Pg.
    destruct (Forall2_nth_error _ NX Eg) as (x' & Ex & Nx).
    assert (Ex' : x' = x /\ denotes place stage_of (o_tgt o) x). { unfold denotes. rewrite Pg in X |- *. destruct X as [X|X]; injection X as ->; cbn in Nx; injection Nx as ->; auto. }
    destruct Ex' as (-> & DN).
    assert (NP : nth_error pots (o_knl o) = Some (nth (o_knl o) pots [])) by (apply nth_error_nth'; unfold pots, drive_fmm; rewrite map_length, seq_length; exact K).
    rewrite NP. eexists. exists x. split; [reflexivity|]. split; [exact DN|].
    pose proof (target_layout [] ts) as (LA & _ & _ & _ & _ & LS). cbn [length] in LS.
    assert (En : nth_error ts n = Some (x, 0%Z)) by (unfold ts; rewrite nth_error_map, Ex; reflexivity). destruct (LS n x 0%Z En) as (S1 & S2 & _). fold P in S2.
    destruct (@fmm_potentials T V 0 (repeat (-1)%Z (length P)) (seq 0 nsrc) nknl (o_knl o) OK TT K) as (_ & LEN & _ & FV). fold pots in LEN, FV.
    set (st := nth n (discr_starts 0 ts) 0) in *. set (en := nth (n + 1) (discr_starts 0 ts) 0) in *.
    assert (ENL : en <= length P).
    { unfold en. rewrite discr_starts_nth by (assert (n < length ts) by (apply nth_error_Some; congruence); lia). cbn [plus]. rewrite LP. apply total_firstn_le. }
    split; [reflexivity|]. cbn [snd]. split; [rewrite slice_length by (rewrite LEN, NT; exact ENL); lia|].
    intros i Hi. exists (st + i). split; [lia|]. split; [unfold nth_pt; rewrite <- S2, slice_nth by lia; reflexivity|].
    rewrite slice_nth by lia. assert (U : st + i < ft_ntgt T) by (rewrite NT; lia). specialize (FV (st + i) (Nat.le_0_l _) U).
    assert (RT : route_of (nth (st + i) (repeat (-1)%Z (length P)) 0%Z) = Point) by (rewrite nth_indep with (d' := (-1)%Z) by (rewrite repeat_length; lia); rewrite nth_rep; reflexivity).
    rewrite RT, NS in FV. exact FV. }
  clear H G A. unfold pots in Q. assert (Y : exists res, mapM (fun o : output => match find (fun e => fst e =? o_tgt o) d with
      | None => Err KeyError
      | Some (_, n) => match nth_error pots (o_knl o) with
        | None => Err IndexError
        | Some p => Ok (o_name o, slice p (nth n (discr_starts 0 ts) 0) (nth (n + 1) (discr_starts 0 ts) 0)) end end) outs = Ok res
      /\ Forall2 (fun o r => exists pts, denotes place stage_of (o_tgt o) pts /\ unreg_value nsrc P o pts r) outs res).
  { fold pots in Q. clear B. induction outs as [|o outs IH]; [exists []; split; [reflexivity|constructor]|].
    destruct IH as (res & E & F); [intros o' I; apply Q; right; exact I|]. destruct (Q o (or_introl eq_refl)) as (r & pts & E1 & D1 & V1).
    cbn [mapM]. rewrite E1. cbn [bind]. rewrite E. cbn [bind]. eexists. split; [reflexivity|]. constructor; [exists pts; auto|exact F]. }
  destruct Y as (res & E & F). exists res. split; [exact E|exact F].
Qed.
Print Assumptions unreg_fmm_outputs.

Lemma unreg_gather_inv place outs : forall d gs d' gs', unreg_gather place outs d gs = Ok (d', gs') ->
  (forall g, In g gs -> In g gs') /\ (forall t, In t (map fst d) -> exists g, place t = Ok g /\ In g gs) ->
  (forall g, In g gs -> In g gs')
  /\ forall o, In o outs -> (exists g, place (o_tgt o) = Ok g /\ In g gs') /\ match o_limit o with Some z => Z.abs z <> 1%Z | None => True end.
Proof.
  assert (MON : forall outs d gs d' gs', unreg_gather place outs d gs = Ok (d', gs') -> forall g, In g gs -> In g gs').
  { induction outs0 as [|o outs0 IH]; intros d gs d' gs' H; cbn [unreg_gather] in H; [injection H as <- <-; auto|].
    destruct (match o_limit o with Some z => (Z.abs z =? 1)%Z | None => false end); [discriminate|].
    destruct (find _ d); [exact (IH _ _ _ _ H)|]. apply bind_Ok in H. destruct H as (g & G & H). intros g' I. apply (IH _ _ _ _ H). apply in_app_iff. auto. }
  induction outs as [|o outs IH]; intros d gs d' gs' H (_ & D); (split; [exact (MON _ _ _ _ _ H)|]); [contradiction|].
  cbn [unreg_gather] in H. destruct (match o_limit o with Some z => (Z.abs z =? 1)%Z | None => false end) eqn:L; [discriminate|].
  assert (LO : match o_limit o with Some z => Z.abs z <> 1%Z | None => True end) by (destruct (o_limit o); [apply Z.eqb_neq; exact L|exact I]).
  destruct (find (fun e => fst e =? o_tgt o) d) as [e|] eqn:F.
  - destruct (IH _ _ _ _ H) as (M & X); [split; [exact (MON _ _ _ _ _ H)|exact D]|]. intros o' [<- | I]; [|apply X; exact I]. split; [|exact LO].
    apply find_some in F. destruct F as (I & E0). apply Nat.eqb_eq in E0. destruct (D (fst e)) as (g & G & IG); [apply in_map; exact I|]. rewrite E0 in G. eauto.
  - apply bind_Ok in H. destruct H as (g & G & H). destruct (IH _ _ _ _ H) as (M & X).
    + split; [exact (MON _ _ _ _ _ H)|]. intros t I. rewrite map_app in I. apply in_app_iff in I. destruct I as [I|[<- | []]].
      * destruct (D t I) as (g' & G' & I'). exists g'. split; [exact G'|apply in_app_iff; auto].
      * exists g. split; [exact G|apply in_app_iff; right; left; reflexivity].
    + intros o' [<- | I]; [|apply X; exact I]. split; [|exact LO]. exists g. split; [exact G|]. apply M. apply in_app_iff. right. left. reflexivity.
Qed.
(** It succeeds only then. *)
Theorem unreg_fmm_succeeds_only place nsrc nknl fmm outs res :
  unreg_fmm place nsrc nknl fmm outs = Ok res ->
  forall o, In o outs -> (exists x, place (o_tgt o) = Ok (UPoints x) \/ place (o_tgt o) = Ok (UDiscr x)) /\ o_knl o < nknl
      /\ match o_limit o with Some z => Z.abs z <> 1%Z | None => True end.
Proof.
  unfold unreg_fmm. intros H o I. apply bind_Ok in H. destruct H as ([d gs] & G & H). apply bind_Ok in H. destruct H as (xs & NX & H).
  destruct (fmm _) as [T V]. destruct (unreg_gather_inv _ _ _ _ G) as (_ & X); [split; [intros ? []|intros ? []]|].
  destruct (X o I) as ((g & PG & IG) & L). apply mapM_Ok_inv in NX. destruct (Forall2_In_l NX IG) as (x & _ & N).
  apply mapM_Ok_inv in H. destruct (Forall2_In_l H I) as (r & _ & R). split; [exists x; destruct g; cbn in N; try discriminate; injection N as ->; auto|]. split; [|exact L].
  destruct (find _ d) as [[t n]|]; [|discriminate]. destruct (nth_error _ (o_knl o)) eqn:E in R; [|discriminate].
  assert (K : nth_error (drive_fmm T V 0 (repeat (-1)%Z (length (target_points [] (map (fun x => (x, 0%Z)) xs)))) (seq 0 nsrc) nknl) (o_knl o) <> None) by congruence.
  apply nth_error_Some in K. unfold drive_fmm in K. rewrite map_length, seq_length in K. exact K.
Qed.
Print Assumptions unreg_fmm_succeeds_only.

Definition ex_place (t : nat) : result ugeom :=
  match t with
  | 0 => Ok (UPoints [[(1#2)%Q]; [10%Q]])
  | 1 => Ok (UDiscr [[3%Q]])
  | 2 => Ok (ULpot (fun s => match s with Some Stage2 => [[1%Q]; [2%Q]] | _ => [[5%Q]] end))
  | _ => Err KeyError
  end.
Lemma one_contract : fmm_contract 3 (fun x => one_fmm 3 (length x)).
Proof. intros x. split; [apply one_fmm_ok|]. split; reflexivity. Qed.
Definition ex_uouts : list output := [Out "a" 1 1 None; Out "b" 0 0 (Some 2%Z); Out "c" 0 1 (Some (-2)%Z)].
Example unreg_example :
  unreg_fmm ex_place 3 2 (fun x => one_fmm 3 (length x)) ex_uouts
    = Ok [("a"%string, [src3 1 Point 0]); ("b"%string, [src3 0 Point 1; src3 0 Point 2]); ("c"%string, [src3 0 Point 0])]
  /\ unreg_direct ex_place (fun _ => None) 3 2 ex_uouts
    = Ok [("a"%string, [src3 1 Point 0]); ("b"%string, [src3 0 Point 0; src3 0 Point 1]); ("c"%string, [src3 0 Point 0])].
Proof. split; vm_compute; reflexivity. Qed.
Example unreg_fmm_outputs_applies : exists P res, unreg_fmm ex_place 3 2 (fun x => one_fmm 3 (length x)) ex_uouts = Ok res
    /\ Forall2 (fun o r => exists pts, denotes ex_place (fun _ => None) (o_tgt o) pts /\ unreg_value 3 P o pts r) ex_uouts res.
Proof.
  destruct (@unreg_fmm_outputs ex_place (fun _ => None) 3 2 (fun x => one_fmm 3 (length x)) ex_uouts) as (P & _ & H); [|exists P; apply H; apply one_contract]. intros o [<- | [<- | [<- | []]]]; cbn; (split; [eauto|split; [lia|try exact I; try lia]]).
Qed.

(** * C58: targets given by a layer potential source *)
Theorem unreg_lpot_target_refuted :
  ~ (forall place stage_of nsrc nknl fmm outs, fmm_contract nsrc fmm ->
       (forall o, In o outs -> (exists g, place (o_tgt o) = Ok g) /\ o_knl o < nknl /\ o_limit o = None) ->
       exists P res, gathered place stage_of outs P /\ unreg_fmm place nsrc nknl fmm outs = Ok res
         /\ Forall2 (fun o r => exists pts, denotes place stage_of (o_tgt o) pts /\ unreg_value nsrc P o pts r) outs res).
Proof.
  intros H. destruct (H ex_place (fun _ => Some Stage2) 3 1 (fun x => one_fmm 3 (length x)) [Out "a" 0 2 None] one_contract) as (P & res & _ & E & _).
  - intros o [<- | []]. cbn. split; [eauto|]. split; [lia|reflexivity].
  - revert E. vm_compute. discriminate.
Qed.
Print Assumptions unreg_lpot_target_refuted.
(** Direct evaluation of the same instruction works. *)
Example unreg_lpot_direct : unreg_direct ex_place (fun _ => Some Stage2) 3 1 [Out "a" 0 2 None] = Ok [("a"%string, [src3 0 Point 0; src3 0 Point 1])]
  /\ unreg_fmm ex_place 3 1 (fun x => one_fmm 3 (length x)) [Out "a" 0 2 None] = Err AttributeError.
Proof. split; vm_compute; reflexivity. Qed.
