(** Properties C131, C132.  Vocabulary: VdotSpec.v ([entries], [layout_of],
    [supported], [size]), VdotSpec2.v (the space of the values of a layout),
    GmresSpec.v and GcrSpec.v. *)
From Coq Require Import Reals Lra.
From Coquelicot Require Import Complex.
From Verif Require Import Base GmresModel GmresSpec GcrSpec GcrProps VdotModel VdotSpec VdotProofs VdotSpec2 VdotProofs2.
Set Implicit Arguments.

(** ** C131 *)
(** The product succeeds exactly on values of the same layout that are numbers,
    numpy arrays or (with an array context) arbitrarily nested containers of its
    arrays; it is the sum of conj(x_i) y_i over all numbers x_i in x and y_i in y. *)
Theorem vdot_value : forall mixed actx x y r,
  (forall xs ys, x = VHost xs -> y = VObj ys -> False) ->
  (structured_vdot mixed actx x y = Ok r <->
   layout_of x = layout_of y /\ supported actx (layout_of x) /\
   r = sum_conj_prod (entries x) (entries y)).
Proof. exact structured_vdot_l. Qed.
Print Assumptions vdot_value.

(** On the values of a layout it is an inner product whose norm is zero for zero
    only, and a family of orthogonal nonzero values has at most as many members
    as the layout has numbers. *)
Theorem vdot_inner_product : forall mixed actx L, supported actx L ->
  (forall u v : vec L, exists r, structured_vdot mixed actx (val u) (val v) = Ok r) /\
  inner_product cscalars (vec_ops L) (default_dot mixed actx) (@norm2 L) /\
  (forall u : vec L, norm2 u = 0%R <-> Forall (fun c => c = RtoC 0) (entries (val u))) /\
  module_laws cscalars (vec_space L) /\
  dimension_at_most cscalars (default_dot (L := L) mixed actx) (@norm2 L) (size L).
Proof.
  intros mixed actx L HL. split; [|split; [|split; [|split]]].
  - intros u v. eexists. exact (@default_eq mixed actx L HL u v).
  - exact (@dd_ip mixed actx L HL).
  - exact (@norm2_zero L).
  - exact (vec_module L).
  - exact (@dd_dim mixed actx L HL).
Qed.
Print Assumptions vdot_inner_product.

(** So gmres without an inner product solves A x = b for values with n numbers, any
    nesting, in at most n iterations, for every linear A with <u, A u> <> 0 for
    u <> 0, in exact arithmetic. *)
Theorem gmres_structured : forall mixed actx L, supported actx L ->
  forall A, GmresSpec.linear (vec_ops L) A ->
  (forall u, default_dot mixed actx u (A u) = RtoC 0 -> Forall (fun c => c = RtoC 0) (entries (val u))) ->
  forall no, exact_comparisons no -> forall a b x0 out st,
  gmres_run (vec_ops L) no A (default_dot mixed actx) (gnorm cscalars (default_dot mixed actx)) (ginv cscalars) a b x0 = (out, st) ->
  1 <= a_restart a -> size L <= a_restart a -> size L < a_maxiter a -> a_stall a = 0 \/ size L < a_stall a ->
  exists res, out = GReturn res /\ success res = true /\ iteration_count res <= size L.
Proof.
  intros mixed actx L HL A HA Hdef no Hno a b x0 out st Hrun H1 H2 H3 H4.
  refine (proj1 (@gmres_exact_in_n_steps _ _ cscalars (vec_ops L) (vec_space L) _ _ (@dd_ip mixed actx L HL) A HA _
    (size L) (@dd_dim mixed actx L HL) no Hno a b x0 out st Hrun H1 H2 H3 H4)).
  intros u Hu. apply norm2_zero. apply Hdef. exact Hu.
Qed.
Print Assumptions gmres_structured.

(** ** C132 *)
(** "aware of scalars": two numbers of different types are refused. *)
Theorem vdot_mixed_scalars_refuted : forall mixed actx s t a b, s <> t ->
  structured_vdot mixed actx (VNum s a) (VNum t b) = Err TypeError.
Proof.
  intros mixed actx s t a b H. unfold structured_vdot. simpl.
  destruct (Nat.eqb_spec s t); [contradiction|reflexivity].
Qed.
Print Assumptions vdot_mixed_scalars_refuted.
(** "recurses down nested object arrays": without an array context every object
    array is refused, whatever it holds; with one, object arrays that hold
    a number or a numpy array of numbers are. *)
Theorem vdot_object_arrays_refuted : forall mixed es es',
  structured_vdot mixed false (VObj es) (VObj es') = Err ValueError /\
  forall v, In v es -> (exists t z, v = VNum t z) \/ (exists zs, v = VHost zs) ->
    forall r, structured_vdot mixed true (VObj es) (VObj es') <> Ok r.
Proof.
  intros mixed es es'. split; [reflexivity|]. intros v Hv Hc r H.
  apply vdot_value in H; [|intros; discriminate]. destruct H as (_ & [_ H] & _).
  simpl layout_of in H. apply dev_obj in H. rewrite Forall_map in H.
  pose proof (proj1 (Forall_forall _ _) H v Hv) as Hd. destruct Hc as [(t & z & ->)|(zs & ->)]; destruct Hd.
Qed.
Print Assumptions vdot_object_arrays_refuted.

(** [gmres(op, rhs, callback=ResidualPrinter())] raises for every right-hand side
    that is an array of an array context, an object array or a container, and for
    no number or numpy array of numbers. *)
Theorem residual_printer_refuted : forall mixed v,
  (exists r, residual_printer_product mixed v = Ok r) <->
  (exists t z, v = VNum t z) \/ (exists zs, v = VHost zs).
Proof.
  intros mixed v. unfold residual_printer_product. split.
  - intros [r H]. apply vdot_value in H; [|intros xs ys -> E; discriminate E].
    destruct H as (_ & H & _). destruct v; simpl in H; try (destruct H as [H _]; discriminate H); eauto.
  - intros H. exists (sum_conj_prod (entries v) (entries v)). apply vdot_value; [intros xs ys -> E; discriminate E|].
    destruct H as [(t & z & ->)|(zs & ->)]; simpl; auto.
Qed.
Print Assumptions residual_printer_refuted.

(** ** Non-vacuity *)
Definition ex_layout : layout := LObj [LDev 2; LCont 7 [LDev 1; LObj [LDev 3]]].
Example ex_supported : supported true ex_layout /\ size ex_layout = 6.
Proof. cbn. tauto. Qed.
Example ex_value :
  structured_vdot (fun _ _ => Err TypeError) true
    (VObj [VDev [Ci; RtoC 2]; VCont 7 [VDev [RtoC 3]]]) (VObj [VDev [Ci; RtoC 5]; VCont 7 [VDev [Ci]]])
  = Ok (11, 3)%R.
Proof. cbn. f_equal. apply injective_projections; cbn; ring. Qed.
(** The identity meets the hypotheses of [gmres_structured] on every layout. *)
Example ex_identity : forall mixed actx L, supported actx L ->
  GmresSpec.linear (vec_ops L) (fun u => u) /\
  forall u : vec L, default_dot mixed actx u u = RtoC 0 -> Forall (fun c => c = RtoC 0) (entries (val u)).
Proof.
  intros mixed actx L HL. split; [split; reflexivity|]. intros u H. apply norm2_zero.
  pose proof (ip_self (@dd_ip mixed actx L HL) u) as E.
  assert (E' : RtoC 0 = RtoC (norm2 u)) by (rewrite <- H; exact E). injection E'. auto.
Qed.
