(** C125-C128: the waveguide operator. *)
From Coq Require Import Reals Lra Ring.
From Coquelicot Require Import Complex.
From Verif Require Import Base MatModel PdeModel PdeSpec WgModel WgSpec WgProofs WgProofs2 WgSpec2 WgProofs3.
Set Implicit Arguments.
Open Scope string_scope.
Open Scope list_scope.
Open Scope nat_scope.

(** ** C125: the transverse wave number. *)
Theorem wg_wave_number names ne interfaces l2 d x root var unk tan nor jac sqw lp :
  principal_root root -> nth_error names d = Some x ->
  let W := complex_world root var unk tan nor jac sqw lp in
  exists e, nth_error (op_K (wg_init names ne interfaces l2)) d = Some e /\
  let K : C := wev W e in
  decaying_root (var x * var x - var ne * var ne)%C K
  /\ forall L, decaying_root (var x * var x - var ne * var ne)%C L -> L = K.
Proof.
  intros P N W. exists (Kx ne x). split.
  - cbn [wg_init op_K]. rewrite map_map, nth_error_map, N. reflexivity.
  - cbv zeta. assert (D : decaying_root (var x * var x - var ne * var ne)%C (wev W (Kx ne x)))
      by exact (uhsr_decaying P (var x * var x - var ne * var ne)%C).
    split; [exact D|]. intros L HL. exact (decaying_unique HL D).
Qed.
Print Assumptions wg_wave_number.

(** Every domain has a wave number and a refractive index. *)
Theorem wg_domains names ne interfaces l2 :
  length (op_K (wg_init names ne interfaces l2)) = length names /\ op_n (wg_init names ne interfaces l2) = map WVar names.
Proof. split; [cbn; now rewrite !map_length|reflexivity]. Qed.
Print Assumptions wg_domains.

(** ** C126: the unknowns and the operator of one interface. *)
Theorem wg_unknown_index names ne interfaces l2 :
  let op := wg_init names ne interfaces l2 in
  (forall i, i < length interfaces ->
     lookup (unknown_index op) ("jz", i) = Ok (4 * i) /\ lookup (unknown_index op) ("jt", i) = Ok (4 * i + 1)
     /\ lookup (unknown_index op) ("mz", i) = Ok (4 * i + 2) /\ lookup (unknown_index op) ("mt", i) = Ok (4 * i + 3))
  /\ (forall x i, ~ (i < length interfaces /\ In x ["jz"; "jt"; "mz"; "mt"]) -> lookup (unknown_index op) (x, i) = Err KeyError)
  /\ forall name, length (make_unknown op name) = 4 * length interfaces
     /\ forall i, i < 4 * length interfaces -> nth_error (make_unknown op name) i = Some (WUnk name i).
Proof.
  intros op. assert (L : length (op_interfaces op) = length interfaces) by reflexivity. split; [|split].
  - intros i Hi. rewrite <- L in Hi.
    rewrite (@lookup_op op "jz" i 0), (@lookup_op op "jt" i 1), (@lookup_op op "mz" i 2), (@lookup_op op "mt" i 3) by (exact Hi || reflexivity).
    rewrite Nat.add_0_r. auto.
  - intros x i H. rewrite unknown_index_eq, lookup_keys, L. unfold key_off.
    destruct (String.eqb_spec x "jz") as [->|N0]; [|destruct (String.eqb_spec x "jt") as [->|N1]; [|destruct (String.eqb_spec x "mz") as [->|N2]; [|destruct (String.eqb_spec x "mt") as [->|N3]; [|reflexivity]]]];
    (cbn [Nat.leb andb]; destruct (Nat.ltb_spec i (0 + length interfaces)) as [Hi|Hi]; [|reflexivity];
     exfalso; apply H; split; [lia|]; cbn; tauto).
  - intros name. unfold make_unknown. rewrite unknown_index_eq, L, map_length, seq_length, combine_length, keys_length, seq_length.
    rewrite Nat.min_id. split; [reflexivity|]. intros i Hi. rewrite nth_error_map.
    rewrite (nth_error_nth' _ 0) by (rewrite seq_length; exact Hi). rewrite seq_nth by exact Hi. reflexivity.
Qed.
Print Assumptions wg_unknown_index.

Section P.
Variable W : wworld.
Hypothesis HW : wworld_ok W.
Add Ring WRing : (wo_ring W HW).
Local Notation "x + y" := (radd W x y). Local Notation "x * y" := (rmul W x y).
Local Notation "x - y" := (rsub W x y). Local Notation "- x" := (ropp W x).

(** The wave numbers that [__init__] builds solve K^2 = n^2 - ne^2, the equation the fields
    need. *)
Theorem wg_wave_number_square names ne interfaces l2 d x :
  nth_error names d = Some x ->
  exists e, nth_error (op_K (wg_init names ne interfaces l2)) d = Some e /\
  wev W e * wev W e = w_var W x * w_var W x - w_var W ne * w_var W ne.
Proof.
  intros N. exists (Kx ne x). split; [cbn [wg_init op_K]; rewrite map_map, nth_error_map, N; reflexivity|].
  exact (kv_square HW names ne x (nth_error_In _ _ N)).
Qed.

(** The represented fields are guided modes of each medium. *)
Theorem wg_fields_maxwell D c ne n K u :
  volume W D -> helmholtz W D K -> oriented W c -> K * K = n * n - ne * ne -> constant W D n -> constant W D ne ->
  maxwell W D ne n (el W c ne n K LNone u) (mag W c ne n K LNone u).
Proof. intros. apply curve_maxwell; assumption. Qed.

(** The rows of the operator are the jumps of the tangential components of the fields. *)
Theorem wg_operator_is_jump names ne d0 d1 wh l2 x0 x1 u :
  nth_error names d0 = Some x0 -> nth_error names d1 = Some x1 -> length u = 4 ->
  default_geometry W wh ->
  let op := wg_init names ne [(d0, d1, wh)] l2 in
  let c := curve_of W wh in
  exists e0 e1, nth_error (op_K op) d0 = Some e0 /\ nth_error (op_K op) d1 = Some e1 /\
  (oriented W c -> jumps W c (wev W e0) -> jumps W c (wev W e1) ->
   let E0 := fun l => el W c (w_var W ne) (w_var W x0) (wev W e0) l (currents_of W u) in
   let E1 := fun l => el W c (w_var W ne) (w_var W x1) (wev W e1) l (currents_of W u) in
   let H0 := fun l => mag W c (w_var W ne) (w_var W x0) (wev W e0) l (currents_of W u) in
   let H1 := fun l => mag W c (w_var W ne) (w_var W x1) (wev W e1) l (currents_of W u) in
   exists r, operator op u = Ok (Some r) /\ length r = 4
   /\ wat W r 0 = jump W (fun l => H0 l 2) (fun l => H1 l 2)
   /\ wat W r 1 = - jump W (fun l => along W c (H0 l)) (fun l => along W c (H1 l))
   /\ wat W r 2 = jump W (fun l => E0 l 2) (fun l => E1 l 2)
   /\ wat W r 3 = - jump W (fun l => along W c (E0 l)) (fun l => along W c (E1 l))).
Proof.
  intros N0 N1 L G op c. exists (Kx ne x0), (Kx ne x1).
  assert (EK : op_K op = map (Kx ne) names) by (cbn [op wg_init op_K]; rewrite map_map; reflexivity).
  split; [rewrite EK, nth_error_map, N0; reflexivity|]. split; [rewrite EK, nth_error_map, N1; reflexivity|].
  intros O J0 J1 E0 E1 H0 H1.
  destruct u as [|u0 [|u1 [|u2 [|u3 [|? ?]]]]]; try discriminate.
  destruct (@operator_rows W HW names ne (d0, d1, wh) [] None None _ x0 x1 u0 u1 u2 u3 [] N0 N1 eq_refl G) as (r & Er & Lr & R1 & R2 & R3 & R4 & _).
  exists r. split; [unfold op, wg_init; rewrite map_map; exact Er|]. split; [exact Lr|].
  rewrite R1, R2, R3, R4. split; [apply row1_jump; assumption|]. split; [apply row2_jump; assumption|].
  split; [apply row3_jump; assumption|apply row4_jump; assumption].
Qed.

(** Hence the null space of the operator consists of the currents of guided modes. *)
Theorem wg_null_space names ne d0 d1 wh l2 x0 x1 u :
  nth_error names d0 = Some x0 -> nth_error names d1 = Some x1 -> length u = 4 ->
  default_geometry W wh ->
  let op := wg_init names ne [(d0, d1, wh)] l2 in
  let c := curve_of W wh in
  exists e0 e1, nth_error (op_K op) d0 = Some e0 /\ nth_error (op_K op) d1 = Some e1 /\
  (oriented W c -> jumps W c (wev W e0) -> jumps W c (wev W e1) ->
   let E0 := el W c (w_var W ne) (w_var W x0) (wev W e0) (LSide 1) (currents_of W u) in
   let E1 := el W c (w_var W ne) (w_var W x1) (wev W e1) (LSide (-1)) (currents_of W u) in
   let H0 := mag W c (w_var W ne) (w_var W x0) (wev W e0) (LSide 1) (currents_of W u) in
   let H1 := mag W c (w_var W ne) (w_var W x1) (wev W e1) (LSide (-1)) (currents_of W u) in
   exists r, operator op u = Ok (Some r) /\ length r = 4 /\
   ((forall i, i < 4 -> wat W r i = r0 W) <->
    E0 2 = E1 2 /\ along W c E0 = along W c E1 /\ H0 2 = H1 2 /\ along W c H0 = along W c H1)).
Proof.
  intros N0 N1 L G op c.
  destruct (@wg_operator_is_jump names ne d0 d1 wh l2 x0 x1 u N0 N1 L G) as (e0 & e1 & K0 & K1 & H).
  exists e0, e1. split; [exact K0|]. split; [exact K1|]. intros O J0 J1 E0 E1 H0 H1.
  destruct (H O J0 J1) as (r & Er & Lr & R1 & R2 & R3 & R4). exists r. split; [exact Er|]. split; [exact Lr|].
  unfold jump in *. unfold E0, E1, H0, H1. clear E0 E1 H0 H1. subst c.
  assert (Z : forall a b : W, a - b = r0 W -> a = b) by (intros a b Q; replace a with (a - b + b) by ring; rewrite Q; ring).
  assert (Zn : forall a b : W, - (a - b) = r0 W -> a = b) by (intros a b Q; replace a with (b - - (a - b)) by ring; rewrite Q; ring).
  split.
  - intros Q. split; [|split; [|split]].
    + apply Z. rewrite <- R3. apply Q. lia.
    + apply Zn. rewrite <- R4. apply Q. lia.
    + apply Z. rewrite <- R1. apply Q. lia.
    + apply Zn. rewrite <- R2. apply Q. lia.
  - intros (A & B & C & D) i Hi.
    destruct i as [|[|[|[|i]]]]; [rewrite R1, C|rewrite R2, D|rewrite R3, A|rewrite R4, B|lia]; ring.
Qed.

(** An interface between identical media: whatever the potentials are, nothing but the
    multiplication by n^2 and 1 remains. *)
Theorem wg_identical_media names ne d0 d1 wh l2 x0 x1 u :
  nth_error names d0 = Some x0 -> nth_error names d1 = Some x1 -> w_var W x0 = w_var W x1 ->
  length u = 4 -> default_geometry W wh ->
  let n2 := w_var W x0 * w_var W x0 in
  exists r, operator (wg_init names ne [(d0, d1, wh)] l2) u = Ok (Some r) /\ length r = 4
  /\ wat W r 0 = n2 * wat W u 0 /\ wat W r 1 = n2 * wat W u 1 /\ wat W r 2 = wat W u 2 /\ wat W r 3 = wat W u 3.
Proof.
  intros N0 N1 Q L G n2. destruct u as [|u0 [|u1 [|u2 [|u3 [|? ?]]]]]; try discriminate.
  destruct (@operator_rows W HW names ne (d0, d1, wh) [] None None _ x0 x1 u0 u1 u2 u3 [] N0 N1 eq_refl G) as (r & Er & Lr & R1 & R2 & R3 & R4 & _).
  exists r. split; [unfold wg_init; rewrite map_map; exact Er|]. split; [exact Lr|].
  assert (KQ : kv W ne x0 = kv W ne x1) by (unfold kv, Kx, upper_half_square_root, wsq; cbn; rewrite Q; reflexivity).
  rewrite R1, R2, R3, R4. unfold nv. rewrite <- Q, <- KQ.
  unfold row1, row2, row3, row4, avg2, dD0, dD1. fold n2. set (cu := currents_of W _).
  assert (HT : forall x, (n2 + n2) * rinv W (of_Z W 2) * x = n2 * x).
  { intros x. transitivity (n2 * (of_Z W 2 * rinv W (of_Z W 2)) * x); [change (of_Z W 2) with (r1 W + r1 W); ring|].
    rewrite (wo_two W HW). ring. }
  change (wat W [u0; u1; u2; u3] 0) with (jt cu). change (wat W [u0; u1; u2; u3] 1) with (jz cu).
  change (wat W [u0; u1; u2; u3] 2) with (mt cu). change (wat W [u0; u1; u2; u3] 3) with (mz cu).
  split; [rewrite HT; ring|]. split; [rewrite HT; ring|]. split; ring.
Qed.

(** ** C127 (refuted): the operator of several interfaces. *)
(** Only the first interface gets its equations: all rows of all others are zero. *)
Theorem wg_operator_other_interfaces_refuted names ne d0 d1 wh rest l2 x0 x1 u :
  nth_error names d0 = Some x0 -> nth_error names d1 = Some x1 -> length u = (4 * S (length rest))%nat ->
  default_geometry W wh ->
  exists r, operator (wg_init names ne ((d0, d1, wh) :: rest) l2) u = Ok (Some r) /\ length r = (4 * S (length rest))%nat
  /\ forall i, 4 <= i < (4 * S (length rest))%nat -> wat W r i = r0 W.
Proof.
  intros N0 N1 L G.
  destruct u as [|u0 [|u1 [|u2 [|u3 u]]]]; cbn in L; try lia.
  destruct (@operator_rows W HW names ne (d0, d1, wh) rest None None _ x0 x1 u0 u1 u2 u3 u N0 N1 eq_refl G) as (r & Er & Lr & _ & _ & _ & _ & Z).
  exists r. split; [unfold wg_init; rewrite map_map; exact Er|]. split; [exact Lr|exact Z].
Qed.
End P.
Print Assumptions wg_wave_number_square.
Print Assumptions wg_fields_maxwell.
Print Assumptions wg_operator_is_jump.
Print Assumptions wg_null_space.
Print Assumptions wg_identical_media.
Print Assumptions wg_operator_other_interfaces_refuted.

(** Without interfaces there is no array at all. *)
Theorem wg_operator_no_interfaces_refuted names ne l2 u : operator (wg_init names ne [] l2) u = Ok None.
Proof. reflexivity. Qed.
Print Assumptions wg_operator_no_interfaces_refuted.

(** ** C128 (refuted): representation and right-hand side. *)
Theorem wg_representation_refuted names ne interfaces l2 d u :
  representation (wg_init names ne interfaces l2) d u = Err AttributeError.
Proof. reflexivity. Qed.
Print Assumptions wg_representation_refuted.

(** Even when somebody sets the missing attribute: a domain with a border has no fields. *)
Lemma representation_loop_err op d : forall itfs u res i,
  (exists t, In t itfs /\ (d = fst (fst t) \/ d = snd (fst t))) ->
  forall r, representation_loop op d u res i itfs <> Ok r.
Proof.
  induction itfs as [|[[a b] w] itfs IH]; intros u res i (t & I & B) r; [destruct I|].
  cbn [representation_loop]. destruct (Nat.eqb_spec d a) as [Ea|Na]; [|destruct (Nat.eqb_spec d b) as [Eb|Nb]].
  1, 2: cbn [orb]; intros E;
    repeat match type of E with Base.bind ?x _ = Ok _ => destruct x eqn:?; cbn [Base.bind] in E; [|discriminate] end; discriminate.
  cbn [orb]. apply IH. destruct I as [<-|I]; [cbn in B; tauto|]. exists t. auto.
Qed.
Theorem wg_representation_with_k_vacuum_refuted names ne interfaces l2 k d u r :
  let op := wg_init names ne interfaces l2 in
  let op' := mk_wop (op_interfaces op) (op_ne op) (op_n op) (op_K op) (Some k) (op_use_l2_weighting op) in
  (exists t, In t interfaces /\ (d = fst (fst t) \/ d = snd (fst t))) ->
  representation op' d u <> Ok r.
Proof. intros op op' H. unfold representation, op'. cbn [op_k_vacuum op_interfaces]. apply representation_loop_err. exact H. Qed.
Print Assumptions wg_representation_with_k_vacuum_refuted.

(** The inherited methods fail, whatever [use_l2_weighting] was passed. *)
Theorem wg_weighting_refuted names ne interfaces l2 b :
  prepare_rhs (wg_init names ne interfaces l2) b = Err AttributeError
  /\ get_weight (wg_init names ne interfaces l2) = Err AttributeError
  /\ get_sqrt_weight (wg_init names ne interfaces l2) = Err AttributeError.
Proof. repeat split. Qed.
Print Assumptions wg_weighting_refuted.

(** *** A world that meets the hypotheses. *)
Definition ex_kap (m : nat) : C := match m with 0 => (Ci * RtoC 3)%C | _ => (Ci * RtoC 4)%C end.
Definition ex_D (m : nat) (f : C) : C := (ex_kap m * f)%C.
Definition ex_side (l : lim) : C := match l with LSide s => (RtoC (IZR s) * RtoC (1 / 2))%C | _ => RtoC 0 end.
Definition ex_lp (dir : option (C * C)) (tds : list nat) (l : lim) (k f : C) : C :=
  match l with
  | LNone => fold_right ex_D (match dir with None => f | Some (v0, v1) =>
               (- (ex_D 0 (v0 * f) + ex_D 1 (v1 * f)))%C end) tds
  | _ => match dir, tds with
         | None, [] | None, [0] => f
         | None, [1] => (ex_side l * f)%C
         | Some (v0, v1), [] => (v0 * f - v1 * ex_side l * f)%C
         | Some (v0, v1), [0] => (v0 * f)%C
         | _, _ => RtoC 0
         end
  end.
Definition ex_var (x : string) : C := if (x =? "ne")%string then RtoC 12 else if (x =? "n0")%string then RtoC 13 else RtoC 20.
Definition ex_tan (d : dofd) (i : nat) : C := match i with 0 => RtoC 1 | _ => RtoC 0 end.
Definition ex_nor (d : dofd) (i : nat) : C := match i with 0 => RtoC 0 | _ => (- RtoC 1)%C end.
Definition exW : wworld :=
  complex_world croot ex_var (fun _ i => match i with 0 => RtoC 1 | _ => RtoC 2 end) ex_tan ex_nor (fun _ => RtoC 1) (fun _ => RtoC 1) ex_lp.

Lemma exW_ok : wworld_ok exW.
Proof. apply complex_world_ok. exact croot_principal. Qed.

Example wg_ex_jumps wh K : jumps exW (curve_of exW wh) K /\ oriented exW (curve_of exW wh) /\ default_geometry exW wh.
Proof.
  split; [|split; [split; cbn; ring|intros a; split; reflexivity]].
  constructor; intros; unfold along, pS, pT, pD, half; cbn [exW complex_world w_lp w_num curve_of c_tan c_nor w_tan w_nor ex_lp ex_tan ex_nor ex_side fold_right wR radd rmul rsub ropp CR r0 c_num]; rewrite ?of_Z_CR; try ring.
  all: match goal with |- @eq _ ?a ?b => change (@eq C a b) end; try ring.
  - reflexivity.
  - destruct l; cbn [ex_lp fold_right]; reflexivity.
Qed.
Example wg_ex_volume : volume exW ex_D /\ helmholtz exW ex_D (RtoC 5) /\ constant exW ex_D (RtoC 13) /\ constant exW ex_D (RtoC 12)
  /\ (RtoC 5 * RtoC 5 = RtoC 13 * RtoC 13 - RtoC 12 * RtoC 12)%C.
Proof.
  repeat split; intros; unfold constant, pS, ex_D, im; cbn [exW complex_world w_lp w_num ex_lp fold_right wR radd rmul rsub ropp CR r0 c_num]; intros; unfold ex_D; try ring.
  all: match goal with |- @eq _ ?a ?b => change (@eq C a b) end; try ring.
  - subst u. change (@eq C (Ci * RtoC 3 * (Ci * RtoC 3 * f) + Ci * RtoC 4 * (Ci * RtoC 4 * f))%C (- (RtoC 5 * RtoC 5 * f))%C).
    transitivity ((Ci * Ci) * (RtoC 3 * RtoC 3 + RtoC 4 * RtoC 4) * f)%C; [ring|]. rewrite Ci2.
    replace (RtoC 3 * RtoC 3 + RtoC 4 * RtoC 4)%C with (RtoC 5 * RtoC 5)%C; [ring|].
    rewrite <- !RtoC_mult, <- RtoC_plus. f_equal. lra.
  - rewrite <- !RtoC_mult, <- RtoC_minus. f_equal. lra.
Qed.
(** The hypotheses of the theorems about the operator hold there, and its value is not trivial. *)
Definition ex_op (n1 : string) : wop := wg_init ["n0"; n1] "ne" [(0, 1, 7)] (Some true).
Example wg_ex_null_space :
  exists e0 e1, nth_error (op_K (ex_op "n1")) 0 = Some e0 /\ nth_error (op_K (ex_op "n1")) 1 = Some e1 /\
  exists r, operator (ex_op "n1") (make_unknown (ex_op "n1") "u") = Ok (Some r) /\ length r = 4.
Proof.
  destruct (@wg_null_space exW exW_ok ["n0"; "n1"] "ne" 0 1 7 (Some true) "n0" "n1" (make_unknown (ex_op "n1") "u") eq_refl eq_refl eq_refl (proj2 (proj2 (wg_ex_jumps 7 (RtoC 1))))) as (e0 & e1 & A & B & H).
  exists e0, e1. split; [exact A|]. split; [exact B|].
  destruct (H (proj1 (proj2 (wg_ex_jumps 7 (RtoC 1)))) (proj1 (wg_ex_jumps 7 _)) (proj1 (wg_ex_jumps 7 _))) as (r & R & L & _).
  exists r. auto.
Qed.
Example wg_ex_identical_media : exists r, operator (ex_op "n0") (make_unknown (ex_op "n0") "u") = Ok (Some r) /\ wat exW r 0 <> RtoC 0.
Proof.
  destruct (@wg_identical_media exW exW_ok ["n0"; "n0"] "ne" 0 1 7 (Some true) "n0" "n0" (make_unknown (ex_op "n0") "u") eq_refl eq_refl eq_refl eq_refl (proj2 (proj2 (wg_ex_jumps 7 (RtoC 1))))) as (r & R & _ & Q & _).
  exists r. split; [exact R|]. rewrite Q. unfold wat. cbn. rewrite <- !RtoC_mult. intros E. apply RtoC_inj in E. lra.
Qed.
Example wg_ex_other_interfaces : exists r, operator (wg_init ["n0"; "n1"; "n2"] "ne" [(0, 1, 7); (1, 2, 8)] None) (make_unknown (wg_init ["n0"; "n1"; "n2"] "ne" [(0, 1, 7); (1, 2, 8)] None) "u") = Ok (Some r)
  /\ length r = 8 /\ wat exW r 4 = RtoC 0 /\ wat exW r 7 = RtoC 0.
Proof.
  destruct (@wg_operator_other_interfaces_refuted exW exW_ok ["n0"; "n1"; "n2"] "ne" 0 1 7 [(1, 2, 8)] None "n0" "n1"
    (make_unknown (wg_init ["n0"; "n1"; "n2"] "ne" [(0, 1, 7); (1, 2, 8)] None) "u") eq_refl eq_refl eq_refl (proj2 (proj2 (wg_ex_jumps 7 (RtoC 1))))) as (r & R & L & Z).
  exists r. split; [exact R|]. split; [exact L|]. split; apply Z; cbn; lia.
Qed.
Example wg_ex_principal : principal_root croot.
Proof. exact croot_principal. Qed.
Example wg_ex_border : exists t, In t [(0, 1, 7)] /\ (1 = fst (fst t) \/ 1 = snd (fst t)).
Proof. exists (0, 1, 7). cbn. auto. Qed.
