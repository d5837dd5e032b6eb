(** Property C09.  Vocabulary: CtorSpec.v. *)
From Verif Require Import Base CtorModel CtorSpec CtorProofs.
Set Implicit Arguments.

(** Constructing a layer potential either yields a node with exactly the given
    data (defaults filled in, argument names exactly the required ones, each with
    the value given for it) or raises ValueError, and it yields a node exactly if
    the limit is valid, the base kernels agree, no keyword argument repeats a
    kernel argument, and the supplied names are the required names.  ([KMap]: a
    mapping has distinct keys; so have keyword arguments.) *)
Theorem intg_construction : forall (D W : Type) (default_dd : W) tk sks (dens : list D) lim
    (src tgt : option W) (ka : kargs_like D) kw,
  (forall l, ka = KMap l -> NoDup (map fst l)) -> NoDup (map fst kw) ->
  let ok := valid_limit lim /\ one_base_kernel tk sks /\
     (forall n, In n (map fst kw) -> ~ In n (map fst (given ka))) /\
     (forall n, required tk sks n <-> In n (map fst (given ka)) \/ In n (map fst kw)) in
  match intg_init default_dd tk sks dens lim src tgt ka kw with
  | Ok g => ok /\
      n_target g = tk /\ n_sources g = sks /\ n_dens g = dens /\ n_lim g = lim /\
      n_src g = match src with Some s => s | None => default_dd end /\
      n_tgt g = match tgt with Some t => t | None => default_dd end /\
      NoDup (map fst (n_kargs g)) /\
      forall n v, In (n, v) (n_kargs g) <-> last_value (given ka ++ kw) n = Some v
  | Err e => e = ValueError /\ ~ ok
  end.
Proof. exact init_spec. Qed.
Print Assumptions intg_construction.

(** The documented requirement "length of densities must match the length of
    source_kernels" is not enforced. *)
Theorem intg_lengths_checked_refuted :
  exists (g : node nat nat) tk sks dens,
    intg_init 0 tk sks dens (LimInt 1) None None KNone [] = Ok g /\
    length (n_dens g) <> length (n_sources g).
Proof.
  exists (Node (Kernel 0 [] []) [Kernel 0 [] []] [1; 2] (LimInt 1) 0 0 []),
    (Kernel 0 [] []), [Kernel 0 [] []], [1; 2].
  split; [reflexivity|discriminate].
Qed.
Print Assumptions intg_lengths_checked_refuted.

(** Non-vacuity, on both sides. *)
Local Open Scope string_scope.
Example ctor_ok : exists g, intg_init 99 (Kernel 3 ["k"] []) [Kernel 3 ["k"] ["nrm"]] [7] (LimStr "avg")
    None (Some 5) (KTuple [("k", 1); ("k", 2)]) [("nrm", 4)] = Ok g /\
  n_kargs g = [("k", 2); ("nrm", 4)] /\ n_src g = 99 /\ n_tgt g = 5.
Proof. eexists. split; [vm_compute; reflexivity|]. repeat split. Qed.
Example ctor_bad_limit : intg_init 99 (Kernel 3 [] []) [Kernel 3 [] []] [7] (LimInt 0) None None KNone []
  = Err ValueError.
Proof. reflexivity. Qed.
Example ctor_clash : intg_init 99 (Kernel 3 ["k"] []) [Kernel 3 ["k"] []] [7] LimNone None None
  (KMap [("k", 1)]) [("k", 1)] = Err ValueError.
Proof. reflexivity. Qed.
