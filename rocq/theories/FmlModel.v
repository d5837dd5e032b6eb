(** Model of the FMMLIB backend: /repo/pytential/qbx/fmmlib.py, and of the choice of backend in
    /repo/pytential/qbx/__init__.py 617-659.

    Tree, traversal and geometry data are those of FmmModel.v.  An expansion is a formal sum of
    terms (strength, source); every term remembers the center, the scaling factor and the
    order with respect to which its coefficients were computed.  pyfmmlib's routines get these
    as arguments: a term used with other ones becomes [None] (garbage).  Truncation is not
    modelled, nor are the quadrature radii ("radius") and the error codes of the Fortran
    routines. *)
From Coq Require Import QArith.
From Verif Require Import Base RefineModel AssocModel FmmModel.
Set Implicit Arguments.
Open Scope nat_scope.

(** ** Kernels *)

(** sumpy's kernels, as far as fmmlib.py distinguishes them. *)
Inductive base := Laplace | Helmholtz (k_name : string) | OtherBase.
Inductive knl :=
| BaseKnl (b : base) (dim : nat)
| AxisTarget (axis : nat) (inner : knl)
| DirSource (vec : string) (inner : knl)
| OtherWrap (inner : knl).
Fixpoint base_kernel (k : knl) : base * nat :=
  match k with BaseKnl b d => (b, d) | AxisTarget _ i | DirSource _ i | OtherWrap i => base_kernel i end.
(** sumpy: replace_base_kernel. *)
Fixpoint replace_base (k new : knl) : knl :=
  match k with
  | BaseKnl _ _ => new
  | AxisTarget a i => AxisTarget a (replace_base i new)
  | DirSource v i => DirSource v (replace_base i new)
  | OtherWrap i => OtherWrap (replace_base i new)
  end.
Definition is_lap_or_helm (k : knl) (dims : list nat) : bool :=
  match k with
  | BaseKnl Laplace d | BaseKnl (Helmholtz _) d => existsb (Nat.eqb d) dims
  | _ => false
  end.
(** fmmlib.py 133-139 *)
Definition is_supported_helmknl (k : knl) : bool :=
  is_lap_or_helm (match k with DirSource _ i => i | _ => k end) [2; 3].
(** fmmlib.py 141-148 *)
Definition is_supported_for_tsqbx (k : knl) : bool :=
  is_lap_or_helm (match k with DirSource _ i => i | AxisTarget _ i => i | _ => k end) [3].

(** fmmlib.py 53-131: the attributes; an output is [()] (None) or [(axis,)]. *)
Record tid := TI {
  using_tsqbx : bool;
  outputs : list (option nat);
  source_deriv_name : option string;
  k_name : option string;
  ti_dim : nat;
  ti_helmholtz : bool;        (* eqn_letter is "h" *)
  ti_ifgrad : bool }.

(** fmmlib.py 77-106: the loop over the target kernels; the state is (using_tsqbx, ifgrad) and the three
    lists. *)
Definition digest_state : Type := (bool * bool * list (option nat) * list (option string) * list (option string))%type.
Definition digest_step (setting : option bool) (st : digest_state) (k : knl) : result digest_state :=
  let '(use, grad, outs, srcs, ks) := st in
  do use <- (if is_supported_for_tsqbx k then Ok use
             else match setting with Some true => Err ValueError | _ => Ok false end);
  do r <- (if is_supported_helmknl k then Ok (None, k, grad)
           else match k with
                | AxisTarget a i => if is_supported_helmknl i then Ok (Some a, i, true) else Err ValueError
                | _ => Err ValueError
                end);
  let '(o, no_target_deriv, grad) := r in
  Ok (use, grad, outs ++ [o],
      srcs ++ [match no_target_deriv with DirSource v _ => Some v | _ => None end],
      ks ++ [match fst (base_kernel k) with Helmholtz n => Some n | _ => None end]).
Fixpoint foldM (A S : Type) (f : S -> A -> result S) (s : S) (l : list A) : result S :=
  match l with [] => Ok s | x :: l => do s <- f s x; foldM f s l end.
Definition oeqb (a b : option string) : bool :=
  match a, b with None, None => true | Some x, Some y => String.eqb x y | _, _ => false end.
(** pytools: is_single_valued, for a non-empty list. *)
Definition single (l : list (option string)) : bool :=
  match l with [] => true | x :: l => forallb (oeqb x) l end.
(** fmmlib.py 54-131 *)
Definition digest (setting : option bool) (target_kernels : list knl) : result tid :=
  match target_kernels with
  | [] => Err IndexError
  | k0 :: _ =>
    let use := match setting with Some b => b | None => true end in
    do st <- foldM (digest_step setting) (use, false, [], [], []) target_kernels;
    let '(use, grad, outs, srcs, ks) := st in
    if negb (single srcs) then Err ValueError else
    if negb (single ks) then Err ValueError else
    do h <- (match fst (base_kernel k0) with Laplace => Ok false | Helmholtz _ => Ok true | OtherBase => Err KeyError end);
    Ok (TI use outs (hd None srcs) (hd None ks) (snd (base_kernel k0)) h grad)
  end.

Definition knl_base_eqb (a b : base * nat) : bool :=
  match fst a, fst b with
  | Laplace, Laplace => snd a =? snd b
  | Helmholtz k, Helmholtz k' => String.eqb k k' && (snd a =? snd b)
  | OtherBase, OtherBase => snd a =? snd b
  | _, _ => false
  end.
(** qbx/__init__.py 617-659, for fmm_backend "fmmlib": one source kernel, with which the base
    kernels of the target kernels are replaced.  The expansion classes are not modelled. *)
Definition fmmlib_tree_indep (setting : option bool) (source_kernels target_kernels : list knl) : result tid :=
  match source_kernels with
  | [] => Err ValueError
  | s :: rest =>
    if negb (forallb (fun k => knl_base_eqb (base_kernel s) (base_kernel k)) rest) then Err ValueError else
    match rest with
    | [] => digest setting (map (fun t => replace_base t s) target_kernels)
    | _ => Err ValueError
    end
  end.

(** fmmlib.py 160-206 (QBXFMMLibExpansionWrangler.__init__): the Helmholtz parameter (numbers
    stand for values, 0 for 0) and the dipole vectors; [None]: no dipoles. *)
Definition lookup (A : Type) (d : list (string * A)) (n : string) : option A :=
  match find (fun e => String.eqb (fst e) n) d with Some e => Some (snd e) | None => None end.
Record wrangler := WR { w_k : nat; w_dipole : option (list nat) }.
Definition make_wrangler (ti : tid) (kernel_kwargs : list (string * nat)) (source_kwargs : list (string * list nat)) : result wrangler :=
  do k <- (match k_name ti with
           | None => Ok 0
           | Some n => match lookup kernel_kwargs n with Some k => Ok k | None => Err KeyError end
           end);
  do d <- (match source_deriv_name ti with
           | None => Ok None
           | Some n => match lookup source_kwargs n with Some d => Ok (Some d) | None => Err KeyError end
           end);
  Ok (WR k d).
(** fmmlib.py 187-196 (inner_fmm_level_to_order): the kernel that the user's fmm_level_to_order is asked
    about. *)
Definition level_order_kernel (wr : wrangler) : option nat := if w_k wr =? 0 then None else Some (w_k wr).

(** ** Expansions *)

Inductive place := AtBox (b : nat) | AtCenter (c : nat).
Inductive scale := LevelScale (l : nat) | Radius (c : nat).
Inductive order := LevelOrder (l : nat) | QbxOrder.
Record frame := Frame { f_place : place; f_scale : scale; f_order : order }.
Definition place_eqb (a b : place) : bool :=
  match a, b with AtBox x, AtBox y | AtCenter x, AtCenter y => x =? y | _, _ => false end.
Definition scale_eqb (a b : scale) : bool :=
  match a, b with LevelScale x, LevelScale y | Radius x, Radius y => x =? y | _, _ => false end.
Definition order_eqb (a b : order) : bool :=
  match a, b with LevelOrder x, LevelOrder y => x =? y | QbxOrder, QbxOrder => true | _, _ => false end.
Definition frame_eqb (a b : frame) : bool :=
  place_eqb (f_place a) (f_place b) && scale_eqb (f_scale a) (f_scale b) && order_eqb (f_order a) (f_order b).
Definition term : Type := option ((nat * nat) * frame).
Notation pot := (list (option contr)) (only parsing).

(** A translation: coefficients taken to be with respect to [from] become coefficients with
    respect to [to]. *)
Definition translate (from to : frame) (e : list term) : list term :=
  map (fun t => match t with
                | Some (p, f) => if frame_eqb f from then Some (p, to) else None
                | None => None
                end) e.
(** Evaluation (boxtree's get_expn_eval_routine): kernel number 0 for the potential, [S axis] for
    a component of the gradient. *)
Definition taeval (label : nat) (center : place) (rscale : scale) (e : list term) (route : route) (target : nat) : pot :=
  map (fun t => match t with
                | Some ((w, s), f) =>
                    if place_eqb (f_place f) center && scale_eqb (f_scale f) rscale
                    then Some (Contr label w s route target) else None
                | None => None
                end) e.

(** numpy: [a[ixs] += vs]. *)
Definition fancy_add (A : Type) (a : list (list A)) (ixs : list nat) (vs : list (list A)) : list (list A) :=
  scatter a ixs (map (fun '(i, v) => nth i a [] ++ v) (combine ixs vs)).
(** numpy: [a[start:stop] = vs], with broadcasting of a single value. *)
Definition assign_slice (A : Type) (a : list A) (start stop : nat) (vs : list A) : result (list A) :=
  if length vs =? stop - start then Ok (write_slice a start vs)
  else match vs with
       | [v] => Ok (write_slice a start (repeat v (stop - start)))
       | _ => Err ValueError
       end.
(** numpy: indexing with a possibly negative index; slicing. *)
Definition np_get (l : list nat) (i : Z) : nat :=
  nth (Z.to_nat (if (i <? 0)%Z then i + Z.of_nat (length l) else i)) l 0.
Definition np_slice (A : Type) (l : list A) (start stop : nat) : list A := firstn (stop - start) (skipn start l).
(** 0 followed by numpy's cumsum. *)
Fixpoint cumsum (acc : nat) (l : list nat) : list nat :=
  match l with [] => [acc] | x :: l => acc :: cumsum (acc + x) l end.

Section Fml.
Variable T : ftree.
Variable V : ftrav.
Variable ncenters : nat.
Variable ttc : list Z.
Variable w : list nat.     (* strengths, in tree order *)
Variable ti : tid.
Variable wr : wrangler.

Definition gcenters : list nat := global_centers ncenters ttc.
(** Level [l]: first box, number of boxes (level_start_box_nrs). *)
Definition level_range (l : nat) : nat * nat := nth l (ft_levels T) (0, 0).
Fixpoint find_level (l : nat) (ls : list (nat * nat)) (b : nat) : nat :=
  match ls with
  | [] => l
  | (s, n) :: ls => if (s <=? b) && (b <? s + n) then l else find_level (S l) ls b
  end.
Definition level_of (b : nat) : nat := find_level 0 (ft_levels T) b.
Definition box_frame (b : nat) : frame := Frame (AtBox b) (LevelScale (level_of b)) (LevelOrder (level_of b)).
Definition qbx_frame (c : nat) : frame := Frame (AtCenter c) (Radius c) QbxOrder.
Definition tagged (f : frame) (e : list (nat * nat)) : list term := map (fun p => Some (p, f)) e.
(** boxtree: the multipoles and locals of the boxes, in the frame of the box, by level. *)
Definition box_mpole (b : nat) : list term := tagged (box_frame b) (mpole T w b).
Definition box_local (b : nat) : list term := tagged (box_frame b) (locals T V w b).
(** boxtree: multipole_expansions_view, local_expansions_view: first box of the level and its
    expansions; out of range is garbage. *)
Definition view (exps : nat -> list term) (l : nat) (i : Z) : list term :=
  if (0 <=? i)%Z && (i <? Z.of_nat (snd (level_range l)))%Z then exps (fst (level_range l) + Z.to_nat i) else [None].

(** fmmlib.py 214-233 (output_zeros, full_output_zeros) and 287-290. *)
Definition full_output_zeros : list (list pot) := map (fun _ => repeat [] (ft_ntgt T)) (outputs ti).
Definition qbx_zeros : list (list term) := repeat [] ncenters.

(** fmmlib.py 248-260 (add_potgrad_onto_output): [ixs] is the slice; pot and grad may be None or (grad)
    0. *)
Inductive gradient := GArray (g : list (list pot)) | GZero | GNone.
Definition add_potgrad (output : list (list pot)) (ixs : list nat) (p : option (list pot)) (g : gradient) : result (list (list pot)) :=
  mapM (fun '(o, row) =>
      match o with
      | None => match p with Some p => Ok (fancy_add row ixs p) | None => Err AttributeError end
      | Some axis =>
        match g with
        | GArray g => match nth_error g axis with Some v => Ok (fancy_add row ixs v) | None => Err IndexError end
        | GZero => Ok row
        | GNone => Err AssertionError
        end
      end) (combine (outputs ti) output).

(** fmmlib.py 294-344 (form_global_qbx_locals); formta: for every global center the expansion of the
    sources in the source boxes of its target box, zeros elsewhere. *)
Definition formta : list (list term) :=
  fold_left (fun a c =>
      set_nth a c (tagged (qbx_frame c) (flat_map (box_parts T w) (tr_near V (nth c (center_to_target_box T V ncenters) 0)))))
    gcenters qbx_zeros.
Definition fml_form_global_qbx_locals : list (list term) :=
  if using_tsqbx ti then qbx_zeros else
  if length gcenters =? 0 then qbx_zeros else formta.

(** Compressed list 3 of a level as CSR lists (boxtree). *)
Definition ssn_starts (lev : list nat * (nat -> list nat)) : list nat :=
  cumsum 0 (map (fun m => length (snd lev m)) (seq 0 (length (fst lev)))).
Definition ssn_lists (lev : list nat * (nat -> list nat)) : list nat :=
  flat_map (snd lev) (seq 0 (length (fst lev))).
(** pyfmmlib's mploc with suffix "_imany": adds the translated expansions onto [expn2]. *)
Definition mploc_imany (rscale1 : list scale) (rscale1_offsets rscale1_starts : list nat)
    (center1_offsets center1_starts : list nat)
    (expn1 : Z -> list term) (order1 : order) (expn1_offsets : list Z) (expn1_starts : list nat)
    (rscale2 : list scale) (center2 : list place) (expn2 : list (list term)) (order2 : order) : list (list term) :=
  map (fun i => nth i expn2 [] ++
      flat_map (fun q =>
          translate (Frame (AtBox (nth (nth i center1_starts 0 + q) center1_offsets 0))
                       (nth (nth (nth i rscale1_starts 0 + q) rscale1_offsets 0) rscale1 (Radius 0)) order1)
            (Frame (nth i center2 (AtBox 0)) (nth i rscale2 (LevelScale 0)) order2)
            (expn1 (nth (nth i expn1_starts 0 + q) expn1_offsets (-1)%Z)))
        (seq 0 (nth (i + 1) center1_starts 0 - nth i center1_starts 0)))
    (seq 0 (length expn2)).
Definition z_or (m : option nat) : Z := match m with Some m => Z.of_nat m | None => (-1)%Z end.
(** fmmlib.py 385-396: the number of source boxes per global center, and the cumulated ones. *)
Definition src_box_counts (lev : list nat * (nat -> list nat)) (cbox : list Z) : list nat :=
  map (fun c => let i := nth c cbox (-1)%Z in
                if (i =? -1)%Z then 0 else np_get (ssn_starts lev) (i + 1) - np_get (ssn_starts lev) i) gcenters.
(** fmmlib.py 401-412: the loop filling src_ibox. *)
Definition fill_src_ibox (lev : list nat * (nat -> list nat)) (cbox : list Z) (starts : list nat) (src_ibox : list nat) : result (list nat) :=
  foldM (fun a '(i, c) =>
      let b := nth c cbox (-1)%Z in
      assign_slice a (nth i starts 0) (nth (i + 1) starts 0)
        (np_slice (ssn_lists lev) (np_get (ssn_starts lev) b) (np_get (ssn_starts lev) (b + 1))))
    src_ibox (combine (seq 0 (length gcenters)) gcenters).
(** fmmlib.py 366-455: one source level. *)
Definition m2qbxl_level (qbx_exps : list (list term)) (l : nat) (lev : list nat * (nat -> list nat)) : result (list (list term)) :=
  let cbox := map z_or (center_to_list3 T V ncenters lev) in
  let counts := src_box_counts lev cbox in
  let nsrc := fold_left plus counts 0 in
  let starts := cumsum 0 counts in
  do src_ibox <- fill_src_ibox lev cbox starts (repeat 0 nsrc);
  let expn2 := mploc_imany
      (repeat (LevelScale l) nsrc) (seq 0 nsrc) starts
      src_ibox starts
      (view box_mpole l) (LevelOrder l) (map (fun b => (Z.of_nat b - Z.of_nat (fst (level_range l)))%Z) src_ibox) starts
      (map Radius gcenters) (map AtCenter gcenters) (repeat [] (length gcenters)) QbxOrder in
  Ok (fancy_add qbx_exps gcenters expn2).
(** fmmlib.py 350-457 (translate_box_multipoles_to_qbx_local) *)
Definition fml_m2qbxl : result (list (list term)) :=
  if length gcenters =? 0 then Ok qbx_zeros else
  foldM (fun a '(l, lev) => m2qbxl_level a l lev) qbx_zeros
    (combine (seq 0 (length (tr_smaller V))) (tr_smaller V)).

(** fmmlib.py 484-489: box_to_rscale (None where np.empty stays unset). *)
Definition box_to_rscale : list (option scale) :=
  fold_left (fun a l => write_slice a (fst (level_range l)) (repeat (Some (LevelScale l)) (snd (level_range l))))
    (seq 0 (length (ft_levels T))) (repeat None (ft_nboxes T)).
(** fmmlib.py 494: qbx_center_to_box. *)
Definition center_to_box : list nat := map (fun k => nth k (tr_target_boxes V) 0) (center_to_target_box T V ncenters).
(** fmmlib.py 511-514: curr_level_qbx_centers. *)
Definition is_global (c : nat) : bool := nth c (scatter (repeat false ncenters) gcenters (repeat true (length gcenters))) false.
Definition level_centers (l : nat) : list nat :=
  filter (fun c => is_global c && (fst (level_range l) <=? nth c center_to_box 0)
                   && (nth c center_to_box 0 <? fst (level_range l) + snd (level_range l))) (seq 0 ncenters).
(** fmmlib.py 499-549: one level; pyfmmlib's locloc with suffix "_qbx". *)
Definition l2qbxl_level (qbx_exps : list (list term)) (l : nat) : list (list term) :=
  let cs := level_centers l in
  if length cs =? 0 then qbx_exps else
  fancy_add qbx_exps cs
    (map (fun c =>
        let b := nth c center_to_box 0 in
        match nth b box_to_rscale None with
        | Some rscale1 =>
          translate (Frame (AtBox b) rscale1 (LevelOrder l)) (Frame (AtCenter c) (Radius c) QbxOrder)
            (view box_local l (Z.of_nat b - Z.of_nat (fst (level_range l))))
        | None => [None]
        end) cs).
(** fmmlib.py 461-551 (translate_box_local_to_qbx_local) *)
Definition fml_l2qbxl : list (list term) :=
  if length gcenters =? 0 then qbx_zeros else
  fold_left l2qbxl_level (seq 0 (length (ft_levels T))) qbx_zeros.

Definition add_exps (a b : list (list term)) : list (list term) := map (fun '(x, y) => x ++ y) (combine a b).

(** fmmlib.py 553-585 (eval_qbx_expansions); the gradient is 0 if it is not requested (boxtree's
    get_expn_eval_routine). *)
Definition fml_eval_qbx_expansions (qbx_expansions : list (list term)) : result (list (list pot)) :=
  foldM (fun out c =>
      foldM (fun out t =>
          let value label := taeval label (AtCenter c) (Radius c) (nth c qbx_expansions []) (Via c) (ft_tgt_pt T t) in
          add_potgrad out [t] (Some [value 0])
            (if ti_ifgrad ti then GArray (map (fun axis => [value (S axis)]) (seq 0 (ti_dim ti))) else GZero))
        out (center_targets T ttc c))
    full_output_zeros gcenters.

(** target_specific/impl.pyx 566-785 (C91, C92): assigns, for the targets of every center, the
    sum over the sources of the source boxes. *)
Definition ts_values (label : nat) : list pot :=
  fold_left (fun a c =>
      fold_left (fun a t => set_nth a t (map Some (eval label (flat_map (box_parts T w) (tr_near V (nth c (center_to_target_box T V ncenters) 0))) (Via c) (ft_tgt_pt T t))))
        (center_targets T ttc c) a)
    gcenters (repeat [] (ft_ntgt T)).
(** fmmlib.py 587-639 (eval_target_specific_qbx_locals) *)
Definition fml_eval_ts : result (list (list pot)) :=
  if negb (using_tsqbx ti) then Ok full_output_zeros else
  let ifcharge := match w_dipole wr with None => true | Some _ => false end in
  let ifdipole := match w_dipole wr with None => false | Some _ => true end in
  let ifpot := existsb (fun o : option nat => match o with None => true | Some _ => false end) (outputs ti) in
  let ifgrad := ti_ifgrad ti in
  if ifdipole && ifgrad then Err ValueError else
  let p := if ifpot then Some (ts_values 0) else None in
  let g := if ifgrad then GArray (map (fun axis => ts_values (S axis)) (seq 0 (ti_dim ti))) else GNone in
  add_potgrad full_output_zeros (seq 0 (ft_ntgt T)) p g.

(** boxtree's stages for the non-QBX targets (as in FmmModel): output [o] of [outputs]. *)
Definition label_of (o : option nat) : nat := match o with None => 0 | Some axis => S axis end.
Definition fml_non_qbx (o : option nat) : list pot :=
  map (map Some) (non_qbx_potentials T V ncenters ttc w (label_of o)).

Definition add_pots (a b : list pot) : list pot := map (fun '(x, y) => x ++ y) (combine a b).
(** fmm.py 540-588 with this wrangler. *)
Definition fml_potentials : result (list (list pot)) :=
  do m2q <- fml_m2qbxl;
  let exps := add_exps (add_exps fml_form_global_qbx_locals m2q) fml_l2qbxl in
  do q <- fml_eval_qbx_expansions exps;
  do ts <- fml_eval_ts;
  let q := map (fun '(x, y) => add_pots x y) (combine q ts) in
  let all := map (fun '(z, o) => scatter z (non_qbx_targets T ncenters ttc) (fml_non_qbx o)) (combine full_output_zeros (outputs ti)) in
  let all := map (fun '(x, y) => add_pots x y) (combine all q) in
  Ok (map (fun a => map (fun i => nth i a []) (ft_sorted T)) all).
End Fml.

(** fmm.py 414-594 (drive_fmm) with the FMMLIB wrangler: exactly one strength vector
    (fmmlib.py 296, 589). *)
Definition drive_fmmlib (T : ftree) (V : ftrav) (ncenters : nat) (ttc : list Z) (ti : tid) (wr : wrangler)
    (sws : list (list nat)) : result (list (list pot)) :=
  match sws with
  | [sw] => fml_potentials T V ncenters ttc (map (fun u => nth u sw 0) (ft_user_src T)) ti wr
  | _ => Err ValueError
  end.
(** qbx/__init__.py 736-773: from the kernels of the instruction to the potentials. *)
Definition fmmlib_apply (T : ftree) (V : ftrav) (ncenters : nat) (ttc : list Z) (setting : option bool)
    (source_kernels target_kernels : list knl) (kernel_kwargs : list (string * nat)) (source_kwargs : list (string * list nat))
    (sws : list (list nat)) : result (list (list pot)) :=
  do ti <- fmmlib_tree_indep setting source_kernels target_kernels;
  do wr <- make_wrangler ti kernel_kwargs source_kwargs;
  drive_fmmlib T V ncenters ttc ti wr sws.
