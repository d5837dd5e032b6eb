(** Specification vocabulary for the averages that binding leaves behind. *)
From Verif Require Import Base DofModel SymModel.
Set Implicit Arguments.

(** The source geometry of a layer potential, if missing the default. *)
Definition source_of (dflt : option geom) (g : intg) : option geom :=
  match geometry (g_src g) with None => dflt | Some x => Some x end.

(** [e] contains a layer potential with limit "avg" whose source is [s]; [outer]
    are the sources of the layer potentials around it, from the outside in. *)
Inductive averaged (dflt : option geom) : sexpr -> option geom -> list (option geom) -> Prop :=
| avg_here : forall g cs, g_lim g = LAvg -> averaged dflt (Node (HIntG g) cs) (source_of dflt g) []
| avg_inside : forall g cs c s outer, In c cs -> averaged dflt c s outer ->
    averaged dflt (Node (HIntG g) cs) s (source_of dflt g :: outer)
| avg_below : forall h cs c s outer, (forall g, h <> HIntG g) -> In c cs -> averaged dflt c s outer ->
    averaged dflt (Node h cs) s outer.
