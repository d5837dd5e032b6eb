(** Specification vocabulary for the dataflow graph. *)
From Verif Require Import Base SchedModel CompModel DotModel.
Set Implicit Arguments.

(** The nodes declared, in order, and the arrows drawn. *)
Definition nodes_of (g : list line) : list node :=
  flat_map (fun l => match l with LNode n => [n] | _ => [] end) g.
Definition arrow (g : list line) (a b : node) : Prop := exists l, In (LArrow a b l) g.

(** An arrow with the given target and label is drawn exactly once, and this is its source. *)
Definition drawn_once (g : list line) (tgt : node) (l : label) (src : node) : Prop :=
  exists g1 g2, g = g1 ++ LArrow src tgt l :: g2 /\
    forall s, ~ In (LArrow s tgt l) g1 /\ ~ In (LArrow s tgt l) g2.

(** The [k]-th statement assigns / reads a name. *)
Definition assigns (stmts : list stmt) (k : nat) (n : string) : Prop :=
  exists s, nth_error stmts k = Some s /\ In n (sassignees s).
Definition reads (stmts : list stmt) (k : nat) (d : dep) : Prop :=
  exists s, nth_error stmts k = Some s /\ In d (sdeps s).

(** Where a variable comes from according to the statements: from the one
    statement that assigns it, or from outside if there is none. *)
Definition comes_from (stmts : list stmt) (n : string) (o : node) : Prop :=
  (exists k, o = NStmt k /\ assigns stmts k n /\ forall j, assigns stmts j n -> j = k)
  \/ (o = NInit /\ forall j, ~ assigns stmts j n).

(** A path of at least one arrow. *)
Inductive path (g : list line) : node -> node -> Prop :=
| path_one : forall a b, arrow g a b -> path g a b
| path_more : forall a b c, arrow g a b -> path g b c -> path g a c.

(** The entries of a result: those of an object array, otherwise itself. *)
Definition entries (r : expr) : list expr := match r with Arr cs => cs | e => [e] end.

(** What a result entry shows as its source: a variable where it comes from,
    anything else "initial". *)
Definition shown_source (stmts : list stmt) (e : expr) (o : node) : Prop :=
  match e with Var n | NIR n => comes_from stmts n o | _ => o = NInit end.
