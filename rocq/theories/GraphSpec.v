(** Graphs and hypergraphs, independently of the algorithms. *)
From stdpp Require Import gmap relations.

Section spec.
Context {V : Type}.

(** [y] can be reached from [x] along edges of the successor relation. *)
Definition reach (succ : V -> list V) : V -> V -> Prop := rtc (fun x y => In y (succ x)).

Definition mutually (succ : V -> list V) (x y : V) : Prop := reach succ x y /\ reach succ y x.

(** A hypergraph is a list of edges (head, body).  Derivability from a set of
    given nodes. *)
Inductive derivable (E : list (V * list V)) (given : V -> Prop) : V -> Prop :=
| dv_given x : given x -> derivable E given x
| dv_edge h b : In (h, b) E -> Forall (derivable E given) b -> derivable E given h.

(** Derivation trees, and the nodes that occur in them. *)
Inductive dtree := DLeaf (x : V) | DEdge (h : V) (ts : list dtree).
Definition droot (t : dtree) : V := match t with DLeaf x => x | DEdge h _ => h end.
Fixpoint dtree_ok (E : list (V * list V)) (given : V -> Prop) (t : dtree) : Prop :=
  match t with
  | DLeaf x => given x
  | DEdge h ts => In (h, map droot ts) E /\
      (fix go ts := match ts with [] => True | t :: ts => dtree_ok E given t /\ go ts end) ts
  end.
Fixpoint dnodes (t : dtree) : list V :=
  match t with
  | DLeaf x => [x]
  | DEdge h ts => h :: flat_map dnodes ts
  end.

(** [x] is a body node of an edge whose head is [y]. *)
Definition feeds (E : list (V * list V)) (x y : V) : Prop := exists b, In (y, b) E /\ In x b.
End spec.
Arguments dtree V : clear implicits.
