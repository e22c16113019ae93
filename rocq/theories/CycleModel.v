(** Model of the analyses on the coarse-grained dependency graph
    (dyna/analyze/coarse_graph.py: [CoarseGraph.__init__], [split_input_dependent],
    [possibly_cyclic], [possibly_expansive]). *)
From stdpp Require Import gmap.
From Coq Require Import List.
From Verif Require Import PyBase TermModel TermSpec SetsModel PruneModel KleeneModel MagicModel.
Import ListNotations.

(** coarse_graph.py 21-22: the subgoals that get a node *)
Definition goals (r : rule) : list term := List.filter (fun y => negb (is_const y || is_builtin y)) (rbody r).

Section coarse.
(** identities of new and of canonical variables *)
Context (al cv : nat -> nat).

(** coarse_graph.py 40-44: per rule, the node of its head and the nodes of its
    subgoals; [root] (term.py 1011) raises KeyError unless exactly one node overlaps
    with the term.  Simplification: nodes are named by their positions. *)
Fixpoint rule_roots (n : nat) (nodes : list term * nat) (P : list rule) : res (list (nat * list nat)) :=
  match P with
  | [] => Ok []
  | r :: P => let* i := de_find al n nodes (rhead r) in
              let* js := find_roots al n nodes (goals r) in
              let* rest := rule_roots n nodes P in
              Ok ((i, js) :: rest)
  end.

(** graphs.py 225-231 [add], [add_edge]: the graph with these nodes and edges *)
Definition graph_of (ins : list nat) (es : list (nat * list nat)) : graph :=
  Graph (remove_dups (ins ++ concat (map (fun e => fst e :: snd e) es)))
        (fun i => remove_dups (concat (map (fun e => if Nat.eqb (fst e) i then snd e else []) es))).

(** coarse_graph.py 10-47.  [inputs] are the heads of the input declarations.
    Simplification: the hypergraph (lines 25-34), which calls [root] on the inputs
    only, is left out. *)
Definition coarse_graph (n c : nat) (inputs : list term) (P : list rule) : res ((list term * nat) * graph) :=
  let* nodes := de_adds al cv n ([], c) (coarse_terms inputs P) in
  let* ins := find_roots al n nodes inputs in
  let* es := rule_roots n nodes P in
  Ok (nodes, graph_of ins es).

(** membership in [T.outgoing[i]] *)
Definition edge_in (T : list (nat * nat)) (i j : nat) : bool :=
  existsb (fun e => Nat.eqb (fst e) i && Nat.eqb (snd e) j) T.

(** coarse_graph.py 96-103 *)
Definition possibly_cyclic (g : graph) : bool :=
  let T := transitive_closure g false in
  existsb (fun i => edge_in T i i) (g_nodes g).

(** coarse_graph.py 118-122: the loop over the subgoals of one rule; [x] is the
    node of its head.  Only constants are skipped (line 119), not builtins. *)
Fixpoint exp_goals (n : nat) (nodes : list term * nat) (T : list (nat * nat)) (x : nat) (ys : list term)
  (count : nat) : res bool :=
  match ys with
  | [] => Ok false
  | y :: ys =>
      if is_const y then exp_goals n nodes T x ys count else
      let* j := de_find al n nodes y in
      let count := count + (if edge_in T j x then 1 else 0) in
      if Nat.ltb 1 count then Ok true else exp_goals n nodes T x ys count
  end.

(** coarse_graph.py 115-123 *)
Fixpoint exp_rules (n : nat) (nodes : list term * nat) (T : list (nat * nat)) (P : list rule) : res bool :=
  match P with
  | [] => Ok false
  | r :: P =>
      let* x := de_find al n nodes (rhead r) in
      let* b := exp_goals n nodes T x (rbody r) 0 in
      if b then Ok true else exp_rules n nodes T P
  end.

(** coarse_graph.py 105-123 *)
Definition possibly_expansive (n : nat) (nodes : list term * nat) (g : graph) (P : list rule) : res bool :=
  exp_rules n nodes (transitive_closure g true) P.

(** coarse_graph.py 63: [T.outgoing[x] & inputs].  The nodes are canonical terms,
    [inputs] is the set of the heads of the input declarations as written. *)
Definition reaches_input (nodes : list term) (T : list (nat * nat)) (inputs : list term) (x : nat) : bool :=
  existsb (fun e => Nat.eqb (fst e) x &&
                    match nodes !! snd e with Some t => existsb (term_eqb t) inputs | None => false end) T.

(** coarse_graph.py 49-68: (input-independent rules, input-dependent rules) *)
Fixpoint split_rules (n : nat) (nodes : list term * nat) (T : list (nat * nat)) (inputs : list term)
  (P : list rule) : res (list rule * list rule) :=
  match P with
  | [] => Ok ([], [])
  | r :: P =>
      let* x := de_find al n nodes (rhead r) in
      let* (Is, Ds) := split_rules n nodes T inputs P in
      Ok (if reaches_input (fst nodes) T inputs x then (Is, r :: Ds) else (r :: Is, Ds))
  end.

Definition split_input_dependent (n : nat) (nodes : list term * nat) (g : graph) (inputs : list term)
  (P : list rule) : res (list rule * list rule) :=
  split_rules n nodes (transitive_closure g true) inputs P.
End coarse.
