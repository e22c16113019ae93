(** Model of dyna/util/graphs.py: tarjan, Graph.condensation and
    Hypergraph.reachability. *)
From stdpp Require Import gmap.
From Verif Require Import PyBase.

Section graph.
Context {V : Type} `{Countable V}.

(** graphs.py 347-354: the variables shared by the nested generator [dfs].
    [g_stack] has the top of the Python list first; [g_out] lists what has been
    yielded so far, in order. *)
Record tstate := TState {
  g_low : gmap V nat;      (* lowest *)
  g_stack : list V;        (* stack *)
  g_trail : gset V;        (* trail *)
  g_t : nat;               (* t *)
  g_out : list (gset V)    (* the components yielded *)
}.

(** [lowest[v]] *)
Definition get_low (v : V) (st : tstate) : res nat :=
  match g_low st !! v with Some n => Ok n | None => Raise KeyError end.

(** [lowest[v] = min(lowest[v], lowest[w])], graphs.py 374 and 380 *)
Definition low_min (v w : V) (st : tstate) : res tstate :=
  let* a := get_low v st in
  let* b := get_low w st in
  Ok (TState (<[v := min a b]> (g_low st)) (g_stack st) (g_trail st) (g_t st) (g_out st)).

(** graphs.py 385-391: pop until we reach [v]; [trail.remove] raises KeyError on
    an absent element and [stack.pop] raises IndexError on the empty list. *)
Fixpoint pop_until (v : V) (C : list V) (stack : list V) (trail : gset V)
  : res (list V * list V * gset V) :=
  match stack with
  | [] => Raise IndexError
  | w :: stack =>
      if decide (w ∈ trail) then
        if decide (w = v) then Ok (C ++ [w], stack, trail ∖ {[w]})
        else pop_until v (C ++ [w]) stack (trail ∖ {[w]})
      else Raise KeyError
  end.

(** graphs.py 356-392.  [succ] is the order in which [successors(v)] is
    iterated. *)
Fixpoint tdfs (succ : V -> list V) (n : nat) (v : V) (st : tstate) : res tstate :=
  match n with
  | 0 => OutOfFuel
  | S n =>
      let num := S (g_t st) in
      let st0 := TState (<[v := num]> (g_low st)) (v :: g_stack st) ({[v]} ∪ g_trail st) num (g_out st) in
      let* st1 := foldM (fun w st =>
        match g_low st !! w with
        | None => let* st := tdfs succ n w st in low_min v w st
        | Some _ => if decide (w ∈ g_trail st) then low_min v w st else Ok st
        end) (succ v) st0 in
      let* l := get_low v st1 in
      if Nat.eqb l num then
        let* (p, tr) := pop_until v [] (g_stack st1) (g_trail st1) in
        Ok (TState (g_low st1) (snd p) tr (g_t st1) (g_out st1 ++ [list_to_set (fst p)]))
      else Ok st1
  end.

(** graphs.py 394-396 *)
Definition tarjan (succ : V -> list V) (n : nat) (roots : list V) : res (list (gset V)) :=
  let* st := foldM (fun v st =>
    match g_low st !! v with
    | None => tdfs succ n v st
    | Some _ => Ok st
    end) roots (TState ∅ [] ∅ 0 []) in
  Ok (g_out st).

(** graphs.py 205-231 and 239-258.  A graph is its nodes, in the order the set
    is iterated, and the successors of each node.  The result is the set of
    nodes and the set of edges of the condensed graph, and the list [topo].
    The dictionary [s] maps each node to the index of the last component that
    contains it. *)
Fixpoint comp_index (x : V) (i : nat) (sccs : list (gset V)) (acc : option nat) : option nat :=
  match sccs with
  | [] => acc
  | X :: sccs => comp_index x (S i) sccs (if decide (x ∈ X) then Some i else acc)
  end.

Definition comp_of (sccs : list (gset V)) (x : V) : option (gset V) :=
  match comp_index x 0 sccs None with
  | Some i => sccs !! i
  | None => None
  end.

Definition cond_node (succ : V -> list V) (sccs : list (gset V)) (x : V)
  (g : gset (gset V) * gset (gset V * gset V)) : gset (gset V) * gset (gset V * gset V) :=
  match comp_of sccs x with
  | None => g
  | Some X =>
      fold_left (fun g y =>
        if decide (y ∈ X) then g
        else match comp_of sccs y with
             | None => g
             | Some Y => ({[X]} ∪ ({[Y]} ∪ fst g), {[(X, Y)]} ∪ snd g)
             end) (succ x) ({[X]} ∪ fst g, snd g)
  end.

Definition condensation (succ : V -> list V) (n : nat) (nodes : list V) (roots : option (list V))
  : res (gset (gset V) * gset (gset V * gset V) * list (gset V)) :=
  let* sccs := tarjan succ n (match roots with Some (r :: rs) => r :: rs | _ => nodes end) in
  Ok (fold_left (fun g x => cond_node succ sccs x g) nodes (∅, ∅), sccs).

(** ------------------------------------------------------------------------
    graphs.py 139-168.  A hypergraph is its list of edges (head, body), in the
    order of [self.edges()]; weights play no role.  [pick k A] is the element
    that the k-th call of [agenda.pop()] returns. *)
Definition hedge : Type := V * list V.
Definition hhead (e : hedge) : V := fst e.
Definition hbody (e : hedge) : list V := snd e.

(** graphs.py 143-146: [outgoing[x]]; an edge is listed once per occurrence. *)
Definition outgoing (E : list hedge) (x : V) : list hedge :=
  flat_map (fun e => map (fun _ => e) (List.filter (fun b => bool_decide (b = x)) (hbody e))) E.

(** [self.incoming[x]] *)
Definition incoming (E : list hedge) (x : V) : list hedge :=
  List.filter (fun e => bool_decide (hhead e = x)) E.

(** graphs.py 150-154 *)
Definition fwd_edge (e : hedge) (s : gset V * gset V) : gset V * gset V :=
  let '(C, A) := s in
  if forallb (fun b => bool_decide (b ∈ C)) (hbody e) then
    if decide (hhead e ∈ C) then (C, A) else ({[hhead e]} ∪ C, {[hhead e]} ∪ A)
  else (C, A).

(** graphs.py 148-154: [k] counts the pops. *)
Fixpoint fwd_loop (pick : nat -> gset V -> V) (E : list hedge) (n k : nat) (C A : gset V) : res (gset V) :=
  match n with
  | 0 => OutOfFuel
  | S n =>
      if decide (A = ∅) then Ok C
      else
        let x := pick k A in
        let '(C', A') := fold_left (fun s e => fwd_edge e s) (outgoing E x) (C, A ∖ {[x]}) in
        fwd_loop pick E n (S k) C' A'
  end.

(** graphs.py 162-166 *)
Definition bwd_edge (C : gset V) (e : hedge) (s : gset V * gset V) : gset V * gset V :=
  if decide (hhead e ∈ fst s) then
    fold_left (fun s b => if decide (b ∉ fst s /\ b ∈ C)
                          then ({[b]} ∪ fst s, {[b]} ∪ snd s) else s) (hbody e) s
  else s.

(** graphs.py 156-166 *)
Fixpoint bwd_loop (pick : nat -> gset V -> V) (E : list hedge) (C : gset V) (n k : nat) (T A : gset V)
  : res (gset V) :=
  match n with
  | 0 => OutOfFuel
  | S n =>
      if decide (A = ∅) then Ok T
      else
        let x := pick k A in
        let '(T', A') := fold_left (fun s e => bwd_edge C e s) (incoming E x) (T, A ∖ {[x]}) in
        bwd_loop pick E C n (S k) T' A'
  end.

Definition reachability (pick : nat -> gset V -> V) (E : list hedge) (n : nat) (inputs outputs : gset V)
  : res (gset V) :=
  let C := list_to_set (map hhead (List.filter (fun e => match hbody e with [] => true | _ => false end) E)) ∪ inputs in
  let* C := fwd_loop pick E n 0 C C in
  bwd_loop pick E C n 0 outputs outputs.
End graph.
Arguments tstate V {_ _}.
