(** Model of the magic-templates transformation ([Program.magic_templates],
    dyna/program.py 902-950), with the dependency graph it consults
    (dyna/analyze/coarse_graph.py). *)
From stdpp Require Import gmap.
From Coq Require Import List.
From Coq Require String Ascii.
From Verif Require Import PyBase TermModel TermSpec SetsModel PruneModel NamesModel SlashModel.
Import String.StringSyntax Ascii.AsciiSyntax.
Import ListNotations.

(** Comparison of the tuples returned by [key]: lexicographic (Python's [<] on
    tuples; [False < True]). *)
Definition sort_key : Type := bool * nat * bool * nat.
Definition bit (b : bool) : nat := if b then 1 else 0.
Definition key_lt (a b : sort_key) : bool :=
  let '(a1, a2, a3, a4) := a in
  let '(b1, b2, b3, b4) := b in
  if Nat.eqb (bit a1) (bit b1) then
    if Nat.eqb a2 b2 then
      if Nat.eqb (bit a3) (bit b3) then Nat.ltb a4 b4 else Nat.ltb (bit a3) (bit b3)
    else Nat.ltb a2 b2
  else Nat.ltb (bit a1) (bit b1).

(** Python's [min] on the keys: the position of the first least one.  [i] is the
    position of the first of [ks], [best] the position and key found so far. *)
Fixpoint argmin (ks : list sort_key) (i : nat) (best : nat * sort_key) : nat :=
  match ks with
  | [] => fst best
  | k :: ks => argmin ks (S i) (if key_lt k (snd best) then (i, k) else best)
  end.

Section magic.
(** identities of new and of canonical variables *)
Context (al cv : nat -> nat).
(** the heads of [self.inputs] *)
Context (inputs : list term).

(** coarse_graph.py 15-23 and 26-27: the nodes; [root] of an input raises KeyError
    unless exactly one node overlaps with it. *)
Fixpoint find_roots (n : nat) (nodes : list term * nat) (ts : list term) : res (list nat) :=
  match ts with
  | [] => Ok []
  | t :: ts => let* i := de_find al n nodes t in let* is := find_roots n nodes ts in Ok (i :: is)
  end.

(** coarse_graph.py 37-45: the nodes with an outgoing edge.  Simplification: the
    hypergraph (lines 25-34), which only calls the same [root], is left out. *)
Fixpoint sources (n : nat) (nodes : list term * nat) (P : list rule) : res (list nat) :=
  match P with
  | [] => Ok []
  | r :: P =>
      let* i := de_find al n nodes (rhead r) in
      let* js := find_roots n nodes (List.filter (fun y => negb (is_const y || is_builtin y)) (rbody r)) in
      let* rest := sources n nodes P in
      Ok (match js with [] => rest | _ => i :: rest end)
  end.

(** program.py 906-909.  [nodes] are [cg.nodes], [src] the nodes with outgoing edges.
    A term that is not a Term object (a variable or a constant) is not a leaf. *)
Definition is_leaf (n : nat) (nodes : list term) (src : list nat) (a : term) (c : nat) : res (bool * nat) :=
  match a with
  | Fn _ => let* (is, c) := find_all al n nodes a c in
            Ok (forallb (fun i => negb (bool_decide (i ∈ src))) is, c)
  | _ => Ok (false, c)
  end.

(** program.py 917-923 *)
Definition stage (n : nat) (nodes : list term) (src : list nat) (a : term) (c : nat) : res (nat * nat) :=
  if is_builtin a then Ok (2, c) else
  let* e := is_exogenous inputs n ∅ a in
  if e then Ok (0, c) else
  let* (l, c) := is_leaf n nodes src a c in
  Ok (if l then 0 else 1, c).

(** program.py 924-929 *)
Definition key (n : nat) (nodes : list term) (src : list nat) (bound : gset nat) (a : term) (c : nat) : res (sort_key * nat) :=
  let av : gset nat := list_to_set (vars a) in
  let new := av ∖ bound in
  let* (s, c) := stage n nodes src a c in
  Ok ((bool_decide (new <> ∅), s, bool_decide (av ∩ bound = ∅) && bool_decide (bound <> ∅), size new), c).

(** program.py 911-934: the loop runs once for each atom, [k] of them.  Simplification:
    [ys.remove(a)] removes the atom at the position where [min] found it; an equal
    atom further left would have the same key, so that [min] would have found it. *)
Fixpoint reorder (k n : nat) (nodes : list term) (src : list nat) (ys : list term) (bound : gset nat) (c : nat)
  : res (list term * nat) :=
  match k, ys with
  | _, [] => Ok ([], c)
  | 0, _ => OutOfFuel
  | S k, y :: _ =>
      let* (ks, c) := mapSM (key n nodes src bound) ys c in
      match ks with
      | [] => Raise ValueError
      | k0 :: kr =>
          let i := argmin kr 1 (0, k0) in
          let a := nth i ys y in
          let* (rest, c) := reorder k n nodes src (take i ys ++ drop (S i) ys) (bound ∪ list_to_set (vars a)) c in
          Ok (a :: rest, c)
      end
  end.

(** program.py 937 *)
Definition magic (fn : String.string) (t : term) : term := Fn [Cst (CStr fn); t].

(** program.py 944-946: the rules that demand the subgoals; [pre] are the subgoals
    to the left, in order. *)
Fixpoint demands (fn : String.string) (n : nat) (gH : term) (pre fs : list term) : res (list rule) :=
  match fs with
  | [] => Ok []
  | f :: fs =>
      let* e := is_exogenous inputs n ∅ f in
      let* rest := demands fn n gH (pre ++ [f]) fs in
      Ok (if e then rest else Rule (magic fn f) (gH :: pre) :: rest)
  end.

(** program.py 939 *)
Definition magic_out (fn : String.string) (n : nat) (nodes : list term) (src : list nat) (r : rule) (c : nat)
  : res (rule * nat) :=
  let* (ordered, c) := reorder (length (rbody r)) n nodes src (rbody r) ∅ c in
  Ok (Rule (magic fn (rhead r)) ordered, c).

(** program.py 940-946 *)
Definition magic_rule (fn : String.string) (n : nat) (nodes : list term) (src : list nat) (r : rule) (c : nat)
  : res (list rule * nat) :=
  let gH := magic fn (rhead r) in
  let* (ordered, c) := reorder (length (rbody r)) n nodes src (rbody r) (list_to_set (vars (rhead r))) c in
  let* ds := demands fn n gH [] ordered in
  Ok (Rule (rhead r) (gH :: ordered) :: ds, c).

Local Open Scope string_scope.
(** program.py 902-946: the rules before pruning.  [outs] are the rules of
    [self.outputs], [g] the counter of [gen_functor]. *)
Definition magic_rules (n : nat) (outs P : list rule) (g c : nat) : res (list rule * nat) :=
  let* nodes := de_adds al cv n ([], c) (coarse_terms inputs P) in
  let* _ := find_roots n nodes inputs in
  let* src := sources n nodes P in
  let '(xs, c) := nodes in
  let* (fn, _) := prog_gen_functor (syms P) "$magic" g in
  let* (os, c) := mapSM (magic_out fn n xs src) outs c in
  let* (rs, c) := mapSM (magic_rule fn n xs src) P c in
  Ok (os ++ concat rs, c).
Local Close Scope string_scope.

(** program.py 902-950 *)
Definition magic_templates (pick : nat -> gset nat -> nat) (n : nat) (outs P : list rule) (g c : nat) : res (list rule) :=
  let* (rs, c) := magic_rules n outs P g c in
  prune_fast al cv pick n c inputs (map rhead outs) rs.
End magic.
