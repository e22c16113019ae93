(** Model of [Program.scc_solver] (dyna/program.py 952-1031): a first pass over the
    booleans finds the items that the outputs need, and a second pass runs with
    priorities that discard all other items. *)
From stdpp Require Import gmap.
From Coq Require Import List.
From Verif Require Import PyBase Semiring TermModel UnifyProofs SetsModel PruneModel GraphModel SlashModel TypesModel SolverModel.
Import ListNotations.

(** program.py 357-364 *)
Definition booleanize (P : list rule) : list rule := map remove_constants P.

Section scc.
Context {R : semiring} (wt : const -> R) (approx : R -> R -> bool) (ord : list term -> list term)
  (cmpf : String.string -> term -> term -> res bool) (is_run : nat -> store -> term -> term -> res (list store)).
(** identities of new and of canonical variables *)
Context (al cv : nat -> nat).
(** the heads of [self.inputs]; program.py 384-387: [p + data] has those of [p] *)
Context (inputs : list term).

(** Constants are removed from the rules of the first pass; one in an output
    declaration counts as true. *)
Definition wtb (_ : const) : bool_sr := true.
Definition joinb := join (R := bool_sr) wtb ord cmpf is_run.

(** program.py 1360-1371: the rules whose heads unify with [x], each as a new copy,
    with the heap.  Simplification: all rules are tried (C35: the index leaves out
    rules that do not unify). *)
Fixpoint match_rules (n : nat) (x : term) (Q : list rule) (c : nat) : res (list (rule * store)) :=
  match Q with
  | [] => Ok []
  | r :: Q =>
      let* (t, c) := fresh al n ∅ c (enc r) in
      let* (st, u) := unify_f n ∅ (rhead (dec t)) x in
      let* rest := match_rules n x Q c in
      Ok (if u then (dec t, st) :: rest else rest)
  end.

(** program.py 1273-1371.  A constant is yielded as it is, and
    [ground_out_rule] refuses it (base.py 115).  Not modelled: an item that is a
    builtin constraint, or a variable (errors). *)
Definition lookup_rules (n : nat) (x : term) (Q : list rule) : res (list (rule * store)) :=
  match x with
  | Cst _ => Raise AssertionError
  | Var _ => Raise OtherError
  | Fn _ =>
      if is_builtin x then Raise OtherError
      else
        let* i := any_unifies n ∅ inputs x in
        if i then Ok [(Rule x [x], ∅)] else match_rules n x Q 0
  end.

(** program.py 994-997: the subgoals of one ground instance that are not
    exogenous.  Simplifications: as in the solver, an instance with an unbound
    variable in its body is an error; the test [is_exogenous] is made on the copy. *)
Definition goals_at (n : nat) (st : store) (bs : list term) : res (list term) :=
  let* g := forallM (is_ground n st) bs in
  if g then
    let* ys := mapM (fun b => let* y := canonicalize cv n st b in
                              let* e := is_exogenous inputs n ∅ y in
                              Ok (if e then None else Some y)) bs in
    Ok (omap (fun o => o) ys)
  else Raise OtherError.

(** program.py 988-998.  [ch] is the chart of the first pass; its indexes, which
    the queries extend, are not kept. *)
Definition deps (n : nat) (ch : chart bool_sr) (Q : list rule) (x : term) : res (list term) :=
  let* ms := lookup_rules n x Q in
  let* ls := mapM (fun rs =>
    let* (js, _) := joinb n (snd rs) (rbody (fst rs)) ch in
    let* yss := mapM (fun j => goals_at n (fst j) (rbody (fst rs))) js in
    Ok (concat yss)) ms in
  Ok (concat ls).

(** program.py 1000-1003 *)
Definition asked_for (n : nat) (ch : chart bool_sr) (outs : list rule) : res (list term) :=
  let* ls := mapM (fun o =>
    let* (js, _) := joinb n ∅ (rbody o) ch in
    mapM (fun j => canonicalize cv n (fst j) (rhead o)) js) outs in
  Ok (concat ls).

(** program.py 1004: the dictionary [scc], as pairs.  The bound on the depth of
    [tarjan] is the number of nodes (C20).  Simplification: [deps] is called again
    after the search to find out whether it raised. *)
Definition succs (n : nat) (ch : chart bool_sr) (Q : list rule) (x : term) : list term :=
  match deps n ch Q x with Ok l => l | _ => [] end.
Fixpoint number (i : nat) (Cs : list (gset term)) : list (term * nat) :=
  match Cs with
  | [] => []
  | C :: Cs => map (fun x => (x, i)) (elements C) ++ number (S i) Cs
  end.
Definition scc_index (n : nat) (ch : chart bool_sr) (Q outs : list rule) : res (list (term * nat)) :=
  let* roots := asked_for n ch outs in
  let U : gset term := list_to_set roots ∪ dom (c_dict ch) in
  let* Cs := tarjan (succs n ch Q) (S (size U)) roots in
  let* _ := mapM (deps n ch Q) (concat (map elements Cs)) in
  Ok (number 0 Cs).

(** program.py 1010: [support_map.get(it)] *)
Fixpoint get_index (it : term) (scc : list (term * nat)) : option nat :=
  match scc with
  | [] => None
  | (k, i) :: scc => if decide (it = k) then Some (i + 1) else get_index it scc
  end.

(** program.py 1021-1025 *)
Fixpoint best_index (n : nat) (it : term) (scc : list (term * nat)) (best : option nat) : res (option nat) :=
  match scc with
  | [] => Ok best
  | (k, i) :: scc =>
      let* (_, u) := unify_f n ∅ k it in
      best_index n it scc (if u then Some (match best with None => i + 1 | Some b => Nat.min b (i + 1) end) else best)
  end.

(** program.py 1014-1025 on a ground item *)
Definition priority (scc : list (term * nat)) (n : nat) (it : term) : res (option nat) :=
  match it with
  | Fn _ =>
      let* e := is_exogenous inputs n ∅ it in
      if e then Ok (Some 0)
      else match get_index it scc with
           | Some i => Ok (Some i)
           | None => best_index n it scc None
           end
  | _ => Ok (Some 0)
  end.

(** [pf] bounds the recursion of the priority function on each item. *)
Definition keeps (pf : list (term * nat) -> term -> nat) (scc : list (term * nat)) (it : term) : bool :=
  match priority scc (pf scc it) it with Ok None => false | _ => true end.

(** program.py 952-1031, for [p] already linearized, [magic=False], [solver=1] and
    no budget.  [P] is [p + data]; [pick1] and [pick2] are the orders of the agendas
    (BucketQueue and others), [p1] and [p2] bound the numbers of pops. *)
Definition scc_pass1 (n p1 : nat) (pick1 : nat -> gset term -> term) (P outs : list rule) : res (list (term * nat)) :=
  let Q := booleanize P in
  let* s1 := forward_chaining (R := bool_sr) wtb Bool.eqb ord cmpf is_run all_kept pick1 Q n p1 s_empty in
  scc_index n (s_chart s1) Q outs.
Definition scc_solver (pf : list (term * nat) -> term -> nat) (n p1 p2 : nat) (pick1 pick2 : nat -> gset term -> term)
  (P outs : list rule) : res (sstate R) :=
  let* scc := scc_pass1 n p1 pick1 P outs in
  forward_chaining wt approx ord cmpf is_run (keeps pf scc) pick2 P n p2 s_empty.
End scc.
