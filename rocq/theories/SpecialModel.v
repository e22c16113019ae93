(** Model of fine-grained pruning: dyna/analyze/dead.py ([_prune_specialize],
    [_prune_dead]) and the usefulness analysis of dyna/program.py that drives it. *)
From stdpp Require Import gmap.
From Coq Require Import List.
From Coq Require String Ascii.
From Verif Require Import PyBase TermModel UnifyProofs SetsModel PruneModel TypesModel.
Import String.StringSyntax Ascii.AsciiSyntax.
Import ListNotations.

Section special.
(** builtin.py 58-63: the comparison predicates on ground terms *)
Context (cmpf : String.string -> term -> term -> res bool).
(** builtin.py 141-150: [Builtins.__call__] on [x is y]: the heaps at each yield *)
Context (is_run : nat -> store -> term -> term -> res (list store)).
(** identities of new and of canonical variables *)
Context (al cv : nat -> nat).
(** program.py 543-552: [==] of programs (C15) *)
Context (peq : list rule -> list rule -> res bool).

(** program.py 1288-1293 and 1366-1371: copies of the heads in [D] against the
    query, in order; the results are the heaps at each [yield].  Simplifications:
    the generator is run to its end before the consumer sees the results; all heads
    are tried (C35: the index leaves out heads that do not unify). *)
Fixpoint match_heads (n : nat) (st : store) (q : term) (D : list term) (c : nat) : res (list store * nat) :=
  match D with
  | [] => Ok ([], c)
  | h :: D =>
      let* (x, c) := fresh al n st c h in
      let* (st', u) := unify_f n st x q in
      let* (rest, c) := match_heads n st q D c in
      Ok (if u then st' :: rest else rest, c)
  end.

Local Open Scope string_scope.

(** program.py 1273-1371 in a program whose heads are [D] and whose input
    declarations are [ins].  A constraint that is not ready is delayed: the heap stays as
    it is.  [b.is_ready] (builtin.py 121-132) runs the builtin on a copy.
    Not modelled (errors): [$lift], [$not_matches], functors that are not constants. *)
Definition lookup_heads (n : nat) (st : store) (q : term) (ins D : list term) (c : nat) : res (list store * nat) :=
  let* q := snap n st q in
  match q with
  | Cst _ => Ok ([st]%list, c)
  | Var _ => match_heads n st q D c
  | Fn [] => Raise IndexError
  | Fn (f :: args) =>
      let* i := existsM (fun d => unifies n st d q) ins in
      if i then Ok ([st]%list, c)
      else
      let* f := snap n st f in
      match f with
      | Cst (CStr op) =>
          if decide (op ∈ ["$lift"; "$not_matches"]%list) then Raise OtherError
          else match args with
          | [x; y] =>
              if decide (op ∈ cmps) then
                let* gx := is_ground n st x in
                let* gy := (if gx then is_ground n st y else Ok false) in
                if gx && gy then
                  let* x := deref n st x in
                  let* y := deref n st y in
                  let* b := cmpf op x y in
                  Ok (if b then [st]%list else [], c)
                else
                  let* (rest, c) := match_heads n st q D c in
                  Ok ((st :: rest)%list, c)
              else if decide (op = "=") then
                let* (st', b) := unify_f n st x y in
                Ok (if b then [st']%list else [], c)
              else if decide (op = "is") then
                match is_run n st x y with
                | Ok sts => Ok (sts, c)
                | Raise InstFault => Ok ([st]%list, c)
                | Raise e => Raise e
                | OutOfFuel => OutOfFuel
                end
              else match_heads n st q D c
          | _ => if decide (op = "is") then Raise OtherError else match_heads n st q D c
          end
      | Cst _ => match_heads n st q D c
      | _ => Raise OtherError
      end
  end%list.

Local Close Scope string_scope.

(** program.py 1241-1242 and term.py 44-56.  Only the heaps are of interest. *)
Fixpoint join_heads (n : nat) (st : store) (qs ins D : list term) (c : nat) : res (list store * nat) :=
  match qs with
  | [] => Ok ([st], c)
  | q :: qs =>
      let* (sts, c) := lookup_heads n st q ins D c in
      let* (stss, c) := mapSM (fun st c => join_heads n st qs ins D c) sts c in
      Ok (concat stss, c)
  end.

(** [fresh(r)] at the heap [st] *)
Definition fresh_at (n : nat) (st : store) (r : rule) (c : nat) : res (rule * nat) :=
  let* (t, c) := fresh al n st c (enc r) in Ok (dec t, c).

(** dead.py 186: the copies of one rule *)
Definition specialize_rule (n : nat) (D : list term) (r : rule) (c : nat) : res (list rule * nat) :=
  let* (sts, c) := join_heads n ∅ (rhead r :: rbody r) [] D c in
  mapSM (fun st c => fresh_at n st r c) sts c.

(** dead.py 182-188.  [analysis] is a list of types; [c] counts the variables made
    so far. *)
Definition prune_specialize (n : nat) (P analysis : list rule) (c : nat) : res (list rule) :=
  let* (D, c) := de_adds al cv n ([], c) (map rhead analysis) in
  let* (rss, c) := mapSM (specialize_rule n D) P c in
  let* b := peq (concat rss) P in
  Ok (if b then P else concat rss).

(** dead.py 191-197.  [ins] are the input declarations of [analysis].
    Simplification: the join is run to its end, not just to its first result. *)
Definition dead_rule (n : nat) (ins D : list term) (r : rule) (c : nat) : res (bool * nat) :=
  let* (sts, c) := join_heads n ∅ (rhead r :: rbody r) ins D c in
  Ok (match sts with [] => false | _ => true end, c).
Fixpoint live_rules (n : nat) (ins D : list term) (P : list rule) (c : nat) : res (list rule * nat) :=
  match P with
  | [] => Ok ([], c)
  | r :: P =>
      let* (b, c) := dead_rule n ins D r c in
      let* (rs, c) := live_rules n ins D P c in
      Ok (if b then r :: rs else rs, c)
  end.
Definition prune_dead (n : nat) (P : list rule) (ins : list term) (analysis : list rule) (c : nat) : res (list rule) :=
  let* (new, c) := live_rules n ins (map rhead analysis) P c in
  Ok (if Nat.eqb (length P) (length new) then P else new).
End special.

Local Open Scope string_scope.
(** program.py 1971-1994.  [outputs] are the output declarations.  Simplification:
    no [output_type] argument. *)
Definition t_useful (x : term) : term := Fn [Cst (CStr "$useful"); x]%list.
Definition useful_program (P outputs : list rule) : list rule :=
  (map (fun r => Rule (rhead r) (rbody r)) P
  ++ map (fun t => Rule (t_useful (rhead t)) (rhead t :: rbody t)) outputs
  ++ flat_map (fun r => flat_map (fun b =>
       if is_const b || is_builtin b then [] else [Rule (t_useful b) (t_useful (rhead r) :: rbody r)]) (rbody r)) P)%list.

(** program.py 1967: the types [X] for the types [$useful(X)] of the chart.
    Simplification: the unfolding of [X += $useful(X)] against the chart, with the
    rule itself left out, is written as a map over the chart. *)
Definition useful_types (ts : list rule) : list rule :=
  omap (fun t => match rhead t with
    | Fn [Cst (CStr f); x] => if decide (f = "$useful") then Some (Rule x (rbody t)) else None
    | _ => None end) ts%list.
Local Close Scope string_scope.
