(** Model of [groundings] and [instantiate] (dyna/program.py): the firings of the
    rules of a program against a chart. *)
From stdpp Require Import gmap.
From Coq Require Import List.
From Coq Require String.
From Verif Require Import PyBase TermModel UnifyProofs SetsModel PruneModel TypesModel SpecialModel.
Import ListNotations.

Section instant.
(** as in SpecialModel.v: comparisons, [is], identities of new variables *)
Context (cmpf : String.string -> term -> term -> res bool)
  (is_run : nat -> store -> term -> term -> res (list store)) (al : nat -> nat).

(** program.py 1181-1184: the firings of one rule.  [D] are the heads of the chart.
    [chart[r.body]] (1230-1239) runs through the same heaps as [join_heads].
    Simplifications: the chart has builtins and no input declarations; the value [v]
    of the grounding, and the bodies of the chart rules with it, are left out. *)
Definition ground_rule (n : nat) (D : list term) (r : rule) (c : nat) : res (list rule * nat) :=
  let* (r, c) := fresh_at al n ∅ r c in
  let* (sts, c) := join_heads cmpf is_run al n ∅ (rbody r) [] D c in
  mapSM (fun st c => fresh_at al n st r c) sts c.

(** program.py 1178-1186: the groundings, listed by rule *)
Definition groundings (n : nat) (P : list rule) (ch : list rule) (c : nat) : res (list (list rule)) :=
  let* (rss, _) := mapSM (ground_rule n (map rhead ch)) P c in Ok rss.

(** program.py 1188-1196, for a given chart *)
Definition instantiate (n : nat) (P : list rule) (ch : list rule) (c : nat) : res (list rule) :=
  let* rss := groundings n P ch c in Ok (concat rss).
End instant.
