(** What the search should do. *)
From stdpp Require Import list.
From Coq Require Import List.
Import ListNotations.

(** [a < b] for tuples: [a] is a proper prefix of [b], or it is smaller where they
    differ first. *)
Definition lex_lt (a b : list nat) : Prop :=
  exists p, (exists y t, a = p /\ b = p ++ y :: t) \/ (exists x y s t, a = p ++ x :: s /\ b = p ++ y :: t /\ x < y).

Section spec.
Context {St Pr : Type} (prog : St -> Pr) (drive : nat -> St -> list St) (check : Pr -> bool).
(** States that can be found from [x0] by driving states whose programs pass the check. *)
Inductive found (x0 : St) : St -> Prop :=
| found_start : found x0 x0
| found_step k x y : found x0 x -> check (prog x) = true -> In y (drive k x) -> found x0 y.
End spec.
