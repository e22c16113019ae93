(** What the firings of a program against a chart should be. *)
From Coq Require Import List.
From Coq Require String Ascii.
From stdpp Require Import gmap.
From Verif Require Import PyBase TermModel TermSpec SetsModel PruneModel ProgSpec SlashSpec SpecialSpec.
Import String.StringSyntax Ascii.AsciiSyntax.
Import ListNotations.

(** The chart has the item [y]. *)
Definition in_chart (ch : list rule) (y : term) : Prop := exists h, In h (map rhead ch) /\ gr_inst h y.

(** Every item among the [ys] is in the chart, and every constraint holds. *)
Definition satisfied (cmpf : String.string -> term -> term -> res bool) (is_true : term -> term -> bool) (ch : list rule) (ys : list term) : Prop :=
  forall y, In y ys -> if exo y then builtin_true cmpf is_true y else in_chart ch y.

(** Exactly one position of [rs] holds a rule with the instance [x += ys]. *)
Definition exactly_one (rs : list rule) (x : term) (ys : list term) : Prop :=
  exists k, forall j, (exists r, nth_error rs j = Some r /\ ground_inst r x ys) <-> j = k.

(** The variables of the chart are none of those that are still to be made. *)
Definition chart_apart (al : nat -> nat) (c : nat) (ch : list rule) : Prop :=
  forall h v j, In h (map rhead ch) -> In v (vars h) -> c <= j -> v <> al j.

Local Open Scope string_scope.
(** A subgoal that is a constant or an ordinary item, not a builtin. *)
Definition ordinary (b : term) : Prop :=
  match b with
  | Var _ => False
  | Cst _ => True
  | Fn (Cst (CInt _) :: _) => True
  | Fn (Cst (CStr f) :: _) => f ∉ (cmps ++ ["="; "is"; "$lift"; "$not_matches"])%list
  | Fn _ => False
  end.
Local Close Scope string_scope.
