(** Model of [lift_semiring] (dyna/program.py, dyna/rule.py): the constants of a
    program are mapped into another semiring. *)
From Coq Require Import List.
From stdpp Require Import gmap.
From Verif Require Import PyBase Semiring TermModel UpdateModel.
Import ListNotations.

Section lift.
Context {R S : semiring}.
(** the value of a constant, and [semiring.lift(x, head)] *)
Context (wt : const -> R) (lift : R -> term -> S).

(** rule.py 41-45.  [is_const] holds of semiring values and of constants (rule.py
    16-19); no variable of a program is bound. *)
Definition lift_factor (h : term) (f : factor R) : factor S :=
  match f with
  | Val v => Val (lift v h)
  | Goal (Cst k) => Val (lift (wt k) h)
  | Goal b => Goal b
  end.
Definition lift_rule (r : wrule R) : wrule S := WRule (whead r) (map (lift_factor (whead r)) (wbody r)).

(** program.py 351-355, for a semiring other than None *)
Definition lift_semiring (rs : list (wrule R)) : list (wrule S) := map lift_rule rs.
End lift.
