(** What [solve_linear] and [newton] should compute on ground programs. *)
From Coq Require Import List.
From stdpp Require Import gmap.
From Verif Require Import PyBase Semiring TermModel TermSpec UpdateModel UpdateSpec EvalModel EvalSpec KleeneModel KleeneSpec.
Import ListNotations.

Section spec.
Context {R : semiring} (wt : const -> R) (test : term -> option bool).

(** No subgoal is a builtin. *)
Definition no_builtins (P : list (wrule R)) : Prop :=
  forall r b, r ∈ P -> b ∈ goals (wbody r) -> test b = None.

(** The items in a body: the subgoals that are not constants. *)
Definition items (fs : list (factor R)) : list term :=
  List.filter (fun b => match b with Cst _ => false | _ => true end) (goals fs).

(** An item is derivable if it has a derivation. *)
Definition derivable (P : list (wrule R)) (x : term) : Prop := exists d, derives wt test P (Goal x) d.

(** A program is linear if no rule whose items are all derivable has two of them. *)
Definition linear (P : list (wrule R)) : Prop :=
  forall r, r ∈ P -> (forall b, b ∈ items (wbody r) -> derivable P b) -> length (items (wbody r)) <= 1.

(** [I] is above what the equations give. *)
Definition above (le : R -> R -> Prop) (P : list (wrule R)) (I : term -> R) : Prop :=
  forall x, le (rhs wt test P I x) (I x).
End spec.

(** An order for which Newton's method is exact: an antisymmetric semiring order with
    least element zero, with respect to which [star] is least, and in which
    [diff m v] is the greatest difference of [m] and [v]. *)
Record newton_order {R : semiring} (star : R -> R) (le : R -> R -> Prop) (diff : R -> R -> R) : Prop := {
  no_star : star_order star le;
  no_zero : forall x, le szero x;
  no_antisym : forall x y, le x y -> le y x -> x = y;
  no_diff : forall m v, le v m -> sadd v (diff m v) = m;
  no_greatest : forall m v y, le (sadd v y) m -> le y (diff m v) }.
