(** What equations mean, and what a normal form is. *)
From stdpp Require Import gmap.
From Coq Require Import List.
From Coq Require String Ascii.
Import String.StringSyntax Ascii.AsciiSyntax.
From Verif Require Import PyBase Semiring TermModel TermSpec SetsModel UpdateModel UpdateSpec.
Import ListNotations.

Local Open Scope string_scope.
Notation "x ≐ y" := (Fn [Cst (CStr "="); x; y]%list) (at level 70).
Local Close Scope string_scope.

(** A ground equation is worth one if it is true and zero if not. *)
Definition equality {R : semiring} (I : term -> R) : Prop :=
  forall x y, I (x ≐ y) = if decide (x = y) then sone else szero.

(** Only variables below the functor. *)
Definition shallow (x : term) : Prop := exists f vs, x = Fn (f :: map Var vs).
(** A subgoal in normal form: a constant, a call with variables only, or an
    equation between a variable and a variable, constant or shallow term. *)
Definition normal_goal (b : term) : Prop :=
  (exists k, b = Cst k) \/ shallow b \/
  exists v rhs, b = (Var v ≐ rhs) /\ ((exists w, rhs = Var w) \/ (exists k, rhs = Cst k) \/ shallow rhs).
Definition normal_rule {R : semiring} (r : wrule R) : Prop :=
  ((exists k, whead r = Cst k) \/ shallow (whead r)) /\ forall b, Goal b ∈ wbody r -> normal_goal b.

(** Functors are constants. *)
Definition const_functor (b : term) : Prop :=
  match b with Fn (Cst _ :: _) => True | Fn _ => False | _ => True end.

(** In the ground instances of the rule whose equations are true, the instances of
    the equations are determined by the head and the other subgoals. *)
Definition equation (b : term) : Prop := exists x y, b = (x ≐ y).
Definition holds (σ : nat -> term) (b : term) : Prop := forall x y, b = (x ≐ y) -> sub σ x = sub σ y.
Definition determined {R : semiring} (r : wrule R) : Prop :=
  forall σ τ, (forall v, ground (σ v)) -> (forall v, ground (τ v)) ->
    (forall b, Goal b ∈ wbody r -> holds σ b /\ holds τ b) ->
    sub σ (whead r) = sub τ (whead r) ->
    (forall b, Goal b ∈ wbody r -> ~ equation b -> sub σ b = sub τ b) ->
    forall b, Goal b ∈ wbody r -> sub σ b = sub τ b.

(** The variables that are still to be made occur in no rule. *)
Definition fresh_rules {R : semiring} (al : nat -> nat) (c : nat) (rs : list (wrule R)) : Prop :=
  forall r v j, r ∈ rs -> v ∈ wvars r -> c <= j -> v <> al j.

(** No subterm is an empty sequence (a Term object always has a functor). *)
Fixpoint term_wf (x : term) : Prop :=
  match x with
  | Fn [] => False
  | Fn (f :: l) => (fix all (l : list term) : Prop := match l with [] => True | x :: l => term_wf x /\ all l end) l
  | _ => True
  end.

(** An equation has two sides. *)
Local Open Scope string_scope.
Definition two_sided (b : term) : Prop := forall args, b = Fn (Cst (CStr "=") :: args)%list -> length args = 2.
Local Close Scope string_scope.
