(** What running the builtins should mean. *)
From stdpp Require Import gmap.
From Coq Require Import List.
From Coq Require String Ascii.
Import String.StringSyntax Ascii.AsciiSyntax.
From Verif Require Import PyBase Semiring TermModel TermSpec SetsModel PruneModel SpecialSpec UpdateModel UpdateSpec NormalSpec.
Import ListNotations.

Local Open Scope string_scope.
(** A comparison, an equation or an [is]. *)
Definition constraint (b : term) : Prop := exists op x y, b = Fn [Cst (CStr op); x; y]%list /\ op ∈ (cmps ++ ["="; "is"])%list.
(** A subgoal with a constant as its functor, or a constant. *)
Definition plain_goal (b : term) : Prop := const_functor b /\ forall v, b <> Var v.
Local Close Scope string_scope.

Section spec.
Context {R : semiring} (cmpf : String.string -> term -> term -> res bool) (is_true : term -> term -> bool).

(** A ground constraint is worth one if it is true and zero if not. *)
Definition constraints_exact (I : term -> R) : Prop :=
  forall y, constraint y -> ground y ->
    (builtin_true cmpf is_true y -> I y = sone) /\ (~ builtin_true cmpf is_true y -> I y = szero).

(** In the ground instances of the rule whose constraints are true, the instances of
    the constraints are determined by the head and the other subgoals. *)
Definition constraints_determined (r : wrule R) : Prop :=
  forall σ τ, (forall v, ground (σ v)) -> (forall v, ground (τ v)) ->
    (forall b, Goal b ∈ wbody r -> constraint b -> builtin_true cmpf is_true (sub σ b) /\ builtin_true cmpf is_true (sub τ b)) ->
    sub σ (whead r) = sub τ (whead r) ->
    (forall b, Goal b ∈ wbody r -> ~ constraint b -> sub σ b = sub τ b) ->
    forall b, Goal b ∈ wbody r -> sub σ b = sub τ b.

Local Open Scope string_scope.
(** A condition on the text of the rule: a variable is settled if it occurs in the head
    or in another subgoal, if it occurs on one side of an equation and the variables of
    the other side are settled, or if it is [v] in [v is e], the variables of [e] are
    settled, and [e] has at most one value. *)
Inductive settled (r : wrule R) : nat -> Prop :=
| settled_head v : In v (vars (whead r)) -> settled r v
| settled_goal b v : Goal b ∈ wbody r -> ~ constraint b -> In v (vars b) -> settled r v
| settled_right x y v : Goal (x ≐ y) ∈ wbody r -> (forall w, In w (vars x) -> settled r w) -> In v (vars y) -> settled r v
| settled_left x y v : Goal (x ≐ y) ∈ wbody r -> (forall w, In w (vars y) -> settled r w) -> In v (vars x) -> settled r v
| settled_is x e v : Goal (Fn [Cst (CStr "is"); x; e]%list) ∈ wbody r -> (forall w, In w (vars e) -> settled r w) ->
    (forall σ a b, is_true a (sub σ e) = true -> is_true b (sub σ e) = true -> a = b) -> In v (vars x) -> settled r v.
Local Close Scope string_scope.
End spec.

(** A constraint that can be evaluated at once: an equation or a ground comparison. *)
Definition ready (b : term) : Prop :=
  equation b \/ exists op x y, b = Fn [Cst (CStr op); x; y] /\ op ∈ cmps /\ ground b.
(** The number of subgoals of a program. *)
Definition subgoals {R : semiring} (rs : list (wrule R)) : nat := length (flat_map (fun r => goals (wbody r)) rs).
