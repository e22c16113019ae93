(** Which items the outputs of a program need. *)
From stdpp Require Import gmap.
From Coq Require Import List.
From Verif Require Import PyBase Semiring TermModel TermSpec SetsModel PruneModel ProgSpec SolverSpec.

Section spec.
Context (cmpf : String.string -> term -> term -> res bool) (is_true : term -> term -> bool).

(** The subgoal [y] holds when the items in [D] do: it is a constant, a builtin
    constraint that is true, or one of these items. *)
Definition holds (D : gmap term bool_sr) (y : term) : Prop := look (R := bool_sr) (fun _ => true) cmpf is_true D y <> None.

(** An item is derivable if it is the head of a ground instance of a rule all of
    whose subgoals hold when some derivable items do. *)
Inductive derivable (P : list rule) : term -> Prop :=
| DV r σ D : r ∈ P -> (forall v, ground (σ v)) -> (forall x, is_Some (D !! x) -> derivable P x) ->
    (forall b, b ∈ rbody r -> holds D (sub σ b)) -> derivable P (sub σ (rhead r)).

(** A ground instance of a rule (or of an output declaration) whose subgoals all
    hold. *)
Definition live (P : list rule) (r : rule) (σ : nat -> term) : Prop :=
  (forall v, ground (σ v)) /\
  exists D, (forall x, is_Some (D !! x) -> derivable P x) /\ forall b, b ∈ rbody r -> holds D (sub σ b).

(** An item is needed if it is asked for, or if it is a subgoal of a live instance
    of a rule with a needed head. *)
Inductive needed (P outs : list rule) : term -> Prop :=
| ND_asked o σ : o ∈ outs -> live P o σ -> needed P outs (sub σ (rhead o))
| ND_subgoal r σ b : r ∈ P -> live P r σ -> needed P outs (sub σ (rhead r)) -> b ∈ rbody r -> exo b = false ->
    needed P outs (sub σ b).

(** Bodies without variables as subgoals. *)
Definition no_variables (P : list rule) : Prop := forall r v, r ∈ P -> Var v ∉ rbody r.

(** Output declarations are for items, not for builtin constraints. *)
Definition wf_asked (outs : list rule) : Prop :=
  wf_rules outs /\ no_variables outs /\
  forall o, o ∈ outs -> exo (rhead o) = false /\ exists c args, rhead o = Fn (Cst c :: args).

Definition is_input (inputs : list term) (x : term) : Prop := exists q σ, q ∈ inputs /\ sub σ q = x.

(** Inputs are given by facts. *)
Definition inputs_given (inputs : list term) (P : list rule) : Prop :=
  forall r σ, r ∈ P -> is_input inputs (sub σ (rhead r)) -> forall b, b ∈ rbody r -> exists k, b = Cst k.
End spec.
