(** Dependency between ground items. *)
From stdpp Require Import gmap.
From Coq Require Import List.
From Verif Require Import PyBase TermModel TermSpec SetsModel PruneModel.
Import ListNotations.

Section spec.
Context (P : list rule).

(** [y] is a subgoal of [r] that stands for items: not a constant and not a builtin *)
Definition item_goal (r : rule) (y : term) : Prop := y ∈ rbody r /\ is_const y = false /\ is_builtin y = false.

(** A ground instance of a rule with the head [a] has the subgoal [b]. *)
Definition depends (a b : term) : Prop :=
  exists r σ y, r ∈ P /\ (forall v, ground (σ v)) /\ sub σ (rhead r) = a /\ item_goal r y /\ sub σ y = b.

(** The items of an instance of a rule, in the order of the subgoals *)
Definition items_of (σ : nat -> term) (r : rule) : list term :=
  map (sub σ) (List.filter (fun y => negb (is_const y || is_builtin y)) (rbody r)).

(** [expands a l]: rewriting [a], and then subgoals of it, and so on, by ground
    instances of rules, gives the items [l]. *)
Inductive expands : term -> list term -> Prop :=
| exp_stop a : expands a [a]
| exp_rule r σ ls : r ∈ P -> (forall v, ground (σ v)) -> expands_all (items_of σ r) ls ->
    expands (sub σ (rhead r)) (concat ls)
with expands_all : list term -> list (list term) -> Prop :=
| exp_nil : expands_all [] []
| exp_cons a l as_ ls : expands a l -> expands_all as_ ls -> expands_all (a :: as_) (l :: ls).

Definition occurrences (a : term) (l : list term) : nat := length (List.filter (fun b => bool_decide (b = a)) l).

(** [chain a l]: [l] continues [a] by dependencies *)
Fixpoint chain (a : term) (l : list term) : Prop :=
  match l with
  | [] => True
  | b :: l => depends a b /\ chain b l
  end.
End spec.
