(** What magic templates must do: keep everything that a derivation of an output
    needs, derive nothing new, and demand only what can be asked for. *)
From stdpp Require Import base list.
From Coq Require Import List Permutation.
From Coq Require String.
From Verif Require Import PyBase TermModel TermSpec SetsModel SetsSpec PruneModel ProgSpec PruneSpec.
Import ListNotations.

(** [x] has a derivation; a subgoal that is a variable stands for a value. *)
Definition derivable (P : list rule) (base : term -> Prop) (x : term) : Prop :=
  exists t, derives P base t /\ values_only P t /\ root t = x.

(** [s] is a part of the derivation [t]. *)
Inductive part_of (s : deriv) : deriv -> Prop :=
| PO_self : part_of s s
| PO_below i x ts t : In t ts -> part_of s t -> part_of s (Node i x ts).

(** The user asks for [x]: it is an instance of an output declaration whose
    constraints hold. *)
Definition asked (outs : list rule) (base : term -> Prop) (x : term) : Prop :=
  exists o ys, In o outs /\ ground_inst o x ys /\ Forall base ys.

(** An item is demanded if the user asks for it, or if it is a subgoal of an
    instance of a rule, the head is demanded, and the subgoals that come before it
    are derivable; [ord i] is the order of the subgoals of the rule number [i]. *)
Inductive demanded (outs P : list rule) (base : term -> Prop) (ord : nat -> list term) : term -> Prop :=
| DM_asked x : asked outs base x -> demanded outs P base ord x
| DM_subgoal i r σ pre f post : nth_error P i = Some r -> (forall v, ground (σ v)) ->
    ord i = pre ++ f :: post -> exo f = false ->
    demanded outs P base ord (sub σ (rhead r)) ->
    Forall (derivable P base) (map (sub σ) pre) ->
    demanded outs P base ord (sub σ f).

(** Each [ord i] is a reordering of the subgoals of the rule number [i]. *)
Definition reordering (P : list rule) (ord : nat -> list term) : Prop :=
  forall i r, nth_error P i = Some r -> Permutation (rbody r) (ord i).

(** The output declarations: items, with constraints as bodies. *)
Definition wf_outputs (outs : list rule) : Prop :=
  forall o, In o outs -> exo (rhead o) = false /\ proper (rhead o) /\ forall b, In b (rbody o) -> exo b = true /\ proper b.

(** A subgoal that overlaps with a declared input overlaps with no rule: inputs
    are not defined by rules. *)
Definition overlap (a b : term) : Prop := exists σ τ, sub σ a = sub τ b.
Definition inputs_apart (inputs : list term) (P : list rule) : Prop :=
  forall r b q s, In r P -> In b (rbody r) -> In q inputs -> overlap b q -> In s P -> ~ overlap b (rhead s).
