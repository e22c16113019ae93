(** Independent vocabulary for rules and programs up to renaming and order. *)
From stdpp Require Import gmap.
From Coq Require Import Permutation.
From Verif Require Import PyBase TermModel TermSpec SetsModel.

Definition rule_vars (r : rule) : list nat := vars (rhead r) ++ flat_map vars (rbody r).

(** [s] is [r] with its variables renamed one-to-one and its subgoals reordered. *)
Definition rule_variant (r s : rule) : Prop :=
  exists ρ : nat -> nat,
    (forall v w, In v (rule_vars r) -> In w (rule_vars r) -> ρ v = ρ w -> v = w) /\
    rhead s = rename ρ (rhead r) /\
    Permutation (rbody s) (map (rename ρ) (rbody r)).

Definition bare_var (t : term) : Prop := exists v, t = Var v.

(** Neither the head nor a subgoal is just a variable. *)
Definition no_bare_vars (r : rule) : Prop := forall t, In t (rhead r :: rbody r) -> ~ bare_var t.

(** Two lists agree up to order and a relation on their elements. *)
Definition aligned {A} (R : A -> A -> Prop) (P Q : list A) : Prop :=
  exists Q', Permutation Q Q' /\ Forall2 R P Q'.

(** The subgoals [xs] match, via one substitution, the subgoals of [ys] at the
    distinct positions [js]. *)
Definition matches_at (xs ys : list term) (js : list nat) : Prop :=
  List.NoDup js /\ exists σ, Forall2 (fun x j => nth_error ys j = Some (sub σ x)) xs js.
