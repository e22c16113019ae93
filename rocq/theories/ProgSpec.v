(** What a program means: derivation trees, their values, and one-to-one
    correspondence between the derivations of two programs. *)
From stdpp Require Import base.
From Coq Require Import List.
From Verif Require Import PyBase Semiring TermModel TermSpec SetsModel.
Import ListNotations.

(** A derivation: a leaf (an input item, a constant or a builtin constraint), or
    an instance of the rule number [i] with the derivations of its subgoals in
    order. *)
Inductive deriv : Set :=
| Leaf (x : term)
| Node (i : nat) (x : term) (ts : list deriv).

(** The item derived. *)
Definition root (t : deriv) : term := match t with Leaf x => x | Node _ x _ => x end.

(** [x :- ys] is a ground instance of the rule [r]. *)
Definition ground_inst (r : rule) (x : term) (ys : list term) : Prop :=
  exists σ, (forall v, ground (σ v)) /\ sub σ (rhead r) = x /\ map (sub σ) (rbody r) = ys.

(** [t] is a derivation in the program [P]; [base] says which ground terms may
    occur as leaves. *)
Inductive derives (P : list rule) (base : term -> Prop) : deriv -> Prop :=
| D_leaf x : base x -> derives P base (Leaf x)
| D_node i r x ts : nth_error P i = Some r -> ground_inst r x (map root ts) ->
    Forall (derives P base) ts -> derives P base (Node i x ts).

(** The value of a derivation is the product of the values of its leaves, from
    left to right; [w] gives the value of constants, builtins and inputs. *)
Fixpoint value {S : semiring} (w : term -> S) (t : deriv) : S :=
  match t with
  | Leaf x => w x
  | Node _ _ ts => prodl (map (value w) ts)
  end.

(** The derivations in [A] correspond one-to-one to the derivations in [B], with
    the same root and the same value in every semiring, whatever the values of
    the leaves. *)
Definition same_derivations (A B : deriv -> Prop) : Prop :=
  exists f g : deriv -> deriv,
    (forall t, A t -> B (f t) /\ g (f t) = t /\ root (f t) = root t /\
       forall (S : semiring) (w : term -> S), value w (f t) = value w t) /\
    (forall t, B t -> A (g t) /\ f (g t) = t).

(** The same for every commutative semiring. *)
Definition commutative (S : semiring) : Prop := forall x y : S, smul x y = smul y x.

Definition same_derivations_comm (A B : deriv -> Prop) : Prop :=
  exists f g : deriv -> deriv,
    (forall t, A t -> B (f t) /\ g (f t) = t /\ root (f t) = root t /\
       forall (S : semiring) (w : term -> S), commutative S -> value w (f t) = value w t) /\
    (forall t, B t -> A (g t) /\ f (g t) = t).

(** Every rule used in the derivation satisfies [Q] (by its number). *)
Inductive uses_only (Q : nat -> Prop) : deriv -> Prop :=
| UO_leaf x : uses_only Q (Leaf x)
| UO_node i x ts : Q i -> Forall (uses_only Q) ts -> uses_only Q (Node i x ts).

(** A subgoal that is just a variable stands for a value, not for an item: it is
    a leaf of the derivation. *)
Inductive values_only (P : list rule) : deriv -> Prop :=
| VO_leaf x : values_only P (Leaf x)
| VO_node i r x ts : nth_error P i = Some r ->
    Forall2 (fun b t => (exists v, b = Var v) -> exists y, t = Leaf y) (rbody r) ts ->
    Forall (values_only P) ts -> values_only P (Node i x ts).
