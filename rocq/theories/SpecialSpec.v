(** What fine-grained pruning may rely on, and what it must keep. *)
From stdpp Require Import gmap.
From Coq Require Import List.
From Coq Require String Ascii.
From Verif Require Import PyBase Semiring TermModel TermSpec SetsModel SetsSpec PruneModel ProgSpec PruneSpec SlashSpec.
Import String.StringSyntax Ascii.AsciiSyntax.
Import ListNotations.

(** [s] is a part of the derivation [t]. *)
Inductive within (s : deriv) : deriv -> Prop :=
| W_here : within s s
| W_node i x t ts : In t ts -> within s t -> within s (Node i x ts).

(** The items (not constants, not builtins) in the derivations of the outputs. *)
Definition used_item (outputs : list term) (base : term -> Prop) (P : list rule) (y : term) : Prop :=
  exists t s, output_derivation outputs base P t /\ within s t /\ root s = y /\ exo y = false.

(** The heads of the types stand for all the items that are used. *)
Definition types_cover (ts : list rule) (Q : term -> Prop) : Prop :=
  forall y, Q y -> exists t, In t ts /\ gr_inst (rhead t) y.

(** No two of the terms (at different positions) have a common ground instance. *)
Definition pairwise_disjoint (hs : list term) : Prop :=
  forall i j a b, nth_error hs i = Some a -> nth_error hs j = Some b -> i <> j -> ~ overlap a b.

Local Open Scope string_scope.
(** A ground builtin constraint that is true, or a constant. *)
Definition builtin_true (cmpf : String.string -> term -> term -> res bool) (is_true : term -> term -> bool) (x : term) : Prop :=
  match x with
  | Cst _ => True
  | Fn [Cst (CStr op); y; z] =>
      if decide (op = "=") then y = z
      else if decide (op ∈ cmps) then cmpf op y z = Ok true
      else op = "is" /\ is_true y z = true
  | _ => False
  end%list.

(** Heads are items, functors are constants, and no subgoal is a variable. *)
Definition plain_program (P : list rule) : Prop :=
  wf_program P /\ forall r b, In r P -> In b (rbody r) -> forall v, b <> Var v.
Local Close Scope string_scope.

(** The variables of the program are none of those that are still to be made, and
    no canonical variables. *)
Definition vars_apart (al cv : nat -> nat) (c : nat) (P : list rule) : Prop :=
  forall r v, In r P -> In v (vars (rhead r) ++ flat_map vars (rbody r)) ->
    (forall j, c <= j -> v <> al j) /\ forall i, v <> cv i.

(** The same for the variables of the types, which are not changed when dead rules
    are removed. *)
Definition types_apart (al : nat -> nat) (c : nat) (P ts : list rule) : Prop :=
  (forall t v, In t ts -> In v (vars (rhead t)) -> forall j, c <= j -> v <> al j) /\
  forall r v, In r P -> In v (vars (rhead r) ++ flat_map vars (rbody r)) ->
    (forall j, c <= j -> v <> al j) /\ forall t, In t ts -> ~ In v (vars (rhead t)).

(** Every derivation in [A] has a counterpart in [B] with the same root and the
    same value, different for different derivations; [B] has derivations of nothing
    else, perhaps more than one for the same derivation in [A]. *)
Definition covered_derivations (A B : deriv -> Prop) : Prop :=
  exists f g : deriv -> deriv,
    (forall t, A t -> B (f t) /\ g (f t) = t /\ root (f t) = root t /\
       forall (S : semiring) (w : term -> S), value w (f t) = value w t) /\
    (forall t, B t -> A (g t) /\ root (g t) = root t /\
       forall (S : semiring) (w : term -> S), value w (g t) = value w t).
