(** Which programs and which derivations the pruning properties are about. *)
From stdpp Require Import base.
From Coq Require Import List.
From Verif Require Import PyBase TermModel TermSpec SetsModel SetsSpec PruneModel ProgSpec.

(** Rule heads are items (not variables, constants or builtins), and functors
    are constants. *)
Definition wf_program (P : list rule) : Prop :=
  forall r, In r P -> exo (rhead r) = false /\ proper (rhead r) /\ forall b, In b (rbody r) -> proper b.

(** Declarations of inputs and outputs are items. *)
Definition wf_decls (ds : list term) : Prop := forall d, In d ds -> exo d = false /\ proper d.

(** A derivation of an output item. *)
Definition output_derivation (outputs : list term) (base : term -> Prop) (P : list rule) (t : deriv) : Prop :=
  derives P base t /\ values_only P t /\ exists o, In o outputs /\ instance_of o (root t).
