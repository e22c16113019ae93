(** What degrees mean. *)
From Coq Require Import List.
From stdpp Require Import gmap.
From Verif Require Import PyBase Semiring TermModel TermSpec UpdateModel UpdateSpec.
Import ListNotations.

Section spec.
Context {R : semiring}.
(** The instances of the rule [r] whose variables have values in [dom]. *)
Definition instance_over (dom : list term) (r s : wrule R) : Prop :=
  exists σ, (forall v, v ∈ wvars r -> σ v ∈ dom) /\ s = rsub σ r.
(** There are exactly [k] of them. *)
Definition count_is {A} (P : A -> Prop) (k : nat) : Prop := exists L, NoDup L /\ length L = k /\ forall x, x ∈ L <-> P x.
End spec.
