(** What a priority agenda is, independently of buckets: a finite map from items
    to integer priorities. *)
From stdpp Require Import gmap.
From Coq Require Import ZArith.
From Verif Require Import PyBase BQModel.

Section Spec.
Context {K : Type} `{Countable K}.

(** [p] is least among all priorities currently in the agenda. *)
Definition least (m : gmap K Z) (p : Z) : Prop :=
  forall y p', m !! y = Some p' -> (p <= p')%Z.

(** A runtime choice function must return a member of a nonempty bucket. *)
Definition valid_pick (pick : gset K -> K) : Prop :=
  forall b, b ≠ ∅ -> pick b ∈ b.

Definition valid_op (o : bq_op K) : Prop :=
  match o with OPop pick => valid_pick pick | _ => True end.

(** The observable behaviour of one call against the abstract agenda [m]. *)
Inductive agenda_step : gmap K Z -> bq_op K -> bq_obs K -> gmap K Z -> Prop :=
| AS_set m x p : agenda_step m (OSet x p) ObsUnit (<[x := p]> m)
| AS_del m x p : m !! x = Some p -> agenda_step m (ODel x) ObsUnit (delete x m)
| AS_del_missing m x : m !! x = None -> agenda_step m (ODel x) ObsKeyError m
| AS_get m x p : m !! x = Some p -> agenda_step m (OGet x) (ObsInt p) m
| AS_get_missing m x : m !! x = None -> agenda_step m (OGet x) ObsKeyError m
| AS_in m x p : m !! x = Some p -> agenda_step m (OContains x) (ObsBool true) m
| AS_notin m x : m !! x = None -> agenda_step m (OContains x) (ObsBool false) m
| AS_len m : agenda_step m OLen (ObsNat (size m)) m
| AS_pop_empty pick : agenda_step ∅ (OPop pick) (ObsPop None) ∅
| AS_pop m pick x p :
    m !! x = Some p -> least m p ->
    agenda_step m (OPop pick) (ObsPop (Some (x, p))) (delete x m).

Inductive agenda_trace : gmap K Z -> list (bq_op K) -> list (bq_obs K) -> gmap K Z -> Prop :=
| AT_nil m : agenda_trace m [] [] m
| AT_cons m o b m1 os bs m2 :
    agenda_step m o b m1 -> agenda_trace m1 os bs m2 ->
    agenda_trace m (o :: os) (b :: bs) m2.
End Spec.
