(** Property C17: the bucket agenda is a correct least-priority-first agenda. *)
From stdpp Require Import gmap sorting.
From Coq Require Import ZArith.
From Verif Require Import PyBase BQModel BQSpec BQProofs.

(** For every history of client calls from the empty agenda (with every runtime
    choice of the item taken from a bucket), all calls terminate without an
    internal error and their observations are those of a finite map from items
    to priorities from which [popitem] takes an item of least priority. *)
Theorem C17_agenda_history :
  forall (K : Type) (EK : EqDecision K) (CK : Countable K) (os : list (bq_op K)),
  Forall valid_op os ->
  exists f0, forall fuel, f0 <= fuel ->
  exists (q : bq K) bs m,
    bq_run fuel bq_empty os = Ok (q, bs) /\ agenda_trace ∅ os bs m.
Proof.
  intros K EK CK os Hv. destruct (run_spec os bq_empty inv_empty Hv) as (f0 & Hr).
  exists f0. intros fuel Hf. destruct (Hr fuel Hf) as (q & bs & ? & ? & ?). exists q, bs, (bD q). done.
Qed.
Print Assumptions C17_agenda_history.

(** After any such history, iterating the agenda yields every item exactly once
    with its current priority, in nondecreasing order of priority. *)
Theorem C17_iteration_sorted :
  forall (K : Type) (EK : EqDecision K) (CK : Countable K) (os : list (bq_op K)),
  Forall valid_op os ->
  exists f0, forall fuel, f0 <= fuel ->
  exists (q : bq K) bs m,
    bq_run fuel bq_empty os = Ok (q, bs) /\ agenda_trace ∅ os bs m /\
    exists r0 f1, forall rounds fuel' pick,
      r0 <= rounds -> f1 <= fuel' -> valid_pick pick ->
      exists l, bq_items rounds fuel' pick q = Ok l /\
                Permutation l (map_to_list m) /\
                StronglySorted (fun a b => (a.2 <= b.2)%Z) l.
Proof.
  intros K EK CK os Hv. destruct (run_spec os bq_empty inv_empty Hv) as (f0 & Hr).
  exists f0. intros fuel Hf. destruct (Hr fuel Hf) as (q & bs & ? & ? & ?). exists q, bs, (bD q).
  split; [done|]. split; [done|]. by apply items_spec.
Qed.
Print Assumptions C17_iteration_sorted.

(** A concrete non-trivial history meets the hypotheses: a reprioritisation
    below the current lower bound, a deletion, negative priorities and pops. *)
Definition first_or_zero (b : gset nat) : nat := match elements b with x :: _ => x | [] => 0 end.

Lemma first_or_zero_valid : valid_pick first_or_zero.
Proof.
  intros b Hb. unfold first_or_zero. destruct (elements b) as [|x l] eqn:E.
  - apply elements_empty_inv in E. by apply leibniz_equiv in E.
  - apply elem_of_elements. rewrite E. left.
Qed.

Example C17_witness :
  let os := [OSet 1 5%Z; OSet 2 3%Z; OPop first_or_zero; OSet 3 (-2)%Z; OSet 1 (-4)%Z; ODel 7;
             OPop first_or_zero; OPop first_or_zero; OPop first_or_zero] in
  Forall valid_op os /\
  exists q, bq_run 20 bq_empty os =
    Ok (q, [ObsUnit; ObsUnit; ObsPop (Some (2, 3%Z)); ObsUnit; ObsUnit; ObsKeyError;
            ObsPop (Some (1, (-4)%Z)); ObsPop (Some (3, (-2)%Z)); ObsPop None]).
Proof.
  split; [repeat constructor; apply first_or_zero_valid|].
  eexists. vm_compute. reflexivity.
Qed.
