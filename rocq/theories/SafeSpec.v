(** What it means that a sequence of folds, unfolds and definitions is safe. *)
From Coq Require Import List ZArith.
From stdpp Require Import gmap.
From Verif Require Import PyBase Semiring TermModel TermSpec UpdateModel UpdateSpec TransModel TransSpec IntervalModel IntervalProps SafeModel.
Import ListNotations.

Section spec.
Context {R : semiring}.

(** The rules of all definitions of a session, and those that are not part of the
    history of the program number [k]. *)
Definition definitions (se : list (stage (R := R))) : list (wrule R) := flat_map (defined se) (seq 0 (length se)).
Definition missing (se : list (stage (R := R))) (k : nat) : list (wrule R) :=
  flat_map (defined se) (base.filter (fun l => l ∉ lineage se k) (seq 0 (length se))).

(** No rule is a variant of another one. *)
Definition distinct (rs : list (wrule R)) : Prop :=
  forall i j r s, rs !! i = Some r -> rs !! j = Some s -> wvariant r s -> i = j.

Section session.
Context (al : nat -> nat) (ord : list term -> list term) (is_input : term -> bool) (minf : R) (is_one : R -> bool)
  (eqr : wrule R -> wrule R -> bool).

(** Rules as the library makes them: heads are items, bodies are not empty, the
    variables [al c], [al (S c)], ... are new. *)
Definition usable (c : nat) (rs : list (wrule R)) : Prop :=
  (forall r, r ∈ rs -> wbody r <> [] /\ item_head (whead r)) /\
  (forall r v k, r ∈ rs -> v ∈ wvars r -> c <= k -> v <> al k).

(** The user's input: rules, and subgoals that are items. *)
Definition input_ok (se : list (stage (R := R))) (c : nat) (x : action (R := R)) : Prop :=
  match x with
  | ADefine a ds => usable c ds
  | AUnfold a i j d => forall r b, rules_of se a !! i = Some r -> wbody r !! j = Some (Goal b) -> item_query b
  | AFold a d j r vs => usable c [r] /\ forall b, wbody r !! j = Some (Goal b) -> item_query b
  end.

(** The sessions that can be reached: a root program, and then any number of
    actions.  In between, other code may allocate variables. *)
Inductive session : list (stage (R := R)) -> nat -> Prop :=
| session_root rs c : usable c rs -> session [Stage rs HRoot] c
| session_act n x se c se' c' : session se c -> input_ok se c x ->
    act al ord is_input minf is_one eqr n x se c = Ok (se', c') -> session se' c'
| session_vars se c c' : session se c -> c <= c' -> session se c'.

(** The subgoal [b], number [j], of [r] can be replaced by its definitions in the
    program number [d]: it is no leaf; inlining loses no variable; and what the
    session defines elsewhere does not define [b]. *)
Definition replaceable (only : Prop) (base : term -> Prop) (se : list (stage (R := R))) (d : nat) (r : wrule R) (j : nat) : Prop :=
  exists b, wbody r !! j = Some (Goal b) /\ (forall σ, (forall v, ground (σ v)) -> ~ base (sub σ b)) /\
    (forall s, s ∈ rules_of se d -> kept r s j) /\
    (only -> (forall v, b <> Var v) /\ forall s, s ∈ rules_of se d -> values_kept r s b) /\
    (forall s, s ∈ missing se d -> forall σ τ, sub σ b <> sub τ (whead s)).

(** What the theorem assumes about a session. *)
Record regular (only : Prop) (base : term -> Prop) (eqp : list (wrule R) -> list (wrule R) -> bool) (se : list (stage (R := R))) : Prop := {
  (* no program has the same rule twice *)
  reg_distinct : forall k, distinct (rules_of se k);
  reg_unfold : forall k rs a i j d ix, se !! k = Some (Stage rs (HUnfold a i j d ix)) ->
    exists r, rules_of se a !! i = Some r /\ replaceable only base se d r j;
  reg_fold : forall k r rs a j d, se !! k = Some (Stage (r :: rs) (HFold a j d)) -> replaceable only base se d r j;
  (* programs with the same rules have the same definitions in their histories *)
  reg_same : forall k l, k < length se -> l < length se -> eqp (rules_of se l) (rules_of se k) = true ->
    forall x, defined se x <> [] -> x ∈ lineage se l <-> x ∈ lineage se k
}.
End session.
End spec.

(** A safety condition holds if the variables have the values [ρ]. *)
Definition holds (ρ : nat -> Z) (x : cond) : Prop :=
  match x with CPos b => (0 < beval ρ b)%Z | CFalse => False end.
