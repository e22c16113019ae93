(** What a chart lookup must return. *)
From stdpp Require Import gmap.
From Verif Require Import PyBase TermModel TermSpec SolverModel.

(** A history of writes and lookups on a chart. *)
Inductive chart_op (A : Type) : Type :=
| CSet (x : term) (v : A)
| CGet (n : nat) (st : store) (q : term).
Arguments CSet {A} _ _.
Arguments CGet {A} _ _ _.

Definition chart_do {A} (ord : list term -> list term) (o : chart_op A) (ch : chart A) : res (chart A) :=
  match o with
  | CSet x v => chart_set x v ch
  | CGet n st q => let* (_, ch) := chart_get ord n st q ch in Ok ch
  end.

(** The value of each item: the last write wins. *)
Definition written {A} (h : list (chart_op A)) : gmap term A :=
  fold_left (fun d o => match o with CSet x v => <[x := v]> d | CGet _ _ _ => d end) h ∅.

(** [rs] lists the items of [d] that match the query [q] under the bindings
    [st]: each such item once, with its value, and the bindings that make the
    query equal to the item. *)
Definition exact_matches {A} (d : gmap term A) (st : store) (q : term) (rs : list (store * A)) : Prop :=
  exists xs, NoDup xs /\
    (forall x, x ∈ xs <-> is_Some (d !! x) /\ exists σ, solves σ st /\ sub σ q = x) /\
    Forall2 (fun x r => d !! x = Some (snd r) /\ acyclic (fst r) /\
                        forall σ, solves σ (fst r) <-> solves σ st /\ sub σ q = x) xs rs.
