(** Model of dyna/util/bucket_queue.py. *)
From stdpp Require Import gmap.
From Coq Require Import ZArith.
From Verif Require Import PyBase.

Section BQ.
Context {K : Type} `{Countable K}.

(** bucket_queue.py 24-29: [_D] item -> priority, [_Q] priority -> bucket,
    [_N] lower bound on the least priority ([None] initially). *)
Record bq := BQ { bD : gmap K Z; bQ : gmap Z (gset K); bN : option Z }.

(** bucket_queue.py 25-29 *)
Definition bq_empty : bq := BQ ∅ ∅ None.

(** bucket_queue.py 31-33 *)
Definition bq_get (q : bq) (x : K) : res Z :=
  match bD q !! x with Some p => Ok p | None => Raise KeyError end.

(** bucket_queue.py 35-41.  [self._D[item]], [self._Q[priority]] and
    [set.remove] raise KeyError when the key is missing. *)
Definition bq_del (q : bq) (x : K) : res bq :=
  match bD q !! x with
  | None => Raise KeyError
  | Some p =>
      match bQ q !! p with
      | None => Raise KeyError
      | Some b =>
          if decide (x ∈ b) then
            let b' := b ∖ {[ x ]} in
            Ok (BQ (delete x (bD q))
                   (if decide (b' = ∅) then delete p (bQ q) else <[p := b']> (bQ q))
                   (bN q))
          else Raise KeyError
      end
  end.

(** bucket_queue.py 43-54.  The [isinstance(priority, int)] test is discharged
    by the type [Z]; comparing with [None] is a TypeError. *)
Definition bq_set (q : bq) (x : K) (p : Z) : res bq :=
  let* q1 := (match bD q !! x with Some _ => bq_del q x | None => Ok q end) in
  let D2 := <[x := p]> (bD q1) in
  let* n2 := (if decide (bQ q1 = ∅) then Ok (Some p)
              else match bN q1 with
                   | None => Raise TypeError
                   | Some n => Ok (if (p <? n)%Z then Some p else Some n)
                   end) in
  let b := match bQ q1 !! p with Some b => b | None => ∅ end in
  Ok (BQ D2 (<[p := {[ x ]} ∪ b]> (bQ q1)) n2).

(** bucket_queue.py 60-61 / 68-69: [while self._N not in self._Q: self._N += 1]. *)
Fixpoint bq_advance (fuel : nat) (Q : gmap Z (gset K)) (n : Z) : res Z :=
  match fuel with
  | O => OutOfFuel
  | S f => match Q !! n with
           | Some _ => Ok n
           | None => bq_advance f Q (n + 1)%Z
           end
  end.

(** bucket_queue.py 66-72.  [pick] is the runtime's arbitrary choice
    [next(iter(bucket))]; the result is [None] when the queue is empty. *)
Definition bq_popitem (fuel : nat) (pick : gset K -> K) (q : bq)
  : res (bq * option (K * Z)) :=
  if decide (bQ q = ∅) then Ok (q, None)
  else match bN q with
       | None => Raise TypeError
       | Some n0 =>
           let* n := bq_advance fuel (bQ q) n0 in
           let b := match bQ q !! n with Some b => b | None => ∅ end in
           let x := pick b in
           let* q' := bq_del (BQ (bD q) (bQ q) (Some n)) x in
           Ok (q', Some (x, n))
       end.

(** bucket_queue.py 56-64 and 74-79: [list(q.items())], the iteration with no
    modification in between.  [rounds] bounds the outer while loop, [fuel] each
    inner one. *)
Fixpoint bq_items (rounds fuel : nat) (pick : gset K -> K) (q : bq)
  : res (list (K * Z)) :=
  match rounds with
  | O => OutOfFuel
  | S r =>
      let* (q', o) := bq_popitem fuel pick q in
      match o with
      | None => Ok []
      | Some xp => let* l := bq_items r fuel pick q' in Ok (xp :: l)
      end
  end.

(** bucket_queue.py 81-83 *)
Definition bq_contains (q : bq) (x : K) : bool := bool_decide (is_Some (bD q !! x)).

(** bucket_queue.py 85-87 *)
Definition bq_len (q : bq) : nat := size (bD q).

(** Client operations, and what each call lets the client observe. *)
Inductive bq_op :=
| OSet (x : K) (p : Z)
| ODel (x : K)
| OGet (x : K)
| OContains (x : K)
| OLen
| OPop (pick : gset K -> K).

Inductive bq_obs :=
| ObsUnit
| ObsKeyError
| ObsInt (z : Z)
| ObsBool (b : bool)
| ObsNat (n : nat)
| ObsPop (o : option (K * Z)).

(** One client call; a KeyError is caught by the client, which goes on with the
    unchanged queue. *)
Definition bq_step (fuel : nat) (q : bq) (o : bq_op) : res (bq * bq_obs) :=
  match o with
  | OSet x p => let* q' := bq_set q x p in Ok (q', ObsUnit)
  | ODel x => match bq_del q x with
              | Ok q' => Ok (q', ObsUnit)
              | Raise KeyError => Ok (q, ObsKeyError)
              | Raise e => Raise e
              | OutOfFuel => OutOfFuel
              end
  | OGet x => match bq_get q x with
              | Ok p => Ok (q, ObsInt p)
              | Raise KeyError => Ok (q, ObsKeyError)
              | Raise e => Raise e
              | OutOfFuel => OutOfFuel
              end
  | OContains x => Ok (q, ObsBool (bq_contains q x))
  | OLen => Ok (q, ObsNat (bq_len q))
  | OPop pick => let* (q', r) := bq_popitem fuel pick q in Ok (q', ObsPop r)
  end.

Fixpoint bq_run (fuel : nat) (q : bq) (os : list bq_op) : res (bq * list bq_obs) :=
  match os with
  | [] => Ok (q, [])
  | o :: os => let* (q1, b) := bq_step fuel q o in
               let* (q2, bs) := bq_run fuel q1 os in
               Ok (q2, b :: bs)
  end.
End BQ.
Arguments bq K {_ _}.
Arguments bq_op K {_ _}.
Arguments bq_obs K : clear implicits.
