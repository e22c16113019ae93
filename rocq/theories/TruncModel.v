(** Model of depth-limited truncation of types (dyna/analyze/types.py 52-64). *)
From stdpp Require Import gmap.
From Coq Require Import List.
From Verif Require Import PyBase TermModel.
Import ListNotations.

(** [c] numbers the variables made by [Var('$Trunc')]; [n] bounds the
    dereferencing of variables.  A depth limit below 0 is the same as 0. *)
Fixpoint truncate_term (D : nat) (n : nat) (st : store) (x : term) (c : nat) : res (term * nat) :=
  let* x := snap n st x in
  match D with
  | 0 => Ok (Var c, S c)
  | S D =>
      match x with
      | Var v => Ok (Var v, c)
      | Cst k => Ok (Cst k, c)
      | Fn [] => Raise IndexError
      | Fn (f :: args) =>
          let* f := snap n st f in
          let* (args, c) := mapSM (truncate_term D n st) args c in
          Ok (Fn (f :: args), c)
      end
  end.
