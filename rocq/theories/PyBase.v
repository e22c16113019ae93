(** Shared vocabulary for modelling Python control flow.

    Python exceptions are values; recursion that is not structural takes fuel
    and reports [OutOfFuel] when it runs out, so no default value is ever
    invented. *)

Inductive exn : Set :=
| KeyError | TypeError | ValueError | AssertionError | AttributeError
| IndexError | ZeroDivisionError | SolverLimitation | InstFault | UnboundLocalError
| OtherError.

Inductive res (A : Type) : Type :=
| Ok (a : A)
| Raise (e : exn)
| OutOfFuel.
Arguments Ok {A} a.
Arguments Raise {A} e.
Arguments OutOfFuel {A}.

Definition bind {A B} (m : res A) (f : A -> res B) : res B :=
  match m with
  | Ok a => f a
  | Raise e => Raise e
  | OutOfFuel => OutOfFuel
  end.

Notation "'let*' x ':=' m 'in' k" := (bind m (fun x => k))
  (at level 200, x pattern, m at level 100, k at level 200, right associativity).

(** Python list comprehensions / loops whose body may fail. *)
From Coq Require Import List.
Import ListNotations.

Fixpoint mapM {A B} (f : A -> res B) (l : list A) : res (list B) :=
  match l with
  | [] => Ok []
  | a :: l => let* b := f a in let* bs := mapM f l in Ok (b :: bs)
  end.

Fixpoint foldM {A S} (f : A -> S -> res S) (l : list A) (s : S) : res S :=
  match l with
  | [] => Ok s
  | a :: l => let* s1 := f a s in foldM f l s1
  end.

(** [all(map(f, l))] and [any(map(f, l))], short-circuiting. *)
Fixpoint forallM {A} (f : A -> res bool) (l : list A) : res bool :=
  match l with
  | [] => Ok true
  | a :: l => let* b := f a in if b then forallM f l else Ok false
  end.

Fixpoint existsM {A} (f : A -> res bool) (l : list A) : res bool :=
  match l with
  | [] => Ok false
  | a :: l => let* b := f a in if b then Ok true else existsM f l
  end.

(** A list comprehension whose body also updates a state. *)
Fixpoint mapSM {A B S} (f : A -> S -> res (B * S)) (l : list A) (s : S) : res (list B * S) :=
  match l with
  | [] => Ok ([], s)
  | a :: l => let* (b, s1) := f a s in
              let* (bs, s2) := mapSM f l s1 in Ok (b :: bs, s2)
  end.
