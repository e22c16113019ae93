(** Independent vocabulary for collections of terms. *)
From stdpp Require Import gmap.
From Verif Require Import PyBase TermModel TermSpec.

(** Terms as the parser and the transformations build them: the functor (the
    first field) of every compound term is a constant. *)
Fixpoint proper (t : term) : Prop :=
  match t with
  | Fn (Cst _ :: l) => (fix all (l : list term) : Prop :=
                          match l with [] => True | x :: l => proper x /\ all l end) l
  | Fn _ => False
  | _ => True
  end.

(** No element of the list is above another one. *)
Definition antichain (R : term -> term -> Prop) (xs : list term) : Prop :=
  forall i j x y, nth_error xs i = Some x -> nth_error xs j = Some y -> i <> j -> ~ R x y.
