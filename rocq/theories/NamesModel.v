(** Model of the generation of new names (dyna/term.py 18-35,
    dyna/program.py 1398-1426). *)
From stdpp Require Import gmap.
From Coq Require Import List DecimalString.
From Coq Require String Ascii Decimal.
From Verif Require Import PyBase TermModel SetsModel.
Import ListNotations.

(** Python's [str] on a natural number. *)
Definition str_nat (n : nat) : String.string := NilEmpty.string_of_uint (Nat.to_uint n).

(** term.py 18-22: the name and the new counter. *)
Definition gen_functor (prefix : String.string) (i : nat) : String.string * nat :=
  (String.append prefix (str_nat (S i)), S i).

(** program.py 1411-1416: [syms] is the set of the program. *)
Definition prog_gen_functor (syms : list String.string) (prefix : String.string) (i : nat) : res (String.string * nat) :=
  let '(f, i) := gen_functor prefix i in
  if decide (f ∈ syms) then Raise AssertionError else Ok (f, i).

(** program.py 1418-1426: the loop, with the current name and counter. *)
Fixpoint local_loop (fuel : nat) (syms : list String.string) (prefix f : String.string) (c : nat) : res String.string :=
  match fuel with
  | 0 => OutOfFuel
  | S fuel => if decide (f ∈ syms)
              then local_loop fuel syms prefix (String.append prefix (str_nat (S c))) (S c)
              else Ok f
  end.
Definition local_gen_functor (fuel : nat) (syms : list String.string) (prefix : String.string) : res String.string :=
  local_loop fuel syms prefix prefix 1.

(** A history of calls of [gen_functor] with the given prefixes: the names. *)
Fixpoint gen_all (prefixes : list String.string) (i : nat) : list String.string :=
  match prefixes with
  | [] => []
  | p :: ps => let '(f, i) := gen_functor p i in f :: gen_all ps i
  end.

(** program.py 1398-1409: the functors of the heads and of the subgoals.
    Simplification: only functors that are strings. *)
Definition fn_name (t : term) : list String.string :=
  match t with Fn (Cst (CStr f) :: _) => [f] | _ => [] end.
Definition syms (P : list rule) : list String.string :=
  flat_map (fun r => fn_name (rhead r) ++ flat_map fn_name (rbody r)) P.
