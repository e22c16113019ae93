(** Model of the search for equivalent programs of lower degree (dyna/search/search.py). *)
From stdpp Require Import list.
From Coq Require Import List.
From Verif Require Import PyBase.
Import ListNotations.

(** [<] on tuples of integers; CostDegrees (program.py 30-34) is a subclass of tuple. *)
Fixpoint tuple_lt (a b : list nat) : bool :=
  match a, b with
  | _, [] => false
  | [], _ :: _ => true
  | x :: a, y :: b => if Nat.ltb x y then true else if Nat.ltb y x then false else tuple_lt a b
  end.

(** OrderedSet.remove and del on a dictionary: KeyError if the key is not there. *)
Definition os_remove (i : nat) (l : list nat) : res (list nat) :=
  if existsb (Nat.eqb i) l then Ok (List.filter (fun j => negb (Nat.eqb i j)) l) else Raise KeyError.
Definition pd_remove (i : nat) (l : list (nat * list nat)) : res (list (nat * list nat)) :=
  if existsb (Nat.eqb i) (map fst l) then Ok (List.filter (fun e => negb (Nat.eqb i (fst e))) l) else Raise KeyError.
(** OrderedSet.add *)
Definition os_add (i : nat) (l : list nat) : list nat := if existsb (Nat.eqb i) l then l else l ++ [i].

Section search.
(** [State] (search.py 32-37) with its program *)
Context {St Pr : Type} (prog : St -> Pr).
(** the states that [drive] (195-219) passes to [_update], after the k-th pop.
    Simplification: [drive] raises no exception. *)
Context (drive : nat -> St -> list St).
(** program.prune_very_fast().degrees() (88); program.prune_fast().degrees() (105, 153);
    check_measure (171-178) *)
Context (prio cost : Pr -> list nat) (check : Pr -> bool).
(** pdict.pop: the key of an entry with the least priority *)
Context (pick : list (nat * list nat) -> nat).

(** The fields of AgendaBasedSearch (81-113).  [s_P] is the Integerizer: states are
    compared by identity, so every state gets a new number.  [s_wait] is the state that
    has been yielded but not driven (the generator is suspended at 166).  Counters and
    statistics are left out. *)
Record search := Search {
  s_P : list St; s_agenda : list (nat * list nat); s_fifo : list nat; s_chart : list nat;
  s_best : Pr; s_best_cost : list nat; s_wait : option nat }.

(** search.py 180-189 *)
Definition push (x : St) (s : search) : search :=
  let i := length (s_P s) in
  Search (s_P s ++ [x]) (s_agenda s ++ [(i, prio (prog x))]) (os_add i (s_fifo s)) (s_chart s) (s_best s) (s_best_cost s) (s_wait s).
(** search.py 67-113 *)
Definition search_init (x : St) : search := push x (Search [] [] [] [] (prog x) (cost (prog x)) None).

(** search.py 170: the generator goes on after [yield] *)
Definition resume (k : nat) (s : search) : search :=
  match s_wait s with
  | None => s
  | Some i =>
      let s := Search (s_P s) (s_agenda s) (s_fifo s) (s_chart s) (s_best s) (s_best_cost s) None in
      match s_P s !! i with Some x => foldl (fun s x => push x s) s (drive k x) | None => s end
  end.

(** search.py 133-166: one iteration up to [yield]; [greedy] is the outcome of the random
    draw; None: the state is skipped (151) *)
Definition pop_one (greedy : bool) (s : search) : res (option Pr * search) :=
  let* (i, s) :=
    (if greedy then
       let i := pick (s_agenda s) in
       let* a := pd_remove i (s_agenda s) in
       let* f := os_remove i (s_fifo s) in
       Ok (i, Search (s_P s) a f (s_chart s) (s_best s) (s_best_cost s) (s_wait s))
     else
       match s_fifo s with
       | [] => Raise IndexError
       | i :: _ =>
           let* f := os_remove i (s_fifo s) in
           let* a := pd_remove i (s_agenda s) in
           Ok (i, Search (s_P s) a f (s_chart s) (s_best s) (s_best_cost s) (s_wait s))
       end) in
  match s_P s !! i with
  | None => Raise IndexError
  | Some x =>
      if negb (check (prog x)) then Ok (None, s) else
      let ch := os_add i (s_chart s) in
      let c := cost (prog x) in
      let (b, bc) := if tuple_lt c (s_best_cost s) then (prog x, c) else (s_best s, s_best_cost s) in
      Ok (Some (prog x), Search (s_P s) (s_agenda s) (s_fifo s) ch b bc (Some i))
  end.

(** search.py 123-170: at most [steps] programs are taken from the generator; [gs] are
    the random draws.  Results: the programs, the draws that are left, the search. *)
Fixpoint run_agenda (gs : list bool) (steps k : nat) (s : search) : res (list Pr * list bool * search) :=
  match steps with
  | 0 => Ok ([], gs, s)
  | S steps' =>
      let s := resume k s in
      match s_agenda s with
      | [] => Ok ([], gs, s)
      | _ :: _ =>
          match gs with
          | [] => OutOfFuel
          | g :: gs =>
              let* (o, s) := pop_one g s in
              match o with
              | None => run_agenda gs steps (S k) s
              | Some p => let* (ps, gs, s) := run_agenda gs steps' (S k) s in Ok (p :: ps, gs, s)
              end
          end
      end
  end.
End search.
Arguments search _ _ : clear implicits.
