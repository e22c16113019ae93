(** Model of dyna/execute/linear.py [kleene] and dyna/util/graphs.py
    [Graph.transitive_closure]. *)
From Coq Require Import List Arith Bool.
Import ListNotations.
From Verif Require Import Semiring.
Local Open Scope sr_scope.

(** A numpy array of shape (N,N) is a function on indices; only indices below N
    are meaningful. *)
Definition matrix (R : Type) := nat -> nat -> R.

(** [a[i,k] = v] *)
Definition mset {R} (m : matrix R) (i k : nat) (v : R) : matrix R :=
  fun a b => if (Nat.eqb a i && Nat.eqb b k)%bool then v else m a b.

(** [for x in range(n): body], where the body updates a state. *)
Fixpoint for_range {T} (n : nat) (body : nat -> T -> T) (s : T) : T :=
  match n with
  | O => s
  | S m => body m (for_range m body s)
  end.

(** linear.py 19-24, the body of the outer loop: [new] is zeroed, then filled
    entry by entry from [old]. *)
Definition kleene_round {S : semiring} (star : S -> S) (N j : nat) (old new : matrix S)
  : matrix S :=
  let new0 : matrix S := fun _ _ => 0 in
  let sjj := star (old j j) in
  for_range N (fun i new =>
    for_range N (fun k new => mset new i k (old i k + old i j * sjj * old j k)) new) new0.

(** linear.py 6-28; the pair is (old, new), swapped after each round (line 25). *)
Definition kleene {S : semiring} (star : S -> S) (N : nat) (A : matrix S) (reflexive : bool)
  : matrix S :=
  let '(old, _) :=
    for_range N (fun j st => let '(old, new) := st in
                             (kleene_round star N j old new, old)) (A, A) in
  if reflexive
  then for_range N (fun i old => mset old i i (old i i + 1)) old
  else old.

(** linear.py 87: [kleene(pack.MM) @ pack.VV]. *)
Definition linsolve {S : semiring} (star : S -> S) (N : nat) (M : matrix S) (V : nat -> S)
  : nat -> S :=
  fun i => sumn N (fun k => kleene star N M true i k * V k).

(** graphs.py 205-231: a graph is its node list (in the iteration order of the
    set, without repetition) and, per node, its list of successors. *)
Record graph := Graph { g_nodes : list nat; g_out : nat -> list nat }.

(** Integerizer (external): position of a node in insertion order. *)
Fixpoint index_of (x : nat) (l : list nat) : option nat :=
  match l with
  | [] => None
  | y :: l => if Nat.eqb x y then Some 0%nat else option_map S (index_of x l)
  end.

(** graphs.py 310-319: the Boolean adjacency matrix E. *)
Definition adjacency (g : graph) : matrix bool :=
  let ix x := index_of x (g_nodes g) in
  fold_left (fun E x =>
    fold_left (fun E y =>
      match ix x, ix y with
      | Some i, Some j => mset E i j true
      | _, _ => E
      end) (g_out g x) E) (g_nodes g) (fun _ _ => false).

(** The Boolean star used by [semirings.Boolean]: star(x) = true. *)
Definition bool_star (b : bool) : bool := true.

(** graphs.py 303-330: the list of edges added to the result graph. *)
Definition transitive_closure (g : graph) (reflexive : bool) : list (nat * nat) :=
  let K := length (g_nodes g) in
  let T := @kleene bool_sr bool_star K (adjacency g) reflexive in
  flat_map (fun i =>
    flat_map (fun j =>
      if T i j then
        match nth_error (g_nodes g) i, nth_error (g_nodes g) j with
        | Some x, Some y => [(x, y)]
        | _, _ => []
        end
      else []) (seq 0 K)) (seq 0 K).
