(** Vocabulary for C18/C19. *)
From Coq Require Import List Arith.
Import ListNotations.
From Verif Require Import Semiring KleeneModel.
Local Open Scope sr_scope.

(** The law the algorithm needs of the semiring's star. *)
Definition star_unfold {S : semiring} (star : S -> S) : Prop :=
  forall x, star x = 1 + x * star x.

(** Identity matrix and matrix product, written out. *)
Definition ident {S : semiring} : matrix S := fun i k => if Nat.eqb i k then 1 else 0.
Definition mmul {S : semiring} (N : nat) (A B : matrix S) : matrix S :=
  fun i k => sumn N (fun j => A i j * B j k).

(** A semiring order for stating leastness: a preorder for which + is monotone
    and which star is least with respect to. *)
Record star_order {S : semiring} (star : S -> S) (le : S -> S -> Prop) : Prop := {
  so_refl : forall x, le x x;
  so_trans : forall x y z, le x y -> le y z -> le x z;
  so_add : forall x x' y y', le x x' -> le y y' -> le (x + y) (x' + y');
  so_mul_l : forall c x x', le x x' -> le (c * x) (c * x');
  so_star_r : forall x, star x = 1 + star x * x;
  so_ind : forall a b x, le (b + a * x) x -> le (star a * b) x;
}.

(** Paths of length >= 1 in a graph, by edges only. *)
Inductive path (g : graph) : nat -> nat -> Prop :=
| path_edge x y : In y (g_out g x) -> path g x y
| path_step x y z : In y (g_out g x) -> path g y z -> path g x z.

(** Graphs built by [add]/[add_edge] (graphs.py 225-231): nodes form a set, and
    both ends of every edge are nodes. *)
Record wf_graph (g : graph) : Prop := {
  wfg_nodup : NoDup (g_nodes g);
  wfg_src : forall x y, In y (g_out g x) -> In x (g_nodes g);
  wfg_dst : forall x y, In y (g_out g x) -> In y (g_nodes g);
}.
