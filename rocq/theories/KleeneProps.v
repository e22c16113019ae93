(** Properties C18 (Kleene closure) and C19 (transitive closure). *)
From Coq Require Import List Arith.
Import ListNotations.
From Verif Require Import Semiring KleeneModel KleeneSpec KleeneProofs.
Local Open Scope sr_scope.

(** B = I + A B, for every size, matrix and semiring with an unfolding star. *)
Theorem C18_kleene_fixpoint :
  forall (S : semiring) (star : S -> S), star_unfold star ->
  forall (N : nat) (A : matrix S) i k, (i < N)%nat -> (k < N)%nat ->
  kleene star N A true i k = ident i k + mmul N A (kleene star N A true) i k.
Proof. exact @kleene_fixpoint. Qed.
Print Assumptions C18_kleene_fixpoint.

(** B = A + A B without the reflexive part. *)
Theorem C18_kleene_fixpoint_nonreflexive :
  forall (S : semiring) (star : S -> S), star_unfold star ->
  forall (N : nat) (A : matrix S) i k, (i < N)%nat -> (k < N)%nat ->
  kleene star N A false i k = A i k + mmul N A (kleene star N A false) i k.
Proof. exact @kleene_fixpoint_plus. Qed.
Print Assumptions C18_kleene_fixpoint_nonreflexive.

(** It is the least solution whenever the star is a least solution. *)
Theorem C18_kleene_least :
  forall (S : semiring) (star : S -> S) (le : S -> S -> Prop), star_order star le ->
  forall (N : nat) (A X : matrix S),
  (forall i k, (i < N)%nat -> (k < N)%nat -> le (ident i k + mmul N A X i k) (X i k)) ->
  forall i k, (i < N)%nat -> (k < N)%nat -> le (kleene star N A true i k) (X i k).
Proof. exact @kleene_least. Qed.
Print Assumptions C18_kleene_least.

(** The linear solver's answer x = kleene(M) @ V satisfies x = V + M x ... *)
Theorem C18_linsolve_fixpoint :
  forall (S : semiring) (star : S -> S), star_unfold star ->
  forall (N : nat) (M : matrix S) (V : nat -> S) i, (i < N)%nat ->
  linsolve star N M V i = V i + sumn N (fun j => M i j * linsolve star N M V j).
Proof. exact @linsolve_fixpoint. Qed.
Print Assumptions C18_linsolve_fixpoint.

(** ... and is below every other solution when star is least. *)
Theorem C18_linsolve_least :
  forall (S : semiring) (star : S -> S) (le : S -> S -> Prop), star_order star le ->
  forall (N : nat) (M : matrix S) (V x : nat -> S),
  (forall i, (i < N)%nat -> le (V i + sumn N (fun j => M i j * x j)) (x i)) ->
  forall i, (i < N)%nat -> le (linsolve star N M V i) (x i).
Proof. exact @linsolve_least. Qed.
Print Assumptions C18_linsolve_least.

(** The Boolean semiring meets all hypotheses. *)
Example C18_witness_unfold : @star_unfold bool_sr bool_star.
Proof. exact bool_star_unfold. Qed.
Example C18_witness_order : @star_order bool_sr bool_star (fun a b => implb a b = true).
Proof. split; intros; repeat match goal with b : car bool_sr |- _ => destruct b | H : implb _ _ = true |- _ => revert H end; simpl; auto; discriminate. Qed.
Example C18_witness_value :
  @kleene bool_sr bool_star 3 (fun i k => Nat.eqb k (Datatypes.S i)) true 0%nat 2%nat = true.
Proof. reflexivity. Qed.

(** C19: edges of the transitive closure are exactly the nonempty paths. *)
Theorem C19_transitive_closure :
  forall g, wf_graph g -> forall x y,
  In (x, y) (transitive_closure g false) <-> path g x y.
Proof. exact closure_plus. Qed.
Print Assumptions C19_transitive_closure.

(** C19: with [reflexive=True] also the empty path at each node. *)
Theorem C19_reflexive_transitive_closure :
  forall g, wf_graph g -> forall x y,
  In (x, y) (transitive_closure g true) <-> (x = y /\ In x (g_nodes g)) \/ path g x y.
Proof. exact closure_star. Qed.
Print Assumptions C19_reflexive_transitive_closure.

Definition example_graph : graph :=
  Graph [7; 3; 5]%nat (fun x => if Nat.eqb x 7 then [3]%nat else if Nat.eqb x 3 then [7; 5]%nat else []).
Example C19_witness : wf_graph example_graph /\
  transitive_closure example_graph false =
    [(7, 7); (7, 3); (7, 5); (3, 7); (3, 3); (3, 5)]%nat.
Proof.
  split; [|reflexivity]. split.
  - repeat constructor; simpl; intuition discriminate.
  - intros x y. unfold example_graph; simpl.
    destruct (Nat.eqb_spec x 7); [subst; simpl; tauto|]. destruct (Nat.eqb_spec x 3); [subst; simpl; tauto|simpl; tauto].
  - intros x y. unfold example_graph; simpl.
    destruct (Nat.eqb_spec x 7); [subst; simpl; tauto|]. destruct (Nat.eqb_spec x 3); [subst; simpl; tauto|simpl; tauto].
Qed.
