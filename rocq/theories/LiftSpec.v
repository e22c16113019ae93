(** Homomorphisms of semirings and shapes of derivations. *)
From Coq Require Import List.
From stdpp Require Import gmap.
From Verif Require Import PyBase Semiring TermModel UpdateModel EvalModel.
Import ListNotations.

Record homomorphism {R S : semiring} (φ : R -> S) : Prop := {
  hom_0 : φ szero = szero;
  hom_1 : φ sone = sone;
  hom_add : forall x y, φ (sadd x y) = sadd (φ x) (φ y);
  hom_mul : forall x y, φ (smul x y) = smul (φ x) (φ y) }.

(** The rules a derivation uses, without the values at its leaves. *)
Inductive rtree : Type := RLeaf | RNode (i : nat) (ts : list rtree).
Fixpoint shape {R : semiring} (d : dtree R) : rtree :=
  match d with
  | DLeaf _ => RLeaf
  | DNode i ds => RNode i (map shape ds)
  end.

(** No subgoal of the program is a variable. *)
Definition no_variable_subgoal {R : semiring} (rs : list (wrule R)) : Prop :=
  forall r v, r ∈ rs -> Goal (Var v) ∉ wbody r.

(** The value of a derivation of the factor [f] when every constant of the program
    is replaced by [lift constant head]: the product of the replaced constants.
    [h] is the head of the rule in which [f] occurs. *)
Section lifted.
Context {R S : semiring} (wt : const -> R) (lift : R -> term -> S) (P : list (wrule R)).
Fixpoint lifted_value (h : term) (f : factor R) (d : dtree R) {struct d} : S :=
  match f, d with
  | Val v, _ => lift v h
  | Goal (Cst k), _ => lift (wt k) h
  | Goal _, DLeaf _ => sone
  | Goal _, DNode i ds =>
    match P !! i with
    | Some r =>
      prodl ((fix go (fs : list (factor R)) (ds : list (dtree R)) {struct ds} : list S :=
                match fs, ds with f :: fs, d :: ds => lifted_value (whead r) f d :: go fs ds | _, _ => [] end) (wbody r) ds)
    | None => szero
    end
  end.
End lifted.
