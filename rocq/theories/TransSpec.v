(** What it means that a program transformation keeps the meaning of a program:
    derivations of first-order programs with weighted rules, their values, and
    one-to-one correspondence of derivations. *)
From stdpp Require Import gmap.
From Coq Require Import List.
From Verif Require Import PyBase Semiring TermModel TermSpec UpdateModel UpdateSpec.
Import ListNotations.

(** A derivation: a semiring value, a leaf (an input item, a constant or a builtin
    constraint), or an instance of the rule number [i] with head [x] and a
    derivation for each factor of its body, in order. *)
Inductive wderiv (R : Type) : Type :=
| VLeaf (v : R)
| TLeaf (x : term)
| WNode (i : nat) (x : term) (ts : list (wderiv R)).
Arguments VLeaf {R} v.
Arguments TLeaf {R} x.
Arguments WNode {R} i x ts.

Section spec.
Context {R : semiring}.

(** What is derived. *)
Definition wroot (t : wderiv R) : factor R :=
  match t with VLeaf v => Val v | TLeaf x => Goal x | WNode _ x _ => Goal x end.

(** [x :- fs] is a ground instance of the rule [r]. *)
Definition inst (r : wrule R) (x : term) (fs : list (factor R)) : Prop :=
  exists σ, (forall v, ground (σ v)) /\ sub σ (whead r) = x /\ map (fsub σ) (wbody r) = fs.

(** A subgoal that is just a variable stands for a value: its derivation is a leaf. *)
Definition value_like (f : factor R) (t : wderiv R) : Prop :=
  forall v, f = Goal (Var v) -> exists x, t = TLeaf x.

(** [t] is a derivation in the program [rs]; [base] says which ground terms may
    occur as leaves.  If [only] holds, then variables that are used as subgoals
    stand for values only; otherwise they are subgoals like any other. *)
Inductive wderives (only : Prop) (rs : list (wrule R)) (base : term -> Prop) : wderiv R -> Prop :=
| WD_val v : wderives only rs base (VLeaf v)
| WD_leaf x : base x -> wderives only rs base (TLeaf x)
| WD_node i r x ts : rs !! i = Some r -> inst r x (map wroot ts) ->
    (only -> Forall2 value_like (wbody r) ts) ->
    Forall (wderives only rs base) ts -> wderives only rs base (WNode i x ts).

(** The value of a derivation: the product of the values of its leaves from left
    to right; [w] gives the value of constants, builtins and inputs. *)
Fixpoint wvalue (w : term -> R) (t : wderiv R) : R :=
  match t with
  | VLeaf v => v
  | TLeaf x => w x
  | WNode _ _ ts => prodl (map (wvalue w) ts)
  end.

(** The derivations in [A] correspond one-to-one to those in [B], with the same
    root and the same value, whatever the values of the leaves. *)
Definition same_meaning (A B : wderiv R -> Prop) : Prop :=
  exists f g : wderiv R -> wderiv R,
    (forall t, A t -> B (f t) /\ g (f t) = t /\ wroot (f t) = wroot t /\ forall w, wvalue w (f t) = wvalue w t) /\
    (forall t, B t -> A (g t) /\ f (g t) = t).


(** Inlining the rule [s] at the subgoal number [j] of [r] loses no variable: the
    item in the middle is determined by what is left. *)
Definition kept (r s : wrule R) (j : nat) : Prop :=
  forall x L Q zs y y', length L = j ->
    inst r x (L ++ Goal y :: Q) -> inst s y zs -> inst r x (L ++ Goal y' :: Q) -> inst s y' zs -> y = y'.

(** Inlining [s] at the subgoal [b] of [r] turns no variable that is used as a
    subgoal into a term: such variables stand for values. *)
Definition values_kept (r s : wrule R) (b : term) : Prop :=
  (exists σ τ, sub σ b = sub τ (whead s)) ->
  exists σ τ, sub σ b = sub τ (whead s) /\
    (forall v, Goal (Var v) ∈ wbody r -> exists u, σ v = Var u) /\
    (forall v, Goal (Var v) ∈ wbody s -> exists u, τ v = Var u).

(** [s] is [r] with its variables renamed one-to-one and its subgoals reordered. *)
Definition wvariant (r s : wrule R) : Prop :=
  exists ρ : nat -> nat,
    (forall v w, v ∈ wvars r -> w ∈ wvars r -> ρ v = ρ w -> v = w) /\
    whead s = sub (fun v => Var (ρ v)) (whead r) /\
    wbody s ≡ₚ map (fsub (fun v => Var (ρ v))) (wbody r).
End spec.
