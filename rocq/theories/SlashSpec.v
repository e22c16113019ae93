(** What the slash and left-corner transformations have to keep: one-to-one
    correspondence of derivations, with the same values whenever the leaves have
    values that make sense. *)
From stdpp Require Import gmap.
From Coq Require Import List.
From Coq Require String.
From Verif Require Import PyBase Semiring TermModel TermSpec SetsSpec PruneModel UpdateModel UpdateSpec TransSpec.
Import ListNotations.

Section spec.
Context {R : semiring}.

(** As [same_meaning], but the values only have to be the same for values of the
    leaves that satisfy [W]. *)
Definition same_meaning_if (W : (term -> R) -> Prop) (A B : wderiv R -> Prop) : Prop :=
  exists f g : wderiv R -> wderiv R,
    (forall t, A t -> B (f t) /\ g (f t) = t /\ wroot (f t) = wroot t /\ forall w, W w -> wvalue w (f t) = wvalue w t) /\
    (forall t, B t -> A (g t) /\ f (g t) = t).

(** [y] is a ground instance of [p]. *)
Definition gr_inst (p y : term) : Prop := ground y /\ exists σ, sub σ p = y.
End spec.

(** Two terms have a ground instance in common (after renaming their variables apart). *)
Definition overlap (a b : term) : Prop := exists g, gr_inst a g /\ gr_inst b g.

(** Two items have the same functor and number of arguments. *)
Definition same_functor (a b : term) : Prop :=
  exists f xs ys, a = Fn (Cst f :: xs) /\ b = Fn (Cst f :: ys) /\ length xs = length ys.

(** The item [t] is named with one of the strings [fs]. *)
Definition named (fs : list String.string) (t : term) : Prop :=
  exists f args, t = Fn (Cst (CStr f) :: args) /\ f ∈ fs.

(** An item that is not a builtin, all of whose subterms have names. *)
Definition ordinary (t : term) : Prop := item_head t /\ is_builtin t = false /\ proper t.

(** Programs, inputs and positions that can be slashed: [al c], [al (S c)], ... and the
    [cv i] are new variables; the rules and the inputs have different variables;
    no subgoal is just a variable; no input has the functor of a rule's head; the
    positions select ordinary subgoals; and if the head of a rule overlaps with
    its own selected subgoal, then the two are unifiable as they stand. *)
Record slashable {R : semiring} (al cv : nat -> nat) (c : nat) (inputs : list term) (positions : nat -> option nat) (rs : list (wrule R)) : Prop := {
  sl_fresh : forall r v k, r ∈ rs -> v ∈ wvars r -> c <= k -> v <> al k;
  sl_apart : forall k k' r r' v, rs !! k = Some r -> rs !! k' = Some r' -> k <> k' -> v ∈ wvars r -> v ∉ wvars r';
  sl_heads : forall r, r ∈ rs -> ordinary (whead r);
  sl_goals : forall r b, r ∈ rs -> Goal b ∈ wbody r -> (exists k, b = Cst k) \/ ordinary b \/ (item_head b /\ is_builtin b = true);
  sl_inputs : forall y, y ∈ inputs -> ordinary y /\ forall r, r ∈ rs -> ~ same_functor y (whead r);
  sl_inputs_fresh : forall y v, y ∈ inputs -> In v (vars y) ->
    (forall r, r ∈ rs -> v ∉ wvars r) /\ (forall k, c <= k -> v <> al k) /\ (forall k, v <> cv k);
  sl_positions : forall i r j, rs !! i = Some r -> positions i = Some j ->
    exists b, wbody r !! j = Some (Goal b) /\ ordinary b /\ (overlap (whead r) b -> exists σ, sub σ (whead r) = sub σ b) }.

(** The items whose values are given are constants, builtins and instances of the inputs. *)
Definition leaves (inputs : list term) (base : term -> Prop) : Prop :=
  forall y, base y -> ground y /\ (is_const y = true \/ is_builtin y = true \/ exists u, u ∈ inputs /\ gr_inst u y).
