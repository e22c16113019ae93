(** What bottom-up evaluation of a ground program should compute: derivations,
    their values, and solutions of the program's equations. *)
From Coq Require Import List.
From stdpp Require Import gmap.
From Verif Require Import PyBase Semiring TermModel TermSpec UpdateModel UpdateSpec EvalModel.
Import ListNotations.

Section spec.
Context {R : semiring}.
(** the value of a constant; which ground subgoals are builtins, and whether they hold *)
Context (wt : const -> R) (test : term -> option bool).

(** The programs: every rule and subgoal is ground, and every head is an ordinary item. *)
Definition ground_program (P : list (wrule R)) : Prop :=
  forall r, r ∈ P -> ground (whead r) /\ item_head (whead r) /\ test (whead r) = None /\
                     forall b, b ∈ goals (wbody r) -> ground b.

(** ** Derivations *)
(** A derivation of a factor: for a constant its value, for a builtin that holds
    the value one, and for an item a rule (by its number) with this head together
    with a derivation of each factor of its body. *)
Inductive derives (P : list (wrule R)) : factor R -> dtree R -> Prop :=
| D_val v : derives P (Val v) (DLeaf v)
| D_const k : derives P (Goal (Cst k)) (DLeaf (wt k))
| D_builtin b : (forall k, b <> Cst k) -> test b = Some true -> derives P (Goal b) (DLeaf sone)
| D_item i r ds : P !! i = Some r -> test (whead r) = None -> (forall k, whead r <> Cst k) ->
    derives_all P (wbody r) ds -> derives P (Goal (whead r)) (DNode i ds)
with derives_all (P : list (wrule R)) : list (factor R) -> list (dtree R) -> Prop :=
| D_nil : derives_all P [] []
| D_cons f fs d ds : derives P f d -> derives_all P fs ds -> derives_all P (f :: fs) (d :: ds).

(** derivations.py 73-79: the number of rules on the longest path *)
Fixpoint dheight (d : dtree R) : nat :=
  match d with
  | DLeaf _ => 0
  | DNode _ ds => S (list_max (map dheight ds))
  end.

(** derivations.py 49-66: the product of the leaves from left to right *)
Fixpoint dvalue (d : dtree R) : R :=
  match d with
  | DLeaf v => v
  | DNode _ ds => prodl (map dvalue ds)
  end.

(** The derivations with the property [D], each counted once, have the total value [v]. *)
Definition adds_up (D : dtree R -> Prop) (v : R) : Prop :=
  exists L, NoDup L /\ (forall d, d ∈ L <-> D d) /\ v = suml L dvalue.

(** An ordinary item: neither a constant nor a builtin. *)
Definition item (x : term) : Prop := test x = None /\ forall k, x <> Cst k.

(** A list of derivations with their items contains exactly the derivations with
    the property [D], each once. *)
Definition enumerates (P : list (wrule R)) (l : list (term * dtree R)) (D : dtree R -> Prop) : Prop :=
  NoDup (map snd l) /\ forall x d, (x, d) ∈ l <-> item x /\ derives P (Goal x) d /\ D d.

(** ** Charts and equations *)
(** A chart: a program of rules [item += value]. *)
Definition const_chart (ch : list (wrule R)) : Prop :=
  forall r, r ∈ ch -> ground (whead r) /\ item_head (whead r) /\ test (whead r) = None /\ exists v, wbody r = [Val v].

(** The value of an item in a chart of constant rules: the rules for an item add up. *)
Definition chart_val (ch : list (wrule R)) (x : term) : R :=
  suml (filter (fun r => whead r = x) ch) (fun r => prodl (constants wt (wbody r))).

(** The value of a factor, and the right-hand side of an item's equation, when the
    items have the values [I]. *)
Definition factor_val (I : term -> R) (f : factor R) : R :=
  match f with
  | Val v => v
  | Goal (Cst k) => wt k
  | Goal b => match test b with Some true => sone | Some false => szero | None => I b end
  end.
Definition rhs (P : list (wrule R)) (I : term -> R) (x : term) : R :=
  suml (filter (fun r => whead r = x) P) (fun r => prodl (map (factor_val I) (wbody r))).

(** [I] solves the equations of the program. *)
Definition solution (P : list (wrule R)) (I : term -> R) : Prop := forall x, I x = rhs P I x.

(** The iterates of the equations from the empty chart. *)
Fixpoint iterate (P : list (wrule R)) (k : nat) : term -> R :=
  match k with
  | O => fun _ => szero
  | S k => rhs P (iterate P k)
  end.
End spec.

(** The state of semi-naive evaluation after [j] rounds: the chart and the change
    (program.py 1066-1078 without the test for stopping). *)
Fixpoint seminaive_state {R : semiring} (wt : const -> R) (negligible is_one : R -> bool) (al cv : nat -> nat)
    (sort : list term -> list term) (test : term -> option bool) (n : nat) (P : list (wrule R)) (j : nat)
    : res (pstate R * pstate R) :=
  match j with
  | O => let* d := step wt negligible is_one al cv test n P (p_new [] 0) in Ok (p_new [] 0, d)
  | S j => let* (m, d) := seminaive_state wt negligible is_one al cv sort test n P j in
           seminaive_update wt negligible is_one al cv sort test n P m d
  end.
