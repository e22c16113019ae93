(** What simple types and constraint propagation mean: sets of ground terms. *)
From stdpp Require Import gmap.
From Coq Require Import List.
From Coq Require String Ascii.
From Verif Require Import PyBase TermModel TermSpec SetsModel PruneModel PropagateModel.
Import String.StringSyntax Ascii.AsciiSyntax.
Import ListNotations.
Local Open Scope string_scope.
Local Open Scope list_scope.
Local Open Scope nat_scope.

(** Every variable gets a ground term. *)
Definition gsub (θ : nat -> term) : Prop := forall v, ground (θ v).

(** [I] says which ground constraints are true.  It has to make every propagation
    rule true; equality is equality; [$fail] is false; [$bound] excludes no ground
    term. *)
Record model_of (I : term -> Prop) (rules : list rule) : Prop := {
  mo_eq : forall x y, ground x -> ground y -> I (t_eq x y) <-> x = y;
  mo_fail : ~ I t_fail;
  mo_bound : forall x, I (t_bound x);
  mo_rules : forall r θ, r ∈ rules -> gsub θ -> (forall b, b ∈ rbody r -> I (sub θ b)) -> I (sub θ (rhead r)) }.

(** [$free] can be read in two ways: as no restriction, or as one that no ground
    term meets. *)
Definition free_true (I : term -> Prop) : Prop := forall x, I (t_free x).
Definition free_false (I : term -> Prop) : Prop := forall args, ~ I (Fn (Cst (CStr "$free") :: args)).

(** The evaluation of builtin constraints is right: a constraint that fails has no
    true instance; one that passes is equivalent to the equations returned, which
    give values to some of its variables. *)
Definition chk_right (I : term -> Prop) (chk : term -> res checked) : Prop :=
  forall q, match chk q with
            | Ok Failed => forall θ, gsub θ -> ~ I (sub θ q)
            | Ok (Passed l) =>
                (forall k v, (k, v) ∈ l -> (exists u, k = Var u /\ In u (vars q)) /\ incl (vars v) (vars q)) /\
                forall θ, gsub θ -> (I (sub θ q) <-> forall k v, (k, v) ∈ l -> sub θ k = sub θ v)
            | _ => True
            end.

(** The set of ground terms that the type [h :- c1, ..., cn] stands for. *)
Definition denotes (I : term -> Prop) (t : rule) (x : term) : Prop :=
  exists θ, gsub θ /\ sub θ (rhead t) = x /\ forall b, b ∈ rbody t -> I (sub θ b).

Definition rule_vars (r : rule) : list nat := vars (rhead r) ++ flat_map vars (rbody r).

(** Propagation rules that are range-restricted and derive no equalities. *)
Definition plain_rule (r : rule) : Prop :=
  incl (vars (rhead r)) (flat_map vars (rbody r)) /\
  (exists f args, rhead r = Fn (Cst f :: args) /\ f <> CStr "=") /\
  forall b, b ∈ rbody r -> exists f args, b = Fn (Cst f :: args).

(** No variable of the constraint occurs in the rules. *)
Definition apart (rules : list rule) (b : term) : Prop := forall r v, r ∈ rules -> In v (rule_vars r) -> ~ In v (vars b).

(** Constraints that are terms with a name and not equalities. *)
Definition plain_constraint (b : term) : Prop := exists f args, b = Fn (Cst f :: args) /\ f <> CStr "=".

(** A constraint that the hard-wired names of [ConstraintPropagation.check] do not
    concern. *)
Definition no_kw (b : term) : Prop := has_fn "ks" b = false /\ has_fn "ws" b = false.

(** Sets are iterated in some order. *)
Definition any_order (ord : list term -> list term) : Prop := forall l x, x ∈ ord l <-> x ∈ l.

(** The propagation rules and the evaluation of builtins are right for [I]. *)
Definition right_for (I : term -> Prop) (chk : term -> res checked) (rules : list rule) : Prop :=
  model_of I rules /\ chk_right I chk /\ forall r, r ∈ rules -> plain_rule r.

(** A constraint or the equality of a variable and a term. *)
Definition constraint (b : term) : Prop := plain_constraint b \/ exists v y, b = t_eq (Var v) y.

(** Constraints with a name that has no special meaning. *)
Definition ordinary (b : term) : Prop :=
  exists f args, b = Fn (Cst (CStr f) :: args) /\ f <> "=" /\ f <> "ks" /\ f <> "ws".

(** Builtin constraints compute numbers. *)
Definition chk_numbers (chk : term -> res checked) : Prop :=
  forall q l k v, chk q = Ok (Passed l) -> (k, v) ∈ l -> exists z, v = Cst (CInt z).

(** The input declarations name whole relations: f(X1, ..., Xn). *)
Definition whole (d : term) : Prop := exists f vs, d = Fn (Cst f :: map Var vs) /\ List.NoDup vs.

Definition is_instance (ds : list term) (x : term) : Prop := exists d, d ∈ ds /\ instance_of d x.

(** The items of a program whose inputs (instances of [ds]) are the true
    constraints. *)
Inductive derived (ds : list term) (I : term -> Prop) (P : list rule) : term -> Prop :=
| derived_rule r θ : r ∈ P -> gsub θ ->
    (forall b, b ∈ rbody r -> is_const b = true \/ (is_instance ds (sub θ b) /\ I (sub θ b)) \/
                              (~ is_instance ds (sub θ b) /\ derived ds I P (sub θ b))) ->
    derived ds I P (sub θ (rhead r)).

(** The items of a program on data [DB]: body atoms are semiring constants,
    constraints (instances of [ds]) that are true, or items. *)
Inductive item (ds : list term) (I : term -> Prop) (P : list rule) (DB : term -> Prop) : term -> Prop :=
| item_data x : DB x -> item ds I P DB x
| item_rule r θ : r ∈ P -> gsub θ ->
    (forall b, b ∈ rbody r -> is_const b = true \/ (is_instance ds (sub θ b) /\ I (sub θ b)) \/ item ds I P DB (sub θ b)) ->
    item ds I P DB (sub θ (rhead r)).

(** Body atoms are semiring constants or terms with a name. *)
Definition prog_rule (r : rule) : Prop :=
  forall b, b ∈ rbody r -> is_const b = true \/ exists f args, b = Fn (Cst f :: args).

(** What the analysis is given: input declarations name whole relations, among them
    [$free]; the rules of the program and of its input types have variables of
    their own, below [c]. *)
Record analyzable (rules : list rule) (inputs : list term) (PI : list rule) (c : nat) : Prop := {
  an_inputs : forall d, d ∈ inputs -> whole d /\ ordinary d;
  an_free : exists v, t_free (Var v) ∈ inputs;
  an_rules : forall r, r ∈ rules -> ordinary (rhead r);
  an_prog : forall r, r ∈ PI -> prog_rule r;
  an_vars : forall r v, r ∈ PI -> In v (rule_vars r) ->
    v < c /\ (forall q, q ∈ rules -> ~ In v (rule_vars q)) /\ forall d, d ∈ inputs -> ~ In v (vars d);
  an_fresh : (forall q v, q ∈ rules -> In v (rule_vars q) -> v < c) /\ forall d v, d ∈ inputs -> In v (vars d) -> v < c }.
