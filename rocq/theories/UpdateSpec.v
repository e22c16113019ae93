(** What a list of weighted rules means, and histories of edits. *)
From stdpp Require Import gmap.
From Coq Require Import List.
From Verif Require Import PyBase Semiring TermModel TermSpec SetsModel SolverSpec UpdateModel.
Import ListNotations.

Section spec.
Context {R : semiring}.

(** The rule with the bindings [θ] applied. *)
Definition fsub (θ : nat -> term) (f : factor R) : factor R :=
  match f with Val v => Val v | Goal b => Goal (sub θ b) end.
Definition rsub (θ : nat -> term) (r : wrule R) : wrule R :=
  WRule (sub θ (whead r)) (map (fsub θ) (wbody r)).

(** The variables of a rule. *)
Definition wvars (r : wrule R) : list nat := vars (whead r) ++ flat_map vars (goals (wbody r)).

(** Renaming the variables of a rule apart. *)
Definition rrename (ρ : nat -> nat) (r : wrule R) : wrule R := rsub (fun v => Var (ρ v)) r.
Definition rrenames (ρ : nat -> nat) (r : wrule R) : Prop :=
  forall v w, v ∈ wvars r -> w ∈ wvars r -> ρ v = ρ w -> v = w.

(** The constant a factor denotes, if it is one; the constants of a body; rules
    that are just a constant. *)
Definition const_of (wt : const -> R) (f : factor R) : option R :=
  match f with Val v => Some v | Goal (Cst k) => Some (wt k) | Goal _ => None end.
Definition constants (wt : const -> R) (fs : list (factor R)) : list R := omap (const_of wt) fs.
Definition const_rule (wt : const -> R) (r : wrule R) : Prop := exists f v, wbody r = [f] /\ const_of wt f = Some v.

(** No two constant rules have the same head up to renaming. *)
Definition merged (wt : const -> R) (rs : list (wrule R)) : Prop :=
  forall i j r s, rs !! i = Some r -> rs !! j = Some s -> const_rule wt r -> const_rule wt s ->
    variant (whead r) (whead s) -> i = j.

(** [I] gives the value of every ground subgoal. *)
Context (I : term -> R).

(** The value of a rule body whose subgoals have been replaced by the ground
    terms [ys]: the product of the factors from left to right. *)
Fixpoint body_value (fs : list (factor R)) (ys : list term) : R :=
  match fs, ys with
  | Val v :: fs, _ => smul v (body_value fs ys)
  | Goal _ :: fs, y :: ys => smul (I y) (body_value fs ys)
  | _, _ => sone
  end.

(** The ground instances of a rule with the head [x], by their subgoals. *)
Definition winst (r : wrule R) (x : term) (ys : list term) : Prop :=
  exists σ, (forall v, ground (σ v)) /\ sub σ (whead r) = x /\ map (sub σ) (goals (wbody r)) = ys.

(** The rule contributes [v] to the value of the item [x]: the sum over its
    ground instances with this head.  (There is no such [v] if infinitely many
    instances have a nonzero value.) *)
Definition rule_value (r : wrule R) (x : term) (v : R) : Prop :=
  sum_over (winst r x) (body_value (wbody r)) v.

(** The right-hand sides for [x] in a list of rules add up to [v]. *)
Definition prog_value (rs : list (wrule R)) (x : term) (v : R) : Prop :=
  exists vs, Forall2 (fun r v => rule_value r x v) rs vs /\ v = suml vs id.

End spec.

(** The value of a constant used as a subgoal is the constant. *)
Definition respects {R : semiring} (wt : const -> R) (I : term -> R) : Prop := forall k, I (Cst k) = wt k.

(** The heap [st] binds no variable of the program: variables are bound only in
    renamed copies of rules. *)
Definition unbound {R : semiring} (st : store) (rs : list (wrule R)) : Prop :=
  forall r v, r ∈ rs -> v ∈ wvars r -> st !! v = None.

(** A head is an ordinary item. *)
Definition item_head (h : term) : Prop := exists f args, h = Fn (Cst f :: args).

(** Histories of a program object.  [history ... rs P]: [P] is the state of the
    object after some operations, and [rs] is the plain list of the rules that
    were put into it (starting from the rules at the last removal). *)
Section history.
Context {R : semiring} (wt : const -> R) (negligible is_one : R -> bool) (al cv : nat -> nat)
  (ord : list term -> list term).
(** a condition on the rules a program is made of at first *)
Context (start : list (wrule R) -> Prop).

Inductive history : list (wrule R) -> pstate R -> Prop :=
| H_new rs c :
    (forall r, r ∈ rs -> wbody r <> [] /\ item_head (whead r)) -> start rs ->
    history rs (p_new rs c)
| H_update rs P n st θ r P' :
    history rs P -> acyclic st -> resolution st θ -> unbound st (p_rules P) ->
    item_head (sub θ (whead r)) ->
    update wt negligible is_one al cv n st r P = Ok P' ->
    history (rs ++ [rsub θ r]) P'
| H_lookup rs P n st q os P' :
    history rs P -> acyclic st -> unbound st (p_rules P) ->
    lookup al ord n st q P = Ok (os, P') ->
    history rs P'
| H_pop rs P i r P' :
    history rs P -> pop i P = Ok (P', r) ->
    history (p_rules P') P'.
End history.

(** * Lookup *)
(** The variables [al c], [al (S c)], ... occur neither in the query nor in the heap. *)
Definition fresh_from (al : nat -> nat) (c : nat) (st : store) (q : term) : Prop :=
  forall j, c <= j -> ~ In (al j) (vars q) /\ st !! al j = None /\ forall w t, st !! w = Some t -> ~ In (al j) (vars t).

(** The query is a variable or an ordinary item. *)
Definition item_query (q : term) : Prop := (exists v, q = Var v) \/ item_head q.

(** The head of rule [i], renamed apart, has a common instance with the query
    under the bindings [st]. *)
Definition meets {R : semiring} (st : store) (q : term) (rs : list (wrule R)) (i : nat) : Prop :=
  exists r σ τ, rs !! i = Some r /\ solves σ st /\ sub τ (whead r) = sub σ q.

(** A correct answer: a renamed copy of rule [i] with variables numbered from [c], and bindings
    that say exactly that its head equals the query. *)
Definition answer {R : semiring} (al : nat -> nat) (c : nat) (st : store) (q : term) (rs : list (wrule R))
    (o : nat * wrule R * store) : Prop :=
  let '(i, r', st') := o in
  exists r ρ, rs !! i = Some r /\ rrenames ρ r /\ r' = rrename ρ r /\ acyclic st' /\
    (forall v, v ∈ wvars r' -> exists j, v = al j /\ c <= j) /\
    (exists σ, solves σ st') /\
    forall σ, solves σ st' <-> solves σ st /\ sub σ (whead r') = sub σ q.
