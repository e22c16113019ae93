(** The equations that a chart must satisfy. *)
From stdpp Require Import gmap.
From Coq Require Import ZArith.
From Coq Require String Ascii.
From Verif Require Import PyBase Semiring TermModel TermSpec TermProofs SetsModel PruneModel ProgSpec.
Import String.StringSyntax Ascii.AsciiSyntax.

(** [v] is the sum of [f] over the elements of [I]: only finitely many of them
    are not zero. *)
Definition sum_over {R : semiring} {A} (I : A -> Prop) (f : A -> R) (v : R) : Prop :=
  exists L, NoDup L /\ (forall a, a ∈ L -> I a) /\ (forall a, I a -> a ∈ L \/ f a = szero) /\ v = suml L f.

Section spec.
Context {R : semiring}.
(** the value of a constant; the comparisons; whether [x is y] holds *)
Context (wt : const -> R) (cmpf : String.string -> term -> term -> res bool) (is_true : term -> term -> bool).

Local Open Scope string_scope.
(** The value of a ground subgoal, if it has one. *)
Definition look (c : gmap term R) (y : term) : option R :=
  match y with
  | Cst k => Some (wt k)
  | Fn [Cst (CStr op); x; z] =>
      if decide (op = "=") then (if decide (x = z) then Some sone else None)
      else if decide (op ∈ cmps) then match cmpf op x z with Ok true => Some sone | _ => None end
      else if decide (op = "is") then (if is_true x z then Some sone else None)
      else c !! y
  | _ => c !! y
  end%list.

Definition val (c : gmap term R) (y : term) : R := default szero (look c y).

(** The ground instances of rules with the head [x]: a rule number and the
    subgoals. *)
Definition instances (P : list rule) (x : term) (iy : nat * list term) : Prop :=
  exists r, nth_error P (fst iy) = Some r /\ ground_inst r x (snd iy).

(** The chart [c] satisfies the equation for [x] of the program [P] with the
    additional contributions [extra]. *)
Definition solution_at (P : list rule) (extra : term -> R) (c : gmap term R) (x : term) : Prop :=
  exists v, sum_over (instances P x) (fun iy => prodl (map (val c) (snd iy))) v /\
            default szero (c !! x) = sadd v (extra x).

(** The chart [c] satisfies the equations of the program [P] with the additional
    contributions [extra]: the value of each item [x] is the sum over all ground
    instances of rules with the head [x] of the product of the values of the
    subgoals, plus [extra x]. *)
Definition solution (P : list rule) (extra : term -> R) (c : gmap term R) : Prop :=
  forall x, solution_at P extra c x.

(** The programs considered: a subgoal is a variable, a constant, or a term with
    a constant functor.  [=] and [is] have two arguments.  The constraints
    [$free], [$bound] and [$not_matches] are excluded. *)
Definition wf_goal (b : term) : Prop :=
  match b with
  | Var _ | Cst _ => True
  | Fn (Cst (CStr f) :: args) =>
      f <> "$free" /\ f <> "$bound" /\ f <> "$not_matches" /\ (f = "=" \/ f = "is" -> length args = 2)
  | Fn (Cst _ :: _) => True
  | _ => False
  end.
Definition wf_rules (P : list rule) : Prop := Forall (fun r => Forall wf_goal (rbody r)) P.

(** A variable used as a subgoal stands for a constant: this is so in every rule
    instance in which every subgoal has a value. *)
Definition safe_values (P : list rule) (c : gmap term R) : Prop :=
  forall r σ, r ∈ P -> (forall v, ground (σ v)) ->
    (forall b, b ∈ rbody r -> look c (sub σ b) <> None) ->
    forall v, Var v ∈ rbody r -> exists k, σ v = Cst k.

(** What running [x is y] must do.  Each heap it yields extends the current one,
    with bindings for the variables [V] in use; and each ground assignment of the
    variables that agrees with the current bindings is among the solutions of
    exactly one of these heaps if it makes [x is y] true, and of none otherwise. *)
Definition solvesb (σ : nat -> term) (st : store) : bool :=
  bool_decide (map_Forall (fun v t => σ v = sub σ t) st).

Definition heap_over (V : gset nat) (st : store) : Prop :=
  acyclic st /\ dom st ⊆ V /\ forall v t, st !! v = Some t -> forall w, In w (vars t) -> w ∈ V.

Definition is_exact (is_run : nat -> store -> term -> term -> res (list store)) : Prop :=
  forall (V : gset nat) n st x y sts,
    heap_over V st -> (forall w, In w (vars x) \/ In w (vars y) -> w ∈ V) -> is_run n st x y = Ok sts ->
    (forall st', st' ∈ sts -> heap_over V st' /\ st ⊆ st') /\
    forall σ, (forall v, ground (σ v)) -> solves σ st ->
      length (List.filter (solvesb σ) sts) = if is_true (sub σ x) (sub σ y) then 1 else 0.

(** Facts: rules whose bodies have only constants. *)
Definition facts (D : list rule) : Prop := Forall (fun r => forall b, b ∈ rbody r -> exists k, b = Cst k) D.
End spec.
