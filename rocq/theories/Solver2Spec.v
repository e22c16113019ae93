(** What the solver for items with variables must compute.  An item of its chart
    stands for all its ground instances. *)
From Coq Require Import List.
From stdpp Require Import gmap.
From Coq Require String Ascii.
From Verif Require Import PyBase Semiring TermModel TermSpec TermProofs SetsModel PruneModel ProgSpec SolverSpec CoverProofs.
Import String.StringSyntax Ascii.AsciiSyntax.

(** Whether a ground term [x] is an instance of [a] can be decided. *)
Global Instance instance_of_dec a x : Decision (ground x /\ instance_of a x).
Proof.
  unfold ground. destruct (decide (vars x = [])) as [Hg|Hg]; [|right; tauto].
  destruct (cover (tsize x) ∅ a x) as [[s b]| |] eqn:E.
  - destruct b; [left|right].
    + split; [done|]. destruct (covers_spec (tsize x) a x) as (s' & b & E' & Hb & _); [intros v _ Hv; by rewrite Hg in Hv|done|].
      rewrite E in E'. injection E' as <- <-. by apply Hb.
    + intros [_ Hi]. destruct (covers_spec (tsize x) a x) as (s' & b & E' & Hb & _); [intros v _ Hv; by rewrite Hg in Hv|done|].
      rewrite E in E'. injection E' as <- <-. by apply Hb in Hi.
  - exfalso. destruct (covers_spec (tsize x) a x) as (s' & b & E' & _); [intros v _ Hv; by rewrite Hg in Hv|done|]. congruence.
  - exfalso. destruct (covers_spec (tsize x) a x) as (s' & b & E' & _); [intros v _ Hv; by rewrite Hg in Hv|done|]. congruence.
Defined.

(** [x] is one of the ground terms that [a] stands for. *)
Notation stands_for a x := (ground x /\ instance_of a x).

(** [v] is the sum of the values in the list whose keys have the property [T]. *)
Inductive tot {R : semiring} {X : Type} (T : X -> Prop) : list (X * R) -> R -> Prop :=
| tot_nil : tot T [] szero
| tot_yes e w l v : T e -> tot T l v -> tot T ((e, w) :: l) (sadd w v)
| tot_no e w l v : ~ T e -> tot T l v -> tot T ((e, w) :: l) v.

(** ** Sums over infinite sets *)
(** The number of elements of a set, where [minf] stands for infinity. *)
Inductive counts {R : semiring} (minf : R) {A : Type} (c : A -> Prop) : R -> Prop :=
| counts_none : (forall a, ~ c a) -> counts minf c szero
| counts_one a : c a -> (forall b, c b -> b = a) -> counts minf c sone
| counts_many (f : nat -> A) : (forall n, c (f n)) -> (forall n m, f n = f m -> n = m) -> counts minf c minf.

(** [v] is the sum of [F] over the set [I]: finitely many sets [c] with weights [w]
    are such that the weights of the sets that contain [a] add up to [F a], and [v]
    is the sum of the weights, each times the number of elements of its set. *)
Definition integral {R : semiring} (minf : R) {A : Type} (I : A -> Prop) (F : A -> R) (v : R) : Prop :=
  exists (fam : list ((A -> Prop) * R)) (ns : list R),
    (forall (cw : (A -> Prop) * R) a, cw ∈ fam -> fst cw a -> I a) /\
    (forall a, I a -> tot (fun c => c a) fam (F a)) /\
    Forall2 (fun cw n => counts minf (fst cw) n) fam ns /\
    v = suml (zip fam ns) (fun cn => smul (snd (fst cn)) (snd cn)).

Section spec.
Context {R : semiring}.
(** the value of a constant; the comparisons; whether [x is y] holds *)
Context (wt : const -> R) (cmpf : String.string -> term -> term -> res bool) (is_true : term -> term -> bool).

(** The value that a chart gives to a ground item: the values of the items that
    stand for it add up. *)
Definition item_val (c : list (term * R)) (x : term) : R :=
  suml (filter (fun kv => stands_for (fst kv) x) c) snd.

(** Some item of the chart stands for [x]. *)
Definition covered (c : list (term * R)) (x : term) : Prop := exists kv, kv ∈ c /\ stands_for (fst kv) x.

Local Open Scope string_scope.
(** The value of a ground subgoal when items have the values [f]. *)
Definition goal_val (f : term -> R) (y : term) : R :=
  match y with
  | Cst k => wt k
  | Fn [Cst (CStr op); x; z] =>
      if decide (op = "=") then (if decide (x = z) then sone else szero)
      else if decide (op ∈ cmps) then match cmpf op x z with Ok true => sone | _ => szero end
      else if decide (op = "is") then (if is_true x z then sone else szero)
      else f y
  | _ => f y
  end%list.

(** A ground subgoal holds when it is a constant that is not zero, a builtin
    constraint that is true, or an item in [I]. *)
Definition goal_holds (I : term -> Prop) (y : term) : Prop :=
  match y with
  | Cst k => wt k <> szero
  | Fn [Cst (CStr op); x; z] =>
      if decide (op = "=") then x = z
      else if decide (op ∈ cmps) then cmpf op x z = Ok true
      else if decide (op = "is") then is_true x z = true
      else I y
  | _ => I y
  end%list.

(** The ground items that have a derivation from the rules and the items in
    [base]. *)
Inductive derivable2 (P : list rule) (base : term -> Prop) : term -> Prop :=
| D2_base x : base x -> derivable2 P base x
| D2_rule r x ys (I : term -> Prop) : r ∈ P -> ground_inst r x ys -> (forall y, I y -> derivable2 P base y) ->
    Forall (goal_holds I) ys -> derivable2 P base x.

(** Heads are items: a constant functor, and not a builtin constraint. *)
Definition item_term (x : term) : Prop :=
  exists f args, x = Fn (Cst f :: args) /\
    forall op, f = CStr op -> length args = 2 -> op <> "=" /\ op ∉ cmps /\ op <> "is".
Definition item_heads (P : list rule) : Prop := Forall (fun r => item_term (rhead r)) P.

(** Only finitely many ground instances of rules with the head [x] have subgoals
    that all hold: [L] lists them. *)
Definition finite_at (P : list rule) (c : list (term * R)) (x : term) : Prop :=
  exists L, NoDup L /\ forall iy, iy ∈ L <-> instances P x iy /\ Forall (goal_holds (covered c)) (snd iy).

(** No item of the chart stands for two subgoals of one rule instance. *)
Definition one_driver (P : list rule) (c : list (term * R)) : Prop :=
  forall r x ys i j y z kv, r ∈ P -> ground_inst r x ys -> kv ∈ c ->
    nth_error ys i = Some y -> nth_error ys j = Some z -> stands_for (fst kv) y -> stands_for (fst kv) z -> i = j.

(** The chart satisfies the equation for [x] of the program [P] with the
    additional contributions [extra]. *)
Definition solution2_at (P : list rule) (extra : term -> R) (c : list (term * R)) (x : term) : Prop :=
  exists v, sum_over (instances P x) (fun iy => prodl (map (goal_val (item_val c)) (snd iy))) v /\
            item_val c x = sadd v (extra x).

(** The same with sums over infinitely many instances of rules. *)
Definition solution2_inf_at (minf : R) (P : list rule) (extra : term -> R) (c : list (term * R)) (x : term) : Prop :=
  exists v, integral minf (instances P x) (fun iy => prodl (map (goal_val (item_val c)) (snd iy))) v /\
            item_val c x = sadd v (extra x).

(** No cancellation: a sum or product of values that are not zero is not zero. *)
Definition positive : Prop :=
  (forall x y : R, sadd x y = szero -> x = szero) /\ (forall x y : R, smul x y = szero -> x = szero \/ y = szero) /\
  (sone : R) <> szero.
End spec.

(** The variables of a program differ from those that the solver makes. *)
Definition vars_apart (al cv : nat -> nat) (P : list rule) : Prop :=
  forall r v, r ∈ P -> In v (vars (rhead r)) \/ (exists b, b ∈ rbody r /\ In v (vars b)) ->
    (forall i, v <> al i) /\ forall i, v <> cv i.
