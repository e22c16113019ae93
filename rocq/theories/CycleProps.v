(** Property C50: the analyses on the coarse-grained dependency graph. *)
From Coq Require Import List Permutation.
From stdpp Require Import gmap.
From Coq Require Import Lia.
From Coq Require String Ascii.
From Verif Require Import PyBase TermModel TermSpec TermProofs SetsModel SetsSpec PruneModel ProgSpec KleeneModel CycleModel CycleSpec CycleProofs.
Import String.StringSyntax Ascii.AsciiSyntax.
Import ListNotations.

(** Variables are allocated apart from the canonical ones. *)
Definition allocators (al cv : nat -> nat) : Prop :=
  (forall i j, al i = al j -> i = j) /\ (forall i j, cv i = cv j -> i = j) /\ (forall i j, al i <> cv j).

(** If [possibly_cyclic] answers False then no ground item depends on itself, and
    every chain of dependencies is at most as long as the graph has nodes. *)
Theorem C50_cyclic al cv inputs P n c nodes g :
  allocators al cv -> Forall proper (coarse_terms inputs P) ->
  coarse_graph al cv n c inputs P = Ok (nodes, g) -> possibly_cyclic g = false ->
  (forall a, ~ tc (depends P) a a) /\ (forall a l, chain P a l -> length l <= length (g_nodes g)).
Proof.
  intros (Hal & Hcv & Halcv) Hp E Hc. split.
  - intros a Ha. destruct (depends_path al cv Hal Hcv Halcv inputs P n c nodes g E Hp a a Ha) as (i & j & Hi & Hj & Hij).
    rewrite (belongs_fun al cv Hal Hcv Halcv inputs P n c nodes g E Hp a i j Hi Hj) in Hij.
    exact (acyclic_nodes al cv inputs P n c nodes g E Hc j Hij).
  - intros a l. exact (chain_bound al cv Hal Hcv Halcv inputs P n c nodes g E Hp a l Hc).
Qed.

(** If [possibly_expansive] answers False then no item expands into two copies of
    itself. *)
Theorem C50_expansive al cv inputs P n c nodes g :
  allocators al cv -> Forall proper (coarse_terms inputs P) ->
  coarse_graph al cv n c inputs P = Ok (nodes, g) -> possibly_expansive al n nodes g P = Ok false ->
  forall a l, expands P a l -> occurrences a l <= 1.
Proof.
  intros (Hal & Hcv & Halcv) Hp E Hx a l H.
  exact (not_expansive al cv Hal Hcv Halcv inputs P n c nodes g E Hp Hx a l H a (rtc_refl _ a)).
Qed.

(** [split_input_dependent] divides the rules.  If the declared inputs are ground
    items that are nodes of their own, nothing that the first part can use is an
    input. *)
Theorem C50_split al cv inputs P n c nodes g Is Ds :
  allocators al cv -> Forall proper (coarse_terms inputs P) ->
  coarse_graph al cv n c inputs P = Ok (nodes, g) -> split_input_dependent al n nodes g inputs P = Ok (Is, Ds) ->
  Permutation (Is ++ Ds) P /\
  ((forall t, t ∈ inputs -> ground t /\ t ∈ fst nodes) ->
   forall r σ b, r ∈ Is -> (forall v, ground (σ v)) -> rtc (depends P) (sub σ (rhead r)) b -> b ∉ inputs).
Proof.
  intros (Hal & Hcv & Halcv) Hp E H. split.
  - exact (split_rules_perm al inputs n nodes _ P Is Ds H).
  - exact (independent al cv Hal Hcv Halcv inputs P n c nodes g E Hp Is Ds H).
Qed.

(** But when every declared input has a variable, no rule is found to depend on the
    inputs: the nodes are canonical terms, and they are compared with the
    declarations as they are written. *)
Theorem C50_split_never_dependent al cv inputs P n c nodes g Is Ds :
  allocators al cv -> Forall proper (coarse_terms inputs P) ->
  coarse_graph al cv n c inputs P = Ok (nodes, g) -> split_input_dependent al n nodes g inputs P = Ok (Is, Ds) ->
  (forall t, t ∈ inputs -> exists v, In v (vars t) /\ forall i, v <> cv i) ->
  Is = P /\ Ds = [].
Proof.
  intros (Hal & Hcv & Halcv) Hp E H.
  exact (never_dependent al cv Hal Hcv Halcv inputs P n c nodes g E Hp Is Ds H).
Qed.

(** * Witnesses *)
Local Open Scope string_scope.
Local Open Scope list_scope.
Local Open Scope nat_scope.
Definition y_al (i : nat) : nat := 2 * i.
Definition y_cv (i : nat) : nat := 2 * i + 1.
Lemma y_alloc : allocators y_al y_cv.
Proof. unfold allocators, y_al, y_cv. split_and!; intros; lia. Qed.
Definition y_t (f : String.string) (args : list term) : term := Fn (Cst (CStr f) :: args).
Definition y_n (k : BinNums.Z) : term := Cst (CInt k).

(** goal += f(X) * g(X).  f(X) += h(X).    inputs: g(_); h(_). *)
Definition y_acyclic : list rule :=
  [Rule (y_t "goal" []) [y_t "f" [Var 0]; y_t "g" [Var 0]]; Rule (y_t "f" [Var 2]) [y_t "h" [Var 2]]].
Definition y_in : list term := [y_t "g" [Var 4]; y_t "h" [Var 6]].
(** path(I,K) += path(I,J) * edge(J,K).  path(I,K) += edge(I,K).   inputs: edge(_,_). *)
Definition y_path : list rule :=
  [Rule (y_t "path" [Var 0; Var 2]) [y_t "path" [Var 0; Var 4]; y_t "edge" [Var 4; Var 2]];
   Rule (y_t "path" [Var 6; Var 8]) [y_t "edge" [Var 6; Var 8]]].
Definition y_edge : list term := [y_t "edge" [Var 10; Var 12]].
(** path(I,K) += path(I,J) * path(J,K). *)
Definition y_square : list rule :=
  [Rule (y_t "path" [Var 0; Var 2]) [y_t "path" [Var 0; Var 4]; y_t "path" [Var 4; Var 2]]].
(** goal += b * 2.  c += a.  b += 3.    inputs: a. *)
Definition y_split : list rule :=
  [Rule (y_t "goal" []) [y_t "b" []; y_n 2]; Rule (y_t "c" []) [y_t "a" []]; Rule (y_t "b" []) [y_n 3]].
Definition y_a : list term := [y_t "a" []].

Lemma y_proper : Forall proper (coarse_terms y_in y_acyclic) /\ Forall proper (coarse_terms y_edge y_path) /\
  Forall proper (coarse_terms y_edge y_square) /\ Forall proper (coarse_terms y_a y_split).
Proof. split_and!; repeat constructor. Qed.

Definition y_run (inputs : list term) (P : list rule) : res (bool * res bool * res (list rule * list rule)) :=
  let* (nodes, g) := coarse_graph y_al y_cv 40 10 inputs P in
  Ok (possibly_cyclic g, possibly_expansive y_al 40 nodes g P, split_input_dependent y_al 40 nodes g inputs P).

Theorem C50_witness :
  y_run y_in y_acyclic = Ok (false, Ok false, Ok (y_acyclic, [])) /\
  y_run y_edge y_path = Ok (true, Ok false, Ok (y_path, [])) /\
  y_run y_edge y_square = Ok (true, Ok true, Ok (y_square, [])) /\
  y_run y_a y_split = Ok (false, Ok false, Ok ([Rule (y_t "goal" []) [y_t "b" []; y_n 2]; Rule (y_t "b" []) [y_n 3]],
                                                 [Rule (y_t "c" []) [y_t "a" []]])) /\
  chain y_acyclic (y_t "goal" []) [y_t "f" [y_n 1]; y_t "h" [y_n 1]] /\
  (exists l, expands y_path (y_t "path" [y_n 1; y_n 2]) l /\ occurrences (y_t "path" [y_n 1; y_n 2]) l = 1 /\ length l = 2) /\
  (exists l, expands y_square (y_t "path" [y_n 1; y_n 1]) l /\ occurrences (y_t "path" [y_n 1; y_n 1]) l = 2).
Proof.
  split_and!; try (vm_compute; reflexivity).
  - split; [|split; [|done]].
    + exists (Rule (y_t "goal" []) [y_t "f" [Var 0]; y_t "g" [Var 0]]), (fun _ => y_n 1), (y_t "f" [Var 0]).
      split_and!; [by left|done|done|split; [by left|done]|done].
    + exists (Rule (y_t "f" [Var 2]) [y_t "h" [Var 2]]), (fun _ => y_n 1), (y_t "h" [Var 2]).
      split_and!; [right; by left|done|done|split; [by left|done]|done].
  - exists (concat [[y_t "path" [y_n 1; y_n 2]]; [y_t "edge" [y_n 2; y_n 2]]]). split; [|split; vm_compute; reflexivity].
    eapply (exp_rule y_path (Rule (y_t "path" [Var 0; Var 2]) [y_t "path" [Var 0; Var 4]; y_t "edge" [Var 4; Var 2]])
      (fun v => if Nat.eqb v 0 then y_n 1 else y_n 2)); [by left|intros v; by destruct (Nat.eqb v 0)|].
    repeat constructor.
  - exists (concat [[y_t "path" [y_n 1; y_n 1]]; [y_t "path" [y_n 1; y_n 1]]]). split; [|vm_compute; reflexivity].
    eapply (exp_rule y_square (Rule (y_t "path" [Var 0; Var 2]) [y_t "path" [Var 0; Var 4]; y_t "path" [Var 4; Var 2]])
      (fun v => y_n 1)); [by left|done|]. repeat constructor.
Qed.

(** * The split loses dependencies.  goal += f(X), with the input declaration f(_):
    the rule is put into the input-independent part, which is solved without
    inputs, although [goal] depends on the inputs. *)
Definition y_goal : list rule := [Rule (y_t "goal" []) [y_t "f" [Var 0]]].
Definition y_f : list term := [y_t "f" [Var 2]].

Theorem C50_split_refuted :
  ~ (forall al cv inputs P n c nodes g Is Ds,
       allocators al cv -> Forall proper (coarse_terms inputs P) ->
       coarse_graph al cv n c inputs P = Ok (nodes, g) -> split_input_dependent al n nodes g inputs P = Ok (Is, Ds) ->
       forall r σ b, r ∈ Is -> (forall v, ground (σ v)) -> rtc (depends P) (sub σ (rhead r)) b ->
         ~ (exists t, t ∈ inputs /\ instance_of t b)).
Proof.
  intros H.
  assert (Hr : exists nodes g, coarse_graph y_al y_cv 40 10 y_f y_goal = Ok (nodes, g) /\
    split_input_dependent y_al 40 nodes g y_f y_goal = Ok (y_goal, [])).
  { assert (Hx : match coarse_graph y_al y_cv 40 10 y_f y_goal with
                 | Ok (nodes, g) => split_input_dependent y_al 40 nodes g y_f y_goal
                 | _ => OutOfFuel end = Ok (y_goal, [])) by (vm_compute; reflexivity).
    destruct (coarse_graph y_al y_cv 40 10 y_f y_goal) as [[nodes g]| |]; [|discriminate..]. by exists nodes, g. }
  destruct Hr as (nodes & g & E & Es).
  refine (H y_al y_cv y_f y_goal 40 10 nodes g y_goal [] y_alloc _ E Es (Rule (y_t "goal" []) [y_t "f" [Var 0]]) (fun _ => y_n 1) (y_t "f" [y_n 1]) _ _ _ _).
  - repeat constructor.
  - by left.
  - done.
  - apply rtc_once. exists (Rule (y_t "goal" []) [y_t "f" [Var 0]]), (fun _ => y_n 1), (y_t "f" [Var 0]).
    split_and!; [by left|done|done|split; [by left|done]|done].
  - exists (y_t "f" [Var 2]). split; [by left|]. by exists (fun _ => y_n 1).
Qed.

(** * [possibly_expansive] fails on programs with builtins: f(X) += g(X) * (X < 3).
    The coarse graph is built, but looking up the comparison raises KeyError. *)
Definition y_builtin : list rule := [Rule (y_t "f" [Var 0]) [y_t "g" [Var 0]; y_t "<" [Var 0; y_n 3]]].
Theorem C50_expansive_builtin_refuted :
  y_run [y_t "g" [Var 2]] y_builtin = Ok (false, Raise KeyError, Ok (y_builtin, [])).
Proof. vm_compute. reflexivity. Qed.

Print Assumptions C50_cyclic.
Print Assumptions C50_expansive.
Print Assumptions C50_split.
Print Assumptions C50_split_never_dependent.
Print Assumptions C50_witness.
Print Assumptions C50_split_refuted.
Print Assumptions C50_expansive_builtin_refuted.
