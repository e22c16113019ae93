(** C46, C47: [solve_linear] and [newton] on ground programs. *)
From Coq Require Import List Permutation.
From stdpp Require Import gmap.
From Coq Require Import Lia ZArith.
From Coq Require String Ascii.
From Verif Require Import PyBase Semiring TermModel TermSpec SetsModel SetsProofs PruneModel UpdateModel UpdateSpec UpdateProofs UpdateProps
  EvalModel EvalSpec EvalProofs EvalProps KleeneModel KleeneSpec NewtonModel NewtonSpec LinsolveProofs NewtonProofs.
Import String.StringSyntax Ascii.AsciiSyntax.
Import ListNotations.

(** ** C46 *)
(** The chart that [solve_linear] returns solves the equations of the program. *)
Theorem C46_solution :
  forall (R : semiring) (wt : const -> R) (al cv : nat -> nat) (sort : list term -> list term) (test : term -> option bool) (star : R -> R),
  (forall i j, al i = al j -> i = j) -> (forall i j, cv i = cv j -> i = j) -> (forall l, Permutation (sort l) l) ->
  (forall x y : R, smul x y = smul y x) -> star_unfold star ->
  forall P n t S, ground_program test P -> no_builtins test P -> solve_linear wt al cv sort test star n t P = Ok S ->
  const_chart test S /\ NoDup (map whead S) /\ solution wt test P (chart_val wt S).
Proof.
  intros R wt al cv sort test star Hal Hcv Hsort Hc Hs P n t S HP HnB E.
  destruct (solve_linear_ok wt al cv sort test Hal Hcv Hsort Hc star Hs P n t S HP HnB E) as (H1 & H2 & H3 & _). done.
Qed.
Print Assumptions C46_solution.

(** It is the least one: below everything that is above the right-hand sides. *)
Theorem C46_least :
  forall (R : semiring) (wt : const -> R) (al cv : nat -> nat) (sort : list term -> list term) (test : term -> option bool) (star : R -> R) (le : R -> R -> Prop),
  (forall i j, al i = al j -> i = j) -> (forall i j, cv i = cv j -> i = j) -> (forall l, Permutation (sort l) l) ->
  (forall x y : R, smul x y = smul y x) -> star_unfold star -> star_order star le -> (forall x, le szero x) ->
  forall P n t S, ground_program test P -> no_builtins test P -> solve_linear wt al cv sort test star n t P = Ok S ->
  forall I, above wt test le P I -> forall x, le (chart_val wt S x) (I x).
Proof.
  intros R wt al cv sort test star le Hal Hcv Hsort Hc Hs Hle H0 P n t S HP HnB E I HI.
  destruct (solve_linear_ok wt al cv sort test Hal Hcv Hsort Hc star Hs P n t S HP HnB E) as (_ & _ & _ & H). by apply H.
Qed.
Print Assumptions C46_least.

(** It returns on every linear program: on every program without a rule that has two
    items and whose items are all derivable.  It may be recursive, and the
    derivations need not be finitely many. *)
Theorem C46_returns :
  forall (R : semiring) (wt : const -> R) (al cv : nat -> nat) (sort : list term -> list term) (test : term -> option bool) (star : R -> R),
  (forall i j, al i = al j -> i = j) -> (forall i j, cv i = cv j -> i = j) -> (forall l, Permutation (sort l) l) ->
  forall P, ground_program test P -> no_builtins test P -> linear wt test P ->
  exists S n0 t0, forall n t, n0 <= n -> t0 <= t -> solve_linear wt al cv sort test star n t P = Ok S.
Proof. intros R wt al cv sort test star Hal Hcv Hsort P. by apply solve_linear_settles. Qed.
Print Assumptions C46_returns.

(** And on the other programs it fails: it does not return a wrong chart. *)
Theorem C46_raises :
  forall (R : semiring) (wt : const -> R) (al cv : nat -> nat) (sort : list term -> list term) (test : term -> option bool) (star : R -> R),
  (forall i j, al i = al j -> i = j) -> (forall i j, cv i = cv j -> i = j) -> (forall l, Permutation (sort l) l) ->
  forall P, ground_program test P -> no_builtins test P ->
  (exists r, r ∈ P /\ (forall b, b ∈ items (wbody r) -> derivable wt test P b) /\ 1 < length (items (wbody r))) ->
  exists n0 t0, forall n t, n0 <= n -> t0 <= t -> solve_linear wt al cv sort test star n t P = Raise AssertionError.
Proof. intros R wt al cv sort test star Hal Hcv Hsort P. by apply solve_linear_raises. Qed.
Print Assumptions C46_raises.

(** ** C47 *)
(** What [newton] returns is below every solution (and everything above the
    right-hand sides), whenever it stops. *)
Theorem C47_below :
  forall (R : semiring) (wt : const -> R) (negligible is_one : R -> bool) (al cv : nat -> nat) (sort : list term -> list term)
    (test : term -> option bool) (same : list (wrule R) -> list (wrule R) -> bool) (star : R -> R) (le : R -> R -> Prop) (diff : R -> R -> R),
  eval_laws wt negligible al cv sort test same -> (forall C, is_one C = true -> C = sone) ->
  (forall x y : R, smul x y = smul y x) -> star_unfold star -> newton_order star le diff ->
  forall P n t k T ch, ground_program test P -> no_builtins test P ->
  newton wt negligible is_one al cv sort test same star n t k T P = Ok ch ->
  const_chart test ch /\ NoDup (map whead ch) /\
  forall I, above wt test le P I -> forall x, le (chart_val wt ch x) (I x).
Proof.
  intros R wt negligible is_one al cv sort test same star le diff [L1 L2 L3 L4 L5] H1 Hc Hs Hle P n t k T ch HP HnB E.
  destruct (newton_ok wt negligible is_one al cv sort test L2 L3 L1 H1 L4 Hc same L5 star Hs P HP HnB le diff Hle n t k T ch E) as (A & B & C & _). done.
Qed.
Print Assumptions C47_below.

(** When it stops by itself, it has the least solution. *)
Theorem C47_solution :
  forall (R : semiring) (wt : const -> R) (negligible is_one : R -> bool) (al cv : nat -> nat) (sort : list term -> list term)
    (test : term -> option bool) (same : list (wrule R) -> list (wrule R) -> bool) (star : R -> R) (le : R -> R -> Prop) (diff : R -> R -> R),
  eval_laws wt negligible al cv sort test same -> (forall C, is_one C = true -> C = sone) ->
  (forall x y : R, smul x y = smul y x) -> star_unfold star -> newton_order star le diff ->
  forall P n t k ch, ground_program test P -> no_builtins test P ->
  newton wt negligible is_one al cv sort test same star n t k None P = Ok ch ->
  solution wt test P (chart_val wt ch) /\
  forall I, solution wt test P I -> forall x, le (chart_val wt ch x) (I x).
Proof.
  intros R wt negligible is_one al cv sort test same star le diff [L1 L2 L3 L4 L5] H1 Hc Hs Hle P n t k ch HP HnB E.
  destruct (newton_ok wt negligible is_one al cv sort test L2 L3 L1 H1 L4 Hc same L5 star Hs P HP HnB le diff Hle n t k None ch E) as (A & B & C & D & _).
  split; [by apply D|]. intros I HI. apply C. intros x. rewrite <- (HI x). apply (so_refl _ _ (no_star _ _ _ Hle)).
Qed.
Print Assumptions C47_solution.

(** After [T] rounds it has at least what [T] rounds of naive evaluation have. *)
Theorem C47_faster :
  forall (R : semiring) (wt : const -> R) (negligible is_one : R -> bool) (al cv : nat -> nat) (sort : list term -> list term)
    (test : term -> option bool) (same : list (wrule R) -> list (wrule R) -> bool) (star : R -> R) (le : R -> R -> Prop) (diff : R -> R -> R),
  eval_laws wt negligible al cv sort test same -> (forall C, is_one C = true -> C = sone) ->
  (forall x y : R, smul x y = smul y x) -> star_unfold star -> newton_order star le diff ->
  forall P n t k j ch, ground_program test P -> no_builtins test P ->
  newton wt negligible is_one al cv sort test same star n t k (Some j) P = Ok ch ->
  forall x, le (iterate wt test P j x) (chart_val wt ch x).
Proof.
  intros R wt negligible is_one al cv sort test same star le diff [L1 L2 L3 L4 L5] H1 Hc Hs Hle P n t k j ch HP HnB E.
  destruct (newton_ok wt negligible is_one al cv sort test L2 L3 L1 H1 L4 Hc same L5 star Hs P HP HnB le diff Hle n t k (Some j) ch E) as (_ & _ & _ & _ & D).
  by apply D.
Qed.
Print Assumptions C47_faster.

(** Every round ends, so a bound on the rounds makes it return. *)
Theorem C47_returns :
  forall (R : semiring) (wt : const -> R) (negligible is_one : R -> bool) (al cv : nat -> nat) (sort : list term -> list term)
    (test : term -> option bool) (same : list (wrule R) -> list (wrule R) -> bool) (star : R -> R),
  eval_laws wt negligible al cv sort test same -> (forall C, is_one C = true -> C = sone) ->
  (forall x y : R, smul x y = smul y x) -> star_unfold star ->
  forall P j, ground_program test P -> no_builtins test P ->
  exists ch n0 t0, forall n t k, n0 <= n -> t0 <= t -> j < k ->
    newton wt negligible is_one al cv sort test same star n t k (Some (S j)) P = Ok ch.
Proof.
  intros R wt negligible is_one al cv sort test same star [L1 L2 L3 L4 L5] H1 Hc Hs P j HP HnB.
  exact (newton_settles wt negligible is_one al cv sort test L2 L3 L1 H1 L4 Hc same star Hs P HP HnB j).
Qed.
Print Assumptions C47_returns.

(** A bound of zero rounds is no bound: it is never reached. *)
Theorem C47_zero_rounds :
  forall (R : semiring) (wt : const -> R) (negligible is_one : R -> bool) (al cv : nat -> nat) (sort : list term -> list term)
    (test : term -> option bool) (same : list (wrule R) -> list (wrule R) -> bool) (star : R -> R) P n t k,
  newton wt negligible is_one al cv sort test same star n t k (Some 0) P = newton wt negligible is_one al cv sort test same star n t k None P.
Proof. intros. apply newton_zero. Qed.
Print Assumptions C47_zero_rounds.

(** ** Witnesses: the natural numbers with infinity *)
Definition inat : Type := option nat.
Definition i_add (a b : inat) : inat := match a, b with Some a, Some b => Some (a + b) | _, _ => None end.
Definition i_mul (a b : inat) : inat :=
  match a, b with
  | Some 0, _ | _, Some 0 => Some 0
  | Some a, Some b => Some (a * b)
  | _, _ => None
  end.
Definition i_sr : semiring.
Proof.
  refine (SR inat (Some 0) (Some 1) i_add i_mul _ _ _ _ _ _ _ _ _ _); unfold inat;
    repeat intros [[|?]|]; simpl; try done; f_equal; lia || nia.
Defined.
Definition i_star (a : i_sr) : i_sr := match a with Some 0 => Some 1 | _ => None end.
Definition i_le (a b : i_sr) : Prop := match a, b with _, None => True | Some a, Some b => a <= b | None, Some _ => False end.
Definition i_diff (a b : i_sr) : i_sr := match a, b with None, _ => None | Some a, Some b => Some (a - b) | Some _, None => Some 0 end.
Lemma i_comm (x y : i_sr) : smul x y = smul y x.
Proof. destruct x as [[|x]|], y as [[|y]|]; simpl; try done. f_equal. lia. Qed.
Lemma i_unfold : @star_unfold i_sr i_star.
Proof. intros [[|x]|]; done. Qed.
Lemma i_order : @newton_order i_sr i_star i_le i_diff.
Proof.
  split; [split|..].
  - intros [x|]; simpl; [lia|done].
  - intros [x|] [y|] [z|]; simpl; try done; lia.
  - intros [x|] [x'|] [y|] [y'|]; simpl; try done; lia.
  - intros [[|c]|] [[|x]|] [[|x']|]; simpl; try done; try lia; nia.
  - intros [[|x]|]; done.
  - intros [[|a]|] [[|b]|] [[|x]|]; simpl; try done; try lia; nia.
  - intros [x|]; simpl; [lia|done].
  - intros [x|] [y|]; simpl; try done. intros. f_equal. lia.
  - intros [m|] [v|]; simpl; try done. intros. f_equal. lia.
  - intros [m|] [v|] [y|]; simpl; try done; lia.
Qed.
Definition i_wt (k : const) : i_sr := Some (u_wt k).
Definition i_neg (c : i_sr) : bool := bool_decide ((c : inat) = Some 0).
Definition i_one (c : i_sr) : bool := bool_decide ((c : inat) = Some 1).
Definition i_same (a b : list (wrule i_sr)) : bool :=
  forallb (fun x => bool_decide ((chart_val i_wt a x : inat) = chart_val i_wt b x)) (map whead a ++ map whead b).
Lemma i_laws : eval_laws i_wt i_neg u_al u_cv (fun l => l) e_test i_same.
Proof.
  split.
  - intros C H. by apply bool_decide_eq_true in H.
  - unfold u_al. lia.
  - unfold u_cv. lia.
  - done.
  - intros a b _ _ H x. unfold i_same in H. rewrite forallb_forall in H.
    destruct (decide (x ∈ map whead a ++ map whead b)) as [Hx|Hx].
    + apply elem_of_list_In, H in Hx. by apply bool_decide_eq_true in Hx.
    + rewrite not_elem_of_app in Hx. by rewrite !chart_val_absent by tauto.
Qed.
Lemma i_one_ok C : i_one C = true -> C = sone.
Proof. intros H. by apply bool_decide_eq_true in H. Qed.

Local Open Scope string_scope.
Local Open Scope list_scope.
Local Open Scope nat_scope.
Definition i_v (n : nat) : factor i_sr := Val (Some n : i_sr).
Definition i_g (f : String.string) : factor i_sr := Goal (u_t f []).
(* a += 3.  b += 2 * a * 4.  c += a.  c += c * b.  d += d.  e += d * d. *)
Definition i_lin : list (wrule i_sr) :=
  [WRule (u_t "a" []) [i_v 3];
   WRule (u_t "b" []) [i_v 2; i_g "a"; Goal (u_n 4)];
   WRule (u_t "c" []) [i_g "a"];
   WRule (u_t "c" []) [i_g "c"; i_v 1];
   WRule (u_t "d" []) [i_g "d"];
   WRule (u_t "e" []) [i_g "d"; i_g "d"]].
Definition i_solve := solve_linear i_wt u_al u_cv (fun l => l) e_test i_star 50 50.
Definition i_newton := newton i_wt i_neg i_one u_al u_cv (fun l => l) e_test i_same i_star 50 50 50.
(* a += 1.  b += 2.  b += a * b * 0.  c += 1.  c += c * c.  e += b * a * b.  g += e * h.  h += g * g. *)
Definition i_prog : list (wrule i_sr) :=
  [WRule (u_t "a" []) [i_v 1];
   WRule (u_t "b" []) [i_v 2];
   WRule (u_t "b" []) [i_g "a"; i_g "b"; i_v 0];
   WRule (u_t "c" []) [i_v 1];
   WRule (u_t "c" []) [i_g "c"; i_g "c"];
   WRule (u_t "e" []) [i_g "b"; i_g "a"; i_g "b"];
   WRule (u_t "g" []) [i_g "e"; i_g "h"];
   WRule (u_t "h" []) [i_g "g"; i_g "g"]].

Lemma i_ground : ground_program e_test i_lin /\ no_builtins e_test i_lin.
Proof.
  assert (H : forall r, r ∈ i_lin -> ground (whead r) /\ item_head (whead r) /\ e_test (whead r) = None /\ forall b, b ∈ goals (wbody r) -> ground b /\ e_test b = None).
  { intros r Hr. unfold i_lin in Hr. rewrite !elem_of_cons, elem_of_nil in Hr.
    destruct Hr as [->|[->|[->|[->|[->|[->|[]]]]]]]; simpl; (split; [done|]; split; [eexists _, _; reflexivity|]; split; [done|]); intros b Hb;
      rewrite ?elem_of_cons, ?elem_of_nil in Hb; naive_solver. }
  split.
  - intros r Hr. destruct (H r Hr) as (H1 & H2 & H3 & H4). repeat (split; [done|]). intros b Hb. by apply H4.
  - intros r b Hr Hb. by apply (H r Hr).
Qed.
Lemma i_linear : linear i_wt e_test i_lin.
Proof.
  intros r Hr Hd. unfold i_lin in Hr. rewrite !elem_of_cons, elem_of_nil in Hr.
  destruct Hr as [->|[->|[->|[->|[->|[->|[]]]]]]]; try (cbn; lia). exfalso.
  destruct (Hd (u_t "d" [])) as [d Hd']; [by left|].
  destruct (closed_derivable i_wt e_test i_lin (fun x => x <> u_t "d" []) (proj2 i_ground)) with (x := u_t "d" []) (d := d); [|done..].
  intros r Hr Hb. unfold i_lin in Hr. rewrite !elem_of_cons, elem_of_nil in Hr.
  destruct Hr as [->|[->|[->|[->|[->|[->|[]]]]]]]; try done. apply Hb. by left.
Qed.

(** a = 3, b = 24, c is infinite, and d and e have no derivation. *)
Lemma C46_witness :
  (forall x y : i_sr, smul x y = smul y x) /\ @star_unfold i_sr i_star /\ @star_order i_sr i_star i_le /\
  ground_program e_test i_lin /\ no_builtins e_test i_lin /\ linear i_wt e_test i_lin /\
  exists ch, i_solve i_lin = Ok ch /\
    map (fun x => chart_val i_wt ch (u_t x [])) ["a"; "b"; "c"; "d"; "e"] = [Some 3; Some 24; None; Some 0; Some 0].
Proof.
  split; [exact i_comm|]. split; [exact i_unfold|]. split; [exact (no_star _ _ _ i_order)|]. split; [apply i_ground|]. split; [apply i_ground|]. split; [exact i_linear|].
  eexists. split; [apply (u_ok []); by vm_compute|]. by vm_compute.
Qed.
(** The rule [b += a * a] makes it fail. *)
Lemma C46_raises_witness :
  i_solve [WRule (u_t "a" []) [i_v 3]; WRule (u_t "b" []) [i_g "a"; i_g "a"]] = Raise AssertionError.
Proof. by vm_compute. Qed.

(** With builtins the claim fails: for [a += 5 * (2 < 3)] the builtin is taken for an
    item without rules, and [a] gets no value. *)
Definition i_builtin : list (wrule i_sr) := [WRule (u_t "a" []) [i_v 5; Goal (u_t "<" [u_n 2; u_n 3])]].
Theorem C46_builtins_refuted :
  ground_program e_test i_builtin /\ rhs i_wt e_test i_builtin (fun _ => szero) (u_t "a" []) = Some 5 /\
  exists ch, (forall n t, 50 <= n -> 50 <= t -> solve_linear i_wt u_al u_cv (fun l => l) e_test i_star n t i_builtin = Ok ch) /\
    chart_val i_wt ch (u_t "a" []) = Some 0 /\ ~ solution i_wt e_test i_builtin (chart_val i_wt ch).
Proof.
  split.
  { intros r Hr. apply elem_of_list_singleton in Hr as ->. simpl. split; [done|]. split; [eexists _, _; reflexivity|]. split; [done|].
    intros b Hb. by apply elem_of_list_singleton in Hb as ->. }
  split; [by vm_compute|].
  exists [WRule (u_t "a" []) [i_v 0]; WRule (u_t "<" [u_n 2; u_n 3]) [i_v 0]]. split; [|split].
  - intros n t Hn Ht. replace n with (50 + (n - 50)) by lia. replace t with (50 + (t - 50)) by lia. generalize (n - 50), (t - 50). intros n' t'. vm_compute. reflexivity.
  - by vm_compute.
  - intros H. specialize (H (u_t "a" [])). by vm_compute in H.
Qed.

Lemma i_ground2 : ground_program e_test i_prog /\ no_builtins e_test i_prog.
Proof.
  assert (H : forall r, r ∈ i_prog -> ground (whead r) /\ item_head (whead r) /\ e_test (whead r) = None /\ forall b, b ∈ goals (wbody r) -> ground b /\ e_test b = None).
  { intros r Hr. unfold i_prog in Hr. rewrite !elem_of_cons, elem_of_nil in Hr.
    destruct Hr as [->|[->|[->|[->|[->|[->|[->|[->|[]]]]]]]]]; simpl; (split; [done|]; split; [eexists _, _; reflexivity|]; split; [done|]); intros b Hb;
      rewrite ?elem_of_cons, ?elem_of_nil in Hb; naive_solver. }
  split.
  - intros r Hr. destruct (H r Hr) as (H1 & H2 & H3 & H4). repeat (split; [done|]). intros b Hb. by apply H4.
  - intros r b Hr Hb. by apply (H r Hr).
Qed.
(** [c = 1 + c * c] has an infinite least solution, which naive evaluation never
    reaches; [newton] does. *)
Lemma C47_witness :
  eval_laws i_wt i_neg u_al u_cv (fun l => l) e_test i_same /\ (forall C, i_one C = true -> C = sone) /\
  (forall x y : i_sr, smul x y = smul y x) /\ @star_unfold i_sr i_star /\ @newton_order i_sr i_star i_le i_diff /\
  ground_program e_test i_prog /\ no_builtins e_test i_prog /\
  (exists ch, i_newton (Some 1) i_prog = Ok ch /\
    map (fun x => chart_val i_wt ch (u_t x [])) ["a"; "b"; "c"; "e"; "g"; "h"] = [Some 1; Some 2; Some 1; Some 0; Some 0; Some 0]) /\
  exists ch, i_newton None i_prog = Ok ch /\
    map (fun x => chart_val i_wt ch (u_t x [])) ["a"; "b"; "c"; "e"; "g"; "h"] = [Some 1; Some 2; None; Some 4; Some 0; Some 0].
Proof.
  split; [exact i_laws|]. split; [exact i_one_ok|]. split; [exact i_comm|]. split; [exact i_unfold|]. split; [exact i_order|]. split; [apply i_ground2|]. split; [apply i_ground2|].
  split; (eexists; split; [apply (u_ok []); by vm_compute|]; by vm_compute).
Qed.
(** The same gap with builtins. *)
Theorem C47_builtins_refuted :
  ground_program e_test i_builtin /\
  exists ch, i_newton None i_builtin = Ok ch /\ ~ solution i_wt e_test i_builtin (chart_val i_wt ch).
Proof.
  split; [apply C46_builtins_refuted|]. eexists. split; [apply (u_ok []); by vm_compute|]. intros H. specialize (H (u_t "a" [])). by vm_compute in H.
Qed.
Print Assumptions C46_witness.
Print Assumptions C46_builtins_refuted.
Print Assumptions C47_witness.
Print Assumptions C47_builtins_refuted.
