(** C38: the [is] builtin yields exactly the solutions of its equation. *)
From Coq Require Import ZArith List Lia Permutation.
From stdpp Require Import gmap.
From Coq Require String Ascii.
From Verif Require Import PyBase Semiring TermModel TermSpec TermProofs UnifyProofs SetsModel SetsProofs PruneModel ProgSpec SolverModel ChartProofs SolverSpec SolverProofs SolverProps BuiltinModel BuiltinSpec BuiltinProofs.
Import String.StringSyntax Ascii.AsciiSyntax.

(** C38.  Whenever [x is y] is evaluated, each heap it yields extends the current
    one, and each assignment of the variables that agrees with the current heap
    agrees with exactly one of the heaps yielded if it makes [x is y] true, and
    with none otherwise.  The two modes of [inexact_mode] are excluded. *)
Theorem C38_exact V n st x y sts :
  heap_over V st -> (forall w, In w (vars x) \/ In w (vars y) -> w ∈ V) -> is_run n st x y = Ok sts ->
  (forall X k, deref n st x = Ok X -> deref n st y = Ok k -> inexact_mode X k = false) ->
  (forall st', st' ∈ sts -> heap_over V st' /\ st ⊆ st') /\
  forall σ, solves σ st ->
    length (List.filter (solvesb σ) sts) = if is_true (sub σ x) (sub σ y) then 1 else 0.
Proof.
  intros Hst HV E Hm. destruct (is_run_ok V n st x y sts Hst HV E) as (X & k & H1 & H2 & H3 & H4).
  split; [done|]. intros σ Hσ. rewrite (H4 σ Hσ); [done|]. left. by apply Hm.
Qed.

(** For integer solutions of anything but [abs], no mode is excluded. *)
Theorem C38_exact_integers V n st x f args sts :
  heap_over V st -> (forall w, In w (vars x) \/ In w (vars (Fn (Cst (CStr f) :: args))) -> w ∈ V) -> f <> s_abs ->
  is_run n st x (Fn (Cst (CStr f) :: args)) = Ok sts ->
  forall σ, solves σ st -> (exists z, sub σ x = Cst (CInt z)) -> Forall (fun t => exists z, sub σ t = Cst (CInt z)) args ->
    length (List.filter (solvesb σ) sts) = if is_true (sub σ x) (sub σ (Fn (Cst (CStr f) :: args))) then 1 else 0.
Proof.
  intros Hst HV Hf E σ Hσ [z Hx] Ha.
  destruct (is_run_ok V n st x _ sts Hst HV E) as (X & k & H1 & H2 & _ & H4). rewrite (H4 σ Hσ); [done|]. right. split.
  - split; [by rewrite Hx|]. eapply Forall_impl; [exact Ha|]. intros t [u Hu]. by rewrite Hu.
  - intros Y ->. destruct n as [|n]; [done|]. cbn [deref mapM] in H2.
    destruct n as [|n]; [done|]. cbn [deref bind] in H2.
    destruct (mapM _ args); [|done..]. cbn [bind] in H2. congruence.
Qed.

(** Ready subgoals are answered: with enough fuel (Python's stack), addition and
    subtraction with two of the three numbers known, multiplication with both
    factors known, and comparisons and [range] with both bounds known. *)
Definition known (st : store) (x : term) : Prop := exists z, forall σ, solves σ st -> sub σ x = Cst (CInt z).

Theorem C38_ready st x f y z : acyclic st ->
  (f = s_add \/ f = s_neg) /\ (known st y /\ known st z \/ known st x /\ known st y \/ known st x /\ known st z) \/
  (f = s_mul \/ f ∈ cmps \/ f = s_min \/ f = s_max) /\ known st y /\ known st z ->
  exists sts, settles (fun n => is_run n st x (Fn [Cst (CStr f); y; z])) sts.
Proof.
  intros Hac H. destruct (acyclic_resolution st Hac) as [θ Hθ].
  assert (Hk : forall t, known st t -> exists z, sub θ t = Cst (CInt z)) by (intros t [u Hu]; exists u; apply Hu; apply Hθ).
  assert (Hp : exists p, plan (sub θ x) (sub θ (Fn [Cst (CStr f); y; z])) = Ok p).
  { cbn [sub map plan]. destruct H as [[Hf H]|(Hf & Hy & Hz)].
    - assert (Hadd : forall X Y Z, (exists a b, (Y = Cst (CInt a) /\ Z = Cst (CInt b)) \/ (X = Cst (CInt a) /\ Y = Cst (CInt b)) \/ (X = Cst (CInt a) /\ Z = Cst (CInt b))) -> exists p, plan_add X Y Z = Ok p).
      { intros X Y Z (a & b & Hab). unfold plan_add. destruct Hab as [[-> ->]|[[-> ->]|[-> ->]]].
        - destruct X as [?|[?|?]|?]; simpl; eauto.
        - destruct Z as [?|[?|?]|?]; simpl; eauto.
        - destruct Y as [?|[?|?]|?]; simpl; eauto. }
      destruct Hf as [->| ->].
      + change (exists p, plan_add (sub θ x) (sub θ y) (sub θ z) = Ok p). apply Hadd.
        destruct H as [[H1 H2]|[[H1 H2]|[H1 H2]]]; apply Hk in H1 as [a ?]; apply Hk in H2 as [b ?]; exists a, b; auto.
      + change (exists p, plan_add (sub θ y) (sub θ x) (sub θ z) = Ok p). apply Hadd.
        destruct H as [[H1 H2]|[[H1 H2]|[H1 H2]]]; apply Hk in H1 as [a ?]; apply Hk in H2 as [b ?]; [exists a, b|exists b, a|exists a, b]; auto.
    - apply Hk in Hy as [a ->]. apply Hk in Hz as [b ->]. unfold cmps in Hf. rewrite !elem_of_cons in Hf.
      destruct Hf as [->|[Hf|[->| ->]]]; [exists [[(sub θ x, Cst (CInt (a * b)))]]; change (plan_mul (sub θ x) (Cst (CInt a)) (Cst (CInt b)) = Ok [[(sub θ x, Cst (CInt (a * b)))]]); unfold plan_mul; cbn [asstr asnum]; by destruct (asnum (sub θ x))|..]; [|eexists; reflexivity..].
      repeat (destruct Hf as [->|Hf]; [eexists; reflexivity|]). by apply elem_of_nil in Hf. }
  destruct Hp as [p Hp]. by apply (is_run_settles st θ x _ p).
Qed.

(** The comparison builtins on integers. *)
Theorem C38_comparisons a b :
  let v f := cmpf f (Cst (CInt a)) (Cst (CInt b)) in
  v s_lt = Ok (bool_decide (a < b)%Z) /\ v s_gt = Ok (bool_decide (a > b)%Z) /\
  v s_le = Ok (bool_decide (a <= b)%Z) /\ v s_ge = Ok (bool_decide (a >= b)%Z) /\
  v s_eqq = Ok (bool_decide (a = b)) /\ v s_ne = Ok (bool_decide (a <> b)).
Proof.
  intros v. unfold v, cmpf. cbn [asnum].
  assert (H : forall f r, cmp_int f a b = Some r -> match cmp_int f a b with Some r => Ok r | None => Raise OtherError end = Ok r) by (intros f r ->; done).
  repeat split; (erewrite H; [|reflexivity]); f_equal; case_bool_decide;
    rewrite ?negb_true_iff, ?negb_false_iff, ?Z.ltb_lt, ?Z.ltb_ge, ?Z.leb_le, ?Z.leb_gt, ?Z.eqb_eq, ?Z.eqb_neq; lia.
Qed.

(** * The solver with these builtins *)
(** [is_run], restricted to the exact modes. *)
Definition is_run_strict (n : nat) (st : store) (x y : term) : res (list store) :=
  let* X := deref n st x in
  let* k := deref n st y in
  if inexact_mode X k then Raise OtherError else is_run n st x y.

Theorem C38_is_exact : is_exact is_true is_run_strict.
Proof.
  intros V n st x y sts Hst HV E. unfold is_run_strict in E.
  destruct (deref n st x) as [X| |] eqn:EX; try done. cbn [bind] in E.
  destruct (deref n st y) as [k| |] eqn:Ek; try done. cbn [bind] in E.
  destruct (inexact_mode X k) eqn:Em; try done.
  destruct (C38_exact V n st x y sts Hst HV E) as [H1 H2]; [congruence|]. split; [done|]. intros σ _ Hσ. by apply H2.
Qed.

(** C23 for programs with arithmetic. *)
Theorem C38_solver {R : semiring} (wt : const -> R) approx ord pick P n p s :
  (forall l, Permutation (ord l) l) -> (forall x y, approx x y = true -> x = y) -> wf_rules P ->
  forward_chaining wt approx ord cmpf is_run_strict all_kept pick P n p s_empty = Ok s ->
  let c := c_dict (s_chart s) in
  safe_values wt cmpf is_true P c -> solution wt cmpf is_true P (fun _ => szero) c.
Proof.
  intros Hord Ha Hwf E. apply (C23_solution wt approx ord cmpf is_run_strict is_true Hord C38_is_exact Ha pick P n p s Hwf E).
Qed.

(** * Findings *)
Section findings.
  Notation I z := (Cst (CInt z)). Notation F f args := (Fn (Cst (CStr f) :: args)).
  (** [-3 is abs(Y)] has no solution, but the code yields two. *)
  Theorem C38_abs_refuted : forall y, is_true (I (-3)) (F "abs" [y]) = false /\
    is_run 10 ∅ (I (-3)) (F "abs" [Var 0]) = Ok [ {[0 := I (-3)]}; {[0 := I 3]} ].
  Proof.
    intros y. split; [|vm_compute; reflexivity]. destruct y as [?|[a|?]|?]; try done. apply bool_decide_false. intros [= H]. lia.
  Qed.

  (** [X is 0 + "ab"] yields X = "ab", but ["ab" is 0 + "ab"] fails: the answer
      depends on whether X is bound before or after. *)
  Theorem C38_zero_refuted :
    is_run 10 ∅ (Var 0) (F "+" [I 0; Cst (CStr "ab")]) = Ok [ {[0 := Cst (CStr "ab")]} ] /\
    is_run 10 {[0 := Cst (CStr "ab")]} (Var 0) (F "+" [I 0; Cst (CStr "ab")]) = Ok [].
  Proof. split; vm_compute; reflexivity. Qed.

  (** [0 is 0 * Z] has every number as a solution; the code divides by zero. *)
  Theorem C38_zero_times_refuted : (forall z, is_true (I 0) (F "*" [I 0; I z]) = true) /\
    is_run 10 ∅ (I 0) (F "*" [I 0; Var 0]) = Raise ZeroDivisionError.
  Proof. split; [|vm_compute; reflexivity]. intros z. by apply bool_decide_true. Qed.
End findings.

(** * Witnesses *)
Section witness.
  Notation I z := (Cst (CInt z)). Notation F f args := (Fn (Cst (CStr f) :: args)).
  Let st : store := {[0 := I 7; 1 := Var 2]}.
  (** 7 is Y + 3 with Y an alias of another variable; "ab" split in three ways;
      division; range. *)
  Lemma C38_witness :
    heap_over {[0; 1; 2; 3]} st /\
    is_run 10 st (Var 0) (F "+" [Var 1; I 3]) = Ok [ <[2 := I 4]> st ] /\
    inexact_mode (I 7) (F "+" [Var 2; I 3]) = false /\
    (forall n sts, is_run 10 st (Cst (CStr "ab")) (F "+" [Var 1; Var 3]) = Ok sts -> n = length sts -> n = 3) /\
    is_run 10 st (Var 1) (F "/" [I 12; I 4]) = Ok [ <[2 := I 3]> st ] /\
    match is_run 10 st (py_bool true) (F "range" [Var 2; I 3; I 6]) with Ok sts => map (fun s : store => s !! 2) sts | _ => [] end
      = [Some (I 3); Some (I 4); Some (I 5)].
  Proof.
    split.
    { split; [|split].
      - exists (fun v => if decide (v = 1) then 1 else 0). intros v t E w Hw. unfold st in E.
        apply lookup_insert_Some in E as [[<- <-]|[_ E]]; [by destruct Hw|].
        apply lookup_singleton_Some in E as [<- <-]. destruct Hw as [<-|[]]. simpl. lia.
      - unfold st. rewrite dom_insert_L, dom_singleton_L. set_solver.
      - intros v t E w Hw. unfold st in E. apply lookup_insert_Some in E as [[<- <-]|[_ E]]; [by destruct Hw|].
        apply lookup_singleton_Some in E as [<- <-]. destruct Hw as [<-|[]]. set_solver. }
    split; [vm_compute; reflexivity|]. split; [done|]. split.
    { intros n sts E ->. assert (H : match is_run 10 st (Cst (CStr "ab")) (F "+" [Var 1; Var 3]) with Ok sts => length sts | _ => 0 end = 3) by (vm_compute; reflexivity).
      by rewrite E in H. }
    split; [vm_compute; reflexivity|]. vm_compute; reflexivity.
  Qed.

  (** f(1) += 2. f(Y) += f(X) * (X < 4) * (Y is X + 1). *)
  Definition w_count : list rule :=
    [Rule (F "f" [I 1]) [I 2]; Rule (F "f" [Var 1]) [F "f" [Var 0]; F "<" [Var 0; I 4]; F "is" [Var 1; F "+" [Var 0; I 1]]]].
  Definition w_crun := forward_chaining w_nat w_eq id cmpf is_run_strict all_kept w_pick w_count 20 20 s_empty.
  Lemma C38_solver_witness : wf_rules w_count /\ (exists s, w_crun = Ok s) /\
    w_val w_crun (F "f" [I 4]) = Some 2 /\ w_val w_crun (F "f" [I 5]) = None.
  Proof.
    split; [repeat constructor; try done; intros [Hx|Hx]; discriminate Hx|].
    assert (H : forall r : res (sstate nat_sr), match r with Ok _ => true | _ => false end = true -> exists s, r = Ok s) by (intros []; naive_solver).
    split; [apply H; vm_compute; reflexivity|]. split; vm_compute; reflexivity.
  Qed.
End witness.

Print Assumptions C38_exact.
Print Assumptions C38_exact_integers.
Print Assumptions C38_ready.
Print Assumptions C38_comparisons.
Print Assumptions C38_solver.
Print Assumptions C38_abs_refuted.
