(** C54: nested terms to equations and back. *)
From Coq Require Import List Lia ZArith.
From stdpp Require Import gmap.
From Coq Require String Ascii.
From Verif Require Import PyBase Semiring TermModel TermSpec TermProofs SetsModel SetsProofs UnifyProofs PruneModel SolverSpec SolverProofs
  ChartProofs UpdateModel UpdateSpec UpdateProofs UnfoldProofs ElimProofs UpdateProps NormalModel NormalSpec NormalProofs RewriteProps.
Import String.StringSyntax Ascii.AsciiSyntax.
Import ListNotations.

(** ** C54.  The normal form has the same value for every item, for every
    valuation of the subgoals in which equations are worth one if they are true and
    zero if not. *)
Theorem C54_normalize :
  forall (R : semiring) (al : nat -> nat) (rs rs' : list (wrule R)) (c c' : nat),
    (forall i j, al i = al j -> i = j) -> fresh_rules al c rs ->
    normalize_unification al rs c = Ok (rs', c') ->
    forall I : term -> R, equality I -> forall x v, prog_value I rs' x v <-> prog_value I rs x v.
Proof.
  intros R al rs rs' c c' Hal Hf E I HI x v. apply prog_value_ext. by apply (normalize_rules_ok al Hal rs c rs' c' E).
Qed.

(** Every rule of the result is in normal form. *)
Theorem C54_normal_form :
  forall (R : semiring) (al : nat -> nat) (rs rs' : list (wrule R)) (c c' : nat),
    (forall i j, al i = al j -> i = j) -> normalize_unification al rs c = Ok (rs', c') ->
    forall r, r ∈ rs' -> normal_rule r.
Proof.
  intros R al rs rs' c c' Hal E r Hr. destruct (normalize_rules_ok al Hal rs c rs' c' E) as [H _]. rewrite Forall_forall in H. by apply H.
Qed.

(** Rules in normal form are returned unchanged; so normalising twice is normalising once. *)
Theorem C54_unchanged :
  forall (R : semiring) (al : nat -> nat) (rs : list (wrule R)) (c : nat),
    (forall r, r ∈ rs -> normal_rule r) -> exists c', normalize_unification al rs c = Ok (rs, c').
Proof. intros R al rs c H. apply normalize_same. by apply Forall_forall. Qed.
Theorem C54_idempotent :
  forall (R : semiring) (al : nat -> nat) (rs rs' : list (wrule R)) (c c' d : nat),
    (forall i j, al i = al j -> i = j) -> normalize_unification al rs c = Ok (rs', c') ->
    exists d', normalize_unification al rs' d = Ok (rs', d').
Proof. intros R al rs rs' c c' d Hal E. apply C54_unchanged. by apply (C54_normal_form R al rs rs' c c'). Qed.

(** It returns if no head and no subgoal is a variable. *)
Theorem C54_returns :
  forall (R : semiring) (al : nat -> nat) (rs : list (wrule R)) (c : nat),
    (forall r, r ∈ rs -> (term_wf (whead r) /\ forall v, whead r <> Var v) /\ forall b, Goal b ∈ wbody r -> term_wf b /\ forall v, b <> Var v) ->
    exists rs' c', normalize_unification al rs c = Ok (rs', c').
Proof.
  intros R al rs c H. assert (Hv : forall x, (forall v, x <> Var v) -> is_var x = false). { intros [v| |] Hx; [by destruct (Hx v)|done..]. }
  apply normalize_returns. intros r Hr. destruct (H r Hr) as [[H1 H2] H3]. split; [split; [done|by apply Hv]|].
  intros b Hb. destruct (H3 b Hb) as [H4 H5]. split; [done|by apply Hv].
Qed.

(** Resolving the equations keeps the value of every item, if the head and the other
    subgoals determine the true equations. *)
Theorem C54_snap :
  forall (R : semiring) (wt : const -> R) (negligible is_one : R -> bool) (al cv : nat -> nat) (n c : nat) (rs : list (wrule R)) (P : pstate R),
    (forall x y : R, smul x y = smul y x) -> exact_tests negligible is_one ->
    (forall i j, al i = al j -> i = j) -> (forall i j, cv i = cv j -> i = j) -> fresh_rules al c rs ->
    (forall r, r ∈ rs -> item_head (whead r) /\ determined r /\ forall b, Goal b ∈ wbody r -> const_functor b) ->
    snap_unifications al wt negligible is_one cv n rs c = Ok P ->
    forall I, respects wt I -> equality I -> forall x v, prog_value I (p_rules P) x v <-> prog_value I rs x v.
Proof.
  intros R wt negligible is_one al cv n c rs P Hcomm [Hn Ho] Hal Hcv Hf Hg E I HI Heq x v.
  rewrite (snap_rules_ok Hcomm wt negligible is_one al cv Hal Hcv (fun C => proj1 (Hn C)) (fun C => proj1 (Ho C)) n c rs (p_new [] c) P); try done.
  - intros r Hr. destruct (Hg r Hr) as (H1 & H2 & H3). split_and!; try done. intros w j Hw Hj. by apply (Hf r w j).
  - split; [done|]. by intros r w ?%elem_of_nil.
  - apply inv_new. by intros r ?%elem_of_nil.
Qed.
Theorem C54_snap_returns :
  forall (R : semiring) (wt : const -> R) (negligible is_one : R -> bool) (al cv : nat -> nat) (c : nat) (rs : list (wrule R)),
    (forall x y : R, smul x y = smul y x) -> exact_tests negligible is_one ->
    (forall i j, al i = al j -> i = j) -> (forall i j, cv i = cv j -> i = j) -> fresh_rules al c rs ->
    (forall r, r ∈ rs -> item_head (whead r) /\ determined r /\ forall b, Goal b ∈ wbody r -> const_functor b /\ two_sided b) ->
    exists P n0, forall n, n0 <= n -> snap_unifications al wt negligible is_one cv n rs c = Ok P.
Proof.
  intros R wt negligible is_one al cv c rs Hcomm [Hn Ho] Hal Hcv Hf Hg.
  destruct (snap_rules_settles Hcomm wt negligible is_one al cv Hal Hcv (fun C => proj1 (Hn C)) (fun C => proj1 (Ho C)) c rs (p_new [] c)) as (P & n0 & H).
  - intros r Hr. destruct (Hg r Hr) as (H1 & H2 & H3). split; [|intros b Hb; by apply H3]. split_and!; try done; [intros b Hb; by apply H3|].
    intros w j Hw Hj. by apply (Hf r w j).
  - split; [done|]. by intros r w ?%elem_of_nil.
  - apply inv_new. by intros r ?%elem_of_nil.
  - by exists P, n0.
Qed.

(** No equation is left. *)
Theorem C54_resolved :
  forall (R : semiring) (wt : const -> R) (negligible is_one : R -> bool) (al cv : nat -> nat) (n c : nat) (rs : list (wrule R)) (P : pstate R),
    (forall i j, al i = al j -> i = j) ->
    (forall r b, r ∈ rs -> Goal b ∈ wbody r -> const_functor b /\ forall v, b <> Var v) ->
    snap_unifications al wt negligible is_one cv n rs c = Ok P ->
    forall r b, r ∈ p_rules P -> Goal b ∈ wbody r -> ~ equation b.
Proof.
  intros R wt negligible is_one al cv n c rs P Hal Hg E. apply (snap_rules_free wt negligible is_one al cv Hal n rs (p_new [] c) P); [done| |done].
  by intros q b ?%elem_of_nil.
Qed.

(** There and back. *)
Theorem C54_round_trip :
  forall (R : semiring) (wt : const -> R) (negligible is_one : R -> bool) (al cv : nat -> nat) (n c c' : nat) (rs rs' : list (wrule R)) (P : pstate R),
    (forall x y : R, smul x y = smul y x) -> exact_tests negligible is_one ->
    (forall i j, al i = al j -> i = j) -> (forall i j, cv i = cv j -> i = j) -> fresh_rules al c rs ->
    (forall r, r ∈ rs -> item_head (whead r) /\ determined r /\ forall b, Goal b ∈ wbody r -> const_functor b) ->
    normalize_unification al rs c = Ok (rs', c') -> snap_unifications al wt negligible is_one cv n rs' c' = Ok P ->
    forall I, respects wt I -> equality I -> forall x v, prog_value I (p_rules P) x v <-> prog_value I rs x v.
Proof.
  intros R wt negligible is_one al cv n c c' rs rs' P Hcomm Ht Hal Hcv Hf Hg E1 E2 I HI Heq x v.
  rewrite <- (C54_normalize R al rs rs' c c' Hal Hf E1 I Heq).
  destruct (normalize_rules_good al Hal rs c rs' c' E1) as [_ Hr'].
  { intros r Hr. destruct (Hg r Hr) as (H1 & H2 & H3). split_and!; try done. intros w j Hw Hj. by apply (Hf r w j). }
  apply (C54_snap R wt negligible is_one al cv n c' rs' P); try done.
  - intros r w j Hr Hw Hj. destruct (Hr' r Hr) as (_ & _ & _ & H). by apply H.
  - intros r Hr. by destruct (Hr' r Hr) as (H1 & H2 & H3 & _).
Qed.

(** A rule is determined if the variables of its equations occur elsewhere. *)
Theorem C54_determined :
  forall (R : semiring) (r : wrule R),
    (forall b v, Goal b ∈ wbody r -> In v (vars b) ->
       In v (vars (whead r)) \/ exists b', Goal b' ∈ wbody r /\ ~ equation b' /\ In v (vars b')) -> determined r.
Proof.
  intros R r H σ τ _ _ _ Hh Hb b Hin. apply sub_ext. intros v Hv. destruct (H b v Hin Hv) as [Hv'|(b' & H1 & H2 & H3)].
  - by apply (sub_ext_inv σ τ (whead r)).
  - apply (sub_ext_inv σ τ b'); [by apply Hb|done].
Qed.

(** ** Witnesses *)
Local Open Scope string_scope.
Local Open Scope list_scope.
(** f(X, g(h(Y))) += (X = Y) * 2.   p(X) += q(k(X), 3). *)
Definition n_rules : list (wrule nat_sr) :=
  [ WRule (F "f" [Var 1; F "g" [F "h" [Var 2]]]) [Goal (Var 1 ≐ Var 2); Val (2 : nat_sr)];
    WRule (F "p" [Var 3]) [Goal (F "q" [F "k" [Var 3]; u_n 3])] ].
Definition n_normal : list (wrule nat_sr) :=
  [ WRule (F "f" [Var 1; Var 102]) [Goal (Var 104 ≐ F "h" [Var 2]); Goal (Var 102 ≐ F "g" [Var 104]); Goal (Var 1 ≐ Var 2); Val (2 : nat_sr)];
    WRule (F "p" [Var 3]) [Goal (Var 112 ≐ F "k" [Var 3]); Goal (Var 114 ≐ u_n 3); Goal (F "q" [Var 112; Var 114])] ].
Definition n_back : list (wrule nat_sr) :=
  [ WRule (F "f" [Var 116; F "g" [F "h" [Var 116]]]) [Val (2 : nat_sr)];
    WRule (F "p" [Var 118]) [Goal (F "q" [F "k" [Var 118]; u_n 3])] ].

Theorem C54_witness :
  fresh_rules u_al 0 n_rules /\
  (forall r, r ∈ n_rules -> (term_wf (whead r) /\ forall v, whead r <> Var v) /\ forall b, Goal b ∈ wbody r -> term_wf b /\ forall v, b <> Var v) /\
  (forall r, r ∈ n_rules -> item_head (whead r) /\ determined r /\ forall b, Goal b ∈ wbody r -> const_functor b /\ two_sided b) /\
  normalize_unification u_al n_rules 0 = Ok (n_normal, 8) /\
  (exists P, snap_unifications u_al u_wt u_neg u_one u_cv 20 n_normal 8 = Ok P /\ p_rules P = n_back) /\
  exists I : term -> nat_sr, respects u_wt I /\ equality I /\
    prog_value I n_rules (F "f" [u_n 7; F "g" [F "h" [u_n 7]]]) (2 : nat_sr) /\ prog_value I n_rules (F "f" [u_n 7; F "g" [F "h" [u_n 8]]]) (0 : nat_sr).
Proof.
  assert (Hf : fresh_rules u_al 0 n_rules).
  { intros r v j Hr Hv _. unfold u_al. apply elem_of_cons in Hr as [->|Hr]; [|apply elem_of_list_singleton in Hr as ->]; apply elem_of_list_In in Hv; cbn in Hv; lia. }
  split; [done|]. split.
  { intros r Hr. apply elem_of_cons in Hr as [->|Hr]; [|apply elem_of_list_singleton in Hr as ->].
    - split; [by cbn|]. intros b Hb. apply elem_of_cons in Hb as [[= ->]|Hb]; [by cbn|]. apply elem_of_cons in Hb as [Hb|Hb]; [done|by apply elem_of_nil in Hb].
    - split; [by cbn|]. intros b Hb. apply elem_of_list_singleton in Hb as [= ->]. by cbn. }
  split.
  { intros r Hr. apply elem_of_cons in Hr as [->|Hr]; [|apply elem_of_list_singleton in Hr as ->].
    - split; [by eexists _, _|]. split.
      + apply C54_determined. intros b v Hb Hv. left. apply elem_of_cons in Hb as [[= ->]|Hb]; [cbn in Hv |- *; tauto|].
        apply elem_of_cons in Hb as [Hb|Hb]; [done|by apply elem_of_nil in Hb].
      + intros b Hb. apply elem_of_cons in Hb as [[= ->]|Hb]; [split; [done|]; by intros args [= <-]|].
        apply elem_of_cons in Hb as [Hb|Hb]; [done|by apply elem_of_nil in Hb].
    - split; [by eexists _, _|]. split.
      + apply C54_determined. intros b v Hb Hv. left. apply elem_of_list_singleton in Hb as [= ->]. cbn in Hv |- *. tauto.
      + intros b Hb. apply elem_of_list_singleton in Hb as [= ->]. split; [done|]. by intros args [=]. }
  split; [by vm_compute|]. split; [eexists; split; by vm_compute|].
  exists (fun t => match t with Cst k => u_wt k | Fn [Cst (CStr "="); x; y] => if decide (x = y) then (1 : nat_sr) else (0 : nat_sr) | _ => (0 : nat_sr) end).
  split; [done|]. split; [by intros x y|]. unfold prog_value.
  assert (Hp : forall y z, winst (R := nat_sr) (WRule (F "p" [Var 3]) [Goal (F "q" [F "k" [Var 3]; u_n 3])]) (F "f" y) z -> False).
  { intros y z (σ & _ & E & _). done. }
  split.
  - exists [2 : nat_sr; 0 : nat_sr]. split; [|done]. repeat apply Forall2_cons_2; try apply Forall2_nil_2.
    + exists [[u_n 7 ≐ u_n 7]]. split; [apply NoDup_singleton|]. split; [|split].
      * intros ys ->%elem_of_list_singleton. exists (fun _ => u_n 7). split; [done|]. by split.
      * intros ys (σ & _ & E & <-). left. apply elem_of_list_singleton. cbn in E |- *. injection E as -> ->. done.
      * by vm_compute.
    + exists []. split; [constructor|]. split; [by intros ys ?%elem_of_nil|]. split; [intros ys Hys; by destruct (Hp _ _ Hys)|done].
  - exists [0 : nat_sr; 0 : nat_sr]. split; [|done]. repeat apply Forall2_cons_2; try apply Forall2_nil_2.
    + exists []. split; [constructor|]. split; [by intros ys ?%elem_of_nil|]. split; [|done].
      intros ys (σ & _ & E & <-). right. cbn in E |- *. injection E as -> ->. done.
    + exists []. split; [constructor|]. split; [by intros ys ?%elem_of_nil|]. split; [intros ys Hys; by destruct (Hp _ _ Hys)|done].
Qed.

(** A local variable of an equation ranges over infinitely many terms: goal += (X = Y)
    has no value, but it becomes goal += 1. *)
Definition l_rules : list (wrule nat_sr) := [WRule (F "goal" []) [Goal (Var 1 ≐ Var 2)]].
Theorem C54_local_refuted :
  fresh_rules u_al 0 l_rules /\ (forall r, r ∈ l_rules -> item_head (whead r) /\ forall b, Goal b ∈ wbody r -> const_functor b) /\
  (exists P, snap_unifications u_al u_wt u_neg u_one u_cv 20 l_rules 0 = Ok P /\
     forall I : term -> nat_sr, respects u_wt I -> prog_value I (p_rules P) (F "goal" []) (1 : nat_sr)) /\
  forall I : term -> nat_sr, equality I -> forall v, ~ prog_value I l_rules (F "goal" []) v.
Proof.
  split. { intros r v j Hr Hv _. unfold u_al. apply elem_of_list_singleton in Hr as ->. apply elem_of_list_In in Hv. cbn in Hv. lia. }
  split. { intros r Hr. apply elem_of_list_singleton in Hr as ->. split; [by eexists _, _|]. intros b Hb. by apply elem_of_list_singleton in Hb as [= ->]. }
  split.
  - eexists. split; [by vm_compute|]. intros I HI. unfold prog_value. cbn [p_rules]. exists [1 : nat_sr]. split; [|done]. apply Forall2_cons_2; [|apply Forall2_nil_2].
    exists [[]]. split; [apply NoDup_singleton|]. split; [|split].
    + intros ys ->%elem_of_list_singleton. exists (fun _ => u_n 7). split; [done|]. by split.
    + intros ys (σ & _ & _ & <-). left. by apply elem_of_list_singleton.
    + by vm_compute.
  - intros I HI v (vs & H & _). apply Forall2_cons_inv_l in H as (w & ws & H & _ & _). destruct H as (L & HN & HL & Hz & _).
    set (e := fun n => [u_n (Z.of_nat n) ≐ u_n (Z.of_nat n)]).
    assert (Hin : forall n, e n ∈ L).
    { intros n. destruct (Hz (e n)) as [H|H]; [exists (fun _ => u_n (Z.of_nat n)); by split|done|]. cbn in H. rewrite HI, decide_True in H by done. done. }
    assert (Hle : length (map e (seq 0 (S (length L)))) <= length L).
    { apply NoDup_incl_length; [|intros y Hy; apply in_map_iff in Hy as (n & <- & _); by apply elem_of_list_In].
      apply FinFun.Injective_map_NoDup; [|apply seq_NoDup]. intros a b E. injection E as E. lia. }
    rewrite map_length, seq_length in Hle. lia.
Qed.

(** A variable used as a value, total += X * f(X), has no normal form: ValueError. *)
Theorem C54_value_variable_refuted :
  normalize_unification (R := nat_sr) u_al [WRule (F "total" []) [Goal (Var 1); Goal (F "f" [Var 1])]] 0 = Raise ValueError.
Proof. by vm_compute. Qed.
Local Close Scope list_scope.
Local Close Scope string_scope.

Print Assumptions C54_normalize.
Print Assumptions C54_normal_form.
Print Assumptions C54_unchanged.
Print Assumptions C54_idempotent.
Print Assumptions C54_returns.
Print Assumptions C54_snap.
Print Assumptions C54_snap_returns.
Print Assumptions C54_resolved.
Print Assumptions C54_round_trip.
Print Assumptions C54_determined.
Print Assumptions C54_witness.
Print Assumptions C54_local_refuted.
Print Assumptions C54_value_variable_refuted.
