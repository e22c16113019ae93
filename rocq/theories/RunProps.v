(** C57: running the builtins of a program keeps the value of every item. *)
From Coq Require Import List Lia ZArith.
From stdpp Require Import gmap.
From Coq Require String Ascii.
From Verif Require Import PyBase Semiring TermModel TermSpec TermProofs SetsModel SetsProofs UnifyProofs PruneModel SolverSpec SolverProofs
  ChartProofs UpdateModel UpdateSpec UpdateProofs UnfoldProofs ElimProofs BuiltinModel BuiltinSpec BuiltinProps UpdateProps NormalModel NormalSpec NormalProofs SpecialSpec
  RewriteProps RunModel RunSpec RunProofs.
Import String.StringSyntax Ascii.AsciiSyntax.
Import ListNotations.

Lemma exact_btrue {R : semiring} cmpf ist (I : term -> R) : constraints_exact cmpf ist I -> exact cmpf ist I.
Proof.
  intros H y Hc Hg. destruct (H y Hc Hg) as [H1 H2]. destruct (btrue cmpf ist y) eqn:E; [apply H1; by apply btrue_ok|].
  apply H2. rewrite <- btrue_ok. congruence.
Qed.
Lemma determined_cdet {R : semiring} cmpf ist (r : wrule R) : constraints_determined cmpf ist r -> cdet (btrue cmpf ist) r.
Proof. intros H σ τ H1 H2 H3. apply H; try done. intros b Hb Hc. rewrite <- !btrue_ok. by apply H3. Qed.

Section C57.
Context (R : semiring) (cmpf : String.string -> term -> term -> res bool)
  (is_run : nat -> store -> term -> term -> res (list store)) (is_true : term -> term -> bool)
  (wt : const -> R) (negligible is_one : R -> bool) (al cv : nat -> nat).
Context (His : is_exact is_true is_run) (Hcomm : forall x y : R, smul x y = smul y x) (Htests : exact_tests negligible is_one).
Context (Hal : forall i j, al i = al j -> i = j) (Hcv : forall i j, cv i = cv j -> i = j).

(** ** C57.  Whatever test for equality of programs ends the loop, the result gives
    every item the value it had, for every valuation of the subgoals in which a
    constraint is worth one if it is true and zero if not. *)
Theorem C57_value : forall same k n rs c rs',
  fresh_rules al c rs ->
  (forall r, r ∈ rs -> item_head (whead r) /\ constraints_determined cmpf is_true r /\ forall b, Goal b ∈ wbody r -> plain_goal b) ->
  run_builtins cmpf is_run al wt negligible is_one cv same k n rs c = Ok rs' ->
  forall I, respects wt I -> constraints_exact cmpf is_true I -> forall x v, prog_value I rs' x v <-> prog_value I rs x v.
Proof.
  intros same k n rs c rs' Hf Hg E I HI Hc x v. unfold run_builtins in E.
  destruct (mapSM _ rs c) as [[rss c']| |] eqn:Em; [|done..]. cbn [bind] in E. injection E as <-. destruct Htests as [Hn Ho].
  eapply (run_ok Hcomm cmpf is_run is_true His wt negligible is_one al cv Hal Hcv (fun C => proj1 (Hn C)) (fun C => proj1 (Ho C)) same k n rs c rss c'); [|done|done|by apply exact_btrue].
  intros r Hr. destruct (Hg r Hr) as (H1 & H2 & H3). split; [split_and!; [done|done|by apply determined_cdet]|]. intros w j Hw Hj. by apply (Hf r w j).
Qed.

(** When the loop has ended no equation and no ground comparison is left.  Equal
    programs have the same number of subgoals. *)
Theorem C57_done : forall same k n rs c rs',
  (forall a b, same a b = true -> subgoals a = subgoals b) -> fresh_rules al c rs ->
  (forall r, r ∈ rs -> item_head (whead r) /\ constraints_determined cmpf is_true r /\ forall b, Goal b ∈ wbody r -> plain_goal b) ->
  run_builtins cmpf is_run al wt negligible is_one cv same k n rs c = Ok rs' ->
  forall r b, r ∈ rs' -> Goal b ∈ wbody r -> ~ ready b.
Proof.
  intros same k n rs c rs' Hs Hf Hg E. unfold run_builtins in E.
  destruct (mapSM _ rs c) as [[rss c']| |] eqn:Em; [|done..]. cbn [bind] in E. injection E as <-. destruct Htests as [Hn Ho].
  eapply (run_done Hcomm cmpf is_run is_true His wt negligible is_one al cv Hal Hcv (fun C => proj1 (Hn C)) (fun C => proj1 (Ho C)) same k n Hs rs c rss c'); [|done].
  intros r Hr. destruct (Hg r Hr) as (H1 & H2 & H3). split; [split_and!; [done|done|by apply determined_cdet]|]. intros w j Hw Hj. by apply (Hf r w j).
Qed.

(** Each round keeps the values. *)
Theorem C57_round : forall n rs c P,
  fresh_rules al c rs ->
  (forall r, r ∈ rs -> item_head (whead r) /\ constraints_determined cmpf is_true r /\ forall b, Goal b ∈ wbody r -> plain_goal b) ->
  builtins_round cmpf is_run al wt negligible is_one cv n rs c = Ok P ->
  forall I, respects wt I -> constraints_exact cmpf is_true I -> forall x v, prog_value I (p_rules P) x v <-> prog_value I rs x v.
Proof.
  intros n rs c P Hf Hg E I HI Hc x v. destruct Htests as [Hn Ho].
  eapply (round_ok Hcomm cmpf is_run is_true His wt negligible is_one al cv Hal Hcv (fun C => proj1 (Hn C)) (fun C => proj1 (Ho C)) n c rs P); [|done|done|by apply exact_btrue].
  intros r Hr. destruct (Hg r Hr) as (H1 & H2 & H3). split; [split_and!; [done|done|by apply determined_cdet]|]. intros w j Hw Hj. by apply (Hf r w j).
Qed.
End C57.

(** It is enough that the variables of the constraints occur in the head or in other subgoals. *)
Theorem C57_determined :
  forall (R : semiring) cmpf is_true (r : wrule R),
    (forall b v, Goal b ∈ wbody r -> In v (vars b) ->
       In v (vars (whead r)) \/ exists b', Goal b' ∈ wbody r /\ ~ constraint b' /\ In v (vars b')) -> constraints_determined cmpf is_true r.
Proof.
  intros R cmpf ist r H σ τ _ _ _ Hh Hb b Hin. apply sub_ext. intros v Hv. destruct (H b v Hin Hv) as [Hv'|(b' & H1 & H2 & H3)].
  - by apply (sub_ext_inv σ τ (whead r)).
  - apply (sub_ext_inv σ τ b'); [by apply Hb|done].
Qed.

Local Open Scope string_scope.
(** More generally: the variables of the constraints are settled, perhaps by other constraints. *)
Theorem C57_settled :
  forall (R : semiring) cmpf is_true (r : wrule R),
    (forall b v, Goal b ∈ wbody r -> In v (vars b) -> settled is_true r v) -> constraints_determined cmpf is_true r.
Proof.
  intros R cmpf ist r H σ τ _ _ Hc Hh Hb.
  assert (Hs : forall v, settled ist r v -> σ v = τ v).
  { induction 1 as [v Hv|b v Hin Hn Hv|x y v Hin _ IH Hv|x y v Hin _ IH Hv|x e v Hin _ IH Hf Hv].
    - by apply (sub_ext_inv σ τ (whead r)).
    - by apply (sub_ext_inv σ τ b); [apply Hb|].
    - destruct (Hc _ Hin) as [H1 H2]; [exists "=", x, y; split; [done|]; by apply (bool_decide_unpack (_ ∈ _)); vm_compute|].
      cbn in H1, H2. apply (sub_ext_inv σ τ y); [|done]. rewrite <- H1, <- H2. by apply sub_ext.
    - destruct (Hc _ Hin) as [H1 H2]; [exists "=", x, y; split; [done|]; by apply (bool_decide_unpack (_ ∈ _)); vm_compute|].
      cbn in H1, H2. apply (sub_ext_inv σ τ x); [|done]. rewrite H1, H2. by apply sub_ext.
    - destruct (Hc _ Hin) as [H1 H2]; [exists "is", x, e; split; [done|]; by apply (bool_decide_unpack (_ ∈ _)); vm_compute|].
      cbn in H1, H2. destruct H1 as [_ H1], H2 as [_ H2]. apply (sub_ext_inv σ τ x); [|done].
      apply (Hf σ); [done|]. by rewrite (sub_ext σ τ e IH). }
  intros b Hin. apply sub_ext. intros v Hv. by apply Hs, (H b).
Qed.
Local Close Scope string_scope.

(** ** Witnesses *)
Local Open Scope string_scope.
Local Open Scope list_scope.
Definition b_cmp (op : String.string) (x y : term) : res bool :=
  match x, y with
  | Cst (CInt a), Cst (CInt b) => Ok (if decide (op = "<") then (a <? b)%Z else false)
  | _, _ => Raise TypeError
  end.
Definition b_same (a b : list (wrule nat_sr)) : bool := Nat.eqb (length a) (length b) && Nat.eqb (subgoals a) (subgoals b).
(** p(X) += q(X) * (X < Y) * (Y = 3) * 2.   s(Y) += (X < Y) * (X = 1) * (Y is X + 1).
    t(X) += (X = 3) * (X < 2). *)
Definition b_rules : list (wrule nat_sr) :=
  [ WRule (F "p" [Var 1]) [Goal (F "q" [Var 1]); Goal (F "<" [Var 1; Var 2]); Goal (Var 2 ≐ u_n 3); Val (2 : nat_sr)];
    WRule (F "s" [Var 4]) [Goal (F "<" [Var 3; Var 4]); Goal (Var 3 ≐ u_n 1); Goal (F "is" [Var 4; F "+" [Var 3; u_n 1]])];
    WRule (F "t" [Var 5]) [Goal (Var 5 ≐ u_n 3); Goal (F "<" [Var 5; u_n 2])] ].
Definition b_done : list (wrule nat_sr) :=
  [ WRule (F "p" [Var 100]) [Val (2 : nat_sr); Goal (F "q" [Var 100]); Goal (F "<" [Var 100; u_n 3])];
    WRule (F "s" [u_n 2]) [Val (1 : nat_sr)] ].
Definition b_val (t : term) : nat_sr :=
  match t with
  | Cst k => u_wt k
  | Fn [Cst (CStr "q"); _] => (5 : nat_sr)
  | _ => if btrue b_cmp is_true t then (1 : nat_sr) else (0 : nat_sr)
  end.
Lemma b_exact : constraints_exact b_cmp is_true b_val.
Proof.
  intros y (op & a & b & -> & Hop) _. rewrite <- btrue_ok.
  assert (E : b_val (Fn [Cst (CStr op); a; b]) = if btrue b_cmp is_true (Fn [Cst (CStr op); a; b]) then (1 : nat_sr) else (0 : nat_sr)).
  { unfold b_val. repeat (case_match; try done). }
  rewrite E. destruct (btrue _ _ _); split; done.
Qed.
Lemma b_ok : forall r, r ∈ b_rules -> item_head (whead r) /\ constraints_determined b_cmp is_true r /\ forall b, Goal b ∈ wbody r -> plain_goal b.
Proof.
  intros r Hr. repeat (apply elem_of_cons in Hr as [->|Hr]); [..|by apply elem_of_nil in Hr]; (split; [by eexists _, _|]); split.
  2,4,6: intros b Hb; repeat (apply elem_of_cons in Hb as [Hb|Hb]; [try done; injection Hb as ->; done|]); by apply elem_of_nil in Hb.
  - intros σ τ _ _ Hc Hh _ b Hb. cbn in Hh. injection Hh as Hh.
    destruct (Hc (Var 2 ≐ u_n 3)) as [H1 H2]; [cbn [wbody]; rewrite !elem_of_cons; tauto|exists "=", (Var 2), (u_n 3); split; [done|]; by apply (bool_decide_unpack (_ ∈ _)); vm_compute|].
    cbn in H1, H2. assert (Hv : σ 2 = τ 2) by congruence.
    repeat (apply elem_of_cons in Hb as [Hb|Hb]; [try done; injection Hb as ->; cbn; congruence|]); by apply elem_of_nil in Hb.
  - intros σ τ _ _ Hc Hh _ b Hb. cbn in Hh. injection Hh as Hh.
    destruct (Hc (Var 3 ≐ u_n 1)) as [H1 H2]; [cbn [wbody]; rewrite !elem_of_cons; tauto|exists "=", (Var 3), (u_n 1); split; [done|]; by apply (bool_decide_unpack (_ ∈ _)); vm_compute|].
    cbn in H1, H2. assert (Hv : σ 3 = τ 3) by congruence.
    repeat (apply elem_of_cons in Hb as [Hb|Hb]; [try done; injection Hb as ->; cbn; congruence|]); by apply elem_of_nil in Hb.
  - apply C57_determined. intros b v Hb Hv. left.
    repeat (apply elem_of_cons in Hb as [Hb|Hb]; [try done; injection Hb as ->; cbn in Hv |- *; tauto|]); by apply elem_of_nil in Hb.
Qed.
Lemma b_fresh : fresh_rules u_al 0 b_rules.
Proof.
  intros r v j Hr Hv _. unfold u_al. repeat (apply elem_of_cons in Hr as [->|Hr]); [..|by apply elem_of_nil in Hr]; apply elem_of_list_In in Hv; cbn in Hv; lia.
Qed.
Lemma b_run : run_builtins b_cmp is_run_strict u_al u_wt u_neg u_one u_cv b_same 5 20 b_rules 0 = Ok b_done.
Proof. by vm_compute. Qed.

Theorem C57_witness :
  is_exact is_true is_run_strict /\ (forall a b, b_same a b = true -> subgoals a = subgoals b) /\ fresh_rules u_al 0 b_rules /\
  (forall r, r ∈ b_rules -> item_head (whead r) /\ constraints_determined b_cmp is_true r /\ forall b, Goal b ∈ wbody r -> plain_goal b) /\
  run_builtins b_cmp is_run_strict u_al u_wt u_neg u_one u_cv b_same 5 20 b_rules 0 = Ok b_done /\
  (exists P, builtins_round b_cmp is_run_strict u_al u_wt u_neg u_one u_cv 20 b_rules 0 = Ok P /\ p_rules P <> b_done) /\
  respects u_wt b_val /\ constraints_exact b_cmp is_true b_val /\ prog_value b_val b_rules (F "p" [u_n 1]) (10 : nat_sr).
Proof.
  split; [exact C38_is_exact|]. split; [intros a b [_ H]%andb_true_iff; by apply Nat.eqb_eq|]. split; [exact b_fresh|]. split; [exact b_ok|]. split; [exact b_run|].
  split; [eexists; split; [by vm_compute|done]|]. split; [done|]. split; [exact b_exact|].
  apply (C57_value nat_sr b_cmp is_run_strict is_true u_wt u_neg u_one u_al u_cv C38_is_exact (fun x y => Nat.mul_comm x y) u_tests) with (same := b_same) (k := 5) (n := 20) (c := 0) (rs' := b_done);
    [unfold u_al; lia|unfold u_cv; lia|exact b_fresh|exact b_ok|exact b_run|done|exact b_exact|].
  exists [10 : nat_sr; 0 : nat_sr]. split; [|done]. apply Forall2_cons_2; [|apply Forall2_cons_2; [|apply Forall2_nil_2]].
  - exists [[F "q" [u_n 1]; F "<" [u_n 1; u_n 3]]]. split; [apply NoDup_singleton|]. split; [|split].
    + intros ys ->%elem_of_list_singleton. exists (fun _ => u_n 1). by split.
    + intros ys (σ & _ & E & <-). left. apply elem_of_list_singleton. cbn in E |- *. injection E as ->. done.
    + by vm_compute.
  - exists []. split; [constructor|]. split; [by intros ys ?%elem_of_nil|]. split; [|done]. by intros ys (σ & _ & E & _).
Qed.

(** small += q(X) * (Y is X + 1) * (Z = Y) * (Z < 9): X is settled by q(X), Y by [is], Z by the equation. *)
Definition bs_rule : wrule nat_sr :=
  WRule (F "small" []) [Goal (F "q" [Var 1]); Goal (F "is" [Var 2; F "+" [Var 1; u_n 1]]); Goal (Var 3 ≐ Var 2); Goal (F "<" [Var 3; u_n 9])].
Theorem C57_settled_witness : (forall b v, Goal b ∈ wbody bs_rule -> In v (vars b) -> settled is_true bs_rule v).
Proof.
  assert (H1 : settled is_true bs_rule 1).
  { apply (settled_goal _ _ (F "q" [Var 1])); [apply elem_of_list_here| |by left]. intros (op & x & y & E & _). done. }
  assert (H2 : settled is_true bs_rule 2).
  { apply (settled_is _ _ (Var 2) (F "+" [Var 1; u_n 1])); [cbn [wbody bs_rule]; rewrite !elem_of_cons; tauto| | |by left].
    - intros w Hw. cbn in Hw. destruct Hw as [<-|[]]. done.
    - intros σ a b Ha Hb. cbn in Ha, Hb. unfold sum_is in Ha, Hb. destruct (σ 1) as [|[]|]; try done.
      apply bool_decide_eq_true_1 in Ha, Hb. congruence. }
  assert (H3 : settled is_true bs_rule 3).
  { apply (settled_left _ _ (Var 3) (Var 2)); [cbn [wbody bs_rule]; rewrite !elem_of_cons; tauto| |by left]. intros w [<-|[]]. done. }
  intros b v Hb Hv. repeat (apply elem_of_cons in Hb as [Hb|Hb]; [injection Hb as ->; cbn in Hv; naive_solver|]). by apply elem_of_nil in Hb.
Qed.

(** The condition on the constraints is needed: goal += (X = Y) has infinitely many
    true instances, so the sum of their values does not exist, but the result is
    goal += 1. *)
Definition bl_rules : list (wrule nat_sr) := [WRule (F "goal" []) [Goal (Var 1 ≐ Var 2)]].
Theorem C57_local_refuted :
  fresh_rules u_al 0 bl_rules /\ (forall r, r ∈ bl_rules -> item_head (whead r) /\ forall b, Goal b ∈ wbody r -> plain_goal b) /\
  (exists rs', run_builtins b_cmp is_run_strict u_al u_wt u_neg u_one u_cv b_same 5 20 bl_rules 0 = Ok rs' /\
     forall I : term -> nat_sr, respects u_wt I -> prog_value I rs' (F "goal" []) (1 : nat_sr)) /\
  forall I : term -> nat_sr, constraints_exact b_cmp is_true I -> forall v, ~ prog_value I bl_rules (F "goal" []) v.
Proof.
  split. { intros r v j Hr Hv _. unfold u_al. apply elem_of_list_singleton in Hr as ->. apply elem_of_list_In in Hv. cbn in Hv. lia. }
  split. { intros r Hr. apply elem_of_list_singleton in Hr as ->. split; [by eexists _, _|]. intros b Hb. by apply elem_of_list_singleton in Hb as [= ->]. }
  split.
  - eexists. split; [by vm_compute|]. intros I HI. unfold prog_value. exists [1 : nat_sr]. split; [|done]. apply Forall2_cons_2; [|apply Forall2_nil_2].
    exists [[]]. split; [apply NoDup_singleton|]. split; [|split].
    + intros ys ->%elem_of_list_singleton. exists (fun _ => u_n 7). split; [done|]. by split.
    + intros ys (σ & _ & _ & <-). left. by apply elem_of_list_singleton.
    + by vm_compute.
  - intros I HI v (vs & H & _). apply Forall2_cons_inv_l in H as (w & ws & H & _ & _). destruct H as (L & HN & HL & Hz & _).
    set (e := fun n => [u_n (Z.of_nat n) ≐ u_n (Z.of_nat n)]).
    assert (Hin : forall n, e n ∈ L).
    { intros n. destruct (Hz (e n)) as [H|H]; [exists (fun _ => u_n (Z.of_nat n)); by split|done|]. cbn in H.
      rewrite (proj1 (HI (u_n (Z.of_nat n) ≐ u_n (Z.of_nat n)) ltac:(exists "=", (u_n (Z.of_nat n)), (u_n (Z.of_nat n)); split; [done|]; by apply (bool_decide_unpack (_ ∈ _)); vm_compute) ltac:(done))) in H; [done|].
      by cbn. }
    assert (Hle : length (map e (seq 0 (S (length L)))) <= length L).
    { apply NoDup_incl_length; [|intros y Hy; apply in_map_iff in Hy as (n & <- & _); by apply elem_of_list_In].
      apply FinFun.Injective_map_NoDup; [|apply seq_NoDup]. intros a b E. injection E as E. lia. }
    rewrite map_length, seq_length in Hle. lia.
Qed.
Local Close Scope list_scope.
Local Close Scope string_scope.

Print Assumptions C57_value.
Print Assumptions C57_done.
Print Assumptions C57_round.
Print Assumptions C57_determined.
Print Assumptions C57_witness.
Print Assumptions C57_local_refuted.
Print Assumptions C57_settled.
Print Assumptions C57_settled_witness.
