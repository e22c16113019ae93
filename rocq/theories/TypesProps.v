(** C49: the type analysis. *)
From Coq Require Import List Permutation Lia.
From stdpp Require Import gmap.
From Coq Require String Ascii.
From Verif Require Import PyBase TermModel TermSpec TermProofs CoverProofs SetsModel SetsProofs PruneModel FoldProofs UnfoldProofs
  PropagateModel TypesModel TypesSpec PropagateProofs RewriteProofs RewriteProps TypesProofs.
Import String.StringSyntax Ascii.AsciiSyntax.
Import ListNotations.
Local Open Scope string_scope.
Local Open Scope list_scope.
Local Open Scope nat_scope.

Section C49.
Context (ord : list term -> list term) (pick : list term -> nat) (Hord : any_order ord).
Context (chk : term -> res checked) (ready : term -> bool) (rules : list rule) (fv : nat).
Context (inputs : list term) (max_depth : nat) (use_insts : bool) (I : term -> Prop).
Notation run := (run_basic ord pick chk ready rules fv inputs max_depth use_insts).

Lemma to_type_program_rule n P Q r : to_type_program n P = Ok Q -> r ∈ P ->
  exists r', r' ∈ Q /\ rhead r' = rhead r /\
    forall b, b ∈ rbody r' -> is_const b = false /\ (b ∈ rbody r \/ exists v, b = t_free (Var v) /\ In v (vars (rhead r))).
Proof.
  intros E Hr. unfold to_type_program in E. apply mapM_Forall2 in E. eapply Forall2_elem_l in E as (r' & Hr' & E); [|exact Hr].
  exists r'. split; [done|]. unfold add_free_constraints in E. destruct (term_vars n ∅ (rhead r) []) as [hv| |] eqn:Eh; try done. cbn [bind] in E.
  destruct (foldM (term_vars n ∅) (rbody r) []) as [bv| |]; try done. cbn [bind] in E. injection E as <-. cbn [remove_constants rhead rbody].
  split; [done|]. intros b Hb. apply elem_of_list_In, filter_In in Hb as [Hb Hk]. apply negb_true_iff in Hk. split; [done|].
  apply in_app_iff in Hb as [Hb|Hb]; [left; by apply elem_of_list_In|]. right. apply in_map_iff in Hb as (v & <- & Hv). apply filter_In in Hv as [Hv _].
  exists v. split; [done|]. apply (@term_vars_empty Semiring.bool_sr) in Eh as [_ Eh]. apply Eh. by apply elem_of_list_In.
Qed.
Lemma to_type_program_inv n P Q r' : to_type_program n P = Ok Q -> r' ∈ Q ->
  exists r, r ∈ P /\ rhead r' = rhead r /\
    forall b, b ∈ rbody r' -> is_const b = false /\ (b ∈ rbody r \/ exists v, b = t_free (Var v) /\ In v (vars (rhead r))).
Proof.
  intros E Hr. pose proof E as E'. unfold to_type_program in E. apply mapM_Forall2 in E. eapply Forall2_elem_r in E as (r & Hr' & E); [|exact Hr].
  exists r. split; [done|]. unfold add_free_constraints in E. destruct (term_vars n ∅ (rhead r) []) as [hv| |] eqn:Eh; try done. cbn [bind] in E.
  destruct (foldM (term_vars n ∅) (rbody r) []) as [bv| |]; try done. cbn [bind] in E. injection E as <-. cbn [remove_constants rhead rbody].
  split; [done|]. intros b Hb. apply elem_of_list_In, filter_In in Hb as [Hb Hk]. apply negb_true_iff in Hk. split; [done|].
  apply in_app_iff in Hb as [Hb|Hb]; [left; by apply elem_of_list_In|]. right. apply in_map_iff in Hb as (v & <- & Hv). apply filter_In in Hv as [Hv _].
  exists v. split; [done|]. apply (@term_vars_empty Semiring.bool_sr) in Eh as [_ Eh]. apply Eh. by apply elem_of_list_In.
Qed.

(** C49.  Every item that the program and its input types derive, from any true
    constraints, belongs to one of the types that the analysis returns. *)
Theorem C49_types : forall n PI c ts,
  right_for I chk rules -> free_true I -> chk_numbers chk -> analyzable rules inputs PI c ->
  run n PI c = Ok ts ->
  forall x, derived inputs I PI x -> exists t, t ∈ ts /\ denotes I t x.
Proof.
  intros n PI c ts (HI & Hchk & Hpl) Hfr Hnum [Hin [fvar Hfree] Hrl Hprog Hvars [Hf1 Hf2]] E. unfold run_basic in E.
  destruct (to_type_program n PI) as [P| |] eqn:E0; try done. cbn [bind] in E.
  destruct (first_types _ _ _ _ _ _ _ _ _ n P c) as [[ts0 c1]| |] eqn:E1; try done. cbn [bind] in E.
  destruct (adds _ ([], c1) (map enc ts0)) as [[ag c2]| |] eqn:E2; try done. cbn [bind] in E.
  destruct (adds _ ([], c2) ag) as [[ch c3]| |] eqn:E3; try done. cbn [bind] in E.
  destruct (types_loop _ _ _ _ _ _ _ _ _ n P n _) as [xs| |] eqn:E4; try done. cbn [bind] in E. injection E as <-.
  set (B := flat_map rule_vars rules ++ flat_map vars inputs).
  assert (HBr : forall r v, r ∈ rules -> In v (rule_vars r) -> In v B).
  { intros r v Hr Hv. apply in_app_iff. left. apply in_flat_map. exists r. split; [by apply elem_of_list_In|done]. }
  assert (HBi : forall d v, d ∈ inputs -> In v (vars d) -> In v B).
  { intros r v Hr Hv. apply in_app_iff. right. apply in_flat_map. exists r. split; [by apply elem_of_list_In|done]. }
  assert (HBinv : forall v, In v B -> (exists r, r ∈ rules /\ In v (rule_vars r)) \/ exists d, d ∈ inputs /\ In v (vars d)).
  { intros v Hv. apply in_app_iff in Hv as [Hv|Hv]; apply in_flat_map in Hv as (r & Hr & Hv); [left|right]; exists r; (split; [by apply elem_of_list_In|done]). }
  assert (HBc : forall v, In v B -> v < c) by (intros v [(r & Hr & Hv)|(d & Hd & Hv)]%HBinv; eauto).
  assert (Hlv : forall r v, r ∈ PI -> In v (rule_vars r) -> lv B c v).
  { intros r v Hr Hv. destruct (Hvars r v Hr Hv) as (H1 & H2 & H3). split; [done|]. intros [(q & Hq & Hqv)|(d & Hd & Hdv)]%HBinv; [by eapply H2|by eapply H3]. }
  assert (HP : forall r, r ∈ P -> pok B c r).
  { intros r' Hr'. destruct (to_type_program_inv n PI P r' E0 Hr') as (r & Hr & Hh & Hb).
    assert (Hlh : lvt B c (rhead r)) by (intros v Hv; apply (Hlv r v Hr); apply in_app_iff; by left).
    split; [by rewrite Hh|]. intros b Hb'. destruct (Hb b Hb') as [Hk [Hbr|(v & -> & Hv)]].
    - split; [|by apply (Hprog r Hr)]. intros v Hv. apply (Hlv r v Hr). apply in_app_iff. right. apply in_flat_map. exists b. split; [by apply elem_of_list_In|done].
    - split; [|right; by exists (CStr "$free"), [Var v]]. intros w [<-|[]]. by apply Hlh. }
  pose proof (run_types ord pick Hord chk ready rules fv inputs max_depth use_insts I HI Hchk Hnum Hpl Hrl Hin B c HBr HBi HBc
    n P c ts0 c1 ag c2 ch c3 xs (le_n c) HP E1 E2 E3 E4) as Hcl.
  assert (Hd : forall x, derived inputs I PI x -> Den I xs x).
  { fix IH 2. intros x [r θ Hr Hθ Hb]. destruct (to_type_program_rule n PI P r E0 Hr) as (r' & Hr' & Hh & Hb').
    rewrite <- Hh. apply Hcl; [done|done|]. intros b Hbr. destruct (Hb' b Hbr) as [Hk [Hin'|(v & -> & Hv)]].
    - destruct (Hb b Hin') as [H1|[H1|[H1 H2]]]; [by left|by right; left|]. right. right. split; [done|by apply IH].
    - right. left. split; [|by apply Hfr]. exists (t_free (Var fvar)). split; [done|]. by exists (fun _ => θ v). }
  intros x Hx. destruct (Hd x Hx) as (t & Ht & Hden). exists (dec t). split; [|done]. apply elem_of_list_In, in_map, elem_of_list_In. done.
Qed.

(** C49 for data: if every fact of the data is an instance of an input type, then
    every item of the program on that data belongs to one of the types. *)
Theorem C49_data : forall n P T (DB : term -> Prop) c ts,
  right_for I chk rules -> free_true I -> chk_numbers chk -> analyzable rules inputs (P ++ T) c ->
  (forall r θ, r ∈ P ++ T -> ~ is_instance inputs (sub θ (rhead r))) ->
  (forall x, DB x -> exists t θ, t ∈ T /\ gsub θ /\ x = sub θ (rhead t) /\
     forall b, b ∈ rbody t -> is_const b = true \/ (is_instance inputs (sub θ b) /\ I (sub θ b))) ->
  run n (P ++ T) c = Ok ts ->
  forall x, item inputs I P DB x -> exists t, t ∈ ts /\ denotes I t x.
Proof.
  intros n P T DB c ts HI Hfr Hnum Han Hover HDB E x Hx. eapply C49_types; [done..|exact E|].
  assert (Hno : forall x, item inputs I P DB x -> ~ is_instance inputs x).
  { intros y [z Hz|r θ Hr Hθ _].
    - destruct (HDB z Hz) as (t & θ & Ht & _ & -> & _). apply Hover. apply elem_of_app. by right.
    - apply Hover. apply elem_of_app. by left. }
  revert x Hx. fix IH 2. intros x [z Hz|r θ Hr Hθ Hb].
  - destruct (HDB z Hz) as (t & θ & Ht & Hθ & -> & Hb). apply derived_rule; [apply elem_of_app; by right|done|].
    intros b Hb'. destruct (Hb b Hb') as [H|H]; [by left|by right; left].
  - apply derived_rule; [apply elem_of_app; by left|done|]. intros b Hb'. destruct (Hb b Hb') as [H|[H|H]]; [by left|by right; left|].
    right. right. split; [by apply Hno|by apply IH].
Qed.
End C49.

(** * Witness *)
(** path(X,Y) += edge(X,Y).  path(X,Z) += path(X,Y) * edge(Y,Z).  any(X) += 2.
    count(0) += 1.  count(s(N)) += count(N).
    Input type: edge(X,Y) :- int(X), num(Y). *)
Definition g_prog : list rule :=
  [ Rule (F "path" [Var 3; Var 4]) [F "edge" [Var 3; Var 4]];
    Rule (F "path" [Var 5; Var 7]) [F "path" [Var 5; Var 6]; F "edge" [Var 6; Var 7]];
    Rule (F "any" [Var 8]) [Cst (CInt 2)];
    Rule (F "count" [Cst (CInt 0)]) [Cst (CInt 1)];
    Rule (F "count" [F "s" [Var 10]]) [F "count" [Var 10]] ].
Definition g_types : list rule := [Rule (F "edge" [Var 11; Var 12]) [F "int" [Var 11]; F "num" [Var 12]]].
Definition g_inputs : list term := [F "int" [Var 1]; F "num" [Var 1]; t_free (Var 2); t_bound (Var 2)].
Definition g_result : list rule :=
  [ Rule (F "any" [Var 23]) [t_free (Var 23)];
    Rule (F "count" [Cst (CInt 0)]) [];
    Rule (F "edge" [Var 24; Var 25]) [F "int" [Var 24]; F "num" [Var 25]; F "num" [Var 24]];
    Rule (F "count" [F "s" [Cst (CInt 0)]]) [];
    Rule (F "path" [Var 31; Var 32]) [F "int" [Var 31]; F "num" [Var 32]; F "num" [Var 31]];
    Rule (F "count" [F "s" [F "s" [Var 44]]]) [] ].
Lemma g_run_ok : run_basic idl first ex_chk (fun _ => true) ex_rules 9 g_inputs 3 true 60 (g_prog ++ g_types) 20 = Ok g_result.
Proof. vm_compute. reflexivity. Qed.

Lemma ex_numbers : chk_numbers ex_chk.
Proof.
  intros q l k v E Hkv. unfold ex_chk in E. repeat case_match; simplify_eq; try (by apply elem_of_nil in Hkv).
  apply elem_of_list_singleton in Hkv as [= -> ->]. by eexists.
Qed.
Ltac each H := repeat (apply elem_of_cons in H as [->|H]); [..|by apply elem_of_nil in H].
Lemma g_analyzable : analyzable ex_rules g_inputs (g_prog ++ g_types) 20.
Proof.
  split.
  - intros d Hd. each Hd; (split; [|by eexists _, _]).
    + exists (CStr "int"), [1]. split; [done|]. repeat constructor. intros [].
    + exists (CStr "num"), [1]. split; [done|]. repeat constructor. intros [].
    + exists (CStr "$free"), [2]. split; [done|]. repeat constructor. intros [].
    + exists (CStr "$bound"), [2]. split; [done|]. repeat constructor. intros [].
  - exists 2. right. right. left.
  - intros r Hr. each Hr; by eexists _, _.
  - intros r Hr. change (r ∈ g_prog ++ g_types) with (r ∈ (g_prog ++ g_types)) in Hr. apply elem_of_app in Hr as [Hr|Hr]; each Hr; intros b Hb; each Hb;
      first [by left|right; by eexists _, _].
  - intros r v Hr Hv.
    assert (H : 3 <= v < 20).
    { apply elem_of_app in Hr as [Hr|Hr]; each Hr; simpl in Hv; lia. }
    split; [lia|]. split.
    + intros q Hq Hin. each Hq; simpl in Hin; lia.
    + intros d Hd Hin. each Hd; simpl in Hin; lia.
  - split.
    + intros q v Hq Hin. each Hq; simpl in Hin; lia.
    + intros d v Hd Hin. each Hd; simpl in Hin; lia.
Qed.
Definition g_DB (x : term) : Prop :=
  x = F "edge" [Cst (CInt 1); Cst (CInt 2)] \/ x = F "edge" [Cst (CInt 2); Cst (CInt 3)].

(** The hypotheses of both theorems hold of a program with recursion, a variable
    that only occurs in a head, and terms that have to be truncated; the analysis
    returns; and path(1,3) is an item. *)
Theorem C49_witness :
  any_order idl /\ right_for ex_I ex_chk ex_rules /\ free_true ex_I /\ chk_numbers ex_chk /\
  analyzable ex_rules g_inputs (g_prog ++ g_types) 20 /\
  (forall r θ, r ∈ g_prog ++ g_types -> ~ is_instance g_inputs (sub θ (rhead r))) /\
  (forall x, g_DB x -> exists t θ, t ∈ g_types /\ gsub θ /\ x = sub θ (rhead t) /\
     forall b, b ∈ rbody t -> is_const b = true \/ (is_instance g_inputs (sub θ b) /\ ex_I (sub θ b))) /\
  run_basic idl first ex_chk (fun _ => true) ex_rules 9 g_inputs 3 true 60 (g_prog ++ g_types) 20 = Ok g_result /\
  item g_inputs ex_I g_prog g_DB (F "path" [Cst (CInt 1); Cst (CInt 3)]).
Proof.
  split; [done|]. split; [apply ex_right|]. split; [intros x; simpl; auto|]. split; [apply ex_numbers|]. split; [apply g_analyzable|].
  split.
  { intros r θ Hr (d & Hd & τ & E). apply elem_of_app in Hr as [Hr|Hr]; each Hr; each Hd; done. }
  split.
  { intros x Hx.
    assert (H : exists a b, x = F "edge" [Cst (CInt a); Cst (CInt b)]) by (destruct Hx as [->| ->]; by eexists _, _). destruct H as (a & b & ->).
    exists (Rule (F "edge" [Var 11; Var 12]) [F "int" [Var 11]; F "num" [Var 12]]), (fun v => Cst (CInt (if Nat.eqb v 11 then a else b))).
    split; [left|]. split; [done|]. split; [done|]. intros q Hq. right. each Hq.
    - split; [|simpl; eauto 8]. exists (F "int" [Var 1]). split; [left|]. by exists (fun _ => Cst (CInt a)).
    - split; [|simpl; eauto 8]. exists (F "num" [Var 1]). split; [right; left|]. by exists (fun _ => Cst (CInt b)). }
  split; [exact g_run_ok|].
  change (F "path" [Cst (CInt 1); Cst (CInt 3)]) with (sub (fun v => Cst (CInt (Z.of_nat (v - 4)))) (F "path" [Var 5; Var 7])).
  apply (item_rule g_inputs ex_I g_prog g_DB (Rule (F "path" [Var 5; Var 7]) [F "path" [Var 5; Var 6]; F "edge" [Var 6; Var 7]])); [right; left|done|].
  intros b Hb. right. right. each Hb.
  - change (sub (fun v => Cst (CInt (Z.of_nat (v - 4)))) (F "path" [Var 5; Var 6])) with (sub (fun v => Cst (CInt (Z.of_nat (v - 2)))) (F "path" [Var 3; Var 4])).
    apply (item_rule g_inputs ex_I g_prog g_DB (Rule (F "path" [Var 3; Var 4]) [F "edge" [Var 3; Var 4]])); [left|done|].
    intros b Hb. each Hb. right. right. apply item_data. by left.
  - apply item_data. by right.
Qed.

(** The restriction to ordinary names is needed.  With the type parameters ks and n
    and the rules f(X) :- ks(X) and f(X) :- n(X), the analysis returns only the
    first type, although f(1) is derived from n(1) alone. *)
Definition k_prog : list rule := [Rule (F "f" [Var 11]) [F "ks" [Var 11]]; Rule (F "f" [Var 12]) [F "n" [Var 12]]].
Definition k_inputs : list term := [F "ks" [Var 1]; F "n" [Var 1]; t_free (Var 2); t_bound (Var 2)].
Theorem C49_ks_refuted :
  exists I x ts,
    right_for I no_chk [] /\ free_true I /\ chk_numbers no_chk /\
    run_basic idl first no_chk (fun _ => true) [] 9 k_inputs 3 true 60 k_prog 20 = Ok ts /\
    derived k_inputs I k_prog x /\ ~ exists t, t ∈ ts /\ denotes I t x.
Proof.
  exists (all_but (fun x => x = F "ks" [Cst (CInt 1)])), (F "f" [Cst (CInt 1)]), [Rule (F "f" [Var 22]) [F "ks" [Var 22]]].
  split; [split; [by apply all_but_model|split; [by intros q|intros r Hr; by apply elem_of_nil in Hr]]|].
  split; [intros x; by intros ?|]. split; [by intros q l k v|]. split; [vm_compute; reflexivity|]. split.
  - apply (derived_rule k_inputs _ k_prog (Rule (F "f" [Var 12]) [F "n" [Var 12]]) (fun _ => Cst (CInt 1))); [right; left|done|].
    intros b Hb. each Hb. right. left. split; [|by intros ?]. exists (F "n" [Var 1]). split; [right; left|]. by exists (fun _ => Cst (CInt 1)).
  - intros (t & Ht & θ & _ & E & Hb). each Ht. cbn in E. injection E as E. apply (Hb (F "ks" [Var 22])); [left|]. cbn [sub map]. by rewrite E.
Qed.

Print Assumptions C49_types.
Print Assumptions C49_data.
Print Assumptions C49_witness.
Print Assumptions C49_ks_refuted.
