(** C59: the degree of a rule is the exponent of the number of its instances. *)
From Coq Require Import List Lia Sorted ZArith.
From stdpp Require Import gmap.
From Coq Require String Ascii.
From Verif Require Import PyBase Semiring TermModel TermSpec TermProofs SetsModel SetsProofs UnifyProofs SolverSpec SolverProofs UpdateModel UpdateSpec UpdateProofs UpdateProps TransModel TransSpec TransProofs UnfoldProofs
  DegreeModel DegreeSpec DegreeProofs.
Import String.StringSyntax Ascii.AsciiSyntax.
Import ListNotations.

Section C59.
Context (R : semiring).

(** ** C59.  Over a domain of [d] terms a rule of degree [k] has exactly [d ^ k] instances. *)
Theorem C59_degree : forall n (r : wrule R) a dom, analyze n r = Ok a -> NoDup dom -> count_is (instance_over dom r) (length dom ^ a_degree a).
Proof. intros n r a dom E Hd. destruct (analyze_ok n r a E) as [(vs & HN & Hvs & ->) _]. by apply count_instances. Qed.

(** The degrees of a program are those of its rules, largest first. *)
Theorem C59_degrees : forall n (rs : list (wrule R)) ds, degrees n rs = Ok ds ->
  StronglySorted ge ds /\ exists ks, ks ≡ₚ ds /\ Forall2 (fun r k => forall dom, NoDup dom -> count_is (instance_over dom r) (length dom ^ k)) rs ks.
Proof.
  intros n rs ds E. unfold degrees in E. destruct (rule_degrees n rs) as [ks| |] eqn:Ek; [|done..]. cbn [bind] in E. injection E as <-.
  split; [apply sort_down_sorted|]. exists ks. split; [by rewrite sort_down_perm|]. eapply Forall2_impl; [by apply (rule_degrees_ok n)|].
  intros r k (a & Ha & <-) dom Hd. by apply (C59_degree n).
Qed.

(** The cost of two programs together is the product of their costs. *)
Theorem C59_product : forall n (rs qs : list (wrule R)) ds es, degrees n rs = Ok ds -> degrees n qs = Ok es -> degrees n (rs ++ qs) = Ok (cost_mul ds es).
Proof.
  intros n rs qs ds es E1 E2. unfold degrees in *. destruct (rule_degrees n rs) as [ks| |] eqn:Ek; [|done..]. destruct (rule_degrees n qs) as [ls| |] eqn:El; [|done..].
  cbn [bind] in E1, E2. injection E1 as <-. injection E2 as <-. assert (E : rule_degrees n (rs ++ qs) = Ok (ks ++ ls)).
  { revert ks Ek. induction rs as [|r rs IH]; intros ks Ek; cbn in Ek |- *; [by injection Ek as <-|]. destruct (analyze n r) as [a| |]; [|done..]. cbn [bind] in *.
    destruct (rule_degrees n rs) as [ks'| |]; [|done..]. cbn [bind] in Ek. injection Ek as <-. by rewrite (IH ks' eq_refl). }
  rewrite E. cbn [bind]. f_equal. apply sorted_perm_eq; [apply sort_down_sorted..|]. unfold cost_mul. by rewrite !sort_down_perm.
Qed.

(** The variables that can be eliminated: those that are not in the head and for which
    some subgoal with variables does not use them. *)
Theorem C59_eliminate : forall n (r : wrule R) a v, analyze n r = Ok a ->
  (v ∈ a_local a <-> v ∈ wvars r /\ ~ In v (vars (whead r))) /\
  (v ∈ a_elim a <-> (v ∈ wvars r /\ ~ In v (vars (whead r))) /\ exists b, Goal b ∈ wbody r /\ vars b <> [] /\ ~ In v (vars b)).
Proof. intros n r a v E. destruct (analyze_ok n r a E) as (_ & H1 & H2). split; [apply H1|]. by rewrite H2, H1. Qed.

(** The analysis always returns. *)
Theorem C59_returns : forall rs : list (wrule R), exists ds n0, forall n, n0 <= n -> degrees n rs = Ok ds.
Proof.
  assert (Hb : forall fs : list (factor R), exists vss, settles (fun n => body_vars n fs) vss).
  { induction fs as [|[w|b] fs [vss IH]]; [by exists [], 0| |].
    - exists ([] :: vss). cbn [body_vars factor_vars bind]. eapply settles_bind; [exact IH|]. by exists 0.
    - eexists. cbn [body_vars factor_vars]. eapply settles_bind; [apply (term_vars_settles ∅ Var b acyclic_empty resolution_empty)|]. eapply settles_bind; [exact IH|]. by exists 0. }
  assert (Ha : forall r : wrule R, exists a, settles (fun n => analyze n r) a).
  { intros r. destruct (Hb (wbody r)) as [vss Hv]. eexists. unfold analyze.
    eapply settles_bind; [apply (term_vars_settles ∅ Var _ acyclic_empty resolution_empty)|]. eapply settles_bind; [apply (term_vars_settles ∅ Var _ acyclic_empty resolution_empty)|].
    eapply settles_bind; [exact Hv|]. by exists 0. }
  assert (Hr : forall rs : list (wrule R), exists ds, settles (fun n => rule_degrees n rs) ds).
  { induction rs as [|r rs [ds IH]]; [by exists [], 0|]. destruct (Ha r) as [a H]. eexists. cbn [rule_degrees]. eapply settles_bind; [exact H|]. eapply settles_bind; [exact IH|]. by exists 0. }
  intros rs. destruct (Hr rs) as [ds H]. assert (Hd : settles (fun n => degrees n rs) (sort_down ds)) by (unfold degrees; eapply settles_bind; [exact H|]; by exists 0).
  destruct Hd as [n0 Hd]. by exists (sort_down ds), n0.
Qed.
End C59.

(** ** Witness: path(X,Z) += edge(X,Y) * path(Y,Z) * w(Z).  goal += path(1,Z) * 2. *)
Local Open Scope string_scope.
Local Open Scope list_scope.
Definition g_path : wrule nat_sr := WRule (u_t "path" [Var 1; Var 3]) [Goal (u_t "edge" [Var 1; Var 2]); Goal (u_t "path" [Var 2; Var 3]); Goal (u_t "w" [Var 3])].
Definition g_goal : wrule nat_sr := WRule (u_t "goal" []) [Goal (u_t "path" [u_n 1; Var 3]); Val (2 : nat_sr)].
Theorem C59_witness :
  analyze 20 g_path = Ok (Analysis 3 [2] [2]) /\ analyze 20 g_goal = Ok (Analysis 1 [3] []) /\
  degrees 20 [g_goal; g_path] = Ok [3; 1] /\ NoDup [u_n 1; u_n 2] /\
  instance_over [u_n 1; u_n 2] g_goal (WRule (u_t "goal" []) [Goal (u_t "path" [u_n 1; u_n 2]); Val (2 : nat_sr)]).
Proof.
  split; [by vm_compute|]. split; [by vm_compute|]. split; [by vm_compute|]. split; [by apply (bool_decide_unpack (NoDup _)); vm_compute|].
  exists (fun _ => u_n 2). split; [|done]. intros v _. right. by left.
Qed.
Local Close Scope list_scope.
Local Close Scope string_scope.

Print Assumptions C59_degree.
Print Assumptions C59_degrees.
Print Assumptions C59_product.
Print Assumptions C59_eliminate.
Print Assumptions C59_returns.
Print Assumptions C59_witness.
