(** C52: the solver for items with variables. *)
From Coq Require Import List Lia ZArith.
From stdpp Require Import gmap.
From Coq Require String Ascii.
From Verif Require Import PyBase Semiring TermModel TermSpec TermProofs SetsModel CoverProofs PruneModel ProgSpec SolverSpec SolverProofs
  Solver2Model Solver2Spec Solver2Proofs.
Import String.StringSyntax Ascii.AsciiSyntax.

Section props.
Context {R : semiring} (wt : const -> R) (approx : R -> R -> bool) (minf : R)
  (cmpf : String.string -> term -> term -> res bool)
  (is_run : nat -> store -> term -> term -> res (list store)) (is_true : term -> term -> bool) (al cv : nat -> nat).
(** [is] is exact; new variables and canonical variables differ; values are
    compared exactly *)
Context (His : is_exact is_true is_run) (Hal : forall i j, al i = al j -> i = j) (Hcv : forall i j, cv i = cv j -> i = j)
  (Hac : forall i j, al i <> cv j) (Hap : forall x y : R, approx x y = true <-> x = y).

Notation run := (run2 wt approx minf cmpf is_run al cv).
Notation do_op := (do_op2 wt approx minf cmpf is_run al cv).
Notation solution_at := (solution2_at wt cmpf is_true).

(** Heads are items, and variables of programs are not the solver's. *)
Definition program_ok (P : list rule) : Prop := item_heads P /\ vars_apart al cv P.
Definition op_ok (o : op2) : Prop := match o with Load2 _ _ _ D => program_ok D | Run2 _ _ _ => True end.

(** What the data of an operation gives to [x]: the chart of a solver for the data. *)
Definition data_val (x : term) (o : op2) : R :=
  match o with
  | Load2 pick n p D => match run (fun _ => true) pick D n p t_empty with Ok d => item_val (t_chart d) x | _ => szero end
  | Run2 _ _ _ => szero
  end.
Definition data_items (ops : list op2) (x : term) : Prop :=
  exists pick n p D d, Load2 pick n p D ∈ ops /\ run (fun _ => true) pick D n p t_empty = Ok d /\ covered (t_chart d) x.

Lemma program_wf P : program_ok P -> wf_rules al cv P.
Proof.
  intros [H1 H2] r Hr. split; [|by apply (proj1 (Forall_forall _ _) H1 r Hr)]. intros v Hv. by apply (H2 r v Hr).
Qed.
Lemma ops_wf ops : Forall op_ok ops -> Forall (wf_op al cv) ops.
Proof. intros H. eapply Forall_impl; [exact H|]. intros [pick n p D|pick n p]; [apply program_wf|done]. Qed.

(** C52.  After any history of loads and runs that ends with a run: the value
    that the chart gives to a ground item satisfies the equation of the program,
    if the item has finitely many derivation steps in the chart, and no item in the
    chart stands for two subgoals of one rule instance. *)
Theorem C52_solution keep P ops pick n p s x :
  program_ok P -> Forall op_ok ops ->
  foldM (do_op keep P) (ops ++ [Run2 pick n p]) t_empty = Ok s ->
  (forall a, instance_of a x -> keep a = true) ->
  finite_at wt cmpf is_true P (t_chart s) x -> one_driver P (t_chart s) ->
  solution_at P (fun x => suml ops (data_val x)) (t_chart s) x.
Proof.
  intros HP Hops E Hk Hf H1.
  exact (history_solution wt approx minf cmpf is_run is_true al cv His Hal Hcv Hac keep P (program_wf P HP) Hap ops pick n p s x (ops_wf ops Hops) E Hk Hf H1).
Qed.

(** If there are infinitely many derivation steps, the equation still holds, with
    sums in which [minf] is the number of elements of an infinite set.  Nothing is
    assumed about [minf]. *)
Theorem C52_infinite keep P ops pick n p s x :
  program_ok P -> Forall op_ok ops ->
  foldM (do_op keep P) (ops ++ [Run2 pick n p]) t_empty = Ok s ->
  (forall a, instance_of a x -> keep a = true) ->
  one_driver P (t_chart s) ->
  solution2_inf_at wt cmpf is_true minf P (fun x => suml ops (data_val x)) (t_chart s) x.
Proof.
  intros HP Hops E Hk H1.
  exact (history_solution_inf wt approx minf cmpf is_run is_true al cv His Hal Hcv Hac keep P (program_wf P HP) Hap ops pick n p s x (ops_wf ops Hops) E Hk H1).
Qed.

(** One run without data. *)
Theorem C52_run keep P pick n p s x :
  program_ok P -> run keep pick P n p t_empty = Ok s ->
  (forall a, instance_of a x -> keep a = true) ->
  finite_at wt cmpf is_true P (t_chart s) x -> one_driver P (t_chart s) ->
  solution_at P (fun _ => szero) (t_chart s) x.
Proof.
  intros HP E Hk Hf H1. refine (C52_solution keep P [] pick n p s x HP _ _ Hk Hf H1); [constructor|].
  cbn [app foldM do_op2]. by rewrite E.
Qed.

(** If all items in the chart are ground, it is enough that the subgoals of a rule
    instance differ, as in the result of [linearize]. *)
Theorem C52_ground keep P ops pick n p s x :
  program_ok P -> Forall op_ok ops ->
  foldM (do_op keep P) (ops ++ [Run2 pick n p]) t_empty = Ok s ->
  (forall a, instance_of a x -> keep a = true) ->
  finite_at wt cmpf is_true P (t_chart s) x ->
  (forall kv, kv ∈ t_chart s -> ground (fst kv)) ->
  (forall r y zs i j z, r ∈ P -> ground_inst r y zs -> nth_error zs i = Some z -> nth_error zs j = Some z ->
     covered (t_chart s) z -> i = j) ->
  solution_at P (fun x => suml ops (data_val x)) (t_chart s) x.
Proof.
  intros HP Hops E Hk Hf Hg Hlin. apply (C52_solution keep P ops pick n p s x HP Hops E Hk Hf).
  intros r y zs i j u v kv Hr Hi Hkv Hu Hv Hsu Hsv.
  assert (Heq : forall w, stands_for (fst kv) w -> w = fst kv) by (intros w [_ [σ <-]]; by apply sub_ground, Hg).
  apply (Hlin r y zs i j u Hr Hi Hu); [|by exists kv]. by rewrite (Heq u Hsu), <- (Heq v Hsv).
Qed.

(** Whatever the chart has an item for can be derived from the program and the
    data. *)
Theorem C52_sound keep P ops s x :
  program_ok P -> Forall op_ok ops -> foldM (do_op keep P) ops t_empty = Ok s ->
  covered (t_chart s) x -> derivable2 wt cmpf is_true P (data_items ops) x.
Proof.
  intros HP Hops E Hc.
  assert (Hs : csound (derivable2 wt cmpf is_true P (data_items ops)) s).
  { refine (ops_sound wt approx minf cmpf is_run is_true al cv His Hal Hcv Hac keep P (program_wf P HP) Hap _ ops _ _ t_empty s (ops_wf ops Hops) (inv_empty cv keep) _ E).
    - intros r y ys Hr Hg Hall. apply (D2_rule _ _ _ _ _ r y ys (derivable2 wt cmpf is_true P (data_items ops))); auto.
    - intros o y Ho Hy. destruct o as [pick n p D|pick n p]; [|done]. destruct Hy as (d & Ed & Hcd). apply D2_base. by exists pick, n, p, D, d.
    - split; cbn; intros a v y Hin; by apply elem_of_nil in Hin. }
  by apply (csound_covered _ s x Hs).
Qed.

(** Without cancellation, the chart has an item for everything that can be
    derived, and for nothing else, whatever its value may be. *)
Theorem C52_support keep P ops pick n p s x :
  @positive R -> minf <> szero -> (forall a, keep a = true) ->
  program_ok P -> Forall op_ok ops ->
  foldM (do_op keep P) (ops ++ [Run2 pick n p]) t_empty = Ok s ->
  covered (t_chart s) x <-> derivable2 wt cmpf is_true P (data_items ops) x.
Proof.
  intros Hpos Hinf Hkeep HP Hops E.
  assert (Hops' : Forall op_ok (ops ++ [Run2 pick n p])) by (apply Forall_app; split; [done|by repeat constructor]).
  assert (Hdata : forall y, data_items (ops ++ [Run2 pick n p]) y <-> data_items ops y).
  { intros y. split; intros (pk & m & q & D & d & Hin & H); exists pk, m, q, D, d; (split; [|done]).
    - apply elem_of_app in Hin as [Hin|Hin]; [done|]. by apply elem_of_list_singleton in Hin.
    - apply elem_of_app. by left. }
  split.
  - intros Hc. apply (C52_sound keep P _ s x HP Hops' E) in Hc. clear E. induction Hc as [y Hy|r y ys I Hr Hg HI IH Hall].
    + apply D2_base. by apply Hdata.
    + by apply (D2_rule _ _ _ _ _ r y ys I).
  - pose proof (ops_cinv wt approx minf cmpf is_run is_true al cv His Hal Hcv Hac keep P (program_wf P HP) Hap Hpos Hinf Hkeep
      _ (fun _ => False) t_empty s (ops_wf _ Hops') (inv_empty cv keep)) as Hc.
    specialize (Hc ltac:(split; cbn; [by intros a v Hin%elem_of_nil|done|intros i r y ys Hi; set_solver]) E).
    apply foldM_snoc in E as (s0 & E0 & E1). cbn [do_op2] in E1.
    destruct (ops_inv wt approx minf cmpf is_run is_true al cv His Hal Hcv Hac keep P (program_wf P HP) ops t_empty s0 (ops_wf _ Hops) (inv_empty cv keep) E0) as [Hinv0 _].
    destruct (run2_ok wt approx minf cmpf is_run is_true al cv His Hal Hcv Hac keep P (program_wf P HP) pick n p s0 s Hinv0 E1) as (s1 & H1 & Hinv1 & H2 & Hinv).
    pose proof (rounds_end wt approx minf cmpf is_run is_true al cv His Hal Hcv Hac keep P (program_wf P HP) s1 s H2 Hinv) as Hend.
    assert (Hno : forall y, ~ ccov s y) by (intros y (a & v & Hin & _); rewrite Hend in Hin; by apply elem_of_nil in Hin).
    intros Hd. induction Hd as [y (pk & m & q & D & d & Hin & Ed & Hcd)|r y ys I Hr Hg HI IH Hall].
    + destruct (cinv_base _ _ _ _ _ _ Hc y) as [H|H]; [|done|by apply Hno in H].
      right. exists (Load2 pk m q D). split; [apply elem_of_app; by left|]. by exists d.
    + apply elem_of_list_In, In_nth_error in Hr as (i & Ei).
      destruct (cinv_rules _ _ _ _ _ _ Hc i r y ys) as [H|H]; [|done|done| |done|by apply Hno in H].
      * rewrite (rounds_init wt approx minf cmpf is_true al cv keep P (program_wf P HP) s1 s H2).
        apply (inits_inv wt approx minf cmpf is_run is_true al cv His Hal Hcv Hac keep P (program_wf P HP) _ _ _ Hinv0 H1). split; [lia|]. apply nth_error_Some. congruence.
      * eapply Forall_impl; [exact Hall|]. intros z. by apply goal_holds_mono.
Qed.

(** No two items in the chart are equal up to the names of variables. *)
Theorem C52_items keep P ops s :
  program_ok P -> Forall op_ok ops -> foldM (do_op keep P) ops t_empty = Ok s ->
  forall i j kv kv', nth_error (t_chart s) i = Some kv -> nth_error (t_chart s) j = Some kv' -> variant (fst kv) (fst kv') -> i = j.
Proof.
  intros HP Hops E i j [k v] [k' v'] Hi Hj Hvar. cbn in Hvar.
  destruct (ops_inv wt approx minf cmpf is_run is_true al cv His Hal Hcv Hac keep P (program_wf P HP) ops t_empty s (ops_wf _ Hops) (inv_empty cv keep) E) as [Hinv _].
  destruct (inv_chart _ _ _ Hinv) as [Hnd Hf]. rewrite Forall_forall in Hf.
  rewrite nth_error_lookup in Hi, Hj. destruct (Hf (k, v)) as (_ & Hk & _); [by eapply elem_of_list_lookup_2|].
  destruct (Hf (k', v')) as (_ & Hk' & _); [by eapply elem_of_list_lookup_2|]. cbn [fst] in *.
  apply (canonical_iff cv k k' Hcv) in Hvar. rewrite Hk, Hk' in Hvar. subst k'.
  apply (NoDup_lookup (map fst (t_chart s)) i j k Hnd); change (map ?f ?l) with (f <$> l); rewrite list_lookup_fmap; [by rewrite Hi|by rewrite Hj].
Qed.
End props.

Local Open Scope string_scope.
Definition g_t (f : String.string) (args : list term) : term := Fn (Cst (CStr f) :: args).
Definition g_n (z : Z) : term := Cst (CInt z).
Definition g_wt (c : const) : nat_sr := match c with CInt z => Z.to_nat z | CStr _ => 0 end.
Definition g_approx (x y : nat_sr) : bool := Nat.eqb x y.
Definition g_al (i : nat) : nat := 3 * i + 1.
Definition g_cv (i : nat) : nat := 3 * i + 2.
Definition g_pick (k : nat) (A : gset term) : term := match elements A with a :: _ => a | [] => g_n 0 end.
Definition g_cmp (op : String.string) (x y : term) : res bool := Ok false.
Definition g_is (n : nat) (st : store) (x y : term) : res (list store) := Ok [].
Definition g_run := run2 (R := nat_sr) g_wt g_approx 100 g_cmp g_is g_al g_cv.
Definition g_op := do_op2 (R := nat_sr) g_wt g_approx 100 g_cmp g_is g_al g_cv.

(** f(X) += 3.  g(1) += f(1).  h(X) += f(X) * g(X). *)
Definition g_prog : list rule :=
  [Rule (g_t "f" [Var 0]) [g_n 3]; Rule (g_t "g" [g_n 1]) [g_t "f" [g_n 1]];
   Rule (g_t "h" [Var 0]) [g_t "f" [Var 0]; g_t "g" [Var 0]]].
(** g(2) += 5. *)
Definition g_data : list rule := [Rule (g_t "g" [g_n 2]) [g_n 5]].
(** f(X) += 3.  goal += f(1) * f(2). *)
Definition g_twice : list rule :=
  [Rule (g_t "f" [Var 0]) [g_n 3]; Rule (g_t "goal" []) [g_t "f" [g_n 1]; g_t "f" [g_n 2]]].
Local Close Scope string_scope.

Lemma g_laws : is_exact (fun _ _ => false) g_is /\ (forall i j, g_al i = g_al j -> i = j) /\ (forall i j, g_cv i = g_cv j -> i = j) /\
  (forall i j, g_al i <> g_cv j) /\ (forall x y, g_approx x y = true <-> x = y) /\ @positive nat_sr.
Proof.
  split; [|split; [|split; [|split; [|split]]]].
  - intros V n st x y sts _ _ [= <-]. split; [by intros st' H%elem_of_nil|done].
  - unfold g_al. lia.
  - unfold g_cv. lia.
  - unfold g_al, g_cv. lia.
  - intros x y. apply Nat.eqb_eq.
  - split; [|split].
    + intros x y H. change (x + y = 0) in H. change (x = 0). lia.
    + intros x y H. change (x * y = 0) in H. change (x = 0 \/ y = 0). lia.
    + done.
Qed.

Ltac g_in H := repeat first [apply elem_of_cons in H as [H|H] | by apply elem_of_nil in H]; subst.

Lemma g_ok (P : list rule) : (forall r, r ∈ P -> item_term (rhead r) /\ forall v, In v (vars (rhead r)) \/ (exists b, b ∈ rbody r /\ In v (vars b)) -> v = 0) ->
  program_ok g_al g_cv P.
Proof.
  intros H. split.
  - apply Forall_forall. intros r Hr. by apply H.
  - intros r v Hr Hv. destruct (H r Hr) as [_ H0]. rewrite (H0 v Hv). unfold g_al, g_cv. split; intros i; lia.
Qed.

Ltac g_program := apply g_ok; intros r Hr; g_in Hr; (split; [eexists _, _; split; [reflexivity|]; intros ? ? ?; done|]);
  (intros v [Hv|(b & Hb & Hv)]; [cbn in Hv; naive_solver|g_in Hb; cbn in Hv; naive_solver]).

Lemma g_prog_ok : program_ok g_al g_cv g_prog.
Proof. g_program. Qed.
Lemma g_data_ok : program_ok g_al g_cv g_data.
Proof. g_program. Qed.
Lemma g_twice_ok : program_ok g_al g_cv g_twice.
Proof. g_program. Qed.

Definition g_all (a : term) : bool := true.
Definition g_ops : list op2 := [Run2 g_pick 20 20; Load2 g_pick 20 20 g_data].
Definition g_end : state2 nat_sr :=
  match foldM (g_op g_all g_prog) (g_ops ++ [Run2 g_pick 20 20]) t_empty with Ok s => s | _ => t_empty end.
Definition g_end2 : state2 nat_sr := match g_run g_all g_pick g_twice 20 20 t_empty with Ok s => s | _ => t_empty end.

Local Open Scope string_scope.
Lemma g_chart : t_chart g_end = [(g_t "f" [Var 2], 3); (g_t "g" [g_n 1], 3); (g_t "h" [g_n 1], 9); (g_t "g" [g_n 2], 5); (g_t "h" [g_n 2], 15)].
Proof. vm_compute; reflexivity. Qed.
Lemma g_chart2 : t_chart g_end2 = [(g_t "f" [Var 2], 3); (g_t "goal" [], 18)].
Proof. vm_compute; reflexivity. Qed.

Lemma g_stands f args x : stands_for (g_t f args) x -> exists args', x = g_t f args' /\ length args' = length args.
Proof. intros [_ [σ <-]]. exists (map (sub σ) args). by rewrite map_length. Qed.

Lemma g_one_driver : one_driver g_prog (t_chart g_end).
Proof.
  rewrite g_chart. intros r x ys i j y z kv Hr (σ & Hg & Hx & Hb) Hkv Hi Hj Hy Hz. unfold g_prog in Hr. g_in Hr; cbn [rbody map] in Hi, Hj.
  1,2: (destruct i as [|[|i]]; destruct j as [|[|j]]; cbn in Hi, Hj; congruence).
  destruct i as [|[|[|i]]]; destruct j as [|[|[|j]]]; cbn in Hi, Hj; try congruence; exfalso; injection Hi as <-; injection Hj as <-;
    g_in Hkv; cbn [fst] in Hy, Hz; apply g_stands in Hy as (? & Hy & _); apply g_stands in Hz as (? & Hz & _); first [discriminate Hy|discriminate Hz].
Qed.

Lemma g_finite : finite_at g_wt g_cmp (fun _ _ => false) g_prog (t_chart g_end) (g_t "h" [g_n 2]).
Proof.
  exists [(2, [g_t "f" [g_n 2]; g_t "g" [g_n 2]])]. split; [apply NoDup_singleton|]. intros [i ys]. rewrite elem_of_list_singleton. split.
  - intros [= -> ->]. split.
    + exists (Rule (g_t "h" [Var 0]) [g_t "f" [Var 0]; g_t "g" [Var 0]]). split; [done|]. exists (fun _ => g_n 2). done.
    + rewrite g_chart. repeat constructor.
      * exists (g_t "f" [Var 2], 3). split; [by left|]. split; [done|]. exists (fun _ => g_n 2). done.
      * exists (g_t "g" [g_n 2], 5). split; [do 3 right; by left|]. split; [done|]. exists (fun _ => g_n 2). done.
  - intros [(r & Er & (σ & _ & Hx & Hb)) _]. cbn [fst snd] in *. destruct i as [|[|[|i]]]; cbn in Er.
    4: by destruct i.
    all: injection Er as <-; cbn in Hx; try discriminate. injection Hx as Hx. rewrite <- Hb. cbn. by rewrite Hx.
Qed.

(** The hypotheses can be met: items with variables, and data that is loaded
    after a run. *)
Theorem C52_witness :
  program_ok g_al g_cv g_prog /\ Forall (op_ok g_al g_cv) g_ops /\
  foldM (g_op g_all g_prog) (g_ops ++ [Run2 g_pick 20 20]) t_empty = Ok g_end /\
  finite_at g_wt g_cmp (fun _ _ => false) g_prog (t_chart g_end) (g_t "h" [g_n 2]) /\ one_driver g_prog (t_chart g_end) /\
  item_val (t_chart g_end) (g_t "h" [g_n 2]) = 15 /\
  solution2_at g_wt g_cmp (fun _ _ => false) g_prog
    (fun x => suml g_ops (data_val g_wt g_approx 100 g_cmp g_is g_al g_cv x)) (t_chart g_end) (g_t "h" [g_n 2]) /\
  derivable2 g_wt g_cmp (fun _ _ => false) g_prog (data_items g_wt g_approx 100 g_cmp g_is g_al g_cv g_ops) (g_t "h" [g_n 2]).
Proof.
  assert (Hops : Forall (op_ok g_al g_cv) g_ops) by (constructor; [done|constructor; [apply g_data_ok|constructor]]).
  assert (Hrun : foldM (g_op g_all g_prog) (g_ops ++ [Run2 g_pick 20 20]) t_empty = Ok g_end).
  { assert (Hb : match foldM (g_op g_all g_prog) (g_ops ++ [Run2 g_pick 20 20]) t_empty with Ok _ => true | _ => false end = true) by (vm_compute; reflexivity).
    unfold g_end. destruct (foldM _ _ _) as [s| |]; [reflexivity|discriminate Hb|discriminate Hb]. }
  destruct g_laws as (H1 & H2 & H3 & H4 & H5 & H6).
  split; [apply g_prog_ok|]. split; [exact Hops|]. split; [exact Hrun|]. split; [apply g_finite|]. split; [apply g_one_driver|]. split; [vm_compute; reflexivity|]. split.
  - apply (C52_solution g_wt g_approx 100 g_cmp g_is (fun _ _ => false) g_al g_cv H1 H2 H3 H4 H5 g_all g_prog g_ops g_pick 20 20);
      [apply g_prog_ok|exact Hops|exact Hrun|done|apply g_finite|apply g_one_driver].
  - apply (C52_support g_wt g_approx 100 g_cmp g_is (fun _ _ => false) g_al g_cv H1 H2 H3 H4 H5 g_all g_prog g_ops g_pick 20 20 g_end);
      [exact H6|by intros ?|by intros ?|apply g_prog_ok|exact Hops|exact Hrun|]. rewrite g_chart.
    exists (g_t "h" [g_n 2], 15). split; [do 4 right; by left|]. split; [done|]. by exists (fun _ => g_n 2).
Qed.

(** f(X) += 3.  goal += f(X). *)
Definition g_any : list rule :=
  [Rule (g_t "f" [Var 0]) [g_n 3]; Rule (g_t "goal" []) [g_t "f" [Var 0]]].
Lemma g_any_ok : program_ok g_al g_cv g_any.
Proof. g_program. Qed.
Definition g_end3 : state2 nat_sr := match g_run g_all g_pick g_any 20 20 t_empty with Ok s => s | _ => t_empty end.

(** Here [goal] has infinitely many derivation steps, each with the value 3; any
    sum over them that is built from sets with the weight 3 is three times
    infinity. *)
Theorem C52_infinite_witness :
  program_ok g_al g_cv g_any /\ g_run g_all g_pick g_any 20 20 t_empty = Ok g_end3 /\ one_driver g_any (t_chart g_end3) /\
  ~ finite_at g_wt g_cmp (fun _ _ => false) g_any (t_chart g_end3) (g_t "goal" []) /\
  item_val (t_chart g_end3) (g_t "goal" []) = 3 * 100 /\
  solution2_inf_at (R := nat_sr) g_wt g_cmp (fun _ _ => false) 100 g_any (fun _ => 0) (t_chart g_end3) (g_t "goal" []).
Proof.
  assert (Hrun : g_run g_all g_pick g_any 20 20 t_empty = Ok g_end3).
  { assert (Hb : match g_run g_all g_pick g_any 20 20 t_empty with Ok _ => true | _ => false end = true) by (vm_compute; reflexivity).
    unfold g_end3. destruct (g_run _ _ _ _ _ _) as [s| |]; [reflexivity|discriminate Hb|discriminate Hb]. }
  assert (Hch : t_chart g_end3 = [(g_t "f" [Var 2], 3); (g_t "goal" [], 300)]) by (vm_compute; reflexivity).
  assert (H1 : one_driver g_any (t_chart g_end3)).
  { rewrite Hch. clear. intros r x ys i j y z kv Hr (σ & Hg & Hx & Hb) Hkv Hi Hj Hy Hz. clear Hkv Hy Hz. unfold g_any in Hr. g_in Hr; cbn [rbody map] in Hi, Hj;
      (destruct i as [|[|i]]; destruct j as [|[|j]]; cbn in Hi, Hj; congruence). }
  split; [apply g_any_ok|]. split; [exact Hrun|]. split; [exact H1|]. split; [|split; [vm_compute; reflexivity|]].
  - rewrite Hch. clear. intros (L & _ & HL).
    assert (Hall : forall k : nat, (1, [g_t "f" [g_n (Z.of_nat k)]]) ∈ L).
    { intros k. apply HL. split.
      - eexists. split; [reflexivity|]. exists (fun _ => g_n (Z.of_nat k)). split; [intros v; reflexivity|]. split; reflexivity.
      - repeat constructor. exists (g_t "f" [Var 2], 3). split; [by left|]. split; [done|]. exists (fun _ => g_n (Z.of_nat k)). reflexivity. }
    assert (Hlen : length (map (fun k : nat => (1, [g_t "f" [g_n (Z.of_nat k)]])) (seq 0 (S (length L)))) <= length L).
    { apply submseteq_length, NoDup_submseteq.
      - apply NoDup_fmap_2_strong; [|apply NoDup_seq]. intros a b _ _ [= H]. lia.
      - intros a Ha. apply elem_of_list_fmap in Ha as (k & -> & _). apply Hall. }
    rewrite map_length, seq_length in Hlen. lia.
  - destruct g_laws as (Hl1 & Hl2 & Hl3 & Hl4 & Hl5 & _).
    refine (C52_infinite g_wt g_approx 100 g_cmp g_is (fun _ _ => false) g_al g_cv Hl1 Hl2 Hl3 Hl4 Hl5 g_all g_any [] g_pick 20 20 g_end3 _ g_any_ok _ _ _ H1);
      [constructor| |by intros ?]. cbn [app foldM do_op2]. change (bind (g_run g_all g_pick g_any 20 20 t_empty) Ok = Ok g_end3). rewrite Hrun. reflexivity.
Qed.

(** The subgoals of a rule are told apart by [linearize] only when they unify with
    each other.  One item with variables can still drive two subgoals, and its
    update is then counted twice: the value of [goal] is 18, but 3 * 3 is 9. *)
Theorem C52_two_drivers_refuted :
  exists P s x, program_ok g_al g_cv P /\
    (forall r i j a b σ, r ∈ P -> nth_error (rbody r) i = Some a -> nth_error (rbody r) j = Some b -> i <> j -> sub σ a <> sub σ b) /\
    g_run g_all g_pick P 20 20 t_empty = Ok s /\
    finite_at g_wt g_cmp (fun _ _ => false) P (t_chart s) x /\
    ~ solution2_at g_wt g_cmp (fun _ _ => false) P (fun _ => szero) (t_chart s) x.
Proof.
  exists g_twice, g_end2, (g_t "goal" []). split; [apply g_twice_ok|]. split.
  { intros r i j a b σ Hr Hi Hj Hne Hab. unfold g_twice in Hr. g_in Hr; cbn [rbody] in Hi, Hj.
    - destruct i as [|[|i]]; destruct j as [|[|j]]; cbn in Hi, Hj; congruence.
    - destruct i as [|[|[|i]]]; destruct j as [|[|[|j]]]; cbn in Hi, Hj; try congruence; injection Hi as <-; injection Hj as <-; done. }
  split.
  { assert (Hb : match g_run g_all g_pick g_twice 20 20 t_empty with Ok _ => true | _ => false end = true) by (vm_compute; reflexivity).
    unfold g_end2. destruct (g_run _ _ _ _ _ _) as [s| |]; [reflexivity|discriminate Hb|discriminate Hb]. }
  set (L := [(1, [g_t "f" [g_n 1]; g_t "f" [g_n 2]])]).
  assert (HL : forall iy, instances g_twice (g_t "goal" []) iy -> iy ∈ L).
  { intros [i ys] (r & Er & (σ & _ & Hx & Hb)). cbn [fst snd] in *. apply elem_of_list_singleton. destruct i as [|[|i]]; cbn in Er; [..|by destruct i];
      injection Er as <-; cbn in Hx; [done|]. by rewrite <- Hb. }
  assert (HL' : forall iy, iy ∈ L -> instances g_twice (g_t "goal" []) iy).
  { intros iy Hiy. apply elem_of_list_singleton in Hiy as ->. eexists. split; [done|]. by exists (fun _ => g_n 0). }
  split.
  - exists L. split; [apply NoDup_singleton|]. intros iy. split; [|intros [H _]; by apply HL]. intros Hiy. split; [by apply HL'|].
    apply elem_of_list_singleton in Hiy as ->. rewrite g_chart2. repeat constructor; exists (g_t "f" [Var 2], 3); (split; [by left|]); (split; [done|]).
    + by exists (fun _ => g_n 1).
    + by exists (fun _ => g_n 2).
  - intros (v & Hv & Heq).
    assert (Hv' : sum_over (instances g_twice (g_t "goal" [])) (fun iy => prodl (map (goal_val g_wt g_cmp (fun _ _ => false) (item_val (t_chart g_end2))) (snd iy))) 9).
    { exists L. split; [apply NoDup_singleton|]. split; [done|]. split; [intros iy Hiy; left; by apply HL|]. vm_compute; reflexivity. }
    assert (v = 9) as -> by (refine (sum_over_unique _ _ v 9 Hv Hv')).
    assert (H18 : item_val (t_chart g_end2) (g_t "goal" []) = 18) by (vm_compute; reflexivity). rewrite H18 in Heq. discriminate Heq.
Qed.
Local Close Scope string_scope.

Print Assumptions C52_solution.
Print Assumptions C52_infinite.
Print Assumptions C52_infinite_witness.
Print Assumptions C52_run.
Print Assumptions C52_ground.
Print Assumptions C52_sound.
Print Assumptions C52_support.
Print Assumptions C52_items.
Print Assumptions C52_witness.
Print Assumptions C52_two_drivers_refuted.
