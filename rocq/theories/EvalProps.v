(** C26, C27, C28, C41: bottom-up evaluation and the enumeration of derivations. *)
From Coq Require Import List.
From stdpp Require Import gmap.
From Coq Require Import Lia ZArith.
From Coq Require String Ascii.
From Verif Require Import PyBase Semiring TermModel TermSpec SetsModel SetsProofs PruneModel UpdateModel UpdateSpec UpdateProofs UpdateProps
  EvalModel EvalSpec EvalProofs DerivProofs.
Import String.StringSyntax Ascii.AsciiSyntax.
Import ListNotations.

(** The assumptions about the parts of the code that are parameters of the model:
    the test for zero is exact, variables get distinct identities, the subgoals are
    sorted to a permutation, and programs that compare equal have equal values. *)
Record eval_laws {R : semiring} (wt : const -> R) (negligible : R -> bool) (al cv : nat -> nat) (sort : list term -> list term)
    (test : term -> option bool) (same : list (wrule R) -> list (wrule R) -> bool) : Prop := {
  law_negligible : forall C, negligible C = true -> C = szero;
  law_al : forall i j, al i = al j -> i = j;
  law_cv : forall i j, cv i = cv j -> i = j;
  law_sort : forall l, Permutation (sort l) l;
  law_same : forall a b, const_chart test a -> const_chart test b -> same a b = true -> forall x, chart_val wt a x = chart_val wt b x }.

Section aux.
  Context {R : semiring} (wt : const -> R) (test : term -> option bool).
  Lemma gp_heads (P : list (wrule R)) : ground_program test P -> heads_ok test P.
  Proof. intros H r Hr. destruct (H r Hr) as (H1 & H2 & H3 & _). done. Qed.
  Lemma gp_items (P : list (wrule R)) : ground_program test P -> forall r, r ∈ P -> test (whead r) = None /\ forall k, whead r <> Cst k.
  Proof. intros H r Hr. destruct (H r Hr) as (_ & (f & args & E) & H3 & _). split; [done|]. intros k. by rewrite E. Qed.
  Lemma crules_chart (ch : list (wrule R)) : crules test ch -> const_chart test ch.
  Proof. intros H r Hr. destruct (H r Hr) as [(H1 & H2 & H3) H4]. done. Qed.
  Lemma chart_crules (ch : list (wrule R)) : const_chart test ch -> crules test ch.
  Proof. intros H r Hr. destruct (H r Hr) as (H1 & H2 & H3 & H4). split; [done|done]. Qed.

  Lemma item_deriv_spec (P : list (wrule R)) x d : ground_program test P -> item_deriv wt test P x d <-> item test x /\ derives wt test P (Goal x) d.
  Proof.
    intros HP. split.
    - intros [(i & ds & ->) H]. split; [|done]. inversion H; subst. eapply (gp_items P); [done|]. by eapply elem_of_list_lookup_2.
    - intros [[Ht Hc] H]. split; [|done]. inversion H; subst; [by destruct (Hc k)|congruence|eauto].
  Qed.
  Lemma holds_enumerates P l D : ground_program test P -> holds wt test P l D -> enumerates wt test P l D.
  Proof.
    intros HP [H1 H2]. split; [done|]. intros x d. rewrite H2, item_deriv_spec by done. tauto.
  Qed.
  Lemma holds_adds_up P l D x v : ground_program test P -> item test x -> holds wt test P l D -> v = den l x ->
    adds_up (fun d => derives wt test P (Goal x) d /\ D d) v.
  Proof.
    intros HP Hx [H1 H2] ->. exists (map snd (filter (fun e => fst e = x) l)). split; [|split].
    - change (map snd (filter (fun e => fst e = x) l)) with (map snd (filter (fun e => fst e = x) l)).
      clear H2. induction l as [|e l IH]; [constructor|]. simpl in H1. apply NoDup_cons in H1 as [N1 N2].
      rewrite filter_cons. case_decide; [|by apply IH]. simpl. constructor; [|by apply IH].
      intros Hin. apply N1. apply elem_of_list_fmap in Hin as (y & Ey & Hy). apply elem_of_list_filter in Hy as [_ Hy]. apply elem_of_list_fmap. eauto.
    - intros d. rewrite elem_of_list_fmap. split.
      + intros ([y e] & -> & H). apply elem_of_list_filter in H as [E H]. simpl in E. subst y. apply H2 in H as [[_ H] HD]. done.
      + intros [H HD]. exists (x, d). split; [done|]. apply elem_of_list_filter. split; [done|]. apply H2. split; [|done].
        by apply item_deriv_spec.
    - by rewrite suml_snd.
  Qed.
  Fixpoint diter (P : list (wrule R)) (k : nat) : list (term * dtree R) :=
    match k with O => [] | S k => dstep wt test 0 P (diter P k) end.
  Lemma diter_holds P k : ground_program test P -> holds wt test P (diter P k) (fun t => dheight t <= k).
  Proof. intros HP. induction k as [|k IH]; [apply exact_nil|]. simpl. apply exact_step; [by apply gp_items|done]. Qed.
  Lemma diter_val P k x : den (diter P k) x = iterate wt test P k x.
  Proof.
    revert x. induction k as [|k IH]; intros x; [done|]. simpl. rewrite dstep_val. by apply rhs_ext.
  Qed.
  Lemma iterate_adds_up P k x v : ground_program test P -> item test x -> v = iterate wt test P k x ->
    adds_up (fun d => derives wt test P (Goal x) d /\ dheight d <= k) v.
  Proof. intros HP Hx ->. eapply holds_adds_up; [done|done|by apply diter_holds|]. by rewrite diter_val. Qed.
  Lemma solution_iterates P I j : solution wt test P I -> (forall x, I x = iterate wt test P j x) ->
    forall j', j <= j' -> forall x, I x = iterate wt test P j' x.
  Proof.
    intros Hs Hj j' Hle. induction Hle as [|j' Hle IH]; [done|]. intros x. rewrite Hs. simpl. by apply rhs_ext.
  Qed.
End aux.

(** ** C26.  [fc] with [max_iter = k] gives every item the total value of its
    derivations of height at most [k], each derivation counted once. *)
Theorem C26_fc :
  forall (R : semiring) (wt : const -> R) (negligible is_one : R -> bool) (al cv : nat -> nat) (sort : list term -> list term)
    (test : term -> option bool) (same : list (wrule R) -> list (wrule R) -> bool) (P : list (wrule R)) (n k : nat) (ch : pstate R),
    eval_laws wt negligible al cv sort test same -> ground_program test P ->
    fc wt negligible is_one al cv test same n k P = Ok ch ->
    const_chart test (p_rules ch) /\
    forall x, item test x -> adds_up (fun d => derives wt test P (Goal x) d /\ dheight d <= k) (chart_val wt (p_rules ch) x).
Proof.
  intros R wt negligible is_one al cv sort test same P n k ch [L1 L2 L3 L4 L5] HP E.
  destruct (fc_loop_ok wt negligible is_one al cv test L2 L3 L1 same) with (P := P) (n := n) (k := k) (j := 0) (old := p_new (@nil (wrule R)) 0) (last := @None (pstate R)) (new := ch)
    as [H V]; try done.
  - intros a b Ha Hb. apply L5; by apply crules_chart.
  - by apply gp_heads.
  - apply chart_ok_empty.
  - split; [exact (crules_chart test _ (ch_rules _ _ H))|]. intros x Hx. apply iterate_adds_up; [done|done|]. by rewrite V, Nat.add_0_r.
Qed.

Theorem C26_fc_returns :
  forall (R : semiring) (wt : const -> R) (negligible is_one : R -> bool) (al cv : nat -> nat) (sort : list term -> list term)
    (test : term -> option bool) (same : list (wrule R) -> list (wrule R) -> bool) (P : list (wrule R)) (k : nat),
    eval_laws wt negligible al cv sort test same -> ground_program test P -> 0 < k ->
    exists ch n0, forall n, n0 <= n -> fc wt negligible is_one al cv test same n k P = Ok ch.
Proof.
  intros R wt negligible is_one al cv sort test same P k [L1 L2 L3 L4 L5] HP Hk.
  apply fc_loop_settles; try done; [by apply gp_heads|apply chart_ok_empty|by left].
Qed.

(** With no limit on the number of rounds: if [fc] returns, the values solve the
    equations of the program, and there are no further contributions from higher
    derivations. *)
Theorem C26_fc_unlimited :
  forall (R : semiring) (wt : const -> R) (negligible is_one : R -> bool) (al cv : nat -> nat) (sort : list term -> list term)
    (test : term -> option bool) (same : list (wrule R) -> list (wrule R) -> bool) (P : list (wrule R)) (n k : nat) (ch : pstate R),
    eval_laws wt negligible al cv sort test same -> ground_program test P ->
    fc_run wt negligible is_one al cv test same n k P (p_new [] 0) = Ok ch ->
    solution wt test P (chart_val wt (p_rules ch)) /\
    exists j, forall j' x, j <= j' -> item test x ->
      adds_up (fun d => derives wt test P (Goal x) d /\ dheight d <= j') (chart_val wt (p_rules ch) x).
Proof.
  intros R wt negligible is_one al cv sort test same P n k ch [L1 L2 L3 L4 L5] HP E.
  destruct (fc_run_ok wt negligible is_one al cv test L2 L3 L1 same) with (P := P) (n := n) (k := k) (j := 0) (old := p_new (@nil (wrule R)) 0) (new := ch)
    as [H [j V]]; try done.
  - intros a b Ha Hb. apply L5; by apply crules_chart.
  - by apply gp_heads.
  - apply chart_ok_empty.
  - split; [done|]. exists j. intros j' x Hj Hx. apply iterate_adds_up; [done|done|]. by apply (solution_iterates wt test P _ j H V).
Qed.

(** One step applied to any chart evaluates the right-hand sides. *)
Theorem C26_step :
  forall (R : semiring) (wt : const -> R) (negligible is_one : R -> bool) (al cv : nat -> nat) (sort : list term -> list term)
    (test : term -> option bool) (same : list (wrule R) -> list (wrule R) -> bool) (P : list (wrule R)) (ch : list (wrule R)) (c n : nat) (q : pstate R),
    eval_laws wt negligible al cv sort test same -> ground_program test P -> const_chart test ch ->
    step wt negligible is_one al cv test n P (p_new ch c) = Ok q ->
    const_chart test (p_rules q) /\ forall x, chart_val wt (p_rules q) x = rhs wt test P (chart_val wt ch) x.
Proof.
  intros R wt negligible is_one al cv sort test same P ch c n q [L1 L2 L3 L4 L5] HP Hc E.
  destruct (step_ok wt negligible is_one al cv test L2 L3 L1 n P (p_new ch c) q) as [H V]; try done.
  - by apply gp_heads.
  - apply chart_ok_new. by apply chart_crules.
  - split; [exact (crules_chart test _ (ch_rules _ _ H))|done].
Qed.

(** [fc] with [max_iter = 0] does not return (the result is never assigned). *)
Theorem C26_zero_rounds_refuted :
  forall (R : semiring) (wt : const -> R) (negligible is_one : R -> bool) (al cv : nat -> nat)
    (test : term -> option bool) (same : list (wrule R) -> list (wrule R) -> bool) (P : list (wrule R)) (n : nat),
    fc wt negligible is_one al cv test same n 0 P = Raise OtherError.
Proof. done. Qed.

(** ** C27.  Semi-naive evaluation with [T = k] gives the same totals. *)
Theorem C27_seminaive :
  forall (R : semiring) (wt : const -> R) (negligible is_one : R -> bool) (al cv : nat -> nat) (sort : list term -> list term)
    (test : term -> option bool) (same : list (wrule R) -> list (wrule R) -> bool) (P : list (wrule R)) (n k : nat) (ch : pstate R),
    eval_laws wt negligible al cv sort test same -> ground_program test P ->
    seminaive wt negligible is_one al cv sort test same n k P = Ok ch ->
    const_chart test (p_rules ch) /\
    forall x, item test x -> adds_up (fun d => derives wt test P (Goal x) d /\ dheight d <= k) (chart_val wt (p_rules ch) x).
Proof.
  intros R wt negligible is_one al cv sort test same P n k ch [L1 L2 L3 L4 L5] HP. unfold seminaive.
  destruct (step wt negligible is_one al cv test n P (p_new [] 0)) as [d| |] eqn:Ed; [|discriminate..]. cbn [bind]. intros E.
  pose proof (gp_heads test P HP) as HP'.
  apply (sn_start wt negligible is_one al cv test L2 L3 L1 P HP') in Ed.
  destruct (seminaive_loop_ok wt negligible is_one al cv sort test L2 L3 L1 L4 same) with (P := P) (n := n) (k := k) (j := 0) (m := p_new (@nil (wrule R)) 0) (d := d) (new := ch)
    as [H V]; try done.
  - intros a b Ha Hb. apply L5; by apply crules_chart.
  - split; [exact (crules_chart test _ (ch_rules _ _ H))|]. intros x Hx. apply iterate_adds_up; [done|done|]. by rewrite V, Nat.add_0_r.
Qed.

Theorem C27_seminaive_returns :
  forall (R : semiring) (wt : const -> R) (negligible is_one : R -> bool) (al cv : nat -> nat) (sort : list term -> list term)
    (test : term -> option bool) (same : list (wrule R) -> list (wrule R) -> bool) (P : list (wrule R)) (k : nat),
    eval_laws wt negligible al cv sort test same -> ground_program test P ->
    exists ch n0, forall n, n0 <= n -> seminaive wt negligible is_one al cv sort test same n k P = Ok ch.
Proof.
  intros R wt negligible is_one al cv sort test same P k [L1 L2 L3 L4 L5] HP. pose proof (gp_heads test P HP) as HP'.
  destruct (step_settles wt negligible is_one al cv test L2 L3 L1 P (p_new [] 0) HP' (chart_ok_empty test)) as [d Sd].
  assert (Hi : sn_inv wt test P 0 (p_new [] 0) d).
  { destruct Sd as [n0 Sd]. by eapply (sn_start wt negligible is_one al cv test L2 L3 L1 P HP' n0), Sd. }
  destruct (seminaive_loop_settles wt negligible is_one al cv sort test L2 L3 L1 L4 same P HP' k 0 _ d Hi) as [ch Sc].
  exists ch. eapply (settles_bind _ (fun n d => seminaive_loop wt negligible is_one al cv sort test same n k P (p_new [] 0) d)); done.
Qed.

Theorem C27_seminaive_unlimited :
  forall (R : semiring) (wt : const -> R) (negligible is_one : R -> bool) (al cv : nat -> nat) (sort : list term -> list term)
    (test : term -> option bool) (same : list (wrule R) -> list (wrule R) -> bool) (P : list (wrule R)) (n k : nat) (d ch : pstate R),
    eval_laws wt negligible al cv sort test same -> ground_program test P ->
    step wt negligible is_one al cv test n P (p_new [] 0) = Ok d ->
    seminaive_run wt negligible is_one al cv sort test same n k P (p_new [] 0) d = Ok ch ->
    solution wt test P (chart_val wt (p_rules ch)) /\
    exists j, forall j' x, j <= j' -> item test x ->
      adds_up (fun d => derives wt test P (Goal x) d /\ dheight d <= j') (chart_val wt (p_rules ch) x).
Proof.
  intros R wt negligible is_one al cv sort test same P n k d ch [L1 L2 L3 L4 L5] HP Ed E. pose proof (gp_heads test P HP) as HP'.
  apply (sn_start wt negligible is_one al cv test L2 L3 L1 P HP') in Ed.
  destruct (seminaive_run_ok wt negligible is_one al cv sort test L2 L3 L1 L4 same) with (P := P) (n := n) (k := k) (j := 0) (m := p_new (@nil (wrule R)) 0) (d := d) (new := ch)
    as [H [j V]]; try done.
  - intros a b Ha Hb. apply L5; by apply crules_chart.
  - split; [done|]. exists j. intros j' x Hj Hx. apply iterate_adds_up; [done|done|]. by apply (solution_iterates wt test P _ j H V).
Qed.

(** The change computed in each round is the total of the derivations of exactly
    the next height. *)
Theorem C27_change :
  forall (R : semiring) (wt : const -> R) (negligible is_one : R -> bool) (al cv : nat -> nat) (sort : list term -> list term)
    (test : term -> option bool) (same : list (wrule R) -> list (wrule R) -> bool) (P : list (wrule R)) (n j : nat) (m d : pstate R),
    eval_laws wt negligible al cv sort test same -> ground_program test P ->
    seminaive_state wt negligible is_one al cv sort test n P j = Ok (m, d) ->
    forall x, item test x ->
      adds_up (fun t => derives wt test P (Goal x) t /\ dheight t <= j) (chart_val wt (p_rules m) x) /\
      adds_up (fun t => derives wt test P (Goal x) t /\ dheight t = S j) (chart_val wt (p_rules d) x).
Proof.
  intros R wt negligible is_one al cv sort test same P n j m d [L1 L2 L3 L4 L5] HP E. pose proof (gp_heads test P HP) as HP'.
  assert (Hi : sn_inv wt test P j m d /\ exists M D, dsn_inv wt test P j M D /\
            (forall x, den M x = chart_val wt (p_rules m) x) /\ forall x, den D x = chart_val wt (p_rules d) x).
  { revert m d E. induction j as [|j IH]; intros m d; cbn [seminaive_state].
    - destruct (step wt negligible is_one al cv test n P (p_new [] 0)) as [d0| |] eqn:Ed; [|discriminate..]. cbn [bind]. intros [= <- <-].
      pose proof (sn_start wt negligible is_one al cv test L2 L3 L1 P HP' n d0 Ed) as Hi. split; [done|].
      exists [], (dstep wt test 0 P []). split; [apply dsn_start|]. split; [done|]. intros x. rewrite dstep_val.
      destruct (step_ok wt negligible is_one al cv test L2 L3 L1 n P (p_new [] 0) d0 HP' (chart_ok_empty test) Ed) as [_ V]. rewrite V. by apply rhs_ext.
    - destruct (seminaive_state wt negligible is_one al cv sort test n P j) as [[m0 d0]| |]; [|discriminate..]. cbn [bind]. intros E.
      destruct (IH m0 d0 eq_refl) as [Hi (M & D & HMD & VM & VD)].
      destruct (sn_step wt negligible is_one al cv sort test L2 L3 L1 L4 P HP' n j m0 d0 m d Hi E) as [Hi' Vd]. split; [done|].
      exists (M ++ D), (ddelta wt test 0 P (M ++ D) M D). split; [apply dsn_step; [by apply gp_items|done]|].
      destruct Hi as (_ & _ & Vm0 & Vd0), Hi' as (_ & _ & Vm & _).
      assert (VMD : forall x, den (M ++ D) x = iterate wt test P (S j) x) by (intros x; by rewrite den_app, VM, VD, Vm0, Vd0).
      split; [intros x; by rewrite VMD, Vm|]. intros x. rewrite ddelta_val, Vd. apply delta_ext; [done| |done]. intros y. by rewrite VM, Vm0. }
  destruct Hi as [_ (M & D & HMD & VM & VD)]. intros x Hx. split.
  - eapply holds_adds_up; [done|done|apply HMD|done].
  - eapply holds_adds_up; [done|done|by eapply dsn_diff; [|apply HMD]; apply gp_items|done].
Qed.

(** Both enumerations of derivations with [T = k] list every derivation of height
    at most [k] exactly once. *)
Theorem C27_naive_derivations :
  forall (R : semiring) (wt : const -> R) (test : term -> option bool) (P : list (wrule R)) (k : nat),
    ground_program test P -> enumerates wt test P (dnaive wt test k P []) (fun d => dheight d <= k).
Proof.
  intros R wt test P k HP. apply holds_enumerates; [done|]. 
  pose proof (dnaive_ok wt test P (gp_items test P HP) k 0 [] (exact_nil wt test P)) as H. by rewrite Nat.add_0_r in H.
Qed.

Theorem C27_seminaive_derivations :
  forall (R : semiring) (wt : const -> R) (test : term -> option bool) (P : list (wrule R)) (k : nat),
    ground_program test P -> enumerates wt test P (dseminaive wt test k P) (fun d => dheight d <= k).
Proof.
  intros R wt test P k HP. apply holds_enumerates; [done|]. 
  pose proof (dseminaive_ok wt test P (gp_items test P HP) k 0 _ _ (dsn_start wt test P)) as H. by rewrite Nat.add_0_r in H.
Qed.

(** ** C28.  After any number of rounds of the agenda algorithm, the values plus the
    waiting changes are what the right-hand sides say; so when it stops with nothing
    waiting, the values solve the equations of the program. *)
Theorem C28_agenda :
  forall (R : semiring) (wt : const -> R) (negligible is_one : R -> bool) (al cv : nat -> nat) (sort : list term -> list term)
    (test : term -> option bool) (same : list (wrule R) -> list (wrule R) -> bool) (close : R -> R -> bool)
    (P : list (wrule R)) (n t : nat) (old change new : pstate R),
    eval_laws wt negligible al cv sort test same -> (forall a b, close a b = true -> a = b) -> ground_program test P ->
    agenda wt negligible is_one al cv sort test close n t P = Ok (old, change, new) ->
    (forall x, sadd (chart_val wt (p_rules new) x) (chart_val wt (p_rules change) x) = rhs wt test P (chart_val wt (p_rules new)) x) /\
    (p_rules change = [] -> solution wt test P (chart_val wt (p_rules new))).
Proof.
  intros R wt negligible is_one al cv sort test same close P n t old change new [L1 L2 L3 L4 L5] Hc HP. unfold agenda.
  destruct (step wt negligible is_one al cv test n P (p_new [] 0)) as [d| |] eqn:Ed; [|discriminate..]. cbn [bind]. intros E.
  pose proof (gp_heads test P HP) as HP'. apply (agenda_start wt negligible is_one al cv test L2 L3 L1 P HP') in Ed.
  apply (agenda_loop_ok wt negligible is_one al cv sort test L2 L3 L1 L4 close Hc P HP') in E as (_ & _ & _ & _ & V); [|done].
  split; [done|]. intros Hz x. rewrite <- V, Hz, cval_nil. by rewrite sadd_0_r.
Qed.

Theorem C28_agenda_returns :
  forall (R : semiring) (wt : const -> R) (negligible is_one : R -> bool) (al cv : nat -> nat) (sort : list term -> list term)
    (test : term -> option bool) (same : list (wrule R) -> list (wrule R) -> bool) (close : R -> R -> bool)
    (P : list (wrule R)) (t : nat),
    eval_laws wt negligible al cv sort test same -> (forall a b, close a b = true -> a = b) -> ground_program test P ->
    exists s n0, forall n, n0 <= n -> agenda wt negligible is_one al cv sort test close n t P = Ok s.
Proof.
  intros R wt negligible is_one al cv sort test same close P t [L1 L2 L3 L4 L5] Hc HP. pose proof (gp_heads test P HP) as HP'.
  destruct (step_settles wt negligible is_one al cv test L2 L3 L1 P (p_new [] 0) HP' (chart_ok_empty test)) as [d Sd].
  assert (Hi : ag_inv wt test P (p_new [] 0) d (p_new [] 0)).
  { destruct Sd as [n0 Sd]. by eapply (agenda_start wt negligible is_one al cv test L2 L3 L1 P HP' n0), Sd. }
  destruct (agenda_loop_settles wt negligible is_one al cv sort test L2 L3 L1 L4 close Hc P HP' t _ d _ Hi) as [s Ss].
  exists s. eapply (settles_bind _ (fun n d => agenda_loop wt negligible is_one al cv sort test close n t P (p_new [] 0) d (p_new [] 0))); done.
Qed.

(** ** C41.  The agenda-based enumeration yields only derivations, none twice ... *)
Theorem C41_valid_once :
  forall (R : semiring) (wt : const -> R) (test : term -> option bool) (P : list (wrule R)) (t : nat),
    ground_program test P ->
    NoDup (map snd (fst (dagenda wt test t P))) /\
    forall x d, (x, d) ∈ fst (dagenda wt test t P) -> item test x /\ derives wt test P (Goal x) d.
Proof.
  intros R wt test P t HP. destruct (dagenda_inv wt test P (gp_items test P HP) t) as (H1 & H2 & _). split; [done|].
  intros x d H. apply item_deriv_spec; [done|]. by apply H2.
Qed.

(** ... and every derivation is yielded after some number of rounds. *)
Theorem C41_fair :
  forall (R : semiring) (wt : const -> R) (test : term -> option bool) (P : list (wrule R)) (x : term) (d : dtree R),
    ground_program test P -> item test x -> derives wt test P (Goal x) d ->
    exists t, (x, d) ∈ fst (dagenda wt test t P).
Proof.
  intros R wt test P x d HP [Ht Hc] Hd. destruct (dagenda_fair wt test P (gp_items test P HP) _ _ Hd) as [t H]. exists t.
  specialize (H t (le_n _)).
  apply (elem_of_dlookup wt test P (gp_items test P HP)) in H as [[[=] _]|[(k & [= ->] & _)|[(b & [= <-] & _ & Hb & _)|(b & [= <-] & _ & _ & H)]]]; [by destruct (Hc k)|congruence|done].
Qed.

(** When nothing is waiting any more, every derivation has been yielded. *)
Theorem C41_complete :
  forall (R : semiring) (wt : const -> R) (test : term -> option bool) (P : list (wrule R)) (t : nat),
    ground_program test P -> snd (dagenda wt test t P) = [] ->
    enumerates wt test P (fst (dagenda wt test t P)) (fun _ => True).
Proof.
  intros R wt test P t HP Hs. destruct (C41_valid_once R wt test P t HP) as [H1 H2]. split; [done|]. intros x d. split.
  - intros H. destruct (H2 _ _ H) as [H3 H4]. done.
  - intros (Hx & Hd & _). destruct (C41_fair R wt test P x d HP Hx Hd) as [t' H].
    apply (yields_mono wt test P t' (t + t') _ ltac:(lia)) in H.
    unfold dagenda in H, Hs |- *. rewrite dagenda_loop_plus in H. destruct (dagenda_loop wt test t P [] (dstep wt test 0 P [])) as [o c].
    simpl in Hs. subst c. by destruct t'.
Qed.

(** ** Witnesses *)
Local Open Scope string_scope.
Definition e_test (t : term) : option bool :=
  match t with
  | Fn [Cst (CStr f); Cst (CInt a); Cst (CInt b)] => if String.eqb f "<" then Some (Z.ltb a b) else None
  | _ => None
  end.
(* a += 2.  a += 3 * a.  b += a * a * (1 < 2).  b += a * (2 < 1).  c += b * 5 * a. *)
Definition e_prog : list (wrule nat_sr) :=
  [WRule (u_t "a" []) [Val (2 : nat_sr)];
   WRule (u_t "a" []) [Goal (u_n 3); Goal (u_t "a" [])];
   WRule (u_t "b" []) [Goal (u_t "a" []); Goal (u_t "a" []); Goal (u_t "<" [u_n 1; u_n 2])];
   WRule (u_t "b" []) [Goal (u_t "a" []); Goal (u_t "<" [u_n 2; u_n 1])];
   WRule (u_t "c" []) [Goal (u_t "b" []); Goal (u_n 5); Goal (u_t "a" [])]].
(* the same without the recursive rule *)
Definition e_prog2 : list (wrule nat_sr) := filter (fun r => length (wbody r) <> 2) e_prog.

Definition e_same (a b : list (wrule nat_sr)) : bool :=
  forallb (fun x => Nat.eqb (chart_val u_wt a x) (chart_val u_wt b x)) (map whead a ++ map whead b).
Definition e_close (a b : nat_sr) : bool := Nat.eqb a b.

Lemma chart_val_absent {R : semiring} (wt : const -> R) ch x : x ∉ map whead ch -> chart_val wt ch x = szero.
Proof.
  intros H. unfold chart_val. destruct (filter (fun r => whead r = x) ch) as [|r l] eqn:E; [done|].
  assert (Hr : r ∈ filter (fun r => whead r = x) ch) by (rewrite E; by left). apply elem_of_list_filter in Hr as [<- Hr].
  exfalso. apply H. apply elem_of_list_fmap. eauto.
Qed.
Lemma e_laws : eval_laws u_wt u_neg u_al u_cv (fun l => l) e_test e_same.
Proof.
  split.
  - intros C H. by apply bool_decide_eq_true in H.
  - unfold u_al. lia.
  - unfold u_cv. lia.
  - done.
  - intros a b _ _ H x. unfold e_same in H. rewrite forallb_forall in H.
    destruct (decide (x ∈ map whead a ++ map whead b)) as [Hx|Hx].
    + apply elem_of_list_In, H in Hx. by apply Nat.eqb_eq in Hx.
    + rewrite not_elem_of_app in Hx. by rewrite !chart_val_absent by tauto.
Qed.
Lemma e_ground : ground_program e_test e_prog.
Proof.
  intros r Hr. unfold e_prog in Hr. rewrite !elem_of_cons, elem_of_nil in Hr.
  destruct Hr as [->|[->|[->|[->|[->|[]]]]]]; simpl; (split; [done|]; split; [eexists _, _; reflexivity|]; split; [done|]); intros b Hb;
    rewrite ?elem_of_cons, ?elem_of_nil in Hb; naive_solver.
Qed.
Lemma e_ground2 : ground_program e_test e_prog2.
Proof. intros r Hr. apply elem_of_list_filter in Hr as [_ Hr]. by apply e_ground. Qed.

Definition e_fc := fc u_wt u_neg u_one u_al u_cv e_test e_same 50.
Definition e_sn := seminaive u_wt u_neg u_one u_al u_cv (fun l => l) e_test e_same 50.
Definition e_ag := agenda u_wt u_neg u_one u_al u_cv (fun l => l) e_test e_close 50.
Definition e_val (r : res (pstate nat_sr)) (f : String.string) : option nat :=
  match r with Ok ch => Some (chart_val u_wt (p_rules ch) (u_t f [])) | _ => None end.

Lemma C26_witness :
  eval_laws u_wt u_neg u_al u_cv (fun l => l) e_test e_same /\ ground_program e_test e_prog /\
  (exists ch, e_fc 3 e_prog = Ok ch) /\
  map (fun k => e_val (e_fc k e_prog) "a") [1; 2; 3] = [Some 2; Some 8; Some 26] /\
  map (fun k => e_val (e_fc k e_prog) "b") [1; 2; 3] = [Some 0; Some 4; Some 64] /\
  map (fun k => e_val (e_fc k e_prog) "c") [1; 2; 3] = [Some 0; Some 0; Some 160].
Proof.
  split; [apply e_laws|]. split; [apply e_ground|]. split.
  - eexists. apply (u_ok (p_new [] 0)). by vm_compute.
  - split; [by vm_compute|]. split; by vm_compute.
Qed.

Lemma C26_witness_unlimited :
  exists ch, fc_run u_wt u_neg u_one u_al u_cv e_test e_same 50 9 e_prog2 (p_new [] 0) = Ok ch /\
    chart_val u_wt (p_rules ch) (u_t "c" []) = 40.
Proof.
  eexists. split; [apply (u_ok (p_new [] 0)); by vm_compute|]. by vm_compute.
Qed.

Lemma C27_witness :
  (exists ch, e_sn 3 e_prog = Ok ch) /\
  map (fun k => e_val (e_sn k e_prog) "c") [1; 2; 3; 4] = map (fun k => e_val (e_fc k e_prog) "c") [1; 2; 3; 4] /\
  length (dnaive u_wt e_test 3 e_prog []) = 3 + 4 + 2 /\ length (dseminaive u_wt e_test 3 e_prog) = 3 + 4 + 2.
Proof.
  split.
  - eexists. apply (u_ok (p_new [] 0)). by vm_compute.
  - split; [by vm_compute|]. split; by vm_compute.
Qed.

Lemma C28_witness :
  exists s, e_ag 20 e_prog2 = Ok s /\ p_rules (snd (fst s)) = [] /\ chart_val u_wt (p_rules (snd s)) (u_t "c" []) = 40.
Proof.
  exists (u_get (p_new [] 0, p_new [] 0, p_new [] 0) (e_ag 20 e_prog2)).
  split; [apply u_ok; by vm_compute|]. split; by vm_compute.
Qed.

Lemma C41_witness :
  map fst (fst (dagenda u_wt e_test 5 e_prog)) = [u_t "a" []; u_t "a" []; u_t "b" []; u_t "a" []; u_t "b" []] /\
  (exists d, derives u_wt e_test e_prog (Goal (u_t "b" [])) d) /\
  snd (dagenda u_wt e_test 5 e_prog2) = [] /\ length (fst (dagenda u_wt e_test 5 e_prog2)) = 3.
Proof.
  split; [by vm_compute|]. split; [|by vm_compute]. destruct (C41_valid_once nat_sr u_wt e_test e_prog 3 e_ground) as [_ H].
  exists (DNode 2 [DNode 0 [DLeaf (2 : nat_sr)]; DNode 0 [DLeaf (2 : nat_sr)]; DLeaf (1 : nat_sr)]). apply H.
  vm_compute. repeat constructor.
Qed.

Print Assumptions C26_fc.
Print Assumptions C26_fc_returns.
Print Assumptions C26_fc_unlimited.
Print Assumptions C26_step.
Print Assumptions C26_zero_rounds_refuted.
Print Assumptions C27_seminaive.
Print Assumptions C27_seminaive_returns.
Print Assumptions C27_seminaive_unlimited.
Print Assumptions C27_change.
Print Assumptions C27_naive_derivations.
Print Assumptions C27_seminaive_derivations.
Print Assumptions C28_agenda.
Print Assumptions C28_agenda_returns.
Print Assumptions C41_valid_once.
Print Assumptions C41_fair.
Print Assumptions C41_complete.
