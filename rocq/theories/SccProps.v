(** C51: a solver that discards what the outputs do not need loses nothing that
    they need. *)
From Coq Require Import List Lia Permutation ZArith ConstructiveEpsilon.
From stdpp Require Import gmap.
From Coq Require String Ascii.
From Verif Require Import PyBase Semiring TermModel TermSpec TermProofs UnifyProofs SetsModel PruneModel ProgSpec SlashModel SlashHalts TypesModel SolverModel ChartProofs SolverSpec SolverProofs SolverProps
  SccModel SccSpec SccProofs.
Import String.StringSyntax Ascii.AsciiSyntax ListNotations.
Local Open Scope list_scope.

Section props.
Context {R : semiring} (wt : const -> R) (approx : R -> R -> bool) (ord : list term -> list term)
  (cmpf : String.string -> term -> term -> res bool)
  (is_run : nat -> store -> term -> term -> res (list store)) (is_true : term -> term -> bool).
(** sets are iterated in any order; [is] is exact; addition is exact *)
Context (Hord : forall l, Permutation (ord l) l) (His : is_exact is_true is_run)
  (Happrox : forall x y, approx x y = true -> x = y).

Notation derivable := (derivable cmpf is_true).
Notation live := (live cmpf is_true).
Notation needed := (needed cmpf is_true).
Notation solution_at := (solution_at wt cmpf is_true).
Notation run := (forward_chaining wt approx ord cmpf is_run).

Lemma look_derivable (d : gmap term R) P r σ : groundsub σ -> (forall x, is_Some (d !! x) -> derivable P x) ->
  (forall b, b ∈ rbody r -> look wt cmpf is_true d (sub σ b) <> None) -> live P r σ.
Proof.
  intros Hg Hd Hb. split; [done|]. exists ((fun _ => true) <$> d). split.
  - intros x Hx. apply Hd. by rewrite lookup_fmap, fmap_is_Some in Hx.
  - intros b Hb'. unfold holds. eapply look_dom; [|by apply Hb]. intros x Hx. by rewrite lookup_fmap, fmap_is_Some.
Qed.

Lemma run_derivable keep pick P n p s : wf_rules P -> run keep pick P n p s_empty = Ok s -> forall x, is_Some (c_dict (s_chart s) !! x) -> derivable P x.
Proof using Hord His Happrox.
  intros Hwf E. refine (run_keys wt approx ord cmpf is_run is_true Hord His Happrox keep P Hwf (derivable P) _ pick n p s E).
  intros r σ d Hr Hg Hd Hb. destruct (look_derivable d P r σ Hg Hd Hb) as (_ & D & HD & Hh). by apply (DV cmpf is_true P r σ D).
Qed.

(** For any set [keep] of items, and any order of the agenda: a solver that
    discards the updates to the items outside [keep] ends with an empty agenda, its
    chart has only derivable items of [keep], and the equation of each item of
    [keep] holds in the chart. *)
Theorem C51_pruned keep pick P n p s : wf_rules P -> no_variables P -> run keep pick P n p s_empty = Ok s ->
  let c := c_dict (s_chart s) in
  s_agenda s = ∅ /\ (forall x, is_Some (c !! x) -> ground x /\ keep x = true /\ derivable P x) /\
  forall x, keep x = true -> solution_at P (fun _ => szero) c x.
Proof using Hord His Happrox.
  intros Hwf Hnv E c.
  destruct (forward_chaining_ok wt approx ord cmpf is_run is_true Hord His Happrox keep pick P n p s_empty s Hwf (state_ok_empty _) E) as (H0 & H1 & _ & H2).
  split; [done|]. split.
  - intros x Hx. destruct H0 as ([_ Hgr] & _ & _ & Hkc). split; [by apply Hgr|]. split; [by apply Hkc|]. by apply (run_derivable keep pick P n p s Hwf E).
  - destruct (H2 (fun _ => szero)) as [_ H3]; [by apply safe_no_variables|apply inv_empty|]. exact H3.
Qed.

(** The same after any history of loading data and running that ends with a run. *)
Theorem C51_history keep P os pick n p s : wf_rules P -> no_variables P -> Forall wf_rules (data_of os) ->
  foldM (do_op wt approx ord cmpf is_run keep P) (os ++ [OpRun pick n p]) s_empty = Ok s ->
  let c := c_dict (s_chart s) in
  s_agenda s = ∅ /\ (forall x, is_Some (c !! x) -> keep x = true) /\
  exists ds, Forall2 (fun D d => safe_values wt cmpf is_true D d -> solution wt cmpf is_true D (fun _ => szero) d) (data_of os) ds /\
    forall x, keep x = true -> solution_at P (total_of ds) c x.
Proof using Hord His Happrox.
  intros Hwf Hnv HD E c. destruct (history_run wt approx ord cmpf is_run is_true Hord His Happrox keep P os pick n p s Hwf HD E) as (H1 & H2 & ds & H3 & H4).
  split; [done|]. split; [intros x Hx; by apply H2|]. exists ds. split; [done|]. apply H4. by apply safe_no_variables.
Qed.

(** * [scc_solver] *)
Context (al cv : nat -> nat) (inputs : list term).
(** new variables and canonical variables are distinct *)
Context (Hal : forall i j, al i = al j -> i = j) (Hcv : forall i j, cv i = cv j -> i = j) (Halcv : forall i j, al i <> cv j).
Notation is_input := (is_input inputs).
Notation scc_solver := (scc_solver wt approx ord cmpf is_run al cv inputs).

(** [pf] is large enough for the priority function to return. *)
Definition enough (pf : list (term * nat) -> term -> nat) : Prop :=
  forall scc x, ground x -> exists o, priority inputs scc (pf scc x) x = Ok o.

(** For any orders of the two agendas: when the solver ends, the equation of each
    item that the outputs need holds in its chart.  The chart has only derivable
    items; each is needed by the outputs, or an input, or a term that looks like a
    constant or a constraint. *)
Theorem C51_scc pf n p1 p2 pick1 pick2 P outs s :
  wf_rules P -> no_variables P -> wf_asked outs -> inputs_given inputs P ->
  scc_solver pf n p1 p2 pick1 pick2 P outs = Ok s ->
  let c := c_dict (s_chart s) in
  s_agenda s = ∅ /\ (forall x, needed P outs x -> solution_at P (fun _ => szero) c x) /\
  (forall x, is_Some (c !! x) -> derivable P x) /\
  (enough pf -> forall x, is_Some (c !! x) -> needed P outs x \/ is_input x \/ exo x = true).
Proof using Hord His Happrox Hal Hcv Halcv.
  intros Hwf Hnv Hasked Hgiven E c. unfold SccModel.scc_solver, scc_pass1 in E.
  destruct (forward_chaining (R := bool_sr) wtb Bool.eqb ord cmpf is_run all_kept pick1 (booleanize P) n p1 s_empty) as [s1| |] eqn:E1; [|discriminate..]. cbn [bind] in E.
  destruct (scc_index ord cmpf is_run al cv inputs n (s_chart s1) (booleanize P) outs) as [scc| |] eqn:Ei; [|discriminate..]. cbn [bind] in E.
  destruct (pass1_ok ord cmpf is_run is_true Hord His P Hwf Hnv pick1 n p1 s1 E1) as (Hch & Hcmp & Hsnd).
  destruct (C51_pruned _ pick2 P n p2 s Hwf Hnv E) as (H1 & H2 & H3).
  split; [done|]. split; [|split].
  - intros x Hx. apply H3. eapply (needed_kept ord cmpf is_run is_true Hord His P Hwf Hnv al cv inputs Hal Hcv Halcv (s_chart s1) Hch Hsnd Hcmp outs Hasked Hgiven n scc Ei pf x Hx).
    destruct Hx as [o σ _ [Hg _]|r σ b _ [Hg _] _ _ _]; apply UpdateProofs.ground_sub_all; exact Hg.
  - intros x Hx. by apply H2.
  - intros Hpf x Hx. destruct (H2 x Hx) as (Hg & Hk & Hd).
    destruct (kept_needed ord cmpf is_run is_true Hord His P Hwf Hnv al cv inputs Hal Hcv Halcv (s_chart s1) Hch Hsnd Hcmp outs Hasked n scc Ei pf x (Hpf scc x Hg) Hg Hd Hk) as [H|[H|H]]; auto.
Qed.

(** * Equal values *)
Local Open Scope string_scope.
Notation s_eq := ("=").
Notation s_is := ("is").
Local Close Scope string_scope.
Lemma look_exo (c c' : gmap term R) b σ : wf_goal b -> (forall v, b <> Var v) -> exo b = true -> look wt cmpf is_true c (sub σ b) = look wt cmpf is_true c' (sub σ b).
Proof.
  intros Hw Hv He. destruct b as [v|k|l]; [by destruct (Hv v)|done|]. destruct l as [|[v|[z|op]|l'] args]; try done.
  unfold exo in He. cbn in He. apply bool_decide_eq_true in He. destruct Hw as (H1 & H2 & H3 & H4).
  assert (Hop : length args = 2 /\ (op = s_eq \/ op = s_is \/ op ∈ cmps)).
  { unfold builtin_sigs in He. cbn [cmps map app] in He. rewrite !elem_of_cons in He.
    destruct He as [[= -> H]|[[= -> H]|[[= -> _]|[[= -> _]|[[= -> _]|He]]]]]; [by auto|by auto|done|done|done|].
    repeat (destruct He as [[= -> H]|He]; [split; [done|right; right; unfold cmps; rewrite !elem_of_cons; tauto]|]). by apply elem_of_nil in He. }
  destruct Hop as [Hl Hop]. destruct args as [|x [|z [|? ?]]]; try discriminate Hl. cbn.
  destruct (decide (op = _)); [done|]. destruct (decide (op ∈ cmps)); [done|]. destruct (decide (op = _)); [done|]. naive_solver.
Qed.

Lemma solutions_agree P outs (c c' : gmap term R) (rank : term -> nat) : wf_rules P -> no_variables P ->
  (forall r σ b, r ∈ P -> live P r σ -> b ∈ rbody r -> exo b = false -> rank (sub σ b) < rank (sub σ (rhead r))) ->
  (forall x, is_Some (c !! x) -> derivable P x) -> (forall x, is_Some (c' !! x) -> derivable P x) ->
  (forall x, needed P outs x -> solution_at P (fun _ => szero) c x) -> (forall x, needed P outs x -> solution_at P (fun _ => szero) c' x) ->
  forall x, needed P outs x -> default szero (c !! x) = default szero (c' !! x).
Proof.
  intros Hwf Hnv Hrank Hc Hc' Hs Hs' x. remember (rank x) as m eqn:Em. revert x Em. induction m as [m IH] using lt_wf_ind. intros x -> Hx.
  destruct (Hs x Hx) as (v & Hv & ->). destruct (Hs' x Hx) as (v' & Hv' & ->). f_equal. refine (sum_over_unique (instances P x) _ v v' Hv _).
  eapply sum_over_ext; [|exact Hv']. intros [i ys] (r & Hr & σ & Hg & Hh & Hys). cbn [fst snd] in *. apply nth_error_In, elem_of_list_In in Hr.
  assert (Hlive : live P r σ -> map (val wt cmpf is_true c') ys = map (val wt cmpf is_true c) ys).
  { intros Hl. rewrite <- Hys, !map_map. apply map_ext_in. intros b Hb. apply elem_of_list_In in Hb. unfold val.
    assert (Hw : wf_goal b). { unfold wf_rules in Hwf. rewrite Forall_forall in Hwf. specialize (Hwf r Hr). rewrite Forall_forall in Hwf. by apply Hwf. }
    destruct (exo b) eqn:Ee; [rewrite (look_exo c' c b σ Hw); [done| |done]; intros w ->; by apply (Hnv r w)|].
    destruct (exo_sub σ b Hw Ee) as [Ees _]. rewrite !look_item by done. symmetry. eapply IH; [|reflexivity|].
    - rewrite <- Hh. by apply Hrank.
    - apply (ND_subgoal cmpf is_true P outs r σ b Hr Hl); [by rewrite Hh|done|done]. }
  assert (Hcase : forall d : gmap term R, (forall x, is_Some (d !! x) -> derivable P x) -> looks wt cmpf is_true d ys <> None -> live P r σ).
  { intros d Hd Hl. apply (look_derivable d P r σ Hg Hd). intros b Hb. apply (proj1 (looks_some wt cmpf is_true d ys) Hl). rewrite <- Hys. by apply elem_of_list_fmap_1. }
  destruct (looks wt cmpf is_true c ys) eqn:L1; [rewrite (Hlive (Hcase c Hc ltac:(by rewrite L1))); done|].
  destruct (looks wt cmpf is_true c' ys) eqn:L2; [rewrite (Hlive (Hcase c' Hc' ltac:(by rewrite L2))); done|].
  by rewrite (prod_none wt cmpf is_true c ys L1), (prod_none wt cmpf is_true c' ys L2).
Qed.

(** On a program whose live rule instances form no cycle, the values of all the
    needed items are those of the ordinary solver. *)
Theorem C51_same pf n p1 p2 pick1 pick2 P outs s pick n' p s' (rank : term -> nat) :
  wf_rules P -> no_variables P -> wf_asked outs -> inputs_given inputs P ->
  (forall r σ b, r ∈ P -> live P r σ -> b ∈ rbody r -> exo b = false -> rank (sub σ b) < rank (sub σ (rhead r))) ->
  scc_solver pf n p1 p2 pick1 pick2 P outs = Ok s -> run all_kept pick P n' p s_empty = Ok s' ->
  forall x, needed P outs x -> default szero (c_dict (s_chart s) !! x) = default szero (c_dict (s_chart s') !! x).
Proof using Hord His Happrox Hal Hcv Halcv.
  intros Hwf Hnv Hasked Hgiven Hrank E E'.
  destruct (C51_scc pf n p1 p2 pick1 pick2 P outs s Hwf Hnv Hasked Hgiven E) as (_ & H1 & H2 & _).
  destruct (C51_pruned all_kept pick P n' p s' Hwf Hnv E') as (_ & H3 & H4).
  apply (solutions_agree P outs _ _ rank Hwf Hnv Hrank H2); [intros x Hx; by apply H3|exact H1|intros x _; by apply H4].
Qed.

(** * The order of the second pass *)
(** The agenda pops the smallest priority first.  A subgoal of a live rule
    instance never has a larger priority than the head. *)
Theorem C51_order n p1 pick1 P outs scc r σ b n1 n2 m o :
  wf_rules P -> no_variables P -> wf_asked outs ->
  scc_pass1 ord cmpf is_run al cv inputs n p1 pick1 P outs = Ok scc ->
  r ∈ P -> live P r σ -> b ∈ rbody r -> exo (sub σ (rhead r)) = false -> ~ is_input (sub σ (rhead r)) ->
  priority inputs scc n1 (sub σ (rhead r)) = Ok (Some m) -> priority inputs scc n2 (sub σ b) = Ok o ->
  exists m', o = Some m' /\ m' <= m.
Proof using Hord His Hal Hcv Halcv.
  intros Hwf Hnv Hasked E Hr Hlive Hb Hex Hi Ep1 Ep2. unfold scc_pass1 in E.
  destruct (forward_chaining (R := bool_sr) wtb Bool.eqb ord cmpf is_run all_kept pick1 (booleanize P) n p1 s_empty) as [s1| |] eqn:E1; [|discriminate..]. cbn [bind] in E.
  destruct (pass1_ok ord cmpf is_run is_true Hord His P Hwf Hnv pick1 n p1 s1 E1) as (Hch & Hcmp & Hsnd).
  exact (priority_le ord cmpf is_run is_true Hord His P Hwf Hnv al cv inputs Hal Hcv Halcv (s_chart s1) Hch Hsnd Hcmp outs Hasked n scc E r σ b n1 n2 m o Hr Hlive Hex Hi Hb Ep1 Ep2).
Qed.

(** * The priority function returns *)
Lemma best_index_ends z scc : forall best, ends (fun n => best_index n z scc best) (fun _ => True) (fun _ => False).
Proof.
  induction scc as [|[k i] scc IH]; intros best; cbn [best_index]; [by apply ends_ok|].
  destruct (unify_settles ∅ k z) as (st & u & Hs); [apply (okst_empty ∅)|].
  eapply ends_bind2; [by apply (ends_settles _ (st, u) (fun _ => True))|]. intros st' u' _. apply IH.
Qed.
Lemma priority_ends scc z : ends (fun n => priority inputs scc n z) (fun _ => True) (fun _ => False).
Proof.
  destruct z as [v|k|l]; [by apply ends_ok|by apply ends_ok|]. unfold priority. eapply ends_bind; [apply is_exogenous_ends, (okst_empty ∅)|].
  intros [] _; [by apply ends_ok|]. destruct (get_index (Fn l) scc); [by apply ends_ok|apply best_index_ends].
Qed.

(** Some [pf] is enough. *)
Theorem C51_fuel : exists pf, enough pf.
Proof.
  assert (H : forall scc z, {n | exists o, priority inputs scc n z = Ok o}).
  { intros scc z. apply constructive_indefinite_ground_description_nat.
    - intros n. destruct (priority inputs scc n z) as [o| |]; [left; eauto|right; by intros [? ?]..].
    - destruct (priority_ends scc z) as (n0 & o & Ho & Hr). exists n0. rewrite Ho by lia. destruct o as [o| |]; [eauto|done|done]. }
  exists (fun scc x => proj1_sig (H scc x)). intros scc x _. exact (proj2_sig (H scc x)).
Qed.
End props.

(** * Witnesses *)
Section witness.
  Notation S s := (Cst (CStr s)). Notation I z := (Cst (CInt z)).
  Local Open Scope string_scope.
  Let e x y := Fn [S "e"; x; y]. Let p x y := Fn [S "p"; x; y].
  Let f x := Fn [S "f"; x]. Let g := Fn [S "g"]. Let goal := Fn [S "goal"].
  Local Close Scope string_scope.
  Definition x_al (i : nat) : nat := 2 * i + 100.
  Definition x_cv (i : nat) : nat := 2 * i + 101.
  Definition x_pf (_ : list (term * nat)) (_ : term) : nat := 20.

  (** [inputs: e(X,Y). outputs: p(1,Y).]
      p(X,Y) += e(X,Y). p(X,Z) += p(X,Y)*e(Y,Z). e(1,2) += 2. e(2,3) += 3. e(4,5) += 7. *)
  Definition x_inputs : list term := [e (Var 0) (Var 1)].
  Definition x_P : list rule :=
    [Rule (p (Var 0) (Var 1)) [e (Var 0) (Var 1)]; Rule (p (Var 0) (Var 2)) [p (Var 0) (Var 1); e (Var 1) (Var 2)];
     Rule (e (I 1) (I 2)) [I 2]; Rule (e (I 2) (I 3)) [I 3]; Rule (e (I 4) (I 5)) [I 7]].
  Definition x_outs : list rule := [Rule (p (I 1) (Var 0)) []].
  Definition x_scc inputs P outs := scc_solver w_nat w_eq id w_cmp w_is x_al x_cv inputs x_pf 20 60 60 w_pick w_pick' P outs.
  Definition x_rank (x : term) : nat :=
    match x with Fn [h; _; Cst (CInt z)] => if decide (Fn [h; g; g] = p g g) then 1 + Z.to_nat z else 0 | _ => 0 end.

  Lemma x_edges x a b : derivable w_cmp (fun _ _ => false) x_P x -> x = e a b -> (a, b) ∈ [(I 1, I 2); (I 2, I 3); (I 4, I 5)].
  Proof.
    intros [r σ D Hr _ _ _] Heq. unfold x_P in Hr. rewrite !elem_of_cons in Hr.
    destruct Hr as [->|[->|[->|[->|[->|Hr]]]]]; cbn in Heq; try discriminate Heq; [injection Heq as <- <-; set_solver..|by apply elem_of_nil in Hr].
  Qed.

  Lemma x_hyps : wf_rules x_P /\ no_variables x_P /\ wf_asked x_outs /\ inputs_given x_inputs x_P.
  Proof.
    assert (H4 : forall P : rule -> Prop, Forall P x_P -> forall r, r ∈ x_P -> P r) by (intros P HP; by apply Forall_forall).
    split; [|split; [|split; [split; [|split]|]]].
    - repeat constructor; try done; intros [Hx|Hx]; discriminate Hx.
    - intros r v Hr. revert r Hr v. apply (H4 (fun r => forall v, Var v ∉ rbody r)).
      repeat apply Forall_cons_2; [..|apply Forall_nil_2]; cbn; intros v; rewrite !elem_of_cons, elem_of_nil; naive_solver.
    - repeat constructor.
    - intros r v Hr. apply elem_of_list_singleton in Hr as ->. cbn. apply not_elem_of_nil.
    - intros o Ho. apply elem_of_list_singleton in Ho as ->. split; [vm_compute; done|]. cbn. eauto.
    - intros r σ Hr. revert r Hr σ. apply (H4 (fun r => forall σ, is_input x_inputs (sub σ (rhead r)) -> forall b, b ∈ rbody r -> exists k, b = Cst k)).
      repeat apply Forall_cons_2; [..|apply Forall_nil_2]; cbn; intros σ (q & τ & Hq & Hs) b Hb; apply elem_of_list_singleton in Hq as ->;
        try discriminate Hs; apply elem_of_list_singleton in Hb as ->; eauto.
  Qed.

  Definition x_val (r : res (sstate nat_sr)) (x : term) : option nat := match r with Ok s => c_dict (s_chart s) !! x | _ => None end.

  (** The hypotheses of the theorems hold.  [p(4,5)] is not needed and not computed;
      the values of [p(1,2)] and [p(1,3)] are those of the ordinary solver. *)
  Lemma C51_witness :
    wf_rules x_P /\ no_variables x_P /\ wf_asked x_outs /\ inputs_given x_inputs x_P /\
    (forall r σ b, r ∈ x_P -> live w_cmp (fun _ _ => false) x_P r σ -> b ∈ rbody r -> exo b = false -> x_rank (sub σ b) < x_rank (sub σ (rhead r))) /\
    (exists s, x_scc x_inputs x_P x_outs = Ok s) /\ (exists s, w_run w_pick x_P = Ok s) /\
    x_val (x_scc x_inputs x_P x_outs) (p (I 1) (I 2)) = Some 2 /\ x_val (x_scc x_inputs x_P x_outs) (p (I 1) (I 3)) = Some 6 /\
    x_val (x_scc x_inputs x_P x_outs) (p (I 4) (I 5)) = None /\
    x_val (w_run w_pick x_P) (p (I 1) (I 3)) = Some 6 /\ x_val (w_run w_pick x_P) (p (I 4) (I 5)) = Some 7 /\
    needed w_cmp (fun _ _ => false) x_P x_outs (p (I 1) (I 3)) /\ needed w_cmp (fun _ _ => false) x_P x_outs (p (I 1) (I 2)).
  Proof.
    destruct x_hyps as (H1 & H2 & H3 & H4). split; [done|]. split; [done|]. split; [done|]. split; [done|].
    assert (Hex : forall x (D : gmap term bool_sr), holds w_cmp (fun _ _ => false) D x -> (forall y, is_Some (D !! y) -> derivable w_cmp (fun _ _ => false) x_P y) ->
      exo x = false -> derivable w_cmp (fun _ _ => false) x_P x).
    { intros x D Hh HD He. apply HD. unfold holds in Hh. rewrite look_item in Hh by done. by apply not_eq_None_Some. }
    split.
    { intros r σ b Hr (Hg & D & HD & Hh) Hb He. unfold x_P in Hr. rewrite !elem_of_cons in Hr.
      destruct Hr as [->|[->|[->|[->|[->|Hr]]]]]; [..|by apply elem_of_nil in Hr]; cbn [rbody rhead] in *; rewrite ?elem_of_cons, ?elem_of_nil in Hb.
      - destruct Hb as [->|[]]. assert (He' : (σ 0, σ 1) ∈ [(I 1, I 2); (I 2, I 3); (I 4, I 5)]).
        { eapply x_edges; [|reflexivity]. apply (Hex _ D); [|done|vm_compute; done]. apply (Hh (e (Var 0) (Var 1))). by left. }
        rewrite !elem_of_cons, elem_of_nil in He'. cbn [sub map]. destruct He' as [[= E1 E2]|[[= E1 E2]|[[= E1 E2]|[]]]]; vm_compute; rewrite ?E1, ?E2; vm_compute; lia.
      - assert (He' : (σ 1, σ 2) ∈ [(I 1, I 2); (I 2, I 3); (I 4, I 5)]).
        { eapply x_edges; [|reflexivity]. apply (Hex _ D); [|done|vm_compute; done]. apply (Hh (e (Var 1) (Var 2))). by right; left. }
        rewrite !elem_of_cons, elem_of_nil in He'. destruct Hb as [->|[->|[]]]; (destruct He' as [[= E1 E2]|[[= E1 E2]|[[= E1 E2]|[]]]]; vm_compute; rewrite ?E1, ?E2; vm_compute; lia).
      - destruct Hb as [->|[]]. discriminate He.
      - destruct Hb as [->|[]]. discriminate He.
      - destruct Hb as [->|[]]. discriminate He. }
    assert (H : forall r : res (sstate nat_sr), match r with Ok _ => true | _ => false end = true -> exists s, r = Ok s) by (intros []; naive_solver).
    split; [apply H; vm_compute; reflexivity|]. split; [apply H; vm_compute; reflexivity|].
    do 5 (split; [vm_compute; reflexivity|]).
    assert (Hg : forall z, ground (I z)) by done.
    assert (Ha : needed w_cmp (fun _ _ => false) x_P x_outs (p (I 1) (I 3))).
    { apply (ND_asked w_cmp (fun _ _ => false) x_P x_outs (Rule (p (I 1) (Var 0)) []) (fun _ => I 3)); [by left|]. split; [done|].
      exists ∅. split; [intros x [? Hx]; by rewrite lookup_empty in Hx|]. intros b Hb. by apply elem_of_nil in Hb. }
    split; [done|].
    set (σ := fun v : nat => match v with 0 => I 1 | 1 => I 2 | _ => I 3 end).
    assert (Hl : live w_cmp (fun _ _ => false) x_P (Rule (p (Var 0) (Var 2)) [p (Var 0) (Var 1); e (Var 1) (Var 2)]) σ).
    { assert (Hfact : forall i j k, Rule (e (I i) (I j)) [I k] ∈ x_P -> derivable w_cmp (fun _ _ => false) x_P (e (I i) (I j))).
      { intros i j k Hin. apply (DV w_cmp (fun _ _ => false) x_P _ (fun _ => I 0) ∅ Hin); [done|intros x [? Hx]; by rewrite lookup_empty in Hx|].
        intros b Hb. apply elem_of_list_singleton in Hb as ->. done. }
      assert (He12 : derivable w_cmp (fun _ _ => false) x_P (e (I 1) (I 2))) by (apply (Hfact 1%Z 2%Z 2%Z); unfold x_P; set_solver).
      assert (He23 : derivable w_cmp (fun _ _ => false) x_P (e (I 2) (I 3))) by (apply (Hfact 2%Z 3%Z 3%Z); unfold x_P; set_solver).
      assert (Hp12 : derivable w_cmp (fun _ _ => false) x_P (p (I 1) (I 2))).
      { apply (DV w_cmp (fun _ _ => false) x_P (Rule (p (Var 0) (Var 1)) [e (Var 0) (Var 1)]) σ {[e (I 1) (I 2) := (true : bool_sr)]}); [by left| | |].
        - intros [|[|v]]; done.
        - intros x [? Hx]. apply lookup_singleton_Some in Hx as [<- _]. done.
        - intros b Hb. apply elem_of_list_singleton in Hb as ->. vm_compute. done. }
      split; [intros [|[|v]]; done|].
      exists {[e (I 2) (I 3) := (true : bool_sr); p (I 1) (I 2) := (true : bool_sr)]}. split.
      - intros x [? Hx]. apply lookup_insert_Some in Hx as [[<- _]|[_ Hx]]; [done|]. apply lookup_singleton_Some in Hx as [<- _]. done.
      - intros b Hb. cbn [rbody] in Hb. rewrite !elem_of_cons, elem_of_nil in Hb. destruct Hb as [->|[->|[]]]; vm_compute; done. }
    refine (ND_subgoal w_cmp (fun _ _ => false) x_P x_outs _ σ (p (Var 0) (Var 1)) _ Hl Ha _ _); [by right; left|by left|vm_compute; done].
  Qed.

  (** Without the condition that inputs are given by facts: the priority function
      discards the items that only rules for inputs use.
      [inputs: f(X). outputs: goal.] goal += f(X). f(1) += g. g += 2.
      The output loses its value. *)
  Definition y_P : list rule := [Rule goal [f (Var 0)]; Rule (f (I 1)) [g]; Rule g [I 2]].
  Definition y_outs : list rule := [Rule goal []].
  Theorem C51_inputs_refuted : exists s,
    x_scc [f (Var 0)] y_P y_outs = Ok s /\ wf_rules y_P /\ no_variables y_P /\ wf_asked y_outs /\
    needed w_cmp (fun _ _ => false) y_P y_outs goal /\ ~ inputs_given [f (Var 0)] y_P /\
    c_dict (s_chart s) !! goal = None /\ x_val (w_run w_pick y_P) goal = Some 2.
  Proof.
    assert (H : match x_scc [f (Var 0)] y_P y_outs with Ok s => Some (c_dict (s_chart s) !! goal) | _ => None end = Some None) by (vm_compute; reflexivity).
    destruct (x_scc [f (Var 0)] y_P y_outs) as [s| |]; [|discriminate H..]. injection H as H. exists s. split; [reflexivity|].
    split; [repeat constructor; try done; intros [Hx|Hx]; discriminate Hx|].
    split. { intros r v Hr. unfold y_P in Hr. rewrite !elem_of_cons, elem_of_nil in Hr. destruct Hr as [->|[->|[->|[]]]]; cbn; rewrite !elem_of_cons, elem_of_nil; naive_solver. }
    split. { split; [repeat constructor|]. split; [intros r v Hr; apply elem_of_list_singleton in Hr as ->; apply not_elem_of_nil|].
      intros o Ho. apply elem_of_list_singleton in Ho as ->. split; [vm_compute; done|]. unfold goal. cbn. eauto. }
    split. { apply (ND_asked w_cmp (fun _ _ => false) y_P y_outs (Rule goal []) (fun _ => I 0)); [by left|]. split; [done|].
      exists ∅. split; [intros x [? Hx]; by rewrite lookup_empty in Hx|]. intros b Hb. by apply elem_of_nil in Hb. }
    split. { intros Hin. destruct (Hin (Rule (f (I 1)) [g]) (fun _ => I 1)) with (b := g) as [k Hk]; [by right; left| |by left|discriminate Hk].
      exists (f (Var 0)), (fun _ => I 1). split; [by left|done]. }
    split; [exact H|]. vm_compute. reflexivity.
  Qed.
End witness.

Print Assumptions C51_pruned.
Print Assumptions C51_history.
Print Assumptions C51_scc.
Print Assumptions C51_same.
Print Assumptions C51_order.
Print Assumptions C51_fuel.
Print Assumptions C51_inputs_refuted.
