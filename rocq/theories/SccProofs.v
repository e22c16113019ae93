(** Proofs about the solver with priorities and about [scc_solver]. *)
From Coq Require Import List Permutation Lia.
From stdpp Require Import gmap relations.
From Coq Require String.
From Verif Require Import PyBase Semiring TermModel TermSpec TermProofs CoverProofs SetsModel SetsProofs PruneModel ProgSpec UnifyProofs GraphModel GraphSpec GraphProps
  SlashModel SlashRules SlashHalts TypesModel SolverModel ChartProofs SolverSpec SolverProofs SolverProps UpdateProofs EvalProofs CoarseProofs SccModel SccSpec.
Import ListNotations.
Local Open Scope list_scope.

(** * Subgoals that have a value *)
Lemma look_dom {R R' : semiring} (wt : const -> R) (wt' : const -> R') cmpf is_true (d : gmap term R) (d' : gmap term R') y :
  (forall x, is_Some (d !! x) -> is_Some (d' !! x)) -> look wt cmpf is_true d y <> None -> look wt' cmpf is_true d' y <> None.
Proof.
  intros Hd. assert (Hc : d !! y <> None -> d' !! y <> None).
  { intros H1. destruct (Hd y) as [v Hv]; [by apply not_eq_None_Some|congruence]. }
  destruct y as [v|k|l]; [exact Hc|done|]. destruct l as [|[v|[z|op]|l'] [|x [|z' [|? ?]]]]; try exact Hc.
  cbn. destruct (decide (op = _)); [by destruct (decide (x = z'))|]. destruct (decide (op ∈ cmps)); [by destruct (cmpf op x z') as [[]| |]|].
  destruct (decide (op = _)); [by destruct (is_true x z')|exact Hc].
Qed.

Lemma looks_some {R : semiring} (wt : const -> R) cmpf is_true (d : gmap term R) ys :
  looks wt cmpf is_true d ys <> None <-> forall y, y ∈ ys -> look wt cmpf is_true d y <> None.
Proof.
  split.
  - intros H y Hy Hn. apply H. apply (looks_none wt cmpf is_true). eauto.
  - intros H Hn. apply (looks_none wt cmpf is_true) in Hn as (y & Hy & Hn). by apply (H y).
Qed.

(** * The items that a run can put into the chart *)
Section keys.
Context {R : semiring} (wt : const -> R) (approx : R -> R -> bool) (ord : list term -> list term)
  (cmpf : String.string -> term -> term -> res bool)
  (is_run : nat -> store -> term -> term -> res (list store)) (is_true : term -> term -> bool).
Context (Hord : forall l, Permutation (ord l) l) (His : is_exact is_true is_run).
Context (Happrox : forall x y, approx x y = true -> x = y).
Context (keep : term -> bool) (P : list rule) (Hwf : wf_rules P) (Q : term -> Prop).
Context (HQ : forall r σ d, r ∈ P -> groundsub σ -> (forall x, is_Some (d !! x) -> Q x) ->
  (forall b, b ∈ rbody r -> look wt cmpf is_true d (sub σ b) <> None) -> Q (sub σ (rhead r))).

Definition keysQ (s : sstate R) : Prop :=
  (forall x, is_Some (s_change s !! x) -> Q x) /\ forall x, is_Some (c_dict (s_chart s) !! x) -> Q x.

Lemma fold_keys n r F d (L : list (store * list R)) st0 : forall s s',
  r ∈ P -> (forall x, is_Some (d !! x) -> Q x) ->
  (forall e, e ∈ L -> okst (rV r) (fst e) /\ st0 ⊆ fst e /\ forall σ, groundsub σ -> solves σ (fst e) -> looks wt cmpf is_true d (map (sub σ) (rbody r)) = Some (snd e)) ->
  keysQ s -> foldM (fun sw s => let* c := F sw in update_head keep n (fst sw) r c s) L s = Ok s' -> keysQ s'.
Proof using HQ.
  induction L as [|e L IH]; intros s s' Hr Hd HL Hs E; cbn [foldM] in E; [by injection E as <-|].
  destruct (F e) as [c| |]; [|discriminate..]. cbn [bind] in E.
  destruct (update_head keep n (fst e) r c s) as [s1| |] eqn:Eu; [|discriminate..]. cbn [bind] in E.
  destruct (HL e) as (Ho & _ & Hl); [by left|].
  destruct (update_head_ok keep (rV r) n (fst e) r c s s1 Ho Eu) as ([h ys] & [Hg Hi] & ->).
  refine (IH _ _ Hr Hd _ _ E); [intros e' He'; apply HL; by right|].
  unfold update. cbn [fst]. destruct (keep h); [|done]. destruct Hs as [Hs1 Hs2]. split; [|done]. cbn. intros x Hx.
  destruct (decide (h = x)) as [<-|Hne]; [|rewrite lookup_insert_ne in Hx by done; by apply Hs1].
  destruct (okst_solution _ _ Ho) as (σ & Hgσ & Hσ). destruct (Hi σ Hσ) as [Eh Eb]. cbn in Eh, Eb. rewrite <- Eh.
  apply (HQ r σ d Hr Hgσ Hd). intros b Hb.
  refine (proj1 (looks_some wt cmpf is_true d (map (sub σ) (rbody r))) _ _ _); [by rewrite (Hl σ Hgσ Hσ)|by apply elem_of_list_fmap_1].
Qed.

Lemma init_keys n i r s s' : r ∈ P -> state_ok keep s -> keysQ s -> init_rule wt ord cmpf is_run keep n i r s = Ok s' -> keysQ s'.
Proof using HQ Hord His Hwf Happrox.
  intros Hr Hs Hk E. unfold init_rule in E. destruct (decide (i ∈ s_init s)); [by injection E as <-|].
  assert (Hwr : Forall wf_goal (rbody r)) by (by apply (proj1 (Forall_forall _ _) Hwf)).
  destruct (join wt ord cmpf is_run n ∅ (rbody r) (s_chart s)) as [[rs ch]| |] eqn:Ej; [|discriminate..]. cbn [bind] in E.
  destruct (rule_join wt ord cmpf is_run is_true Hord His r n ∅ (s_chart s) rs ch Hwr) as (Hch & Hd & Hen & _); [apply Hs|apply okst_empty|done|].
  refine (fold_keys n r (fun sw => Ok (smul (fold_left smul (snd sw) sone) sone)) (c_dict (s_chart s)) rs ∅ _ s' Hr (proj2 Hk) Hen _ E).
  destruct Hk as [H1 H2]. split; [exact H1|]. cbn. by rewrite Hd.
Qed.

Lemma inits_keys n L : forall i s s',
  (forall k r, nth_error L k = Some r -> nth_error P (i + k) = Some r) -> state_ok keep s -> keysQ s ->
  init_rules wt ord cmpf is_run keep n i L s = Ok s' -> keysQ s'.
Proof using HQ Hord His Hwf Happrox.
  induction L as [|r L IH]; intros i s s' HL Hs Hk E; cbn [init_rules] in E; [by injection E as <-|].
  destruct (init_rule wt ord cmpf is_run keep n i r s) as [s1| |] eqn:E1; [|discriminate..]. cbn [bind] in E.
  assert (Hr : nth_error P i = Some r) by (rewrite <- (Nat.add_0_r i); by apply HL).
  destruct (init_rule_ok wt approx ord cmpf is_run is_true Hord His Happrox keep P n i r s s1 Hwf Hr Hs E1) as (H1 & _).
  refine (IH (S i) s1 s' _ H1 _ E).
  - intros k r' Hk'. replace (S i + k) with (i + S k) by lia. by apply HL.
  - eapply init_keys; [|exact Hs|exact Hk|exact E1]. apply elem_of_list_In. by eapply nth_error_In.
Qed.

Lemma drive_keys n a old Δ ik s s' : ground a -> state_ok keep s -> keysQ s ->
  drive wt ord cmpf is_run keep P n a old Δ ik s = Ok s' -> keysQ s'.
Proof using HQ Hord His Hwf Happrox.
  intros Hga Hs Hk E. destruct ik as [i k]. unfold drive in E. destruct (nth_error P i) as [r|] eqn:Hr; [|done].
  destruct (nth_error (rbody r) k) as [b|] eqn:Hb; [|done].
  assert (Hrin : r ∈ P) by (apply elem_of_list_In; by eapply nth_error_In).
  assert (Hwr : Forall wf_goal (rbody r)) by (by apply (proj1 (Forall_forall _ _) Hwf)).
  assert (Hbin : b ∈ rbody r) by (apply elem_of_list_In; by eapply nth_error_In).
  destruct (unify_f n ∅ a b) as [[st u]| |] eqn:Eu; [|discriminate..]. cbn [bind] in E. destruct u; [|by injection E as <-].
  destruct (unify_seed keep n r b a st true Hbin Hga Eu) as [Hst _].
  destruct (join wt ord cmpf is_run n st (rbody r) (s_chart s)) as [[rs ch]| |] eqn:Ej; [|discriminate..]. cbn [bind] in E.
  destruct (rule_join wt ord cmpf is_run is_true Hord His r n st (s_chart s) rs ch Hwr) as (Hch & Hd & Hen & _); [apply Hs|done|done|].
  refine (fold_keys n r _ (c_dict (s_chart s)) rs st _ s' Hrin (proj2 Hk) Hen _ E).
  destruct Hk as [H1 H2]. split; [exact H1|]. cbn. by rewrite Hd.
Qed.

Lemma drives_keys n d a Δ f0 args0 ds : forall s s',
  a = Fn (f0 :: args0) -> ground a -> (forall ik, ik ∈ ds -> ik ∈ drivers 0 P (f0, length args0)) ->
  let old := default szero (d !! a) in
  c_dict (s_chart s) = <[a := sadd old Δ]> d -> state_ok keep s -> keysQ s ->
  foldM (drive wt ord cmpf is_run keep P n a old Δ) ds s = Ok s' -> keysQ s'.
Proof using HQ Hord His Hwf Happrox.
  induction ds as [|[i k] ds IH]; intros s s' Ha Hga Hds old Hd Hs Hk E; cbn [foldM] in E; [by injection E as <-|].
  destruct (drive wt ord cmpf is_run keep P n a old Δ (i, k) s) as [s1| |] eqn:E1; [|discriminate..]. cbn [bind] in E.
  destruct (drive_ok wt ord cmpf is_run is_true Hord His keep P n d a Δ i k s s1 f0 args0 Hwf Ha Hga) as (H1 & H2 & _); [apply Hds; by left|exact Hd|exact Hs|exact E1|].
  assert (Hk1 : keysQ s1) by exact (drive_keys n a old Δ (i, k) s s1 Hga Hs Hk E1).
  refine (IH s1 s' Ha Hga _ _ H1 Hk1 E); [intros; apply Hds; by right|by rewrite H2].
Qed.

Lemma loop_keys pick n p : forall k s s', (forall i, i < length P -> i ∈ s_init s) -> state_ok keep s -> keysQ s ->
  fc_loop wt approx ord cmpf is_run keep pick P n p k s = Ok s' -> keysQ s'.
Proof using HQ Hord His Hwf Happrox.
  induction p as [|p IH]; intros k s s' Hin Hs Hk E; [done|]. cbn [fc_loop] in E.
  destruct (decide (s_agenda s = ∅)); [by injection E as <-|].
  set (a := pick k (s_agenda s)) in *. destruct (s_change s !! a) as [Δ|] eqn:Ea; [|done].
  assert (Hga : ground a /\ keep a = true) by (apply Hs; by eexists). destruct Hga as [Hga Hka].
  assert (HQa : Q a) by (apply (proj1 Hk); by eexists).
  set (s1 := SState (s_chart s) (delete a (s_change s)) (s_agenda s ∖ {[a]}) (s_init s)) in *.
  assert (Hs1 : state_ok keep s1).
  { destruct Hs as (H1 & H2 & H3 & H4). split; [done|]. split; [|split]; simpl.
    - intros x [v Hx]. apply lookup_delete_Some in Hx as [_ Hx]. apply H2. by eexists.
    - rewrite dom_delete_L. by rewrite H3.
    - done. }
  assert (Hk1 : keysQ s1).
  { destruct Hk as [H1 H2]. split; [|exact H2]. intros x [v Hx]. cbn in Hx. apply lookup_delete_Some in Hx as [_ Hx]. apply H1. by eexists. }
  destruct (approx _ _) eqn:Eap; [exact (IH _ s1 _ Hin Hs1 Hk1 E)|].
  destruct (chart_set a _ (s_chart s1)) as [ch| |] eqn:Ec; [|discriminate..]. cbn [bind] in E.
  destruct (chart_set_ok a _ (s_chart s) ch (proj1 (proj1 Hs)) Ec) as (Hix & Hd' & _).
  destruct (fn_args a) as [[f0 args0]| |] eqn:Efn; [|discriminate..]. cbn [bind] in E.
  assert (Ha : a = Fn (f0 :: args0)).
  { clear -Efn. destruct a as [|c|[|f l]]; try done. by injection Efn as -> ->. }
  destruct (foldM _ _ _) as [s2| |] eqn:Ef; [|discriminate..]. cbn [bind] in E.
  assert (Hs1' : state_ok keep (set_chart s1 ch)).
  { apply set_chart_ok; [done|split; [done|]|]; rewrite Hd'; intros x Hx; (destruct (decide (x = a)) as [->|Hne]; [done|]);
      rewrite lookup_insert_ne in Hx by done; destruct Hs as ([_ Hgr] & _ & _ & Hkc); [by apply Hgr|by apply Hkc]. }
  assert (Hk1' : keysQ (set_chart s1 ch)).
  { destruct Hk1 as [H1 H2]. split; [exact H1|]. cbn. rewrite Hd'. intros x Hx. destruct (decide (x = a)) as [->|Hne]; [done|].
    rewrite lookup_insert_ne in Hx by done. by apply H2. }
  destruct (drive_all wt ord cmpf is_run is_true Hord His keep P n (c_dict (s_chart s)) a Δ f0 args0 (drivers 0 P (f0, length args0)) (set_chart s1 ch) s2) as (D1 & D2 & D3 & _);
    [done|done|done|done|done|done|exact Ef|].
  refine (IH (S k) s2 s' _ D1 _ E); [by rewrite D3|].
  refine (drives_keys n (c_dict (s_chart s)) a Δ f0 args0 _ _ _ Ha Hga _ _ Hs1' Hk1' Ef); done.
Qed.

Lemma run_keys pick n p s :
  forward_chaining wt approx ord cmpf is_run keep pick P n p s_empty = Ok s -> forall x, is_Some (c_dict (s_chart s) !! x) -> Q x.
Proof using HQ Hord His Hwf Happrox.
  intros E. unfold forward_chaining in E.
  destruct (init_rules wt ord cmpf is_run keep n 0 P s_empty) as [s1| |] eqn:E1; [|discriminate..]. cbn [bind] in E.
  assert (H0 : keysQ s_empty) by (split; intros x [v Hx]; cbn in Hx; by rewrite lookup_empty in Hx).
  destruct (init_rules_ok wt approx ord cmpf is_run is_true Hord His Happrox keep P n P 0 s_empty s1) as (H1 & H2 & H3 & H4 & _); [done|done|apply state_ok_empty|done|].
  pose proof (inits_keys n P 0 s_empty s1 (fun _ _ H => H) (state_ok_empty keep) H0 E1) as Hk.
  exact (proj2 (loop_keys pick n p 0 s1 s H4 H1 Hk E)).
Qed.
End keys.

(** * The first pass *)
Lemma elem_remove_constants r b : b ∈ rbody (remove_constants r) <-> b ∈ rbody r /\ is_const b = false.
Proof. unfold remove_constants. cbn. by rewrite elem_of_list_In, filter_In, negb_true_iff, <- elem_of_list_In. Qed.

Lemma elem_mapM {A B} (f : A -> res B) l bs : PyBase.mapM f l = Ok bs ->
  (forall a, a ∈ l -> exists b, b ∈ bs /\ f a = Ok b) /\ forall b, b ∈ bs -> exists a, a ∈ l /\ f a = Ok b.
Proof.
  revert bs. induction l as [|a l IH]; intros bs E; cbn [PyBase.mapM] in E.
  - injection E as <-. split; intros ? H; by apply elem_of_nil in H.
  - destruct (f a) as [x| |] eqn:Ef; [|discriminate..]. cbn [bind] in E. destruct (PyBase.mapM f l) as [xs| |]; [|discriminate..].
    cbn [bind] in E. injection E as <-. destruct (IH _ eq_refl) as [H1 H2]. split.
    + intros a' [->|Ha]%elem_of_cons; [exists x; split; [by left|done]|]. destruct (H1 a' Ha) as (b & Hb & E). exists b. split; [by right|done].
    + intros b [->|Hb]%elem_of_cons; [exists a; split; [by left|done]|]. destruct (H2 b Hb) as (a' & Ha & E). exists a'. split; [by right|done].
Qed.

Lemma look_item {R : semiring} (wt : const -> R) cmpf' is_true' (d : gmap term R) y : exo y = false -> look wt cmpf' is_true' d y = d !! y.
Proof.
  intros Hy. destruct y as [v|k|l]; [done|done|]. destruct l as [|[v|[z|op]|l'] [|x [|z' [|? ?]]]]; try done.
  cbn in Hy. apply bool_decide_eq_false in Hy. cbn -[String.eqb].
  destruct (decide (op = _)) as [->|_]; [exfalso; apply Hy; set_solver|].
  destruct (decide (op ∈ cmps)) as [Hc|_]; [exfalso; apply Hy; unfold cmps in Hc; unfold builtin_sigs; set_solver|].
  destruct (decide (op = _)) as [->|_]; [exfalso; apply Hy; set_solver|done].
Qed.

Lemma exo_sub σ b : wf_goal b -> exo b = false -> exo (sub σ b) = false /\ exists c args, sub σ b = Fn (Cst c :: args).
Proof.
  intros Hw He. destruct b as [v|k|l]; [done|done|]. destruct l as [|[v|k|l'] args]; [done|done| |done].
  split; [|cbn; eauto]. unfold exo in *. destruct k as [z|f]; [done|]. cbn in *. by rewrite map_length.
Qed.

Section scc.
Context (ord : list term -> list term) (cmpf : String.string -> term -> term -> res bool)
  (is_run : nat -> store -> term -> term -> res (list store)) (is_true : term -> term -> bool).
Context (Hord : forall l, Permutation (ord l) l) (His : is_exact is_true is_run).
Notation lookb := (look (R := bool_sr) wtb cmpf is_true).
Notation holds := (holds cmpf is_true).
Notation derivable := (derivable cmpf is_true).
Notation live := (live cmpf is_true).
Notation needed := (needed cmpf is_true).

Lemma look_true (D c : gmap term bool_sr) y : (forall x, is_Some (D !! x) -> c !! x = Some (true : bool_sr)) -> holds D y -> lookb c y = Some (true : bool_sr).
Proof.
  intros Hd. assert (Hc : D !! y <> None -> c !! y = Some (true : bool_sr)) by (intros H1; apply Hd; by apply not_eq_None_Some).
  unfold SccSpec.holds. destruct y as [v|k|l]; [exact Hc|done|]. destruct l as [|[v|[z|op]|l'] [|x [|z' [|? ?]]]]; try exact Hc.
  cbn. destruct (decide (op = _)); [by destruct (decide (x = z'))|]. destruct (decide (op ∈ cmps)); [by destruct (cmpf op x z') as [[]| |]|].
  destruct (decide (op = _)); [by destruct (is_true x z')|exact Hc].
Qed.

Lemma holds_look (D : gmap term bool_sr) y : holds D y <-> lookb D y <> None.
Proof. split; intros H; [eapply look_dom; [|exact H]|eapply look_dom; [|exact H]]; done. Qed.

Lemma suml_bool {A} (L : list A) (f : A -> bool_sr) a : a ∈ L -> f a = (true : bool_sr) -> suml L f = (true : bool_sr).
Proof.
  intros Ha Hf. apply elem_of_list_split in Ha as (l1 & l2 & ->). rewrite suml_app, suml_cons, Hf.
  change (orb (suml l1 f) (orb true (suml l2 f)) = true). by rewrite orb_true_l, orb_true_r.
Qed.
Lemma prodl_bool (l : list bool_sr) : (forall v, v ∈ l -> v = (true : bool_sr)) -> prodl l = (true : bool_sr).
Proof.
  induction l as [|v l IH]; intros H; [done|]. cbn. rewrite (H v) by by left. change (andb true (prodl l) = true).
  rewrite IH; [done|]. intros; apply H; by right.
Qed.

Context (P : list rule) (Hwf : wf_rules P) (HnV : no_variables P).

Lemma bool_wf : wf_rules (booleanize P).
Proof using Hwf.
  unfold wf_rules, booleanize. rewrite Forall_forall. intros r' Hr. apply elem_of_list_fmap in Hr as (r & -> & Hr).
  rewrite Forall_forall. intros b Hb. apply elem_remove_constants in Hb as [Hb _].
  unfold wf_rules in Hwf. rewrite Forall_forall in Hwf. specialize (Hwf r Hr). rewrite Forall_forall in Hwf. by apply Hwf.
Qed.
Lemma bool_nV : no_variables (booleanize P).
Proof using HnV.
  intros r' v Hr Hv. apply elem_of_list_fmap in Hr as (r & -> & Hr). apply elem_remove_constants in Hv as [Hv _]. by apply (HnV r v).
Qed.

Lemma eqb_exact (x y : bool_sr) : Bool.eqb x y = true -> x = y.
Proof. apply eqb_prop. Qed.

Lemma pass1_ok pick n p s : forward_chaining (R := bool_sr) wtb Bool.eqb ord cmpf is_run all_kept pick (booleanize P) n p s_empty = Ok s ->
  SolverProofs.chart_ok (s_chart s) /\ (forall x, derivable P x -> c_dict (s_chart s) !! x = Some (true : bool_sr)) /\
  (forall x, is_Some (c_dict (s_chart s) !! x) -> derivable P x).
Proof using Hord His Hwf HnV.
  intros E. split; [|split].
  - destruct (forward_chaining_ok (R := bool_sr) wtb Bool.eqb ord cmpf is_run is_true Hord His eqb_exact all_kept pick (booleanize P) n p s_empty s bool_wf (state_ok_empty _) E) as (H & _). apply H.
  - pose proof (C23_solution_no_variables (R := bool_sr) wtb Bool.eqb ord cmpf is_run is_true Hord His eqb_exact pick (booleanize P) n p s bool_wf bool_nV E) as Hsol.
    set (c := c_dict (s_chart s)) in *. intros x Hx. induction Hx as [r σ D Hr Hg HD IH Hb].
    destruct (Hsol (sub σ (rhead r))) as (v & (L & _ & _ & HL & ->) & Heq).
    apply elem_of_list_In, In_nth_error in Hr as [i Hi].
    assert (Hinst : instances (booleanize P) (sub σ (rhead r)) (i, map (sub σ) (rbody (remove_constants r)))).
    { exists (remove_constants r). split; [unfold booleanize; by apply map_nth_error|]. by exists σ. }
    assert (Hval : prodl (map (val (R := bool_sr) wtb cmpf is_true c) (map (sub σ) (rbody (remove_constants r)))) = (true : bool_sr)).
    { apply prodl_bool. intros v Hv. rewrite map_map in Hv. apply elem_of_list_fmap in Hv as (b & -> & Hb').
      apply elem_remove_constants in Hb' as [Hb' _]. unfold val. by rewrite (look_true D c (sub σ b) IH (Hb b Hb')). }
    destruct (HL _ Hinst) as [Hin|Hz]; [|cbn [snd] in Hz; by rewrite Hval in Hz].
    rewrite (suml_bool L _ _ Hin Hval) in Heq. change (default false (c !! sub σ (rhead r)) = orb true false) in Heq. cbn in Heq.
    change (car bool_sr) with bool in *. destruct (c !! sub σ (rhead r)) as [w|]; cbn in Heq; [|discriminate Heq]. by rewrite Heq.
  - refine (run_keys (R := bool_sr) wtb Bool.eqb ord cmpf is_run is_true Hord His eqb_exact all_kept (booleanize P) bool_wf (derivable P) _ pick n p s E).
    intros r' σ d Hr Hg Hd Hb. apply elem_of_list_fmap in Hr as (r & -> & Hr). apply (DV cmpf is_true P r σ d Hr Hg Hd).
    intros b Hb'. destruct (is_const b) eqn:Ec; [by destruct b|]. apply holds_look, Hb. by apply elem_remove_constants.
Qed.

Context (al cv : nat -> nat) (inputs : list term).
Context (Hal : forall i j, al i = al j -> i = j) (Hcv : forall i j, cv i = cv j -> i = j) (Halcv : forall i j, al i <> cv j).
Notation is_input := (is_input inputs).

Lemma exo_run n y e : ground y -> is_exogenous inputs n ∅ y = Ok e -> (e = true <-> exo y = true \/ is_input y).
Proof.
  intros Hg E. unfold is_exogenous in E. destruct (snap n ∅ y) as [y'| |] eqn:Es; [|discriminate..]. cbn [bind] in E.
  assert (y' = y) as ->. { destruct y as [v|k|l]; [discriminate Hg| |]; destruct n; cbn in Es; congruence. }
  fold (exo y) in E. destruct (exo y) eqn:Ee; [injection E as <-; naive_solver|].
  destruct (okst_empty ∅) as (Hac & _). rewrite (any_unifies_run n ∅ inputs y e Hac E). unfold SccSpec.is_input. split.
  - intros (q & Hq & σ & _ & Hs). right. exists q, σ. split; [done|]. rewrite Hs. by apply sub_ground.
  - intros [?|(q & σ & Hq & Hs)]; [done|]. exists q. split; [done|]. exists σ. split; [intros v t H; by rewrite lookup_empty in H|].
    rewrite Hs. symmetry. by apply sub_ground.
Qed.

Context (ch : chart bool_sr) (Hch : SolverProofs.chart_ok ch).
Notation c1 := (c_dict ch).

Lemma joinb_ok V n st xs js ch' : okst V st -> (forall x, x ∈ xs -> in_V V x /\ goal_shape x) -> (forall v, Var v ∉ xs) ->
  joinb ord cmpf is_run n st xs ch = Ok (js, ch') ->
  (forall e, e ∈ js -> okst V (fst e) /\ st ⊆ fst e /\ forall σ, groundsub σ -> solves σ (fst e) -> forall b, b ∈ xs -> lookb c1 (sub σ b) <> None) /\
  forall σ, groundsub σ -> solves σ st -> (forall b, b ∈ xs -> lookb c1 (sub σ b) <> None) -> exists e, e ∈ js /\ solves σ (fst e).
Proof using Hord His Hch.
  intros Hst Hxs Hv E.
  destruct (join_ok (R := bool_sr) wtb ord cmpf is_run is_true Hord His V n xs st ch js ch' Hch Hst Hxs E) as (_ & _ & H1 & H2). split.
  - intros e He. destruct (H1 e He) as (Ho & Hs & Hl). split; [done|]. split; [done|]. intros σ Hg Hσ b Hb.
    refine (proj1 (looks_some wtb cmpf is_true c1 (map (sub σ) xs)) _ _ _); [by rewrite (Hl σ Hg Hσ)|by apply elem_of_list_fmap_1].
  - intros σ Hg Hσ Hb. specialize (H2 σ Hg (fun v Hin => False_ind _ (Hv v Hin)) Hσ).
    assert (Hl : looks wtb cmpf is_true c1 (map (sub σ) xs) <> None).
    { apply looks_some. intros y Hy. apply elem_of_list_fmap in Hy as (b & -> & Hb'). by apply Hb. }
    destruct (looks wtb cmpf is_true c1 (map (sub σ) xs)); [|done].
    destruct (List.filter (fun e => solvesb σ (fst e)) js) as [|e js'] eqn:Ef; [done|]. exists e.
    assert (Hin : In e (List.filter (fun e => solvesb σ (fst e)) js)) by (rewrite Ef; by left).
    apply filter_In in Hin as [Hin Hs]. split; [by apply elem_of_list_In|by apply solvesb_spec].
Qed.

Lemma goals_at_ok V n st bs ys σ : okst V st -> goals_at cv inputs n st bs = Ok ys -> solves σ st ->
  (forall b, b ∈ bs -> ground (sub σ b)) /\
  (forall y, y ∈ ys -> exists b, b ∈ bs /\ y = sub σ b /\ exo y = false /\ ~ is_input y) /\
  (forall b, b ∈ bs -> exo (sub σ b) = false -> ~ is_input (sub σ b) -> sub σ b ∈ ys).
Proof using Hcv.
  intros (Hac & _) E Hσ. destruct (acyclic_resolution _ Hac) as [θ Hθ]. unfold goals_at in E.
  destruct (forallM (is_ground n st) bs) as [g| |] eqn:Eg; [|discriminate..]. cbn [bind] in E. destruct g; [|discriminate].
  pose proof (proj1 (forallM_ground_ok st θ Hac Hθ n bs true Eg) eq_refl) as Hg.
  assert (Heq : forall b, b ∈ bs -> sub σ b = sub θ b).
  { intros b Hb. rewrite <- (resolution_most_general st θ σ Hac Hθ Hσ b). apply sub_ground, Hg. by apply elem_of_list_In. }
  assert (Hgr : forall b, b ∈ bs -> ground (sub σ b)) by (intros b Hb; rewrite Heq by done; apply Hg; by apply elem_of_list_In).
  match type of E with (let* ys := ?m in _) = _ => destruct m as [os| |] eqn:Em; [|discriminate..] end. cbn [bind] in E. injection E as <-.
  destruct (elem_mapM _ _ _ Em) as [M1 M2].
  assert (HM : forall b o, b ∈ bs -> (let* y := canonicalize cv n st b in let* e := is_exogenous inputs n ∅ y in Ok (if e then None else Some y)) = Ok o ->
    (o = None <-> exo (sub σ b) = true \/ is_input (sub σ b)) /\ forall y, o = Some y -> y = sub σ b).
  { intros b o Hb Eb. destruct (canonicalize cv n st b) as [y| |] eqn:Ec; [|discriminate..]. cbn [bind] in Eb.
    apply (canonicalize_ok st θ Hac Hθ) in Ec. rewrite <- Heq, (ground_canonical cv _ Hcv) in Ec by auto. subst y.
    destruct (is_exogenous inputs n ∅ (sub σ b)) as [e| |] eqn:Ee; [|discriminate..]. cbn [bind] in Eb. injection Eb as <-.
    pose proof (exo_run n _ e (Hgr b Hb) Ee). destruct e; naive_solver. }
  split; [done|]. split.
  - intros y Hy. apply elem_of_list_omap in Hy as (o & Ho & ->). destruct (M2 _ Ho) as (b & Hb & Eb).
    destruct (HM b _ Hb Eb) as [H1 H2]. pose proof (H2 y eq_refl) as ->. exists b. split; [done|]. split; [done|].
    split; [|intros Hi; discriminate (proj2 H1 (or_intror Hi))]. destruct (exo (sub σ b)) eqn:Ee; [|done]. discriminate (proj2 H1 (or_introl eq_refl)).
  - intros b Hb He Hi. destruct (M1 b Hb) as (o & Ho & Eb). destruct (HM b o Hb Eb) as [H1 H2]. apply elem_of_list_omap. exists o. split; [done|].
    destruct o as [y|]; [by rewrite (H2 y eq_refl)|]. destruct (proj1 H1 eq_refl); [congruence|done].
Qed.

Lemma fromcv_al t x v : (forall v, In v (vars t) -> exists j, v = al j) -> fromcv cv x -> In v (vars x) -> In v (vars t) -> False.
Proof using Halcv. intros Ht Hx H1 H2. destruct (Ht v H2) as [j ->]. destruct (Hx _ H1) as [i Hi]. by apply (Halcv j i). Qed.

Lemma match_rules_ok n x Q (HQ : forall r, r ∈ Q -> Forall wf_goal (rbody r) /\ forall v, Var v ∉ rbody r) (Hx : fromcv cv x) : forall c ms,
  match_rules al n x Q c = Ok ms ->
  (forall r' st, (r', st) ∈ ms -> exists V r ρ, r ∈ Q /\ okst V st /\ (forall b, b ∈ rbody r' -> in_V V b /\ goal_shape b) /\ (forall v, Var v ∉ rbody r') /\
     rhead r' = rename ρ (rhead r) /\ rbody r' = map (rename ρ) (rbody r) /\ forall σ, solves σ st -> sub σ (rhead r') = sub σ x) /\
  (forall r σ τ, r ∈ Q -> groundsub σ -> groundsub τ -> sub σ (rhead r) = sub τ x ->
     exists r' st σ', (r', st) ∈ ms /\ groundsub σ' /\ solves σ' st /\ sub σ' (rhead r') = sub σ (rhead r) /\ map (sub σ') (rbody r') = map (sub σ) (rbody r)).
Proof using Hal Halcv.
  induction Q as [|r Q IH]; intros c ms E; cbn [match_rules] in E.
  { injection E as <-. split; [intros r' st H; by apply elem_of_nil in H|intros r σ τ H; by apply elem_of_nil in H]. }
  destruct (fresh al n ∅ c (enc r)) as [[t c']| |] eqn:Ef; [|discriminate..]. cbn [bind] in E.
  destruct (unify_f n ∅ (rhead (dec t)) x) as [[st u]| |] eqn:Eu; [|discriminate..]. cbn [bind] in E.
  destruct (match_rules al n x Q c') as [rest| |] eqn:Er; [|discriminate..]. cbn [bind] in E.
  destruct (IH ltac:(intros; apply HQ; by right) c' rest Er) as [I1 I2].
  destruct (fresh_run al Hal n c (enc r) t c' Ef) as (Hv & _ & Hf).
  assert (Hfa : forall v, In v (vars t) -> exists j, v = al j) by (intros v Hv'; destruct (Hf v Hv') as (j & -> & _); eauto).
  pose proof (variant_sym _ _ Hv) as (ρ' & _ & Hρ'). destruct Hv as (ρ & _ & ->).
  change (rename ρ (enc r)) with (Fn (rename ρ (rhead r) :: map (rename ρ) (rbody r))) in *. cbn [dec rhead rbody] in *.
  set (h := rename ρ (rhead r)) in *. set (bs := map (rename ρ) (rbody r)) in *.
  set (V := list_to_set (vars (Fn (h :: bs)) ++ vars x) : gset nat).
  assert (HVh : in_V V h) by (intros v Hv'; unfold V; rewrite elem_of_list_to_set; apply elem_of_list_In, in_or_app; left; cbn; apply in_or_app; by left).
  assert (HVx : in_V V x) by (intros v Hv'; unfold V; rewrite elem_of_list_to_set; apply elem_of_list_In, in_or_app; by right).
  destruct (unify_V_ok V n ∅ h x st u (okst_empty V) HVh HVx Eu) as (Ho & _ & Hu). split.
  - intros r' st' Hin. assert (Hc : (u = true /\ r' = Rule h bs /\ st' = st) \/ (r', st') ∈ rest).
    { destruct u; injection E as <-; [apply elem_of_cons in Hin as [[= -> ->]|]; auto|by right]. }
    destruct Hc as [(-> & -> & ->)|Hin']; [|destruct (I1 r' st' Hin') as (V' & r0 & ρ0 & Hr0 & H); exists V', r0, ρ0; split; [by right|done]].
    destruct (HQ r) as [Hw Hnv]; [by left|]. rewrite Forall_forall in Hw.
    exists V, r, ρ. split; [by left|]. split; [done|]. cbn [rhead rbody]. split; [|split; [|split; [done|split; [done|]]]].
    + intros b Hb. split.
      * intros v Hv'. unfold V. rewrite elem_of_list_to_set. apply elem_of_list_In, in_or_app. left.
        eapply (vars_Fn_in _ b); [right; by apply elem_of_list_In|done].
      * apply elem_of_list_fmap in Hb as (b0 & -> & Hb0). specialize (Hw b0 Hb0). destruct b0 as [v|k|l]; [left; cbn; eauto|right; left; cbn; eauto|].
        destruct l as [|[v|k|l'] args]; try done. right; right. cbn; eauto.
    + intros v Hb. apply elem_of_list_fmap in Hb as (b0 & Eb & Hb0). destruct b0 as [w|k|l]; try done. by apply (Hnv w).
    + intros σ Hσ. by apply Hu.
  - intros r0 σ τ Hr0 Hg Hgτ Heq. apply elem_of_cons in Hr0 as [->|Hr0].
    + set (σ' := fun v => if decide (v ∈ vars (Fn (h :: bs))) then σ (ρ' v) else τ v).
      assert (Ht : sub σ' (Fn (h :: bs)) = sub σ (enc r)).
      { rewrite Hρ'. unfold rename at 1. rewrite sub_sub. apply sub_ext. intros v Hv'. unfold σ'. rewrite decide_True; [done|]. by apply elem_of_list_In. }
      cbn [sub map enc] in Ht. injection Ht as Hth Htb.
      assert (Hxx : sub σ' x = sub τ x).
      { apply sub_ext. intros v Hv'. unfold σ'. rewrite decide_False; [done|]. intros Hv2. apply elem_of_list_In in Hv2. by apply (fromcv_al _ x v Hfa Hx). }
      destruct u; [|exfalso; apply (Hu σ'); [intros v t H; by rewrite lookup_empty in H|congruence]].
      injection E as <-. exists (Rule h bs), st, σ'. split; [by left|]. split; [|split; [|done]].
      * intros v. unfold σ'. case_decide; [apply Hg|apply Hgτ].
      * apply Hu. split; [intros v t H; by rewrite lookup_empty in H|congruence].
    + destruct (I2 r0 σ τ Hr0 Hg Hgτ Heq) as (r' & st' & σ' & Hin & H). exists r', st', σ'. split; [|done]. destruct u; injection E as <-; [by right|done].
Qed.

Definition is_item (x : term) : bool := match x with Fn (Cst _ :: _) => true | _ => false end.
Definition all_look (r : rule) (σ : nat -> term) : Prop := forall b, b ∈ rbody r -> lookb c1 (sub σ b) <> None.

Lemma rule_goals V n st bs ys : okst V st -> (forall b, b ∈ bs -> in_V V b /\ goal_shape b) -> (forall v, Var v ∉ bs) ->
  (let* (js, _) := joinb ord cmpf is_run n st bs ch in
   let* yss := PyBase.mapM (fun j => goals_at cv inputs n (fst j) bs) js in Ok (concat yss)) = Ok ys ->
  (forall y, y ∈ ys -> ground y /\ exo y = false /\ ~ is_input y /\
     exists σ b, groundsub σ /\ solves σ st /\ (forall b, b ∈ bs -> lookb c1 (sub σ b) <> None) /\ b ∈ bs /\ y = sub σ b) /\
  (forall σ b, groundsub σ -> solves σ st -> (forall b, b ∈ bs -> lookb c1 (sub σ b) <> None) -> b ∈ bs ->
     exo (sub σ b) = false -> ~ is_input (sub σ b) -> sub σ b ∈ ys).
Proof using Hord His Hch Hcv.
  intros Hst Hbs Hv E. destruct (joinb ord cmpf is_run n st bs ch) as [[js ch']| |] eqn:Ej; [|discriminate..]. cbn [bind] in E.
  destruct (PyBase.mapM (fun j => goals_at cv inputs n (fst j) bs) js) as [yss| |] eqn:Em; [|discriminate..]. cbn [bind] in E. injection E as <-.
  destruct (joinb_ok V n st bs js ch' Hst Hbs Hv Ej) as [J1 J2]. destruct (elem_mapM _ _ _ Em) as [M1 M2]. split.
  - intros y Hy. apply elem_of_list_In, in_concat in Hy as (zs & Hzs & Hy). apply elem_of_list_In in Hzs, Hy.
    destruct (M2 zs Hzs) as (e & He & Eg). destruct (J1 e He) as (Ho & Hsub & Hl). destruct (okst_solution _ _ Ho) as (σ & Hg & Hσ).
    destruct (goals_at_ok V n (fst e) bs zs σ Ho Eg Hσ) as (G1 & G2 & _). destruct (G2 y Hy) as (b & Hb & -> & He1 & He2).
    split; [by apply G1|]. split; [done|]. split; [done|]. exists σ, b. split; [done|]. split; [by eapply solves_mono|]. split; [by apply Hl|done].
  - intros σ b Hg Hσ Hl Hb He Hi. destruct (J2 σ Hg Hσ Hl) as (e & Hin & Hse). destruct (M1 e Hin) as (zs & Hzs & Eg).
    destruct (J1 e Hin) as (Ho & _). destruct (goals_at_ok V n (fst e) bs zs σ Ho Eg Hse) as (_ & _ & G3).
    apply elem_of_list_In, in_concat. exists zs. split; apply elem_of_list_In; [done|by apply G3].
Qed.

Lemma bool_rules r : r ∈ booleanize P -> Forall wf_goal (rbody r) /\ forall v, Var v ∉ rbody r.
Proof using Hwf HnV.
  intros Hr. split; [pose proof bool_wf as H; unfold wf_rules in H; rewrite Forall_forall in H; by apply H|]. intros v Hv. by apply (bool_nV r v).
Qed.

Lemma deps_ok n x ys : is_item x = true -> fromcv cv x -> deps ord cmpf is_run al cv inputs n ch (booleanize P) x = Ok ys ->
  exo x = false /\ exists i, any_unifies n ∅ inputs x = Ok i /\
  (forall y, y ∈ ys -> ground y /\ exo y = false /\ ~ is_input y /\ is_item y = true /\ is_Some (c1 !! y) /\
     ((exists τ, groundsub τ /\ y = sub τ x) \/
      exists r σ b τ, r ∈ P /\ groundsub σ /\ groundsub τ /\ all_look r σ /\ sub σ (rhead r) = sub τ x /\ b ∈ rbody r /\ exo b = false /\ y = sub σ b)) /\
  (i = true -> forall τ, groundsub τ -> is_Some (c1 !! sub τ x) -> ~ is_input (sub τ x) -> sub τ x ∈ ys) /\
  (i = false -> forall r σ τ b, r ∈ P -> groundsub σ -> groundsub τ -> all_look r σ -> sub σ (rhead r) = sub τ x -> b ∈ rbody r -> exo b = false ->
     ~ is_input (sub σ b) -> sub σ b ∈ ys).
Proof using Hord His Hch Hcv Hal Halcv Hwf HnV.
  intros Hit Hx E. unfold deps, lookup_rules in E.
  destruct x as [|k|[|[v|k|l'] args]]; try discriminate Hit. set (x := Fn (Cst k :: args)) in *.
  assert (Hxs : forall τ, exo (sub τ x) = exo x) by (intros τ; unfold x, exo; destruct k; [done|]; cbn; by rewrite map_length).
  destruct (is_builtin x) eqn:Eb; [discriminate|]. split; [exact Eb|].
  destruct (any_unifies n ∅ inputs x) as [i| |] eqn:Ei; [|discriminate..]. cbn [bind] in E. exists i. split; [done|].
  assert (Hsh : forall y, exo y = false -> lookb c1 y <> None -> is_Some (c1 !! y)).
  { intros y He Hl. rewrite look_item in Hl by done. by apply not_eq_None_Some. }
  destruct i.
  - cbn [bind PyBase.mapM fst snd rbody] in E.
    destruct (let* (js, _) := joinb ord cmpf is_run n ∅ [x] ch in let* yss := PyBase.mapM (fun j => goals_at cv inputs n (fst j) [x]) js in Ok (concat yss)) as [zs| |] eqn:Ez; [|discriminate..].
    cbn [bind concat] in E. injection E as <-. rewrite app_nil_r.
    set (V := list_to_set (vars x) : gset nat).
    destruct (rule_goals V n ∅ [x] zs (okst_empty V)) as [G1 G2]; [| |exact Ez|].
    { intros b Hb. apply elem_of_list_singleton in Hb as ->. split; [intros v Hv; unfold V; rewrite elem_of_list_to_set; by apply elem_of_list_In|]. right; right. unfold x. eauto. }
    { intros v Hv. by apply elem_of_list_singleton in Hv. }
    split; [|split; [|done]].
    + intros y Hy. destruct (G1 y Hy) as (Hg & He & Hi & σ & b & Hgσ & _ & Hl & Hb & ->). apply elem_of_list_singleton in Hb as ->.
      split; [done|]. split; [done|]. split; [done|]. split; [done|]. split; [apply Hsh; [done|apply Hl; by left]|]. left. eauto.
    + intros _ τ Hgτ Hs Hi. apply G2; [done|intros v t H; by rewrite lookup_empty in H| |by left|by rewrite Hxs|done].
      intros b Hb. apply elem_of_list_singleton in Hb as ->. rewrite look_item by by rewrite Hxs. by apply not_eq_None_Some.
  - destruct (match_rules al n x (booleanize P) 0) as [ms| |] eqn:Em; [|discriminate..]. cbn [bind] in E.
    match type of E with (let* ls := ?m in _) = _ => destruct m as [ls| |] eqn:El; [|discriminate..] end. cbn [bind] in E. injection E as <-.
    destruct (elem_mapM _ _ _ El) as [M1 M2]. destruct (match_rules_ok n x (booleanize P) bool_rules Hx 0 ms Em) as [R1 R2].
    split; [|split; [done|]].
    + intros y Hy. apply elem_of_list_In, in_concat in Hy as (zs & Hzs & Hy). apply elem_of_list_In in Hzs, Hy.
      destruct (M2 zs Hzs) as ([r' st] & Hin & Ez). cbn [fst snd] in Ez.
      destruct (R1 r' st Hin) as (V & r & ρ & Hr & Ho & Hbs & Hnv & Hh & Hbd & Hu).
      destruct (rule_goals V n st (rbody r') zs Ho Hbs Hnv Ez) as [G1 _].
      destruct (G1 y Hy) as (Hg & He & Hi & σ & b & Hgσ & Hσ & Hl & Hb & ->).
      apply elem_of_list_fmap in Hr as (r0 & -> & Hr0). rewrite Hbd in Hb. apply elem_of_list_fmap in Hb as (b0 & -> & Hb0).
      apply elem_remove_constants in Hb0 as [Hb0 Hc0].
      assert (Hs : forall t, sub σ (rename ρ t) = sub (fun v => σ (ρ v)) t) by (intros t; unfold rename; by rewrite sub_sub).
      assert (Hw : wf_goal b0). { unfold wf_rules in Hwf. rewrite Forall_forall in Hwf. specialize (Hwf r0 Hr0). rewrite Forall_forall in Hwf. by apply Hwf. }
      assert (He0 : exo b0 = false).
      { rewrite Hs in He. destruct b0 as [v|k0|[|[v|k0|l'] args0]]; try done; [exfalso; by apply (HnV r0 v)|].
        unfold exo in *. destruct k0; [done|]. cbn in *. by rewrite map_length in He. }
      rewrite Hs in *. destruct (exo_sub (fun v => σ (ρ v)) b0 Hw He0) as [_ (c & args0 & Ha)].
      split; [done|]. split; [done|]. split; [done|]. split; [by rewrite Ha|].
      split; [apply Hsh; [done|]; rewrite <- Hs; apply Hl; rewrite Hbd; apply elem_of_list_fmap_1; by apply elem_remove_constants|].
      right. exists r0, (fun v => σ (ρ v)), b0, σ. split; [done|]. split; [intros v; apply Hgσ|]. split; [done|]. split; [|split; [|done]].
      * intros b Hb. destruct (is_const b) eqn:Ec; [by destruct b|]. rewrite <- Hs. apply Hl. rewrite Hbd. apply elem_of_list_fmap_1. by apply elem_remove_constants.
      * rewrite <- Hs, <- (Hu σ Hσ), Hh. done.
    + intros _ r σ τ b Hr Hgσ Hgτ Hl Hh Hb He Hi.
      assert (Hr' : remove_constants r ∈ booleanize P) by (by apply elem_of_list_fmap_1).
      destruct (R2 (remove_constants r) σ τ Hr' Hgσ Hgτ Hh) as (r' & st & σ' & Hin & Hg' & Hσ' & _ & Hbs).
      destruct (M1 _ Hin) as (zs & Hzs & Ez). cbn [fst snd] in Ez.
      destruct (R1 r' st Hin) as (V & _ & _ & _ & Ho & Hsh' & Hnv & _).
      destruct (rule_goals V n st (rbody r') zs Ho Hsh' Hnv Ez) as [_ G2].
      assert (Hall : forall b', b' ∈ rbody r' -> lookb c1 (sub σ' b') <> None).
      { intros b' Hb'. assert (Hm : sub σ' b' ∈ map (sub σ) (rbody (remove_constants r))) by (rewrite <- Hbs; by apply elem_of_list_fmap_1).
        apply elem_of_list_fmap in Hm as (b2 & -> & Hb2). apply elem_remove_constants in Hb2 as [Hb2 _]. by apply Hl. }
      assert (Hm : sub σ b ∈ map (sub σ') (rbody r')).
      { rewrite Hbs. apply elem_of_list_fmap_1. apply elem_remove_constants. split; [done|]. unfold exo in He. apply orb_false_iff in He. apply He. }
      apply elem_of_list_fmap in Hm as (b' & Eb' & Hb').
      assert (Hw : wf_goal b). { unfold wf_rules in Hwf. rewrite Forall_forall in Hwf. specialize (Hwf r Hr). rewrite Forall_forall in Hwf. by apply Hwf. }
      apply elem_of_list_In, in_concat. exists zs. split; apply elem_of_list_In; [done|]. rewrite Eb'. apply G2; [done|done|done|done| |by rewrite <- Eb'].
      rewrite <- Eb'. by apply exo_sub.
Qed.

Lemma asked_ok n outs roots : wf_asked outs -> asked_for ord cmpf is_run cv n ch outs = Ok roots ->
  (forall k, k ∈ roots -> is_item k = true /\ fromcv cv k /\
     forall τ, groundsub τ -> exists o σ, o ∈ outs /\ groundsub σ /\ all_look o σ /\ sub σ (rhead o) = sub τ k) /\
  (forall o σ, o ∈ outs -> groundsub σ -> all_look o σ -> exists k τ, k ∈ roots /\ groundsub τ /\ sub σ (rhead o) = sub τ k).
Proof using Hord His Hch Hcv.
  intros (Hw & Hnv & Hhd) E. unfold asked_for in E.
  match type of E with (let* ls := ?m in _) = _ => destruct m as [ls| |] eqn:El; [|discriminate..] end. cbn [bind] in E. injection E as <-.
  destruct (elem_mapM _ _ _ El) as [M1 M2].
  assert (HO : forall o zs, o ∈ outs -> (let* (js, _) := joinb ord cmpf is_run n ∅ (rbody o) ch in PyBase.mapM (fun j => canonicalize cv n (fst j) (rhead o)) js) = Ok zs ->
    (forall k, k ∈ zs -> is_item k = true /\ fromcv cv k /\ forall τ, groundsub τ -> exists σ, groundsub σ /\ all_look o σ /\ sub σ (rhead o) = sub τ k) /\
    (forall σ, groundsub σ -> all_look o σ -> exists k τ, k ∈ zs /\ groundsub τ /\ sub σ (rhead o) = sub τ k)).
  { intros o zs Ho Ez. destruct (joinb ord cmpf is_run n ∅ (rbody o) ch) as [[js ch']| |] eqn:Ej; [|discriminate..]. cbn [bind] in Ez.
    set (V := list_to_set (vars (enc o)) : gset nat).
    assert (Hwo : Forall wf_goal (rbody o)) by (unfold wf_rules in Hw; rewrite Forall_forall in Hw; by apply Hw). rewrite Forall_forall in Hwo.
    destruct (joinb_ok V n ∅ (rbody o) js ch' (okst_empty V)) as [J1 J2]; [| |exact Ej|].
    { intros b Hb. split.
      - intros v Hv. unfold V. rewrite elem_of_list_to_set. apply elem_of_list_In. eapply (vars_Fn_in _ b); [right; by apply elem_of_list_In|done].
      - specialize (Hwo b Hb). destruct b as [v|k|[|[v|k|l'] args]]; try done; unfold goal_shape; eauto 7. }
    { intros v Hv. by apply (Hnv o v). }
    destruct (elem_mapM _ _ _ Ez) as [N1 N2]. destruct (Hhd o Ho) as (_ & c & args & Hh). split.
    - intros k Hk. destruct (N2 k Hk) as (e & He & Ek). destruct (J1 e He) as (Hoe & _ & Hl). destruct Hoe as (Hac & Hoe).
      destruct (acyclic_resolution _ Hac) as [θ Hθ]. apply (canonicalize_ok (fst e) θ Hac Hθ) in Ek. subst k.
      split; [|split; [apply canonical_fromcv|]].
      + rewrite Hh. done.
      + intros τ Hgτ. destruct (canonical_variant cv (sub θ (rhead o)) Hcv) as (ρ & _ & Hρ). rewrite Hρ. unfold rename. rewrite !sub_sub.
        set (σ := fun v => sub (fun w => τ (ρ w)) (θ v)). exists σ.
        assert (Hgσ : groundsub σ). { intros v. unfold σ. apply ground_sub_all. intros w. apply Hgτ. }
        assert (Hσ : solves σ (fst e)). { intros v t Hvt. unfold σ. rewrite (proj1 Hθ v t Hvt), sub_sub. done. }
        split; [done|]. split; [intros b Hb; by apply Hl|]. done.
    - intros σ Hg Hl. destruct (J2 σ Hg) as (e & He & Hse); [intros v t H; by rewrite lookup_empty in H|exact Hl|].
      destruct (N1 e He) as (k & Hk & Ek). destruct (J1 e He) as ((Hac & Hoe) & _).
      destruct (acyclic_resolution _ Hac) as [θ Hθ]. apply (canonicalize_ok (fst e) θ Hac Hθ) in Ek.
      destruct (variant_sym _ _ (canonical_variant cv (sub θ (rhead o)) Hcv)) as (ρ & _ & Hρ).
      exists k, (fun v => σ (ρ v)). split; [done|]. split; [intros v; apply Hg|].
      rewrite <- (resolution_most_general (fst e) θ σ Hac Hθ Hse (rhead o)), Hρ, Ek. unfold rename. by rewrite sub_sub. }
  split.
  - intros k Hk. apply elem_of_list_In, in_concat in Hk as (zs & Hzs & Hk). apply elem_of_list_In in Hzs, Hk.
    destruct (M2 zs Hzs) as (o & Ho & Ez). destruct (HO o zs Ho Ez) as [H1 _]. destruct (H1 k Hk) as (Ha & Hb & Hc).
    split; [done|]. split; [done|]. intros τ Hτ. destruct (Hc τ Hτ) as (σ & ?). by exists o, σ.
  - intros o σ Ho Hg Hl. destruct (M1 o Ho) as (zs & Hzs & Ez). destruct (HO o zs Ho Ez) as [_ H2]. destruct (H2 σ Hg Hl) as (k & τ & Hk & ?).
    exists k, τ. split; [|done]. apply elem_of_list_In, in_concat. exists zs. by split; apply elem_of_list_In.
Qed.

(** * The numbered components *)
Lemma elem_number Cs : forall i0 x i, (x, i) ∈ number i0 Cs <-> exists j C, nth_error Cs j = Some C /\ x ∈ C /\ i = i0 + j.
Proof.
  induction Cs as [|C Cs IH]; intros i0 x i; cbn [number].
  - rewrite elem_of_nil. split; [done|]. by intros ([|j] & C & H & _).
  - rewrite elem_of_app, IH. split.
    + intros [H|(j & C' & H1 & H2 & ->)].
      * apply elem_of_list_fmap in H as (y & [= -> ->] & Hy). exists 0, C. rewrite elem_of_elements in Hy. split; [done|]. split; [done|lia].
      * exists (S j), C'. split; [done|]. split; [done|lia].
    + intros ([|j] & C' & H1 & H2 & ->); cbn in H1.
      * injection H1 as <-. left. apply elem_of_list_fmap. exists x. rewrite Nat.add_0_r. split; [done|]. by rewrite elem_of_elements.
      * right. exists j, C'. split; [done|]. split; [done|lia].
Qed.

Notation Q := (booleanize P).
Notation deps_ := (deps ord cmpf is_run al cv inputs).
Context (Hsnd : forall x, is_Some (c1 !! x) -> derivable P x) (Hcmp : forall x, derivable P x -> c1 !! x = Some (true : bool_sr)).
Context (outs : list rule) (Hasked : wf_asked outs) (Hgiven : inputs_given inputs P).

Lemma live_look r σ : live P r σ <-> groundsub σ /\ all_look r σ.
Proof using Hsnd Hcmp.
  split.
  - intros (Hg & D & HD & Hb). split; [done|]. intros b Hb'. rewrite (look_true D c1 (sub σ b)); [done| |by apply Hb]. intros x Hx. by apply Hcmp, HD.
  - intros [Hg Hl]. split; [done|]. exists c1. split; [done|]. intros b Hb. apply holds_look. by apply Hl.
Qed.
Lemma live_derivable r σ : r ∈ P -> live P r σ -> derivable P (sub σ (rhead r)).
Proof. intros Hr (Hg & D & HD & Hb). by apply (DV cmpf is_true P r σ D). Qed.

Lemma c1_ground x : is_Some (c1 !! x) -> ground x.
Proof using Hch. apply Hch. Qed.

Lemma ground_fromcv x : ground x -> fromcv cv x.
Proof. intros Hg v Hv. rewrite Hg in Hv. destruct Hv. Qed.

Lemma index_ok n scc : scc_index ord cmpf is_run al cv inputs n ch Q outs = Ok scc ->
  exists roots, asked_for ord cmpf is_run cv n ch outs = Ok roots /\
  (forall k, (exists i, (k, i) ∈ scc) <-> exists r, r ∈ roots /\ reach (succs ord cmpf is_run al cv inputs n ch Q) r k) /\
  (forall k i, (k, i) ∈ scc -> is_item k = true /\ fromcv cv k /\ exists ys, deps_ n ch Q k = Ok ys /\ forall y, y ∈ ys -> exists j, j <= i /\ (y, j) ∈ scc) /\
  (forall k i j, (k, i) ∈ scc -> (k, j) ∈ scc -> i = j).
Proof using Hord His Hch Hcv Hal Halcv Hwf HnV Hasked.
  clear Hsnd Hcmp Hgiven. intros E. unfold scc_index in E. destruct (asked_for ord cmpf is_run cv n ch outs) as [roots| |] eqn:Ea; [|discriminate..]. cbn [bind] in E.
  exists roots. split; [done|]. destruct (asked_ok n outs roots Hasked Ea) as [A1 _].
  set (U := list_to_set roots ∪ dom c1 : gset term) in *. set (sc := succs ord cmpf is_run al cv inputs n ch Q) in *.
  set (U' := filter (fun x => is_item x = true) U).
  assert (HU' : forall x, x ∈ U' <-> is_item x = true /\ (x ∈ roots \/ is_Some (c1 !! x))).
  { intros x. unfold U'. rewrite elem_of_filter. unfold U. rewrite elem_of_union, elem_of_list_to_set, elem_of_dom. done. }
  assert (Hcvx : forall x, x ∈ U' -> is_item x = true /\ fromcv cv x).
  { intros x Hx. apply HU' in Hx as [Hi [Hx|Hx]]; [split; [done|]; by apply A1|]. split; [done|]. by apply ground_fromcv, c1_ground. }
  assert (Hclosed : forall x y, x ∈ U' -> In y (sc x) -> y ∈ U').
  { intros x y Hx Hy. destruct (Hcvx x Hx) as [Hi Hf]. unfold sc, succs in Hy. destruct (deps_ n ch Q x) as [ys| |] eqn:Ed; [|done..].
    destruct (deps_ok n x ys Hi Hf Ed) as (_ & i & _ & D & _). apply elem_of_list_In in Hy. destruct (D y Hy) as (_ & _ & _ & H1 & H2 & _). apply HU'. auto. }
  destruct (C20_tarjan term _ _ sc U' roots (S (size U)) Hclosed) as (Cs & Et & _ & Huniq & Hreach & _ & Hord').
  { intros r Hr. apply elem_of_list_In in Hr. apply HU'. split; [by apply A1|by left]. }
  { assert (size U' <= size U) by (apply subseteq_size; unfold U'; set_solver). lia. }
  rewrite Et in E. cbn [bind] in E. destruct (PyBase.mapM (deps_ n ch Q) (concat (map elements Cs))) as [dss| |] eqn:Em; [|discriminate..].
  cbn [bind] in E. injection E as <-. destruct (elem_mapM _ _ _ Em) as [M1 _].
  assert (Hk : forall k, (exists i, (k, i) ∈ number 0 Cs) <-> exists C, In C Cs /\ k ∈ C).
  { intros k. split.
    - intros (i & Hi). apply elem_number in Hi as (j & C & Hj & Hkc & _). exists C. split; [by eapply nth_error_In|done].
    - intros (C & HC & Hkc). apply In_nth_error in HC as [j Hj]. exists j. apply elem_number. exists j, C. done. }
  split; [|split].
  - intros k. rewrite Hk, Hreach. split; intros (r & Hr & H); exists r; (split; [by apply elem_of_list_In|done]).
  - intros k i Hki. assert (HkU : k ∈ U').
    { destruct (proj1 (Hreach k)) as (r & Hr & Hrk); [apply Hk; eauto|]. clear -Hr Hrk Hclosed A1 HU'.
      assert (Hr' : r ∈ U') by (apply elem_of_list_In in Hr; apply HU'; split; [by apply A1|by left]). clear Hr.
      induction Hrk as [x|x y z Hxy Hyz IH]; [done|]. apply IH. by eapply Hclosed. }
    destruct (Hcvx k HkU) as [H1 H2]. split; [done|]. split; [done|].
    apply elem_number in Hki as (j & C & Hj & Hkc & ->). cbn [plus].
    destruct (M1 k) as (ys & _ & Ed).
    { apply elem_of_list_In, in_concat. exists (elements C). split; [apply in_map; by eapply nth_error_In|]. apply elem_of_list_In. by rewrite elem_of_elements. }
    exists ys. split; [done|]. intros y Hy. destruct (Hord' j C k y Hj Hkc) as (j' & D & Hle & Hj' & HyD).
    { unfold sc, succs. rewrite Ed. by apply elem_of_list_In. }
    exists j'. split; [done|]. apply elem_number. exists j', D. done.
  - intros k i j Hi Hj. apply elem_number in Hi as (i' & C & Hi & Hc & ->). apply elem_number in Hj as (j' & D & Hj & Hd & ->). f_equal. by eapply Huniq.
Qed.

Section index.
Context (n : nat) (scc : list (term * nat)) (Escc : scc_index ord cmpf is_run al cv inputs n ch Q outs = Ok scc).
Definition covers_at (k : term) (i : nat) (z : term) : Prop := (k, i) ∈ scc /\ exists τ, groundsub τ /\ sub τ k = z.

Lemma not_input_any z i : ground z -> ~ is_input z -> any_unifies n ∅ inputs z = Ok i -> i = false.
Proof.
  intros Hg Hi E. destruct i; [|done]. exfalso. apply Hi. destruct (okst_empty ∅) as (Hac & _).
  destruct (proj1 (any_unifies_run n ∅ inputs z true Hac E) eq_refl) as (q & Hq & σ & _ & Hs).
  exists q, σ. split; [done|]. rewrite Hs. by apply sub_ground.
Qed.

Lemma index_step k i z r σ b : covers_at k i z -> r ∈ P -> live P r σ -> sub σ (rhead r) = z -> ~ is_input z ->
  b ∈ rbody r -> exo b = false -> ~ is_input (sub σ b) -> exists j, j <= i /\ (sub σ b, j) ∈ scc.
Proof using Hord His Hch Hcv Hal Halcv Hwf HnV Hasked Hsnd Hcmp Escc.
  intros (Hk & τ & Hgτ & Hz) Hr Hlive Hh Hiz Hb Heb Hib.
  destruct (index_ok n scc Escc) as (roots & _ & _ & I2 & _). destruct (proj1 (live_look r σ) Hlive) as [Hg Hl].
  destruct (I2 k i Hk) as (Hit & Hf & ys & Ed & Hys).
  destruct (deps_ok n k ys Hit Hf Ed) as (_ & u & Eu & D1 & D2 & D3). destruct u.
  - assert (Hzs : is_Some (c1 !! sub τ k)). { rewrite Hz, <- Hh. rewrite Hcmp; [done|]. by apply live_derivable. }
    pose proof (D2 eq_refl τ Hgτ Hzs ltac:(by rewrite Hz)) as Hin. rewrite Hz in Hin.
    destruct (D1 z Hin) as (Hgz & _). destruct (Hys z Hin) as (j & Hj & Hzj).
    destruct (I2 z j Hzj) as (Hitz & Hfz & zs & Edz & Hzz). destruct (deps_ok n z zs Hitz Hfz Edz) as (_ & u & Eu' & _ & _ & D3').
    pose proof (not_input_any z u Hgz Hiz Eu') as ->.
    destruct (Hzz (sub σ b)) as (j' & Hj' & Hin').
    { apply (D3' eq_refl r σ σ b Hr Hg Hg Hl); [by rewrite Hh, sub_ground|done|done|done]. }
    exists j'. split; [lia|done].
  - apply Hys. apply (D3 eq_refl r σ τ b Hr Hg Hgτ Hl); [congruence|done|done|done].
Qed.

Lemma needed_covered z : needed P outs z -> ~ is_input z -> exists k i, covers_at k i z.
Proof using Hord His Hch Hcv Hal Halcv Hwf HnV Hasked Hsnd Hcmp Escc Hgiven.
  intros Hz. induction Hz as [o σ Ho Hlive|r σ b Hr Hlive Hz IH Hb Heb]; intros Hi.
  - destruct (index_ok n scc Escc) as (roots & Ea & I1 & _). destruct (asked_ok n outs roots Hasked Ea) as [_ A2].
    destruct (proj1 (live_look o σ) Hlive) as [Hg Hl]. destruct (A2 o σ Ho Hg Hl) as (k & τ & Hk & Hgτ & Heq).
    destruct (proj2 (I1 k)) as [i Hki]; [exists k; split; [done|apply rtc_refl]|]. exists k, i. split; [done|]. eauto.
  - assert (Hni : ~ is_input (sub σ (rhead r))). { intros Hin. destruct (Hgiven r σ Hr Hin b Hb) as [k ->]. done. }
    destruct (IH Hni) as (k & i & Hc). destruct (index_step k i _ r σ b Hc Hr Hlive eq_refl Hni Hb Heb Hi) as (j & _ & Hj).
    exists (sub σ b), j. split; [done|]. exists σ. split; [exact (proj1 Hlive)|]. apply sub_ground, ground_sub_all. exact (proj1 Hlive).
Qed.

Lemma covered_needed k i z : covers_at k i z -> derivable P z -> needed P outs z.
Proof using Hord His Hch Hcv Hal Halcv Hwf HnV Hasked Hsnd Hcmp Escc.
  intros [Hk (τ & Hgτ & Hz)] Hd. destruct (index_ok n scc Escc) as (roots & Ea & I1 & I2 & _). destruct (asked_ok n outs roots Hasked Ea) as [A1 _].
  destruct (proj1 (I1 k)) as (r & Hr & Hrk); [eauto|].
  assert (Hkey : exists i, (r, i) ∈ scc) by (apply I1; exists r; split; [done|apply rtc_refl]).
  assert (HN : forall τ, groundsub τ -> derivable P (sub τ r) -> needed P outs (sub τ r)).
  { intros τ' Hg' _. destruct (A1 r Hr) as (_ & _ & A). destruct (A τ' Hg') as (o & σ & Ho & Hgσ & Hl & <-). apply ND_asked; [done|]. by apply live_look. }
  clear Hr Hk. revert Hkey HN. induction Hrk as [x|x y w Hxy Hyw IH]; intros Hkey HN.
  - rewrite <- Hz. apply HN; [done|]. by rewrite Hz.
  - destruct Hkey as [j Hj]. destruct (I2 x j Hj) as (Hit & Hf & ys & Ed & Hys). unfold succs in Hxy. rewrite Ed in Hxy. apply elem_of_list_In in Hxy.
    destruct (deps_ok n x ys Hit Hf Ed) as (_ & u & _ & D1 & _). destruct (D1 y Hxy) as (Hgy & _ & _ & _ & Hsy & Hc).
    apply (IH Hz); [destruct (Hys y Hxy) as (j' & _ & ?); eauto|]. intros τ' Hg' _. rewrite (sub_ground τ' y Hgy).
    destruct Hc as [(τ2 & Hg2 & ->)|(r & σ & b & τ2 & Hr & Hgσ & Hg2 & Hl & Hh & Hb & Heb & ->)].
    + apply HN; [done|]. by apply Hsnd.
    + assert (Hlive : live P r σ) by (by apply live_look). apply (ND_subgoal cmpf is_true P outs r σ b Hr Hlive); [|done|done].
      rewrite Hh. apply HN; [done|]. rewrite <- Hh. by apply live_derivable.
Qed.

Lemma get_index_ok z : match get_index z scc with Some m => exists i, m = i + 1 /\ (z, i) ∈ scc | None => forall i, (z, i) ∉ scc end.
Proof.
  clear Escc. induction scc as [|[k i] l IH]; cbn [get_index]; [intros i; apply not_elem_of_nil|].
  destruct (decide (z = k)) as [->|Hne]; [exists i; split; [done|by left]|].
  destruct (get_index z l) as [m|].
  - destruct IH as (j & -> & Hj). exists j. split; [done|by right].
  - intros j [Hj|Hj]%elem_of_cons; [congruence|by apply (IH j)].
Qed.

Lemma best_index_ok n' z l : ground z -> forall best o, best_index n' z l best = Ok o ->
  (o = None -> best = None /\ forall k i τ, (k, i) ∈ l -> sub τ k <> z) /\
  (forall m, o = Some m -> best = Some m \/ exists k i τ, (k, i) ∈ l /\ m = i + 1 /\ groundsub τ /\ sub τ k = z) /\
  (forall m, o = Some m -> (forall b, best = Some b -> m <= b) /\ forall k i τ, (k, i) ∈ l -> sub τ k = z -> m <= i + 1).
Proof.
  intros Hg. induction l as [|[k i] l IH]; intros best o E; cbn [best_index] in E.
  { injection E as <-. split; [|split].
    - intros ->. split; [done|]. intros k i τ H. by apply elem_of_nil in H.
    - intros m ->. by left.
    - intros m ->. split; [intros b [= ->]; lia|]. intros k i τ H. by apply elem_of_nil in H. }
  destruct (unify_f n' ∅ k z) as [[st u]| |] eqn:Eu; [|discriminate..]. cbn [bind] in E.
  set (V := list_to_set (vars k ++ vars z) : gset nat).
  destruct (unify_V_ok V n' ∅ k z st u (okst_empty V)) as (Ho & _ & Hu); [| |exact Eu|].
  { intros v Hv. unfold V. rewrite elem_of_list_to_set. apply elem_of_list_In, in_or_app. by left. }
  { intros v Hv. unfold V. rewrite elem_of_list_to_set. apply elem_of_list_In, in_or_app. by right. }
  assert (Hempty : forall σ, solves σ ∅) by (intros σ v t H; by rewrite lookup_empty in H).
  destruct (IH _ o E) as (I1 & I2 & I3). destruct u.
  - destruct (okst_solution _ _ Ho) as (τ & Hgτ & Hτ). assert (Hkz : sub τ k = z).
    { rewrite <- (sub_ground τ z Hg). by apply Hu. }
    split; [|split].
    + intros ->. destruct (I1 eq_refl) as [? _]. discriminate.
    + intros m ->. destruct (I2 m eq_refl) as [H|(k' & i' & τ' & H1 & H2)]; [|right; exists k', i', τ'; split; [by right|done]].
      injection H as H. destruct best as [b|].
      * destruct (Nat.min_spec b (i + 1)) as [[_ H']|[_ H']]; rewrite H' in H; subst m; [by left|]. right. exists k, i, τ. split; [by left|done].
      * subst m. right. exists k, i, τ. split; [by left|done].
    + intros m ->. destruct (I3 m eq_refl) as [H1 H2]. specialize (H1 _ eq_refl). split.
      * intros b ->. lia.
      * intros k' i' τ' [[= -> ->]|Hin]%elem_of_cons Hs; [destruct best; lia|by eapply H2].
  - split; [|split].
    + intros ->. destruct (I1 eq_refl) as [-> H]. split; [done|]. intros k' i' τ [[= -> ->]|Hin]%elem_of_cons; [|by apply (H k' i')].
      intros Hs. apply (Hu τ (Hempty τ)). rewrite (sub_ground τ z Hg). done.
    + intros m ->. destruct (I2 m eq_refl) as [H|(k' & i' & τ' & H1 & H2)]; [by left|]. right. exists k', i', τ'. split; [by right|done].
    + intros m ->. destruct (I3 m eq_refl) as [H1 H2]. split; [done|]. intros k' i' τ [[= -> ->]|Hin]%elem_of_cons Hs; [|by eapply H2].
      exfalso. apply (Hu τ (Hempty τ)). rewrite (sub_ground τ z Hg). done.
Qed.

Lemma priority_ok n' z o : ground z -> priority inputs scc n' z = Ok o ->
  match o with
  | None => exo z = false /\ ~ is_input z /\ forall k i, ~ covers_at k i z
  | Some m => (m = 0 /\ (exo z = true \/ is_input z)) \/ (exo z = false /\ ~ is_input z /\ exists k i, covers_at k i z /\ m = i + 1)
  end.
Proof.
  intros Hg E. destruct z as [v|k0|l]; [discriminate Hg|injection E as <-; left; auto|]. unfold priority in E.
  destruct (is_exogenous inputs n' ∅ (Fn l)) as [e| |] eqn:Ee; [|discriminate..]. cbn [bind] in E.
  pose proof (exo_run n' (Fn l) e Hg Ee) as He. destruct e.
  { injection E as <-. left. split; [done|]. by apply He. }
  assert (Hex : exo (Fn l) = false) by (destruct (exo (Fn l)) eqn:?; [|done]; discriminate (proj2 He (or_introl eq_refl))).
  assert (Hni : ~ is_input (Fn l)) by (intros Hi; discriminate (proj2 He (or_intror Hi))).
  pose proof (get_index_ok (Fn l)) as Hgi. destruct (get_index (Fn l) scc) as [m|].
  - injection E as <-. destruct Hgi as (i & -> & Hi). right. split; [done|]. split; [done|]. exists (Fn l), i. split; [|done]. split; [done|].
    exists (fun _ => Cst (CInt 0)). split; [done|]. by apply sub_ground.
  - destruct (best_index_ok n' (Fn l) scc Hg None o E) as (B1 & B2 & _). destruct o as [m|].
    + right. split; [done|]. split; [done|]. destruct (B2 m eq_refl) as [?|(k & i & τ & H1 & H2 & H3 & H4)]; [done|]. exists k, i. split; [|done]. split; [done|]. eauto.
    + split; [done|]. split; [done|]. intros k i (Hk & τ & _ & Hs). destruct (B1 eq_refl) as [_ B]. by apply (B k i τ).
Qed.

Lemma needed_kept pf z : needed P outs z -> ground z -> keeps inputs pf scc z = true.
Proof using Hord His Hch Hcv Hal Halcv Hwf HnV Hasked Hsnd Hcmp Escc Hgiven.
  intros Hn Hg. unfold keeps. destruct (priority inputs scc (pf scc z) z) as [[m|]| |] eqn:E; try done.
  destruct (priority_ok _ z None Hg E) as (_ & Hi & Hc). destruct (needed_covered z Hn Hi) as (k & i & H). by destruct (Hc k i).
Qed.

Lemma kept_needed pf z : (exists o, priority inputs scc (pf scc z) z = Ok o) -> ground z -> derivable P z -> keeps inputs pf scc z = true ->
  exo z = true \/ is_input z \/ needed P outs z.
Proof using Hord His Hch Hcv Hal Halcv Hwf HnV Hasked Hsnd Hcmp Escc.
  intros (o & E) Hg Hd Hk. unfold keeps in Hk. rewrite E in Hk. destruct o as [m|]; [|done].
  destruct (priority_ok _ z (Some m) Hg E) as [(_ & [H|H])|(_ & _ & k & i & Hc & _)]; [by left|by right; left|]. right; right. by apply (covered_needed k i z Hc).
Qed.

Lemma priority_le r σ b n1 n2 m1 m2 : r ∈ P -> live P r σ -> exo (sub σ (rhead r)) = false -> ~ is_input (sub σ (rhead r)) -> b ∈ rbody r ->
  priority inputs scc n1 (sub σ (rhead r)) = Ok (Some m1) -> priority inputs scc n2 (sub σ b) = Ok m2 -> exists m, m2 = Some m /\ m <= m1.
Proof using Hord His Hch Hcv Hal Halcv Hwf HnV Hasked Hsnd Hcmp Escc.
  intros Hr Hlive Hex Hi Hb E1 E2. assert (Hg : forall t, ground (sub σ t)) by (intros t; apply ground_sub_all; exact (proj1 Hlive)).
  destruct (priority_ok n1 _ _ (Hg (rhead r)) E1) as [(_ & [?|?])|(_ & _ & k & i & Hc & ->)]; [congruence|done|].
  pose proof (priority_ok n2 _ m2 (Hg b) E2) as H2.
  assert (Hstep : exo (sub σ b) = false -> ~ is_input (sub σ b) -> exists j, j <= i /\ (sub σ b, j) ∈ scc).
  { intros Heb Hib. apply (index_step k i _ r σ b Hc Hr Hlive eq_refl Hi Hb); [|done].
    assert (Hw : wf_goal b). { unfold wf_rules in Hwf. rewrite Forall_forall in Hwf. specialize (Hwf r Hr). rewrite Forall_forall in Hwf. by apply Hwf. }
    destruct b as [v|k0|[|[v|k0|l'] args]]; try done; [exfalso; by apply (HnV r v)|]. unfold exo in *. destruct k0; [done|]. cbn in *. by rewrite map_length in Heb. }
  destruct m2 as [m|].
  - exists m. split; [done|]. destruct H2 as [(-> & _)|(Heb & Hib & _)]; [lia|]. destruct (Hstep Heb Hib) as (j & Hj & Hin).
    unfold priority in E2. destruct (sub σ b) as [v|k0|l] eqn:Esb; [done|done|].
    destruct (is_exogenous inputs n2 ∅ (Fn l)) as [e| |] eqn:Ee; [|discriminate..]. cbn [bind] in E2. destruct e; [injection E2 as <-; lia|].
    pose proof (get_index_ok (Fn l)) as Hgi. destruct (get_index (Fn l) scc) as [m'|]; [|by destruct (Hgi j)].
    injection E2 as <-. destruct Hgi as (j' & -> & Hj'). destruct (index_ok n scc Escc) as (_ & _ & _ & _ & I3). rewrite (I3 _ j' j Hj' Hin). lia.
  - destruct H2 as (Heb & Hib & Hno). destruct (Hstep Heb Hib) as (j & _ & Hin). exfalso. apply (Hno (sub σ b) j). split; [done|].
    exists σ. split; [exact (proj1 Hlive)|]. by apply sub_ground.
Qed.
End index.
End scc.
