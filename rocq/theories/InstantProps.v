(** C56: the firings of the rules of a program against a chart. *)
From Coq Require Import List Lia ZArith.
From stdpp Require Import gmap.
From Coq Require String Ascii.
From Verif Require Import PyBase Semiring TermModel TermSpec TermProofs SetsModel SetsSpec PruneModel ProgSpec PruneSpec ProgProofs
  PruneProofs SolverSpec UpdateSpec SolverProofs Solver2Proofs SlashSpec TypesModel SpecialModel SpecialSpec SpecialProofs PropagateModel TypesSpec RewriteProps TypesProps SpecialProps
  InstantModel InstantSpec InstantProofs.
Import String.StringSyntax Ascii.AsciiSyntax.
Import ListNotations.

Section C56.
Context (cmpf : String.string -> term -> term -> res bool)
  (is_run : nat -> store -> term -> term -> res (list store)) (is_true : term -> term -> bool) (al : nat -> nat).
Context (His : is_exact is_true is_run) (Hal : forall i j, al i = al j -> i = j).

(** There is one list of groundings per rule, and each of them is an instance of its rule. *)
Theorem C56_sound : forall P ch n c rss i r rs r',
  plain_program P -> wf_decls (map rhead ch) -> chart_apart al c ch ->
  groundings cmpf is_run al n P ch c = Ok rss ->
  length rss = length P /\
  (nth_error P i = Some r -> nth_error rss i = Some rs -> In r' rs ->
   exists σ, rhead r' = sub σ (rhead r) /\ rbody r' = map (sub σ) (rbody r)).
Proof.
  intros P ch n c rss i r rs r' HP Hch Hap E. pose proof (groundings_ok cmpf is_run is_true al His Hal P ch HP Hch n c rss Hap E) as HF.
  split; [symmetry; by eapply Forall2_length|]. intros Hi Hrs Hr'. rewrite nth_error_lookup in Hi. rewrite nth_error_lookup in Hrs.
  destruct (Forall2_lookup_lr _ _ _ _ _ _ HF Hi Hrs) as (_ & H & _). apply elem_of_list_In in Hr'. destruct (H r' Hr') as (σ & H1 & H2). by exists σ.
Qed.

(** A grounding has its items in the chart: an instance of it whose constraints
    hold is satisfied by the chart. *)
Theorem C56_only : forall P ch n c rss i r rs r' x ys,
  plain_program P -> wf_decls (map rhead ch) -> chart_apart al c ch ->
  groundings cmpf is_run al n P ch c = Ok rss ->
  nth_error P i = Some r -> nth_error rss i = Some rs -> In r' rs ->
  ground_inst r' x ys -> (forall y, In y ys -> exo y = true -> builtin_true cmpf is_true y) ->
  satisfied cmpf is_true ch ys.
Proof.
  intros P ch n c rss i r rs r' x ys HP Hch Hap E Hi Hrs Hr' Hg Ht. pose proof (groundings_ok cmpf is_run is_true al His Hal P ch HP Hch n c rss Hap E) as HF.
  rewrite nth_error_lookup in Hi. rewrite nth_error_lookup in Hrs. apply elem_of_list_In in Hr'.
  destruct (Forall2_lookup_lr _ _ _ _ _ _ HF Hi Hrs) as (H1 & _ & H3).
  assert (Hn : num (fun r' => ground_inst r' x ys) rs (gprod (map rhead ch) ys)).
  { apply H3; [by apply (H1 r')|]. apply Forall_forall. intros y Hy. apply elem_of_list_In in Hy. intros He. by apply Ht. }
  assert (Hp : 0 < gprod (map rhead ch) ys) by (destruct (gprod _ _) eqn:Ep; [exfalso; by apply (num_zero _ _ _ Hn Hr')|lia]).
  intros y Hy. destruct (exo y) eqn:Ee; [by apply Ht|]. by apply (proj1 (gprod_satisfied _ _) Hp).
Qed.

(** Every instance of a rule that is satisfied by the chart is among the groundings
    of that rule, exactly once if the chart has no item twice. *)
Theorem C56_complete : forall P ch n c rss i r rs x ys,
  plain_program P -> wf_decls (map rhead ch) -> chart_apart al c ch ->
  groundings cmpf is_run al n P ch c = Ok rss ->
  nth_error P i = Some r -> nth_error rss i = Some rs ->
  ground_inst r x ys -> satisfied cmpf is_true ch ys ->
  (exists r', In r' rs /\ ground_inst r' x ys) /\
  (pairwise_disjoint (map rhead ch) -> exactly_one rs x ys).
Proof.
  intros P ch n c rss i r rs x ys HP Hch Hap E Hi Hrs Hg Hs. pose proof (groundings_ok cmpf is_run is_true al His Hal P ch HP Hch n c rss Hap E) as HF.
  rewrite nth_error_lookup in Hi. rewrite nth_error_lookup in Hrs.
  destruct (Forall2_lookup_lr _ _ _ _ _ _ HF Hi Hrs) as (_ & _ & H3).
  assert (Hn : num (fun r' => ground_inst r' x ys) rs (gprod (map rhead ch) ys)).
  { apply H3; [done|]. apply Forall_forall. intros y Hy. apply elem_of_list_In in Hy. intros He. specialize (Hs y Hy). by rewrite He in Hs. }
  assert (Hp : 0 < gprod (map rhead ch) ys) by (apply gprod_satisfied; intros y Hy He; specialize (Hs y Hy); by rewrite He in Hs).
  split.
  - destruct (num_pos _ _ _ Hn Hp) as (r' & Hr' & H). exists r'. split; [by apply elem_of_list_In|done].
  - intros Hd. rewrite (gprod_one _ _ Hd Hp) in Hn. by apply num_exactly.
Qed.

(** A chart of different ground items has no item twice. *)
Theorem C56_ground_chart : forall ch,
  NoDup (map rhead ch) -> (forall h, In h (map rhead ch) -> ground h) -> pairwise_disjoint (map rhead ch).
Proof.
  intros ch HN Hg i j a b Hi Hj Hij (y & [_ [σ Ea]] & [_ [τ Eb]]).
  rewrite sub_ground in Ea by (by eapply Hg, nth_error_In). rewrite sub_ground in Eb by (by eapply Hg, nth_error_In). apply Hij.
  subst. rewrite nth_error_lookup in Hi. rewrite nth_error_lookup in Hj. by eapply NoDup_lookup.
Qed.

(** Against a ground chart the groundings of a range-restricted rule without
    builtins are ground, and their subgoals are items of the chart or constants. *)
Theorem C56_ground : forall P ch n c rss i r rs r',
  plain_program P -> wf_decls (map rhead ch) -> chart_apart al c ch ->
  (forall h, In h (map rhead ch) -> ground h) ->
  groundings cmpf is_run al n P ch c = Ok rss ->
  nth_error P i = Some r -> nth_error rss i = Some rs -> In r' rs ->
  (forall b, In b (rbody r) -> is_builtin b = false) ->
  (forall b, In b (rbody r') -> ground b /\ (exo b = false -> In b (map rhead ch))) /\
  (incl (vars (rhead r)) (flat_map vars (rbody r)) -> ground (rhead r')).
Proof.
  intros P ch n c rss i r rs r' HP Hch Hap Hgr E Hi Hrs Hr' Hnb.
  pose proof (ground_chart_body cmpf is_run is_true al His Hal P ch HP Hch n c rss i r rs r' Hap E Hgr Hnb Hi Hrs Hr') as Hb.
  split; [done|]. intros Hrr.
  destruct (proj2 (C56_sound P ch n c rss i r rs r' HP Hch Hap E) Hi Hrs Hr') as (σ & Hh & Hbo).
  assert (Hv : forall v, In v (vars (rhead r)) -> ground (σ v)).
  { intros v Hv. apply Hrr in Hv. apply in_flat_map in Hv as (b & Hb1 & Hb2).
    destruct (Hb (sub σ b)) as [Hgb _]; [rewrite Hbo; by apply in_map|]. unfold ground in *.
    destruct (vars (σ v)) as [|w l] eqn:Ev; [done|]. exfalso.
    assert (Hw : In w (vars (sub σ b))) by (apply vars_sub; exists v; rewrite Ev; split; [done|by left]). by rewrite Hgb in Hw. }
  rewrite Hh. unfold ground. destruct (vars (sub σ (rhead r))) as [|w l] eqn:Ev; [done|]. exfalso.
  assert (Hw : In w (vars (sub σ (rhead r)))) by (rewrite Ev; by left). apply vars_sub in Hw as (v & Hv1 & Hv2). specialize (Hv v Hv1). unfold ground in Hv. by rewrite Hv in Hv2.
Qed.

(** If the chart has every item that derivations of the outputs use, the
    instantiated program keeps these derivations: one to one if the chart has no
    item twice, otherwise some may be repeated. *)
Theorem C56_derivations : forall P ch outputs (base : term -> Prop) n c P',
  plain_program P -> wf_decls (map rhead ch) -> chart_apart al c ch ->
  (forall y, base y -> exo y = true -> builtin_true cmpf is_true y) ->
  (forall y, used_item outputs base P y -> in_chart ch y) ->
  instantiate cmpf is_run al n P ch c = Ok P' ->
  covered_derivations (output_derivation outputs base P) (output_derivation outputs base P') /\
  (pairwise_disjoint (map rhead ch) ->
   same_derivations (output_derivation outputs base P) (output_derivation outputs base P')).
Proof.
  intros P ch outputs base n c P' HP Hch Hap Hb Hu E. unfold instantiate in E.
  destruct (groundings _ _ _ n P ch c) as [rss| |] eqn:Eg; [|done..]. cbn [bind] in E. injection E as <-.
  pose proof (groundings_copies cmpf is_run is_true al His Hal P ch HP Hch n c rss Hap Eg) as HF.
  assert (Hcov : types_cover ch (used_item outputs base P)).
  { intros y Hy. destruct (Hu y Hy) as (h & Hh & Hg). apply in_map_iff in Hh as (u & <- & Hin). by exists u. }
  assert (Hok : forall t s, output_derivation outputs base P t -> within s t -> nok cmpf is_true ch (root s)) by (intros t s Ht Hs; eapply used_ok; eauto).
  split; [eapply copies_covered; [exact HF|apply HP|exact Hok]|]. intros Hd. eapply copies_same; [exact HF|apply HP|exact Hok|done].
Qed.

(** The groundings of a program without builtins in its bodies are found in finite
    time, whatever the chart. *)
Theorem C56_returns : forall P ch c,
  (forall r b, In r P -> In b (rbody r) -> ordinary b) ->
  exists rss n0, forall n, n0 <= n -> groundings cmpf is_run al n P ch c = Ok rss.
Proof using Hal.
  intros P ch c HP. destruct (groundings_settles cmpf is_run al Hal P ch c HP) as (rss & n0 & H). by exists rss, n0.
Qed.
End C56.

(** * Witnesses *)
Local Open Scope string_scope.
Local Open Scope list_scope.
Definition i_chart : list rule := map (fun h => Rule h [Z_ 1]) v_ground.
Definition i_inst : list (list rule) :=
  let G x y := Rule (F "goal" []) [F "<" [Z_ x; Z_ y]; F "g" [Z_ x; Z_ y]; Z_ 2] in
  let H x y := Rule (F "g" [Z_ x; Z_ y]) [F "=" [Z_ y; Z_ y]; F "<" [Z_ x; Z_ y]; F "e" [Z_ x]; F "h" [Z_ y]] in
  [[G 1%Z 2%Z; G 0%Z 1%Z; G 0%Z 2%Z]; [H 0%Z 1%Z; H 0%Z 2%Z; H 1%Z 1%Z; H 1%Z 2%Z]; [Rule (F "h" [Z_ 1]) [Z_ 5]]; [Rule (F "h" [Z_ 2]) [Z_ 7]];
   [Rule (F "dead" [Z_ 0]) [F "e" [Z_ 0]]; Rule (F "dead" [Z_ 1]) [F "e" [Z_ 1]]]].

Theorem C56_witness :
  plain_program v_prog /\ wf_decls (map rhead i_chart) /\ chart_apart w_al 0 i_chart /\
  NoDup (map rhead i_chart) /\ (forall h, In h (map rhead i_chart) -> ground h) /\
  (forall y, v_base y -> exo y = true -> builtin_true w_cmp w_ist y) /\
  (forall y, used_item [F "goal" []] v_base v_prog y -> in_chart i_chart y) /\
  groundings w_cmp w_is w_al 60 v_prog i_chart 0 = Ok i_inst /\ instantiate w_cmp w_is w_al 60 v_prog i_chart 0 = Ok (concat i_inst).
Proof.
  assert (Hg : forall h, In h (map rhead i_chart) -> ground h) by (intros h Hh; repeat destruct Hh as [<-|Hh]; done).
  split; [apply v_plain|]. split; [intros d Hd; repeat destruct Hd as [<-|Hd]; done|].
  split. { intros h v j Hh Hv. specialize (Hg h Hh). unfold ground in Hg. by rewrite Hg in Hv. }
  split; [apply (bool_decide_unpack (NoDup (map rhead i_chart))); by vm_compute|]. split; [done|].
  split; [intros y [->|[->|(_ & _ & H)]]; done|].
  split; [|split; by vm_compute].
  intros y (t & s & (Hd & _ & o & [<-|[]] & π & Hπ) & Hw & <- & He). cbn [sub map] in Hπ.
  destruct (v_live t s Hd Hw) as [Hs Hn]; [rewrite <- Hπ; done|].
  destruct (v_roots s Hs) as [[H _]|[[z H]|H]]; [by rewrite H in He|by apply Hn in H|].
  exists (root s). assert (Hin : In (root s) (map rhead i_chart)) by (unfold i_chart; rewrite map_map; cbn [rhead]; by rewrite map_id).
  split; [done|]. split; [by apply Hg|]. exists Var. apply sub_Var.
Qed.

(** path(X,Z) += path(X,Y) * e(Y,Z) * 2.  path(X,X) += 1.  against a chart with a
    variable, e(1,2). path(V,V). *)
Definition o_prog : list rule :=
  [Rule (F "path" [Var 1; Var 3]) [F "path" [Var 1; Var 2]; F "e" [Var 2; Var 3]; Z_ 2]; Rule (F "path" [Var 1; Var 1]) [Z_ 1]].
Definition o_chart : list rule := [Rule (F "e" [Z_ 1; Z_ 2]) [Z_ 1]; Rule (F "path" [Var 1; Var 1]) [Z_ 1]].
Theorem C56_returns_witness :
  plain_program o_prog /\ (forall r b, In r o_prog -> In b (rbody r) -> ordinary b) /\
  (exists v, groundings w_cmp w_is w_al 60 o_prog o_chart 0 =
    Ok [[Rule (F "path" [Z_ 1; Z_ 2]) [F "path" [Z_ 1; Z_ 1]; F "e" [Z_ 1; Z_ 2]; Z_ 2]]; [Rule (F "path" [Var v; Var v]) [Z_ 1]]]).
Proof.
  split; [|split; [|eexists; by vm_compute]].
  - split.
    + intros r Hr. repeat destruct Hr as [<-|Hr]; [..|done]; (split; [done|]); (split; [by cbn|]);
        intros b Hb; repeat destruct Hb as [<-|Hb]; by cbn.
    + intros r b Hr Hb v. repeat destruct Hr as [<-|Hr]; [..|done]; repeat destruct Hb as [<-|Hb]; done.
  - intros r b Hr Hb. repeat destruct Hr as [<-|Hr]; try done; repeat destruct Hb as [<-|Hb]; try done;
      apply (bool_decide_unpack (_ ∉ _)); by vm_compute.
Qed.

(** A chart that has an item twice, f(1) += 1. f(1) += 2, repeats the grounding of
    goal += f(X). *)
Theorem C56_twice_refuted :
  exists rs, groundings w_cmp w_is w_al 60 [Rule (F "goal" []) [F "f" [Var 1]]] [Rule (F "f" [Z_ 1]) [Z_ 1]; Rule (F "f" [Z_ 1]) [Z_ 2]] 0 = Ok [rs] /\
    ~ exactly_one rs (F "goal" []) [F "f" [Z_ 1]].
Proof.
  exists [Rule (F "goal" []) [F "f" [Z_ 1]]; Rule (F "goal" []) [F "f" [Z_ 1]]]. split; [by vm_compute|]. intros [k Hk].
  assert (H0 : 0 = k) by (apply Hk; eexists; split; [done|]; by exists (fun _ => Z_ 1)).
  assert (H1 : 1 = k) by (apply Hk; eexists; split; [done|]; by exists (fun _ => Z_ 1)). lia.
Qed.
Local Close Scope list_scope.
Local Close Scope string_scope.

Print Assumptions C56_sound.
Print Assumptions C56_only.
Print Assumptions C56_complete.
Print Assumptions C56_ground_chart.
Print Assumptions C56_ground.
Print Assumptions C56_derivations.
Print Assumptions C56_returns.
Print Assumptions C56_returns_witness.
Print Assumptions C56_witness.
Print Assumptions C56_twice_refuted.
