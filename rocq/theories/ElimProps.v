(** C30: eliminating a rule keeps the values of all items but those that the
    eliminated rule defines. *)
From Coq Require Import List Permutation.
From stdpp Require Import gmap.
From Coq Require Import Lia ZArith ArithRing.
From Coq Require String Ascii.
From Verif Require Import PyBase Semiring TermModel TermSpec TermProofs SetsModel SetsProofs CoverProofs RuleSpec RuleProps NamesModel
  UpdateModel UpdateSpec UpdateProofs UpdateProps TransModel TransSpec TransProofs UnfoldProofs TransProps LinearProofs LinearProps FoldProofs FoldProps
  ElimModel ElimProofs.
Import String.StringSyntax Ascii.AsciiSyntax.
Import ListNotations.
Local Open Scope string_scope.
Local Open Scope list_scope.

(** [x] is not defined by the rule [s]. *)
Definition not_defined_by {R : semiring} (s : wrule R) (f : factor R) : Prop := forall x, f = Goal x -> forall fs, ~ inst s x fs.

(** The rules are written with their own variables. *)
Definition separate {R : semiring} (i : nat) (rs : list (wrule R)) : Prop :=
  forall k r s v, rs !! i = Some s -> rs !! k = Some r -> k <> i -> v ∈ wvars s -> v ∉ wvars r.

(** The total right-hand sides are the same for every item, whatever the values of
    the subgoals (constants have their own values). *)
Definition same_step {R : semiring} (wt : const -> R) (P Q : list (wrule R)) : Prop :=
  forall (I : term -> R) x v, respects wt I -> prog_value I P x v <-> prog_value I Q x v.

(** ** C30.  [p.linear_rule_elimination(i)] gives a program with the same
    right-hand sides as a program [L] without the rule, and the derivations in [p]
    of what the rule does not define correspond one-to-one to those in [L], with
    the same roots and values. *)
Theorem C30_elimination :
  forall (R : semiring) (wt : const -> R) (negligible is_one : R -> bool) (al cv : nat -> nat) (minf : R)
    (is_output : option (term -> bool)) (n i c : nat) (s : wrule R) (rs : list (wrule R)) (P : pstate R) (base : term -> Prop),
    commutative R -> exact_tests negligible is_one -> (forall i j, al i = al j -> i = j) -> (forall i j, cv i = cv j -> i = j) ->
    program al c rs -> rs !! i = Some s -> separate i rs -> (forall r j, r ∈ rs -> kept r s j) ->
    linear_rule_elimination wt negligible is_one al cv minf is_output n i rs c = Ok P ->
    exists L, same_step wt (p_rules P) L /\
      same_meaning (fun t => wderives False rs base t /\ not_defined_by s (wroot t)) (fun t => wderives False L base t /\ not_defined_by s (wroot t)).
Proof.
  intros R wt negligible is_one al cv minf is_output n i c s rs P base Hcomm [Hn Ho] Hal Hcv [Hp Hf] Hi Hsep Hkept E.
  unfold linear_rule_elimination in E. rewrite Hi in E.
  destruct (match is_output with Some out => out (whead s) | None => false end); [discriminate|].
  destruct (elim_rules_meaning Hcomm wt negligible is_one al cv minf Hal Hcv (fun C => proj1 (Hn C)) (fun C => proj1 (Ho C)) rs c i s Hi)
    with (n := n) (P' := P) (base := base) as (L & [_ HL] & HM).
  - intros r Hr. apply Hp. done.
  - done.
  - intros k r v Hr Hk. by apply (Hsep k r s v).
  - done.
  - done.
  - exists L. split; [|done]. intros I x v HI. by apply HL.
Qed.

(** It does not fail if the eliminated rule does not define an output, and no rule
    has two subgoals that overlap with the head of the eliminated rule. *)
Theorem C30_returns :
  forall (R : semiring) (wt : const -> R) (negligible is_one : R -> bool) (al cv : nat -> nat) (minf : R)
    (is_output : option (term -> bool)) (i c : nat) (s : wrule R) (rs : list (wrule R)),
    commutative R -> exact_tests negligible is_one -> (forall i j, al i = al j -> i = j) -> (forall i j, cv i = cv j -> i = j) ->
    program al c rs -> rs !! i = Some s -> separate i rs -> (forall r j, r ∈ rs -> kept r s j) ->
    (forall out, is_output = Some out -> out (whead s) = false) ->
    (forall r j k b b', r ∈ rs -> wbody r !! j = Some (Goal b) -> wbody r !! k = Some (Goal b') ->
       (exists σ τ, sub σ b = sub τ (whead s)) -> (exists σ τ, sub σ b' = sub τ (whead s)) -> j = k) ->
    exists P n0, forall n, n0 <= n -> linear_rule_elimination wt negligible is_one al cv minf is_output n i rs c = Ok P.
Proof.
  intros R wt negligible is_one al cv minf is_output i c s rs Hcomm [Hn Ho] Hal Hcv [Hp Hf] Hi Hsep Hkept Hout Huniq.
  destruct (elim_rules_settles Hcomm wt negligible is_one al cv minf Hal Hcv (fun C => proj1 (Hn C)) (fun C => proj1 (Ho C)) rs c i s Hi)
    with (rest := rs) (k := 0) (L := @nil (wrule R)) (P := p_new (@nil (wrule R)) c) as (P & n0 & HP).
  - intros r Hr. by apply Hp.
  - done.
  - intros k r v Hr Hk. by apply (Hsep k r s v).
  - done.
  - done.
  - split; [done|]. by intros r v ?%elem_of_nil.
  - split; [|done]. apply inv_new. by intros r ?%elem_of_nil.
  - intros r j j' b b' Hr Hb Hb' Hm Hm'. by apply (Huniq r j j' b b').
  - exists P, n0. intros n Hle. unfold linear_rule_elimination. rewrite Hi.
    destruct is_output as [out|]; [rewrite (Hout out eq_refl)|]; by apply HP.
Qed.

(** An output is not eliminated, and neither is a rule whose head overlaps with two
    subgoals of a rule. *)
Theorem C30_output :
  forall (R : semiring) (wt : const -> R) (negligible is_one : R -> bool) (al cv : nat -> nat) (minf : R)
    (out : term -> bool) (n i c : nat) (s : wrule R) (rs : list (wrule R)),
    rs !! i = Some s -> out (whead s) = true ->
    linear_rule_elimination wt negligible is_one al cv minf (Some out) n i rs c = Raise AssertionError.
Proof. intros R wt negligible is_one al cv minf out n i c s rs Hi Ho. unfold linear_rule_elimination. by rewrite Hi, Ho. Qed.
(** If it succeeds, then no rule has two such subgoals. *)
Theorem C30_linear :
  forall (R : semiring) (wt : const -> R) (negligible is_one : R -> bool) (al cv : nat -> nat) (minf : R)
    (is_output : option (term -> bool)) (n i c : nat) (s : wrule R) (rs : list (wrule R)) (P : pstate R),
    commutative R -> exact_tests negligible is_one -> (forall i j, al i = al j -> i = j) -> (forall i j, cv i = cv j -> i = j) ->
    program al c rs -> rs !! i = Some s -> separate i rs -> (forall r j, r ∈ rs -> kept r s j) ->
    linear_rule_elimination wt negligible is_one al cv minf is_output n i rs c = Ok P ->
    forall r j k b b', r ∈ rs -> wbody r !! j = Some (Goal b) -> wbody r !! k = Some (Goal b') ->
      (exists σ τ, sub σ b = sub τ (whead s)) -> (exists σ τ, sub σ b' = sub τ (whead s)) -> j = k.
Proof.
  intros R wt negligible is_one al cv minf is_output n i c s rs P Hcomm [Hn Ho] Hal Hcv [Hp Hf] Hi Hsep Hkept E.
  unfold linear_rule_elimination in E. rewrite Hi in E.
  destruct (match is_output with Some out => out (whead s) | None => false end); [discriminate|].
  destruct (elim_rules_ok Hcomm wt negligible is_one al cv minf Hal Hcv (fun C => proj1 (Hn C)) (fun C => proj1 (Ho C)) rs c i s Hi)
    with (n := n) (P' := P) (rest := rs) (k := 0) (L := @nil (wrule R)) (P := p_new (@nil (wrule R)) c) as (Ks & Ts & at_ & mid & _ & _ & _ & H & _).
  - intros r Hr. by apply Hp.
  - done.
  - intros k r v Hr Hk. by apply (Hsep k r s v).
  - done.
  - done.
  - split; [done|]. by intros r v ?%elem_of_nil.
  - split; [|done]. apply inv_new. by intros r ?%elem_of_nil.
  - done.
  - intros r j k b b' Hr Hb Hb' Hm Hm'. apply elem_of_list_lookup in Hr as [q Hq].
    destruct (H q r ltac:(lia) Hq) as (_ & _ & Hpl). pose proof (Hpl j b Hb Hm) as E1. pose proof (Hpl k b' Hb' Hm') as E2. congruence.
Qed.

(** *** elim: linearize first. *)
(** No two rules share a variable. *)
Definition separated {R : semiring} (rs : list (wrule R)) : Prop :=
  forall k k' r r' v, rs !! k = Some r -> rs !! k' = Some r' -> k <> k' -> v ∈ wvars r -> v ∉ wvars r'.
(** The variables of the head occur in the body. *)
Definition range_restricted {R : semiring} (r : wrule R) : Prop :=
  forall v, In v (vars (whead r)) -> In v (flat_map vars (goals (wbody r))).

Section compose.
  Context {R : semiring} (al : nat -> nat) (Hal : forall i j, al i = al j -> i = j).
  Implicit Types (r s t a : wrule R) (rs : list (wrule R)).
  Definition good c rs : Prop := plain rs /\ no_value_subgoals rs /\ program al c rs /\ separated rs.
  Definition defines r x : Prop := exists fs, inst r x fs.
  Definition tracks rs rs' : Prop := forall q a, rs !! q = Some a -> exists a', rs' !! q = Some a' /\
    (forall x, defines a' x <-> defines a x) /\ (range_restricted a -> range_restricted a').

  Lemma restricted_rename ρ r : range_restricted r -> range_restricted (rrename ρ r).
  Proof.
    intros H v. cbn [whead wbody rrename rsub]. rewrite goals_fsub. intros Hv. apply vars_sub in Hv as (w & Hw & Hv).
    apply H in Hw. apply in_flat_map in Hw as (b & Hb & Hw). apply in_flat_map.
    exists (sub (fun v => Var (ρ v)) b). split; [by apply in_map|]. apply vars_sub. eauto.
  Qed.
  Lemma defines_rename ρ r x : rrenames ρ r -> defines (rrename ρ r) x <-> defines r x.
  Proof. intros H. split; intros [fs Hfs]; exists fs; by apply (inst_rename ρ r x fs H). Qed.
  Lemma defines_head h fs fs' x : defines (WRule h fs : wrule R) x -> defines (WRule h fs') x.
  Proof. intros (l & σ & H1 & H2 & _). by exists (map (fsub σ) fs'), σ. Qed.
  Lemma plain_rename ρ r : plain [r] -> no_value_subgoals [r] -> plain [rrename ρ r] /\ no_value_subgoals [rrename ρ r].
  Proof.
    intros H1 H2. assert (Hin : r ∈ [r]) by left. destruct (H1 r Hin) as [Hh Hb].
    assert (Hg : forall b, Goal b ∈ map (fsub (fun v => Var (ρ v))) (wbody r) -> (exists k, b = Cst k) \/ item_head b).
    { intros b Hg. apply elem_of_list_In, in_map_iff in Hg as (f & E & Hf). destruct f as [v|b0]; [done|]. injection E as <-. apply elem_of_list_In in Hf.
      destruct (Hb b0) as [[v ->]|[[k ->]|(g & args & ->)]]; [by apply elem_of_goals|by destruct (H2 r v Hin)|left; by exists k|right; by eexists _, _]. }
    split.
    - intros r0 ->%elem_of_list_singleton. split; [destruct Hh as (g & args & E); cbn; rewrite E; by eexists _, _|].
      intros b Hb'%elem_of_goals. right. by apply Hg.
    - intros r0 v ->%elem_of_list_singleton Hv. cbn in Hv. apply Hg in Hv as [[k Hk]|(g & args & E)]; done.
  Qed.

  Lemma split_good n c c1 c2 rs i k r f args nm t r' : good c rs -> rs !! i = Some r -> wbody r !! k = Some (Goal (Fn (f :: args))) ->
    fresh_rule al n ∅ c (WRule (Fn (Cst (CStr nm) :: args)) [Goal (Fn (f :: args))]) = Ok (t, c1) ->
    fresh_rule al n ∅ c1 (WRule (whead r) (<[k := Goal (Fn (Cst (CStr nm) :: args))]> (wbody r))) = Ok (r', c2) ->
    good c2 (<[i := r']> (rs ++ [t])) /\ tracks rs (<[i := r']> (rs ++ [t])).
  Proof.
    intros (Hp & Hv & [Hg Hf] & Hs) Hi Hk Et Er. pose proof (elem_of_list_lookup_2 _ _ _ Hi) as Hin.
    assert (Hfa : exists g, f = Cst g).
    { destruct (proj2 (Hp r Hin) (Fn (f :: args))) as [[? ?]|[[? ?]|(g & ? & [= -> ->])]]; [|done|done|by exists g].
      apply elem_of_goals. by eapply elem_of_list_lookup_2. }
    destruct Hfa as [g ->].
    apply (fresh_rule_ok al Hal ∅ Var acyclic_empty resolution_empty) in Et as (ρ1 & -> & Hr1 & Hc1 & Hv1). rewrite rsub_Var in *.
    apply (fresh_rule_ok al Hal ∅ Var acyclic_empty resolution_empty) in Er as (ρ2 & -> & Hr2 & Hc2 & Hv2). rewrite rsub_Var in *.
    set (t0 := WRule (Fn (Cst (CStr nm) :: args)) [Goal (Fn (Cst g :: args))]) in *.
    set (r0 := WRule (whead r) (<[k := Goal (Fn (Cst (CStr nm) :: args))]> (wbody r))) in *.
    pose proof (lookup_lt_Some _ _ _ Hi) as Hlt.
    assert (Hnew : forall q a, <[i := rrename ρ2 r0]> (rs ++ [rrename ρ1 t0]) !! q = Some a ->
      (q = i /\ a = rrename ρ2 r0) \/ (q = length rs /\ a = rrename ρ1 t0) \/ (q <> i /\ rs !! q = Some a)).
    { intros q a Hq. destruct (decide (q = i)) as [->|Hne].
      - rewrite list_lookup_insert in Hq by (rewrite app_length; lia). injection Hq as <-. by left.
      - rewrite list_lookup_insert_ne in Hq by done. right. destruct (decide (q < length rs)) as [Hl|Hl].
        + rewrite lookup_app_l in Hq by done. by right.
        + rewrite lookup_app_r in Hq by lia. destruct (q - length rs) as [|?] eqn:E; [|done]. injection Hq as <-. left. split; [lia|done]. }
    assert (Hold : forall a v, a ∈ rs -> v ∈ wvars a -> forall j, c <= j -> v <> al j) by (intros a v Ha Hva j Hj; by apply (Hf a v j)).
    assert (Hr0 : plain [r0] /\ no_value_subgoals [r0]).
    { assert (Hb : forall b, Goal b ∈ wbody r0 -> Goal b ∈ wbody r \/ b = Fn (Cst (CStr nm) :: args)).
      { intros b Hb. apply elem_of_list_lookup in Hb as [q Hq]. cbn in Hq. destruct (decide (q = k)) as [->|Hne].
        - rewrite list_lookup_insert in Hq by (by eapply lookup_lt_Some). injection Hq as <-. by right.
        - rewrite list_lookup_insert_ne in Hq by done. left. by eapply elem_of_list_lookup_2. }
      split.
      - intros q ->%elem_of_list_singleton. split; [apply (Hp r Hin)|]. intros b Hb'%elem_of_goals. apply Hb in Hb' as [Hb'| ->]; [|right; right; by eexists _, _].
        apply (Hp r Hin). by apply elem_of_goals.
      - intros q v ->%elem_of_list_singleton Hb'. apply Hb in Hb' as [Hb'|?]; [|done]. by apply (Hv r v Hin). }
    assert (Ht0 : plain [t0] /\ no_value_subgoals [t0]).
    { split.
      - intros q ->%elem_of_list_singleton. split; [by eexists _, _|]. intros b Hb'%elem_of_goals. apply elem_of_list_singleton in Hb' as [= ->].
        right; right. by eexists _, _.
      - intros q v ->%elem_of_list_singleton [=]%elem_of_list_singleton. }
    destruct (plain_rename ρ2 r0 (proj1 Hr0) (proj2 Hr0)) as [Pr Nr]. destruct (plain_rename ρ1 t0 (proj1 Ht0) (proj2 Ht0)) as [Pt Nt].
    assert (Hcase : forall a, a ∈ <[i := rrename ρ2 r0]> (rs ++ [rrename ρ1 t0]) -> a = rrename ρ2 r0 \/ a = rrename ρ1 t0 \/ a ∈ rs).
    { intros a [q Hq]%elem_of_list_lookup. apply Hnew in Hq as [[_ ->]|[[_ ->]|[_ Hq]]]; [by left|right; by left|right; right]. by eapply elem_of_list_lookup_2. }
    split; [split; [|split; [|split]]|].
    - intros a Ha. apply Hcase in Ha as [->|[->|Ha]]; [apply Pr; left|apply Pt; left|by apply Hp].
    - intros a v Ha. apply Hcase in Ha as [->|[->|Ha]]; [apply Nr; left|apply Nt; left|by apply Hv].
    - split.
      + intros a Ha. apply Hcase in Ha as [->|[->|Ha]]; [|split; [done|by eexists _, _]|by apply Hg]. split; [|apply Pr; left].
        intros E. apply (f_equal length) in E. cbn in E. rewrite map_length, insert_length in E. destruct (Hg r Hin) as [Hne _]. destruct (wbody r); done.
      + intros a v j Ha Hva Hj ->. apply Hcase in Ha as [->|[->|Ha]].
        * apply Hv2 in Hva as (j' & E%Hal & ?). lia.
        * apply Hv1 in Hva as (j' & E%Hal & ?). lia.
        * apply (Hf a (al j) j Ha Hva); [lia|done].
    - intros q q' a a' v Ha Ha' Hne Hva Hva'. apply Hnew in Ha, Ha'.
      assert (N2 : v ∈ wvars (rrename ρ2 r0) -> exists j, v = al j /\ c1 <= j < c2) by apply Hv2.
      assert (N1 : v ∈ wvars (rrename ρ1 t0) -> exists j, v = al j /\ c <= j < c1) by apply Hv1.
      assert (N0 : forall a p, rs !! p = Some a -> v ∈ wvars a -> forall j, c <= j -> v <> al j).
      { intros b p Hb Hvb j Hj. apply (Hf b v j); [by eapply elem_of_list_lookup_2|done|done]. }
      destruct Ha as [[-> ->]|[[-> ->]|[Hq Ha]]], Ha' as [[-> ->]|[[-> ->]|[Hq' Ha']]]; try lia.
      + destruct (N2 Hva) as (j & -> & ?), (N1 Hva') as (j' & E%Hal & ?). lia.
      + destruct (N2 Hva) as (j & -> & ?). apply (N0 _ _ Ha' Hva' j); [lia|done].
      + destruct (N2 Hva') as (j & -> & ?), (N1 Hva) as (j' & E%Hal & ?). lia.
      + destruct (N1 Hva) as (j & -> & ?). apply (N0 _ _ Ha' Hva' j); [lia|done].
      + destruct (N2 Hva') as (j & -> & ?). apply (N0 _ _ Ha Hva j); [lia|done].
      + destruct (N1 Hva') as (j & -> & ?). apply (N0 _ _ Ha Hva j); [lia|done].
      + by apply (Hs q q' a a' v).
    - intros q a Ha. destruct (decide (q = i)) as [->|Hne].
      + assert (a = r) as -> by congruence. exists (rrename ρ2 r0). rewrite list_lookup_insert by (rewrite app_length; lia). split; [done|]. split.
        * intros x. rewrite (defines_rename ρ2 r0 x Hr2). destruct r as [h fs]. split; apply defines_head.
        * intros Hrr. apply restricted_rename. intros v Hvh. apply Hrr in Hvh. apply in_flat_map in Hvh as (b & Hb & Hvb). apply elem_of_list_In, elem_of_goals, elem_of_list_lookup in Hb as [p Hpb].
          apply in_flat_map. destruct (decide (p = k)) as [->|Hpk].
          -- rewrite Hk in Hpb. injection Hpb as <-. exists (Fn (Cst (CStr nm) :: args)). split; [|done].
             apply elem_of_list_In, elem_of_goals, elem_of_list_lookup. exists k. cbn. apply list_lookup_insert. by eapply lookup_lt_Some.
          -- exists b. split; [|done]. apply elem_of_list_In, elem_of_goals, elem_of_list_lookup. exists p. cbn. by rewrite list_lookup_insert_ne.
      + exists a. rewrite list_lookup_insert_ne by done. split; [by apply lookup_app_l_Some|]. done.
  Qed.
  Lemma split_all_good n sy tmps : forall rs g c rs' g' c', split_all al n sy tmps rs g c = Ok (rs', g', c') -> good c rs -> good c' rs' /\ tracks rs rs'.
  Proof.
    induction tmps as [|[i k] tmps IH]; intros rs g c rs' g' c' H HG.
    - cbn in H. injection H as <- <- <-. split; [done|]. intros q a Ha. by exists a.
    - cbn [split_all] in H. destruct (rs !! i) as [r|] eqn:Hi; [|done].
      destruct (prog_gen_functor sy "$gen" g) as [[name g1]| |]; [|done..]. cbn [bind] in H.
      destruct (wbody r !! k) as [[|[| |[|f args]]]|] eqn:Hk; try done.
      destruct (fresh_rule al n ∅ c _) as [[t c1]| |] eqn:Et; [|done..]. cbn [bind] in H.
      destruct (fresh_rule al n ∅ c1 _) as [[r' c2]| |] eqn:Er; [|done..]. cbn [bind] in H.
      destruct (split_good n c c1 c2 rs i k r f args name t r' HG Hi Hk Et Er) as [HG' HT].
      destruct (IH _ _ _ _ _ _ H HG') as [HG2 HT2]. split; [done|]. intros q a Ha. destruct (HT q a Ha) as (a1 & Ha1 & D1 & R1).
      destruct (HT2 q a1 Ha1) as (a2 & Ha2 & D2 & R2). exists a2. split; [done|]. split; [|tauto]. intros x. by rewrite D2, D1.
  Qed.
  Lemma values_only rs base (t : wderiv R) : no_value_subgoals rs -> wderives True rs base t <-> wderives False rs base t.
  Proof.
    intros H. induction t as [v|x|k x ts IH] using wderiv_ind'.
    - split; constructor.
    - split; inversion 1; by constructor.
    - rewrite !wderives_node. split; intros (r & Hr & Hin & Hl & HF); exists r; (split; [done|]; split; [done|]); (split; [intros Hx|]).
      1: done.
      1, 3: apply Forall_forall; intros t Ht; rewrite Forall_forall in IH, HF; apply IH; [done|]; by apply HF.
      pose proof (inst_kids _ _ _ Hin) as Hlen. apply Forall2_same_length_lookup. split; [done|].
      intros p f t Hf Ht v ->. destruct (H r v); by eapply elem_of_list_lookup_2.
  Qed.
End compose.

(** ** [p.elim(i)]: the derivations in [p] of what rule [i] does not define
    correspond one-to-one to those in [L], apart from the items that linearize
    introduces, and the new program has the same right-hand sides as [L]. *)
Theorem C30_elim :
  forall (R : semiring) (wt : const -> R) (negligible is_one : R -> bool) (al cv : nat -> nat) (minf : R)
    (is_output : option (term -> bool)) (n i g c : nat) (s : wrule R) (rs : list (wrule R)) (P : pstate R) (base : term -> Prop),
    commutative R -> exact_tests negligible is_one -> (forall i j, al i = al j -> i = j) -> (forall i j, cv i = cv j -> i = j) ->
    plain rs -> no_value_subgoals rs -> program al c rs -> separated rs -> rs !! i = Some s -> range_restricted s ->
    (forall x j, base x -> g < j -> ~ gen_item j x) ->
    elim wt negligible is_one al cv minf is_output n i rs g c = Ok P ->
    exists L g', same_step wt (p_rules P) L /\
      same_meaning (fun t => wderives False rs base t /\ not_defined_by s (wroot t))
        (fun t => wderives False L base t /\ not_defined_by s (wroot t) /\ forall x j, wroot t = Goal x -> g < j <= g' -> ~ gen_item j x).
Proof.
  intros R wt negligible is_one al cv minf is_output n i g c s rs P base Hcomm Ht Hal Hcv Hp Hv Hpr Hs Hi Hrr Hbase E.
  unfold elim in E. rewrite Hi in E. destruct (linearize al n (Some (whead s)) rs g c) as [[[rs' g'] c']| |] eqn:El; [|done..]. cbn [bind] in E.
  pose proof (C32_values R al n g c g' c' (Some (whead s)) rs rs' base Hal Hp Hbase El) as HM1.
  assert (HG : good al c' rs' /\ tracks rs rs').
  { unfold linearize in El. destruct (find_tmps n (Some (whead s)) rs 0) as [ts| |]; [|done..]. cbn [bind] in El.
    by apply (split_all_good al Hal n _ _ _ _ _ _ _ _ El). }
  destruct HG as [(Hp' & Hv' & Hpr' & Hs') HT]. destruct (HT i s Hi) as (s' & Hi' & Hd & Hrr').
  assert (Hsep : separate i rs').
  { intros k r s0 v Hs0 Hr Hk Hvs. apply (Hs' i k s0 r v Hs0 Hr); [done|done]. }
  destruct (C30_elimination R wt negligible is_one al cv minf is_output n i c' s' rs' P base Hcomm Ht Hal Hcv Hpr' Hi' Hsep) as (L & HL & HM2).
  { intros r j _. apply (C29_kept R r s' j (Var 0)). left. by apply Hrr'. }
  { exact E. }
  exists L, g'. split; [done|].
  assert (Hn : forall f, not_defined_by s' f <-> not_defined_by s f).
  { intros f. split; intros H x Hx fs Hfs; (assert (Hdx : exists fs, inst s x fs \/ inst s' x fs) by eauto);
      [destruct (proj2 (Hd x) ltac:(by exists fs)) as [fs' Hfs']|destruct (proj1 (Hd x) ltac:(by exists fs)) as [fs' Hfs']]; by apply (H x Hx fs'). }
  pose proof (same_meaning_root _ _ (not_defined_by s) HM1) as A1.
  pose proof (same_meaning_root _ _ (fun f => forall x j, f = Goal x -> g < j <= g' -> ~ gen_item j x) HM2) as A2.
  refine (same_meaning_trans _ _ _ (same_meaning_iff _ _ _ _ _ _ A1) (same_meaning_iff _ _ _ _ (fun _ => iff_refl _) _ A2)).
  - intros t. rewrite (values_only rs base t Hv). tauto.
  - intros t. rewrite (values_only rs' base t Hv'). rewrite (Hn (wroot t)). tauto.
  - intros t. rewrite (Hn (wroot t)). tauto.
Qed.

(** *** A case that meets the hypotheses.  The recursive rule number 1 is eliminated:
    goal(X) += path(X,Y) * stop(Y).  path(X,Z) += path(X,Y) * edge(Y,Z).
    path(X,Y) += edge(X,Y) * 2.  pair(X,Z) += path(X,Y) * path(Y,Z).
    [linear_rule_elimination] needs the program without the last rule. *)
Definition e_prog : list (wrule nat_sr) :=
  [WRule (u_t "goal" [Var 0]) [Goal (u_t "path" [Var 0; Var 1]); Goal (u_t "stop" [Var 1])];
   WRule (u_t "path" [Var 2; Var 4]) [Goal (u_t "path" [Var 2; Var 3]); Goal (u_t "edge" [Var 3; Var 4])];
   WRule (u_t "path" [Var 5; Var 6]) [Goal (u_t "edge" [Var 5; Var 6]); Val (2 : nat_sr)];
   WRule (u_t "pair" [Var 7; Var 9]) [Goal (u_t "path" [Var 7; Var 8]); Goal (u_t "path" [Var 8; Var 9])]].
Definition e_s : wrule nat_sr := WRule (u_t "path" [Var 2; Var 4]) [Goal (u_t "path" [Var 2; Var 3]); Goal (u_t "edge" [Var 3; Var 4])].
Definition e_base (x : term) : Prop := exists f args, x = u_t f args /\ (f = "edge" \/ f = "stop").
Definition e_out (x : term) : bool := match x with Fn (Cst (CStr f) :: _) => String.eqb f "goal" || String.eqb f "pair" | _ => false end.
Lemma e_tests : exact_tests u_neg u_one.
Proof. split; intros C; by apply bool_decide_eq_true. Qed.
Lemma e_comm : commutative nat_sr.
Proof. intros x y. apply Nat.mul_comm. Qed.
Lemma e_cv_inj i j : u_cv i = u_cv j -> i = j.
Proof. unfold u_cv. lia. Qed.
Lemma e_separated k : separated (take k e_prog).
Proof.
  assert (H : separated e_prog).
  { intros q q' r r' v Hr Hr' Hq Hv Hv'.
    assert (A : exists b, v ∈ b /\ b = match q with 0 => [0; 1] | 1 => [2; 3; 4] | 2 => [5; 6] | _ => [7; 8; 9] end).
    { do 4 (destruct q as [|q]; [injection Hr as <-; eexists; split; [|done]; cbn in Hv |- *; set_solver|]). done. }
    assert (B : exists b, v ∈ b /\ b = match q' with 0 => [0; 1] | 1 => [2; 3; 4] | 2 => [5; 6] | _ => [7; 8; 9] end).
    { do 4 (destruct q' as [|q']; [injection Hr' as <-; eexists; split; [|done]; cbn in Hv' |- *; set_solver|]). done. }
    apply lookup_lt_Some in Hr, Hr'. cbn in Hr, Hr'.
    destruct A as (? & A & ->), B as (? & B & ->).
    do 4 (destruct q as [|q]; [do 4 (destruct q' as [|q']; [apply elem_of_list_In in A, B; cbn in A, B; lia|]); lia|]). lia. }
  intros q q' r r' v Hr Hr'. apply lookup_take_Some in Hr as [Hr _], Hr' as [Hr' _]. by apply (H q q' r r' v).
Qed.
Lemma e_plain k : plain (take k e_prog) /\ no_value_subgoals (take k e_prog).
Proof.
  assert (H : forall r, r ∈ take k e_prog -> item_head (whead r) /\ forall b, Goal b ∈ wbody r -> item_head b).
  { intros r [q Hr]%elem_of_list_lookup. apply lookup_take_Some in Hr as [Hr _].
    do 4 (destruct q as [|q]; [injection Hr as <-; split; [by eexists _, _|]; cbn; intros b; rewrite !elem_of_cons, elem_of_nil;
      intros Hb; destruct_or?; try done; injection Hb as ->; by eexists _, _|]). done. }
  split.
  - intros r Hr. split; [by apply H|]. intros b Hb%elem_of_goals. right; right. by eapply H.
  - intros r v Hr Hv. destruct (H r Hr) as [_ Hb]. destruct (Hb _ Hv) as (? & ? & [=]).
Qed.
Lemma e_derivation : exists t, wderives False (take 3 e_prog) e_base t /\ not_defined_by e_s (wroot t) /\ wroot t = Goal (u_t "goal" [u_n 1]) /\ wvalue (fun _ => (5 : nat_sr)) t = 250.
Proof.
  exists (WNode 0 (u_t "goal" [u_n 1]) [WNode 1 (u_t "path" [u_n 1; u_n 3]) [WNode 2 (u_t "path" [u_n 1; u_n 2]) [TLeaf (u_t "edge" [u_n 1; u_n 2]); VLeaf (2 : nat_sr)]; TLeaf (u_t "edge" [u_n 2; u_n 3])]; TLeaf (u_t "stop" [u_n 3])]).
  assert (Hb : forall xs, e_base (u_t "edge" xs) /\ e_base (u_t "stop" xs)) by (intros xs; split; eexists _, xs; auto).
  split; [|split; [intros x [= <-] fs (σ & _ & E & _); done|split; [done|by vm_compute]]].
  econstructor; [done| |done|].
  { exists (fun v => match v with 0 => u_n 1 | _ => u_n 3 end). split; [by intros [|?]|done]. }
  constructor; [|constructor; [by constructor; apply Hb|constructor]]. econstructor; [done| |done|].
  { exists (fun v => match v with 2 => u_n 1 | 3 => u_n 2 | _ => u_n 3 end). split; [by intros [|[|[|[|?]]]]|done]. }
  constructor; [|constructor; [by constructor; apply Hb|constructor]]. econstructor; [done| |done|].
  { exists (fun v => match v with 5 => u_n 1 | _ => u_n 2 end). split; [by intros [|[|[|[|[|[|?]]]]]]|done]. }
  constructor; [by constructor; apply Hb|]. constructor; [constructor|constructor].
Qed.
Definition e_elim (k : nat) : pstate nat_sr :=
  u_get (p_new [] 0) (linear_rule_elimination u_wt u_neg u_one u_al u_cv (7 : nat_sr) (Some e_out) 20 1 (take k e_prog) 0).
Theorem C30_witness : exists n P,
  linear_rule_elimination u_wt u_neg u_one u_al u_cv (7 : nat_sr) (Some e_out) n 1 (take 3 e_prog) 0 = Ok P /\
  map (fun r => length (wbody r)) (p_rules P) = [3; 2; 3; 2] /\
  (exists L, same_step u_wt (p_rules P) L /\
    same_meaning (fun t => wderives False (take 3 e_prog) e_base t /\ not_defined_by e_s (wroot t)) (fun t => wderives False L e_base t /\ not_defined_by e_s (wroot t))) /\
  exists t, wderives False (take 3 e_prog) e_base t /\ not_defined_by e_s (wroot t) /\ wroot t = Goal (u_t "goal" [u_n 1]) /\ wvalue (fun _ => (5 : nat_sr)) t = 250.
Proof.
  pose (o := e_elim 3). exists 20, o.
  assert (E : linear_rule_elimination u_wt u_neg u_one u_al u_cv (7 : nat_sr) (Some e_out) 20 1 (take 3 e_prog) 0 = Ok o) by (apply u_ok; by vm_compute).
  assert (El : map (fun r => length (wbody r)) (p_rules o) = [3; 2; 3; 2]) by (clear; by vm_compute).
  clearbody o. split; [exact E|]. split; [exact El|]. split; [|exact e_derivation].
  refine (C30_elimination nat_sr u_wt u_neg u_one u_al u_cv 7 (Some e_out) 20 1 0 e_s (take 3 e_prog) o e_base e_comm e_tests u_al_inj e_cv_inj _ eq_refl _ _ E); clear.
  - apply programb_ok. by vm_compute.
  - intros k r s v Hs Hr Hk. by apply (e_separated 3 1 k s r v).
  - intros r j _. apply (C29_kept nat_sr r e_s j (Var 0)). left. intros v. cbn. tauto.
Qed.

Theorem C30_returns_witness :
  (forall out, Some e_out = Some out -> out (whead e_s) = false) /\
  (forall r j k b b', r ∈ take 3 e_prog -> wbody r !! j = Some (Goal b) -> wbody r !! k = Some (Goal b') ->
       (exists σ τ, sub σ b = sub τ (whead e_s)) -> (exists σ τ, sub σ b' = sub τ (whead e_s)) -> j = k).
Proof.
  split; [by intros out [= <-]|]. intros r j k b b' [q Hr]%elem_of_list_lookup Hj Hk (σ & τ & E) (σ' & τ' & E').
  assert (H : forall p c σ τ, wbody r !! p = Some (Goal c) -> sub σ c = sub τ (whead e_s) -> p = 0).
  { clear - Hr. intros p c σ τ Hp E. do 3 (destruct q as [|q]; [injection Hr as <-; destruct p as [|[|p]]; [done|by inversion Hp; subst|done]|]). done. }
  rewrite (H j b σ τ Hj E), (H k b' σ' τ' Hk E'). done.
Qed.

Definition e_all : pstate nat_sr := u_get (p_new [] 0) (elim u_wt u_neg u_one u_al u_cv (7 : nat_sr) (Some e_out) 20 1 e_prog 0 0).
Theorem C30_elim_witness : exists n P,
  linear_rule_elimination u_wt u_neg u_one u_al u_cv (7 : nat_sr) (Some e_out) n 1 e_prog 0 = Raise AssertionError /\
  elim u_wt u_neg u_one u_al u_cv (7 : nat_sr) (Some e_out) n 1 e_prog 0 0 = Ok P /\
  map (fun r => length (wbody r)) (p_rules P) = [3; 2; 3; 2; 3; 2; 2; 1] /\
  exists L g', same_step u_wt (p_rules P) L /\
    same_meaning (fun t => wderives False e_prog e_base t /\ not_defined_by e_s (wroot t))
      (fun t => wderives False L e_base t /\ not_defined_by e_s (wroot t) /\ forall x j, wroot t = Goal x -> 0 < j <= g' -> ~ gen_item j x).
Proof.
  pose (o := e_all). exists 20, o. split; [by vm_compute|].
  assert (E : elim u_wt u_neg u_one u_al u_cv (7 : nat_sr) (Some e_out) 20 1 e_prog 0 0 = Ok o) by (apply u_ok; by vm_compute).
  assert (El : map (fun r => length (wbody r)) (p_rules o) = [3; 2; 3; 2; 3; 2; 2; 1]) by (clear; by vm_compute).
  clearbody o. split; [exact E|]. split; [exact El|].
  refine (C30_elim nat_sr u_wt u_neg u_one u_al u_cv 7 (Some e_out) 20 1 0 0 e_s e_prog o e_base e_comm e_tests u_al_inj e_cv_inj (proj1 (e_plain 4)) (proj2 (e_plain 4)) _ (e_separated 4) eq_refl _ _ E); clear.
  - apply programb_ok. by vm_compute.
  - intros v. cbn. tauto.
  - intros x j (f & args & -> & [-> | ->]) _ [args' E']; discriminate.
Qed.

(** *** If rules share variables, the library does not rename them, and the result
    is wrong: goal(X) += f(Y).  f(Y) += g(X,Y), both with the same X and Y. *)
Definition e_shared : list (wrule nat_sr) :=
  [WRule (u_t "goal" [Var 0]) [Goal (u_t "f" [Var 1])]; WRule (u_t "f" [Var 1]) [Goal (u_t "g" [Var 0; Var 1])]].
Definition e_gbase (x : term) : Prop := x = u_t "g" [u_n 6; u_n 7].
Theorem C30_shared_refuted : exists n P,
  linear_rule_elimination u_wt u_neg u_one u_al u_cv (7 : nat_sr) None n 1 e_shared 0 = Ok P /\
  (exists t, wderives False e_shared e_gbase t /\ wroot t = Goal (u_t "goal" [u_n 5])) /\
  forall t, wderives False (p_rules P) e_gbase t -> wroot t <> Goal (u_t "goal" [u_n 5]).
Proof.
  pose (o := u_get (p_new [] 0) (linear_rule_elimination u_wt u_neg u_one u_al u_cv (7 : nat_sr) None 20 1 e_shared 0)). exists 20, o.
  split; [apply u_ok; by vm_compute|]. split.
  - exists (WNode 0 (u_t "goal" [u_n 5]) [WNode 1 (u_t "f" [u_n 7]) [TLeaf (u_t "g" [u_n 6; u_n 7])]]). split; [|done].
    econstructor; [done| |done|].
    { exists (fun v => match v with 0 => u_n 5 | _ => u_n 7 end). split; [by intros [|?]|done]. }
    constructor; [|constructor]. econstructor; [done| |done|].
    { exists (fun v => match v with 0 => u_n 6 | _ => u_n 7 end). split; [by intros [|?]|done]. }
    constructor; [|constructor]. by constructor.
  - assert (Er : exists a b a2 b2, p_rules o = [WRule (u_t "goal" [Var a]) [Goal (u_t "g" [Var a; Var b])]; WRule (u_t "goal" [Var a2]) [Goal (u_t "f" [Var b2])]])
      by (eexists _, _, _, _; vm_compute; reflexivity).
    clearbody o. destruct Er as (a & b & a2 & b2 & ->). intros t Ht E. destruct t as [v|x|k x ts]; [done| |].
    + inversion Ht as [|y Hy|]; subst. injection E as ->. done.
    + injection E as ->. apply wderives_node in Ht as (r & Hr & (σ & _ & E1 & E2) & _ & HF).
      destruct k as [|[|k]]; [| |done]; injection Hr as <-; cbn in E1, E2; injection E1 as E1.
      * destruct ts as [|t [|? ?]]; [done| |done]. injection E2 as E2. apply Forall_cons in HF as [Ht _].
        destruct t as [v|x|k x ts]; [done| |].
        -- inversion Ht as [|y Hy|]; subst. injection E2 as <-. injection Hy as Ea Eb. rewrite E1 in Ea. done.
        -- apply wderives_node in Ht as (r & Hr & (τ & _ & E3 & _) & _). injection E2 as <-. destruct k as [|[|k]]; [| |done]; injection Hr as <-; done.
      * destruct ts as [|t [|? ?]]; [done| |done]. injection E2 as E2. apply Forall_cons in HF as [Ht _].
        destruct t as [v|x|k x ts]; [done| |].
        -- inversion Ht as [|y Hy|]; subst. injection E2 as <-. done.
        -- apply wderives_node in Ht as (r & Hr & (τ & _ & E3 & _) & _). injection E2 as <-. destruct k as [|[|k]]; [| |done]; injection Hr as <-; done.
Qed.

(** *** A variable that is used as a subgoal overlaps with every head, so that
    [f] cannot be eliminated from  total += f(X) * X.  f(Y) += g(Y).  *)
Definition e_vals : list (wrule nat_sr) :=
  [WRule (u_t "total" []) [Goal (u_t "f" [Var 0]); Goal (Var 0)]; WRule (u_t "f" [Var 1]) [Goal (u_t "g" [Var 1])]].
Theorem C30_returns_refuted :
  program u_al 0 e_vals /\ separated e_vals /\ (forall r, r ∈ e_vals -> range_restricted r) /\
  forall n, 20 <= n -> linear_rule_elimination u_wt u_neg u_one u_al u_cv (7 : nat_sr) None n 1 e_vals 0 = Raise AssertionError.
Proof.
  split; [apply programb_ok; by vm_compute|]. split; [|split].
  - intros [|[|k]] [|[|k']] r r' v Hr Hr' Hk Hv Hv'; try done; injection Hr as <-; injection Hr' as <-; cbn in Hv, Hv'; set_solver.
  - intros r Hr. unfold e_vals in Hr. rewrite !elem_of_cons, elem_of_nil in Hr. destruct Hr as [-> | [->|[]]]; intros v; cbn; tauto.
  - intros n Hn. do 20 (destruct n as [|n]; [lia|]). vm_compute. reflexivity.
Qed.

Print Assumptions C30_elimination.
Print Assumptions C30_returns.
Print Assumptions C30_output.
Print Assumptions C30_linear.
Print Assumptions C30_elim.
Print Assumptions C30_witness.
Print Assumptions C30_returns_witness.
Print Assumptions C30_elim_witness.
Print Assumptions C30_shared_refuted.
Print Assumptions C30_returns_refuted.
