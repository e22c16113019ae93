(** C44: a sequence of folds, unfolds and definitions that the measure accepts keeps
    the meaning of the program. *)
From Coq Require Import List Permutation.
From stdpp Require Import gmap.
From Coq Require Import Lia ZArith.
From Coq Require String Ascii.
From Verif Require Import PyBase Semiring TermModel TermSpec TermProofs SetsModel SetsProofs RuleSpec RuleProofs NamesModel
  PruneModel UpdateModel UpdateSpec UpdateProofs UpdateProps TransModel TransSpec TransProofs UnfoldProofs TransProps LinearProofs FoldProofs FoldProps FoldsModel
  IntervalModel IntervalProps SafeCore SafeModel SafeSpec SafeProofs.
Import String.StringSyntax Ascii.AsciiSyntax.
Import ListNotations.
Local Open Scope string_scope.
Local Open Scope list_scope.

(** The answers of the solver can be trusted: conditions that it calls satisfiable
    hold for some values of their variables. *)
Definition solver_sound (sat : list cond -> bool) : Prop := forall cs, sat cs = true -> exists ρ, Forall (holds ρ) cs.
(** [P.folds_by(D)] matches every subgoal of [D] with a subgoal of [P] of its own. *)
Definition folds_partition {R : semiring} (folds_by : wrule R -> wrule R -> list (list (factor R))) : Prop :=
  forall P D rest, rest ∈ folds_by P D -> length rest + length (wbody D) = length (wbody P).

(** ** The measure of the root is made; it is asked, in this order, whether the
    programs [ks] of a session are safe.  If the answer for [k] is yes, then the
    derivations of [k], completed by the definitions that are not in its history,
    correspond one-to-one to those of the root together with all definitions. *)
Theorem C44_safe :
  forall (R : semiring) (al : nat -> nat) (ord : list term -> list term) (is_input : term -> bool) (minf : R) (is_one : R -> bool)
    (eqr : wrule R -> wrule R -> bool) (eqp : list (wrule R) -> list (wrule R) -> bool) (hash : wrule R -> Z) (same : wrule R -> wrule R -> bool)
    (folds_by : wrule R -> wrule R -> list (list (factor R))) (sat : list cond -> bool) (symb : bool) (only : Prop) (base : term -> Prop)
    (se : list stage) (c f n : nat) (ks : list nat) (bs : list bool) (st : mstate) (q k : nat),
    (forall i j, al i = al j -> i = j) -> (forall r s, eqr r s = true <-> r = s) -> equality_sound eqp ->
    (forall r s, same r s = true -> wvariant r s) -> folds_partition folds_by -> solver_sound sat -> commutative R ->
    session al ord is_input minf is_one eqr se c -> regular only base eqp se ->
    asks al ord is_input minf is_one eqr eqp hash same folds_by symb se c sat f n ks (make_measure symb (rules_of se 0)) = Ok (bs, st) ->
    ks !! q = Some k -> bs !! q = Some true ->
    same_meaning (wderives only (rules_of se k ++ missing se k) base) (wderives only (rules_of se 0 ++ definitions se) base).
Proof.
  intros R al ord is_input minf is_one eqr eqp hash same folds_by sat symb only base se c f n ks bs st q k Hal Heq Heqp Hsame Hfolds Hsat Hc Hse Hreg E Hq Hb.
  pose proof (session_coherent al Hal minf is_one ord is_input eqr Heq se c Hse) as Hco.
  destruct (make_measure_keeps al minf is_one ord is_input eqr symb only base Hc se c Hco) as [dv Hk].
  exact (asks_fine al Hal minf is_one ord is_input eqr Heq eqp Heqp hash same Hsame folds_by Hfolds symb only base Hc se c Hco Hreg sat Hsat f n ks dv _ _ _ Hk E q k Hq Hb).
Qed.

(** *** Without definitions: the program and the root have the same derivations. *)
Lemma definitions_missing {R : semiring} (se : list (stage (R := R))) k : definitions se = [] -> missing se k = [].
Proof.
  unfold definitions, missing. intros H. destruct (flat_map _ (base.filter _ _)) as [|r l] eqn:E; [done|].
  assert (Hr : r ∈ flat_map (defined se) (base.filter (fun l => l ∉ lineage se k) (seq 0 (length se)))) by (rewrite E; left).
  apply elem_of_list_In, in_flat_map in Hr as (x & Hx & Hr). apply elem_of_list_In, elem_of_list_filter in Hx as [_ Hx].
  assert (In r (flat_map (defined se) (seq 0 (length se)))) by (apply in_flat_map; exists x; split; [by apply elem_of_list_In|done]). by rewrite H in *.
Qed.

Theorem C44_safe_transformations :
  forall (R : semiring) (al : nat -> nat) (ord : list term -> list term) (is_input : term -> bool) (minf : R) (is_one : R -> bool)
    (eqr : wrule R -> wrule R -> bool) (eqp : list (wrule R) -> list (wrule R) -> bool) (hash : wrule R -> Z) (same : wrule R -> wrule R -> bool)
    (folds_by : wrule R -> wrule R -> list (list (factor R))) (sat : list cond -> bool) (symb : bool) (only : Prop) (base : term -> Prop)
    (se : list stage) (c f n : nat) (ks : list nat) (bs : list bool) (st : mstate) (q k : nat),
    (forall i j, al i = al j -> i = j) -> (forall r s, eqr r s = true <-> r = s) -> equality_sound eqp ->
    (forall r s, same r s = true -> wvariant r s) -> folds_partition folds_by -> solver_sound sat -> commutative R ->
    session al ord is_input minf is_one eqr se c -> regular only base eqp se -> definitions se = [] ->
    asks al ord is_input minf is_one eqr eqp hash same folds_by symb se c sat f n ks (make_measure symb (rules_of se 0)) = Ok (bs, st) ->
    ks !! q = Some k -> bs !! q = Some true ->
    same_meaning (wderives only (rules_of se k) base) (wderives only (rules_of se 0) base).
Proof.
  intros R al ord is_input minf is_one eqr eqp hash same folds_by sat symb only base se c f n ks bs st q k Hal Heq Heqp Hsame Hfolds Hsat Hc Hse Hreg Hd E Hq Hb.
  pose proof (C44_safe R al ord is_input minf is_one eqr eqp hash same folds_by sat symb only base se c f n ks bs st q k Hal Heq Heqp Hsame Hfolds Hsat Hc Hse Hreg E Hq Hb) as H.
  by rewrite (definitions_missing _ _ Hd), Hd, !app_nil_r in H.
Qed.

(** *** With definitions of new items: no rule of the root has a subgoal that is an
    instance of the head of a definition.  Then, for all other items, the derivations
    of a program that has all definitions in its history, or does not need the others,
    correspond to those of the root. *)
Section conservative.
  Context {R : semiring}.
  (** [x] is an item that [ds] define. *)
  Definition defines (ds : list (wrule R)) (x : term) : Prop := exists r σ, r ∈ ds /\ sub σ (whead r) = x.
  Definition about (P : term -> Prop) (t : wderiv R) : Prop := forall x, wroot t = Goal x -> P x.
  (** No rule uses what [ds] define. *)
  Definition unused (rs ds : list (wrule R)) : Prop := forall r b σ, r ∈ rs -> Goal b ∈ wbody r -> ~ defines ds (sub σ b).

  Lemma conservative only rs ds base (t : wderiv R) : unused rs ds -> about (fun x => ~ defines ds x) t ->
    wderives only (rs ++ ds) base t <-> wderives only rs base t.
  Proof.
    intros Hu. induction t as [v|x|i x ts IH] using wderiv_ind'; intros Ha.
    - split; constructor.
    - split; inversion 1; by constructor.
    - assert (Hrec : forall r, rs !! i = Some r -> inst r x (map wroot ts) -> Forall (wderives only (rs ++ ds) base) ts <-> Forall (wderives only rs base) ts).
      { intros r Hr (σ & Hσ & _ & Hb).
        assert (Hall : Forall (about (fun x => ~ defines ds x)) ts).
        { apply Forall_forall. intros t Ht y Ey. assert (Hy : wroot t ∈ map (fsub σ) (wbody r)) by (rewrite Hb; by apply elem_of_list_fmap_1).
          apply elem_of_list_fmap in Hy as (g & Eg & Hg). rewrite Ey in Eg. destruct g as [v|b]; [done|]. injection Eg as ->. eapply Hu; [|done]. by eapply elem_of_list_lookup_2. }
        clear -IH Hall. rewrite !Forall_forall in *. split; intros H t Ht; by apply IH; auto. }
      split; intros H; apply wderives_node in H as (r & Hr & Hin & Hv & HF).
      + assert (Hr' : rs !! i = Some r).
        { apply lookup_app_Some in Hr as [Hr|[_ Hr]]; [done|]. exfalso. apply (Ha x eq_refl). destruct Hin as (σ & _ & Eh & _). exists r, σ. split; [by eapply elem_of_list_lookup_2|done]. }
        econstructor; [done..|]. by eapply Hrec.
      + econstructor; [by apply lookup_app_l_Some|done..|]. by eapply Hrec.
  Qed.
End conservative.

Theorem C44_safe_new_items :
  forall (R : semiring) (al : nat -> nat) (ord : list term -> list term) (is_input : term -> bool) (minf : R) (is_one : R -> bool)
    (eqr : wrule R -> wrule R -> bool) (eqp : list (wrule R) -> list (wrule R) -> bool) (hash : wrule R -> Z) (same : wrule R -> wrule R -> bool)
    (folds_by : wrule R -> wrule R -> list (list (factor R))) (sat : list cond -> bool) (symb : bool) (only : Prop) (base : term -> Prop)
    (se : list stage) (c f n : nat) (ks : list nat) (bs : list bool) (st : mstate) (q k : nat),
    (forall i j, al i = al j -> i = j) -> (forall r s, eqr r s = true <-> r = s) -> equality_sound eqp ->
    (forall r s, same r s = true -> wvariant r s) -> folds_partition folds_by -> solver_sound sat -> commutative R ->
    session al ord is_input minf is_one eqr se c -> regular only base eqp se ->
    unused (rules_of se 0) (definitions se) -> unused (rules_of se k) (missing se k) ->
    asks al ord is_input minf is_one eqr eqp hash same folds_by symb se c sat f n ks (make_measure symb (rules_of se 0)) = Ok (bs, st) ->
    ks !! q = Some k -> bs !! q = Some true ->
    same_meaning (fun t => wderives only (rules_of se k) base t /\ about (fun x => ~ defines (definitions se) x) t)
      (fun t => wderives only (rules_of se 0) base t /\ about (fun x => ~ defines (definitions se) x) t).
Proof.
  intros R al ord is_input minf is_one eqr eqp hash same folds_by sat symb only base se c f n ks bs st q k Hal Heq Heqp Hsame Hfolds Hsat Hc Hse Hreg Hu0 Huk E Hq Hb.
  destruct (C44_safe R al ord is_input minf is_one eqr eqp hash same folds_by sat symb only base se c f n ks bs st q k Hal Heq Heqp Hsame Hfolds Hsat Hc Hse Hreg E Hq Hb) as (F & G & H1 & H2).
  assert (Hm : forall t, about (R := R) (fun x => ~ defines (definitions se) x) t -> about (fun x => ~ defines (missing se k) x) t).
  { intros t Ht x Hx (r & σ & Hr & Er). apply (Ht x Hx). exists r, σ. split; [|done]. unfold missing, definitions in *.
    apply elem_of_list_In, in_flat_map in Hr as (y & Hy & Hr). apply elem_of_list_In, elem_of_list_filter in Hy as [_ Hy].
    apply elem_of_list_In, in_flat_map. exists y. split; [by apply elem_of_list_In|done]. }
  exists F, G. split.
  - intros t [Ht Ha]. apply conservative with (ds := missing se k) in Ht; [|done|by apply Hm]. destruct (H1 t Ht) as (B & Hg & Hr & Hw).
    assert (Ha' : about (fun x => ~ defines (definitions se) x) (F t)) by (intros x Hx; apply Ha; by rewrite <- Hr). repeat split; [|done..].
    by apply conservative with (ds := definitions se).
  - intros t [Ht Ha]. apply conservative with (ds := definitions se) in Ht; [|done|done]. destruct (H2 t Ht) as (A & Hg). destruct (H1 _ A) as (_ & _ & Hr & _).
    rewrite Hg in Hr. assert (Ha' : about (fun x => ~ defines (definitions se) x) (G t)) by (intros x Hx; apply Ha; by rewrite Hr). repeat split; [|done..].
    apply conservative with (ds := missing se k); [done|by apply Hm|done].
Qed.

(** ** The check for definitions of the other branch ([_freshness_violations]): it
    reports a conflict just if a definition that [d] has and [a] does not has a head
    that has an instance in common with the head of a rule of [a]. *)
Section freshness.
  Context {R : semiring} (al : nat -> nat) (Hal : forall i j, al i = al j -> i = j) (se : list (stage (R := R))) (c : nat).
  Definition overlap (x y : term) : Prop := exists σ τ, sub σ x = sub τ y.

  Lemma meet_ok n (h h' : term) h1 c1 h2 c2 u : fresh_rule (R := R) al n ∅ c (WRule h []) = Ok (h1, c1) ->
    fresh_rule (R := R) al n ∅ c1 (WRule h' []) = Ok (h2, c2) -> unifies n ∅ (whead h1) (whead h2) = Ok u -> u = true <-> overlap h h'.
  Proof using Hal.
    intros E1 E2 Eu. apply unifies_ok in Eu. rewrite Eu. clear Eu.
    apply (fresh_rule_ok al Hal ∅ Var acyclic_empty resolution_empty) in E1 as (ρ1 & E1 & Hρ1 & _ & Hv1).
    apply (fresh_rule_ok al Hal ∅ Var acyclic_empty resolution_empty) in E2 as (ρ2 & E2 & Hρ2 & _ & Hv2).
    assert (W : forall (t : term) v, v ∈ wvars (R := R) (rsub Var (WRule t [])) <-> v ∈ vars t).
    { intros t v. unfold wvars. cbn. by rewrite sub_Var, app_nil_r. }
    assert (Hh1 : whead h1 = rename ρ1 h) by (rewrite E1; unfold rename; cbn; by rewrite sub_Var).
    assert (Hh2 : whead h2 = rename ρ2 h') by (rewrite E2; unfold rename; cbn; by rewrite sub_Var).
    assert (A1 : forall v, v ∈ vars h -> exists j, ρ1 v = al j /\ j < c1).
    { intros v Hv. destruct (Hv1 (ρ1 v)) as (j & Ej & Hj); [|exists j; split; [done|lia]].
      unfold wvars. rewrite E1. cbn. rewrite sub_Var, app_nil_r. apply elem_of_list_In, vars_sub. exists v. split; [by apply elem_of_list_In|by left]. }
    assert (A2 : forall v, v ∈ vars h' -> exists j, ρ2 v = al j /\ c1 <= j).
    { intros v Hv. destruct (Hv2 (ρ2 v)) as (j & Ej & Hj); [|exists j; split; [done|lia]].
      unfold wvars. rewrite E2. cbn. rewrite sub_Var, app_nil_r. apply elem_of_list_In, vars_sub. exists v. split; [by apply elem_of_list_In|by left]. }
    assert (R1 : forall v w, v ∈ vars h -> w ∈ vars h -> ρ1 v = ρ1 w -> v = w) by (intros v w Hv Hw; apply Hρ1; by apply W).
    assert (R2 : forall v w, v ∈ vars h' -> w ∈ vars h' -> ρ2 v = ρ2 w -> v = w) by (intros v w Hv Hw; apply Hρ2; by apply W).
    rewrite Hh1, Hh2. unfold rename. clear E1 E2 Hv1 Hv2 Hρ1 Hρ2 W Hh1 Hh2. split.
    - intros [σ E]. rewrite !sub_sub in E. eexists _, _. exact E.
    - intros (σ & τ & E). destruct (renaming_inverse ρ1 (vars h) R1) as [κ1 K1]. destruct (renaming_inverse ρ2 (vars h') R2) as [κ2 K2].
      exists (fun v => if decide (v ∈ map ρ1 (vars h)) then σ (κ1 v) else τ (κ2 v)). rewrite !sub_sub.
      transitivity (sub σ h); [|rewrite E; symmetry]; apply sub_ext; intros v Hv; apply elem_of_list_In in Hv; cbn [sub].
      + rewrite decide_True by (by apply elem_of_list_fmap_1). by rewrite K1.
      + rewrite decide_False; [by rewrite K2|]. intros Hin. apply elem_of_list_fmap in Hin as (w & Ew & Hw).
        destruct (A1 w Hw) as (j & Ej & Hj). destruct (A2 v Hv) as (j' & Ej' & Hj'). rewrite Ej, Ej' in Ew. apply Hal in Ew. lia.
  Qed.

  Lemma heads_meet_ok n h (rs : list (wrule R)) u : heads_meet al c n h rs = Ok u -> u = true <-> exists r, r ∈ rs /\ overlap h (whead r).
  Proof using Hal.
    revert u. induction rs as [|r rs IH]; intros u E; cbn [heads_meet] in E.
    - injection E as <-. split; [done|]. by intros (r & Hr%elem_of_nil & _).
    - destruct (fresh_rule _ _ _ c _) as [[h1 c1]| |] eqn:E1; [|done..]. cbn [bind] in E.
      destruct (fresh_rule _ _ _ c1 _) as [[h2 c2]| |] eqn:E2; [|done..]. cbn [bind] in E.
      destruct (unifies _ _ _ _) as [b| |] eqn:Eu; [|done..]. cbn [bind] in E. pose proof (meet_ok _ _ _ _ _ _ _ _ E1 E2 Eu) as Hb.
      destruct b.
      + injection E as <-. split; [|done]. intros _. exists r. split; [left|by apply Hb].
      + rewrite (IH _ E). split; intros (s & Hs & Ho).
        * exists s. split; [by right|done].
        * apply elem_of_cons in Hs as [->|Hs]; [by apply Hb in Ho|by exists s].
  Qed.
  Lemma any_meet_ok n (ds rs : list (wrule R)) u : any_meet al c n ds rs = Ok u -> u = true <-> exists d r, d ∈ ds /\ r ∈ rs /\ overlap (whead d) (whead r).
  Proof using Hal.
    revert u. induction ds as [|d ds IH]; intros u E; cbn [any_meet] in E.
    - injection E as <-. split; [done|]. by intros (d & r & Hr%elem_of_nil & _).
    - destruct (heads_meet _ _ _ _ _) as [b| |] eqn:Eh; [|done..]. cbn [bind] in E. apply heads_meet_ok in Eh. destruct b.
      + injection E as <-. split; [|done]. intros _. destruct Eh as [[r [Hr Ho]] _]; [done|]. exists d, r. split; [left|done].
      + rewrite (IH _ E). split.
        * intros (e & r & He & Hr & Ho). exists e, r. split; [by right|done].
        * intros (e & r & He & Hr & Ho). apply elem_of_cons in He as [->|He]; [|by exists e, r]. exfalso. assert (false = true); [|done]. apply Eh. by exists r.
  Qed.
End freshness.

Theorem C44_freshness :
  forall (R : semiring) (al : nat -> nat) (se : list (stage (R := R))) (c n a d : nat) (bad : bool),
    (forall i j, al i = al j -> i = j) -> violates al se c n a d = Ok bad ->
    bad = true <-> exists k s r, k ∈ lineage se d /\ k ∉ lineage se a /\ s ∈ defined se k /\ r ∈ rules_of se a /\ overlap (whead s) (whead r).
Proof.
  intros R al se c n a d bad Hal E. unfold violates in E. apply (any_meet_ok al Hal) in E. rewrite E. split.
  - intros (s & r & Hs & Hr & Ho). apply elem_of_list_In, in_flat_map in Hs as (k & Hk & Hs). apply elem_of_list_In, elem_of_list_filter in Hk as [Hk1 Hk2].
    exists k, s, r. split; [done|]. split; [done|]. split; [by apply elem_of_list_In|done].
  - intros (k & s & r & Hk & Hk' & Hs & Hr & Ho). exists s, r. split; [|done]. apply elem_of_list_In, in_flat_map. exists k.
    split; [apply elem_of_list_In, elem_of_list_filter; done|by apply elem_of_list_In].
Qed.

(** ** [Rule.folds_by] meets the assumption made above. *)
Lemma pcovers_go_length n ys xs : forall i js s rs m, pcovers_go n ys i xs js s = Ok rs -> List.NoDup js -> In m rs -> length (snd m) + length xs = length js.
Proof.
  induction xs as [|x xs IH]; intros i js s rs m E Hnd Hm; cbn [pcovers_go] in E.
  - injection E as <-. destruct Hm as [<-|[]]. cbn. lia.
  - destruct (Nat.ltb _ _); [injection E as <-; done|]. destruct (PyBase.mapM _ js) as [ls| |] eqn:El; [|done..]. cbn [bind] in E. injection E as <-.
    apply in_concat in Hm as (l & Hl & Hm).
    assert (Hin : forall js' ls, PyBase.mapM (fun j => match nth_error ys j with
          | None => Raise IndexError
          | Some y =>
              let* (s', ok) := cover n s x y in
              if ok then
                let* sub := pcovers_go n ys (S i) xs (List.filter (fun k => negb (Nat.eqb k j)) js) s' in
                Ok (map (fun r => (fst (fst r), (j, i) :: snd (fst r), snd r)) sub)
              else Ok []
          end) js' = Ok ls -> In l ls -> exists j s' sub, In j js' /\ pcovers_go n ys (S i) xs (List.filter (fun k => negb (Nat.eqb k j)) js) s' = Ok sub /\ exists m', In m' sub /\ snd m' = snd m).
    { clear El Hl ls. induction js' as [|j js' IHj]; intros ls El Hl; cbn [PyBase.mapM] in El; [injection El as <-; done|].
      destruct (nth_error ys j) as [y|]; [|done]. destruct (cover n s x y) as [[s' ok]| |]; [|done..]. cbn [bind] in El. destruct ok.
      - destruct (pcovers_go _ _ _ _ _ _) as [sb| |] eqn:Es; [|done..]. cbn [bind] in El. destruct (PyBase.mapM _ js') as [ls'| |]; [|done..]. cbn [bind] in El. injection El as <-.
        destruct Hl as [<-|Hl].
        + apply in_map_iff in Hm as (m' & <- & Hm). exists j, s', sb. split; [by left|]. split; [done|]. by exists m'.
        + destruct (IHj _ eq_refl Hl) as (j' & s2 & sb2 & Hj' & H). exists j', s2, sb2. split; [by right|done].
      - cbn [bind] in El. destruct (PyBase.mapM _ js') as [ls'| |]; [|done..]. cbn [bind] in El. injection El as <-.
        destruct Hl as [<-|Hl]; [done|]. destruct (IHj _ eq_refl Hl) as (j' & s2 & sb2 & Hj' & H). exists j', s2, sb2. split; [by right|done]. }
    destruct (Hin js ls El Hl) as (j & s' & sb & Hj & Es & m' & Hm' & Em). apply IH with (m := m') in Es; [|by apply List.NoDup_filter|done].
    assert (Hl' : length (List.filter (fun k => negb (Nat.eqb k j)) js) + 1 = length js).
    { clear -Hj Hnd. induction js as [|k js IH]; [done|]. cbn. inversion Hnd as [|? ? Hk Hnd']; subst. destruct (Nat.eqb_spec k j) as [->|Hn]; cbn.
      - assert (Hid : forall l, ~ In j l -> List.filter (fun k => negb (Nat.eqb k j)) l = l); [|rewrite Hid by done; lia].
        clear. induction l as [|k l IH]; intros Hl; [done|]. cbn. destruct (Nat.eqb_spec k j) as [->|]; [destruct Hl; by left|]. cbn. rewrite IH; [done|]. intros H. apply Hl. by right.
      - destruct Hj as [->|Hj]; [done|]. specialize (IH Hnd' Hj). lia. }
    cbn. rewrite <- Em. lia.
Qed.
Lemma pick_length {A} (l : list A) js l' : pick l js = Ok l' -> length l' = length js.
Proof.
  revert l'. induction js as [|j js IH]; intros l' E; cbn [pick] in E; [by injection E as <-|].
  destruct (l !! j); [|done]. destruct (pick l js) as [r| |]; [|done..]. injection E as <-. cbn. by rewrite (IH _ eq_refl).
Qed.
Lemma mapM_elem {A B} (f : A -> res B) l bs b : PyBase.mapM f l = Ok bs -> b ∈ bs -> exists a, a ∈ l /\ f a = Ok b.
Proof.
  revert bs. induction l as [|a l IH]; intros bs E Hb; cbn [PyBase.mapM] in E; [injection E as <-; by apply elem_of_nil in Hb|].
  destruct (f a) as [x| |] eqn:Ef; [|done..]. cbn [bind] in E. destruct (PyBase.mapM f l) as [xs| |]; [|done..]. cbn [bind] in E. injection E as <-.
  apply elem_of_cons in Hb as [->|Hb]; [exists a; split; [left|done]|]. destruct (IH _ eq_refl Hb) as (a' & Ha & E). exists a'. split; [by right|done].
Qed.

Theorem C44_folds_by :
  forall (R : semiring) (enc : R -> term) (n : nat) (P D : wrule R) (ts : list folded) (t : folded),
    FoldsModel.folds_by enc n P D = Ok ts -> t ∈ ts -> length (f_right t) + length (wbody D) = length (wbody P).
Proof.
  intros R enc n P D ts t E Ht. unfold FoldsModel.folds_by in E. destruct (pcovers n _ _) as [ms| |] eqn:Em; [|done..]. cbn [bind] in E.
  destruct (PyBase.mapM _ ms) as [os| |] eqn:Eo; [|done..]. cbn [bind] in E. injection E as <-. apply elem_of_list_omap in Ht as (o & Ho & Et). cbn in Et. subst o.
  destruct (mapM_elem _ _ _ _ Eo Ho) as ([[s a] rem] & Hm & Ef). unfold fold_by_match in Ef.
  destruct (sapply n s (whead D)) as [h| |]; [|done..]. cbn [bind] in Ef. destruct (PyBase.mapM (sapply n s) _) as [bs| |]; [|done..]. cbn [bind] in Ef.
  destruct (pick _ _) as [rest| |] eqn:Ep; [|done..]. cbn [bind] in Ef. destruct (forallb _ _); [|done]. injection Ef as <-. cbn [f_right].
  apply pick_length in Ep. rewrite Ep. eapply pcovers_go_length in Em; [|apply seq_NoDup|by apply elem_of_list_In]. cbn in Em. by rewrite map_length, seq_length, map_length in Em.
Qed.

(** ** The number of a program is enough fuel. *)
Section fuel.
  Context {R : semiring} (al : nat -> nat) (Hal : forall i j, al i = al j -> i = j) (minf : R) (is_one : R -> bool).
  Context (ord : list term -> list term) (is_input : term -> bool) (eqr : wrule R -> wrule R -> bool) (Heq : forall r s, eqr r s = true <-> r = s).
  Context (eqp : list (wrule R) -> list (wrule R) -> bool) (hash : wrule R -> Z) (same : wrule R -> wrule R -> bool)
    (folds_by : wrule R -> wrule R -> list (list (factor R))) (symb : bool) (se : list (stage (R := R))) (c : nat).
  Lemma measure_fuel n f : session al ord is_input minf is_one eqr se c -> forall f' k st, k < f -> k < f' ->
    measure al ord is_input minf is_one eqr eqp hash same folds_by symb se c f n k st = measure al ord is_input minf is_one eqr eqp hash same folds_by symb se c f' n k st.
  Proof using Hal Heq.
    intros Hse. pose proof (session_coherent al Hal minf is_one ord is_input eqr Heq se c Hse) as [_ Hco].
    induction f as [|f IH]; intros f' k st Hk Hk'; [lia|]. destruct f' as [|f']; [lia|]. cbn [SafeModel.measure].
    destruct (se !! k) as [s|] eqn:Es; [|done]. destruct (cached _ _ _ _) as [[l m]|]; [done|]. destruct (Hco k s Es) as [_ Hc]. unfold came in Hc.
    destruct (s_how s) as [|a nd|a i j d ix|a j d].
    - done.
    - destruct Hc as (_ & Ha & _). rewrite (IH f' a) by lia. done.
    - destruct Hc as (_ & Ha & Hd & _). destruct (violates _ _ _ _ _ _) as [[]| |]; [done| |done|done]. cbn [bind]. rewrite (IH f' a) by lia.
      destruct (measure _ _ _ _ _ _ _ _ _ _ _ _ _ f' n a st) as [[mp st1]| |]; [|done..]. cbn [bind]. by rewrite (IH f' d) by lia.
    - destruct Hc as (_ & Ha & Hd & _). destruct (unfold_by _ _ _ _ _ _ _ _ _ _ _ _) as [[[u ix] c1]| |]; [|done..]. cbn [bind]. destruct (negb _); [done|].
      destruct (violates _ _ _ _ _ _) as [[]| |]; [done| |done|done]. cbn [bind]. rewrite (IH f' a) by lia.
      destruct (measure _ _ _ _ _ _ _ _ _ _ _ _ _ f' n a st) as [[mp st1]| |]; [|done..]. cbn [bind]. by rewrite (IH f' d) by lia.
  Qed.
End fuel.

Theorem C44_fuel :
  forall (R : semiring) (al : nat -> nat) (ord : list term -> list term) (is_input : term -> bool) (minf : R) (is_one : R -> bool)
    (eqr : wrule R -> wrule R -> bool) (eqp : list (wrule R) -> list (wrule R) -> bool) (hash : wrule R -> Z) (same : wrule R -> wrule R -> bool)
    (folds_by : wrule R -> wrule R -> list (list (factor R))) (sat : list cond -> bool) (symb : bool)
    (se : list stage) (c f f' n : nat) (ks : list nat) (st : mstate),
    (forall i j, al i = al j -> i = j) -> (forall r s, eqr r s = true <-> r = s) -> session al ord is_input minf is_one eqr se c ->
    Forall (fun k => k < f) ks -> Forall (fun k => k < f') ks ->
    asks al ord is_input minf is_one eqr eqp hash same folds_by symb se c sat f n ks st =
    asks al ord is_input minf is_one eqr eqp hash same folds_by symb se c sat f' n ks st.
Proof.
  intros R al ord is_input minf is_one eqr eqp hash same folds_by sat symb se c f f' n ks st Hal Heq Hse Hf Hf'. revert st.
  induction ks as [|k ks IH]; intros st; [done|]. apply Forall_cons in Hf as [Hk Hf], Hf' as [Hk' Hf']. cbn [asks].
  rewrite (measure_fuel al Hal minf is_one ord is_input eqr Heq eqp hash same folds_by symb se c n f Hse f' k st Hk Hk').
  destruct (measure _ _ _ _ _ _ _ _ _ _ _ _ _ f' n k st) as [[m st1]| |]; [|done..]. cbn [bind]. by rewrite (IH Hf Hf').
Qed.

(** Computation by the virtual machine, checked as such by the kernel *)
Local Ltac vmr := match goal with |- ?a = ?b => exact (eq_refl b <: a = b) end.

(** ** Witnesses.  The example programs: variables [X], [Y], ... are numbers below 100. *)
Section checks.
  (** boolean forms of the assumptions about sessions *)
  Definition distinctb (rs : list (wrule nat_sr)) : bool :=
    forallb (fun i => forallb (fun j => match rs !! i, rs !! j with Some r, Some s => Nat.eqb i j || negb (v_eqw v_enc r s) | _, _ => true end) (seq 0 (length rs))) (seq 0 (length rs)).
  Lemma distinctb_ok rs : distinctb rs = true -> distinct rs.
  Proof.
    unfold distinctb. rewrite forallb_forall. intros H i j r s Hi Hj Hv.
    assert (Hli : In i (seq 0 (length rs))) by (apply in_seq; apply lookup_lt_Some in Hi; lia).
    assert (Hlj : In j (seq 0 (length rs))) by (apply in_seq; apply lookup_lt_Some in Hj; lia).
    specialize (H i Hli). rewrite forallb_forall in H. specialize (H j Hlj). rewrite Hi, Hj in H. apply orb_true_iff in H as [H%Nat.eqb_eq|H]; [done|].
    apply (v_eqw_ok v_enc v_enc_inj v_enc_closed) in Hv. by rewrite Hv in H.
  Qed.
  Definition apartb (x y : term) : bool := match x, y with Fn (Cst a :: _), Fn (Cst b :: _) => bool_decide (a <> b) | _, _ => false end.
  Lemma apartb_ok x y σ τ : apartb x y = true -> sub σ x <> sub τ y.
  Proof.
    unfold apartb. destruct x as [|?|[|[|?|?] ?]]; try done. destruct y as [|?|[|[|?|?] ?]]; try done. rewrite bool_decide_eq_true. intros H E. cbn in E. by injection E.
  Qed.
  Definition restrictedb (s : wrule nat_sr) : bool := forallb (fun v => bool_decide (v ∈ flat_map vars (goals (wbody s)))) (vars (whead s)).
  Definition replaceableb (se : list (stage (R := nat_sr))) (d : nat) (r : wrule nat_sr) (j : nat) (b : term) : bool :=
    forallb restrictedb (rules_of se d) && forallb (fun s => apartb b (whead s)) (missing se d).
  Lemma replaceableb_ok base se d r j b : wbody r !! j = Some (Goal b) -> (forall σ, ~ base (sub σ b)) -> replaceableb se d r j b = true ->
    replaceable False base se d r j.
  Proof.
    intros Hb Hbase H. unfold replaceableb in H. apply andb_true_iff in H as [H1 H2]. rewrite forallb_forall in H1, H2. exists b. split; [done|]. split; [by intros σ _|].
    split; [|split; [done|]].
    - intros s Hs. apply (C29_kept _ _ _ _ b). left. apply elem_of_list_In, H1 in Hs. unfold restrictedb in Hs. rewrite forallb_forall in Hs.
      intros v Hv. apply Hs, bool_decide_eq_true in Hv. by apply elem_of_list_In.
    - intros s Hs σ τ. apply apartb_ok, H2. by apply elem_of_list_In.
  Qed.
  Definition differb (se : list (stage (R := nat_sr))) : bool :=
    forallb (fun k => forallb (fun l => Nat.eqb l k || negb (v_eqp v_enc (rules_of se l) (rules_of se k))) (seq 0 (length se))) (seq 0 (length se)).
  Lemma differb_ok se : differb se = true -> forall k l, k < length se -> l < length se -> v_eqp v_enc (rules_of se l) (rules_of se k) = true -> l = k.
  Proof.
    unfold differb. rewrite forallb_forall. intros H k l Hk Hl E. assert (Hk' : In k (seq 0 (length se))) by (apply in_seq; lia).
    assert (Hl' : In l (seq 0 (length se))) by (apply in_seq; lia). specialize (H k Hk'). rewrite forallb_forall in H. specialize (H l Hl').
    rewrite E in H. by apply orb_true_iff in H as [H%Nat.eqb_eq|H].
  Qed.
End checks.

Definition g_p x y := u_t "p" [x; y]. Definition g_q x y := u_t "q" [x; y].
Definition g_e x y := u_t "e" [x; y]. Definition g_f x y := u_t "f" [x; y].
Local Notation X := (Var 0). Local Notation Y := (Var 1). Local Notation W := (Var 2).
(** p(X,Y) += e(X,Y).  p(X,W) += e(X,Y) * p(Y,W).  q(X,W) += p(X,Y) * f(Y,W). *)
Definition g_root : list (wrule nat_sr) :=
  [WRule (g_p X Y) [Goal (g_e X Y)]; WRule (g_p X W) [Goal (g_e X Y); Goal (g_p Y W)]; WRule (g_q X W) [Goal (g_p X Y); Goal (g_f Y W)]].
Definition g_base (x : term) : Prop := exists a b, x = g_e a b \/ x = g_f a b.
Definition g_act := act u_al id (fun _ => false) (7 : nat_sr) u_one (v_eqr v_enc) 20.
Notation g_session := (session u_al id (fun _ => false) (7 : nat_sr) u_one (v_eqr v_enc)).
Definition g_fb (P D : wrule nat_sr) := match folds_by v_enc 30 P D with Ok ts => map f_right ts | _ => [] end.
(** a solver that only tries the value 1 for all variables *)
Definition g_sat (cs : list cond) : bool := forallb (fun x => match x with CPos b => Z.ltb 0 (beval (fun _ => 1%Z) b) | CFalse => false end) cs.
Notation g_asks symb se c ks :=
  (asks u_al id (fun _ => false) (7 : nat_sr) u_one (v_eqr v_enc) (v_eqp v_enc) (fun _ => 0%Z) (v_eqw v_enc) g_fb symb se c g_sat 10 30 ks (make_measure symb (rules_of se 0))).

Lemma g_sat_ok : solver_sound g_sat.
Proof.
  intros cs H. exists (fun _ => 1%Z). apply Forall_forall. intros x Hx. unfold g_sat in H. rewrite forallb_forall in H. apply elem_of_list_In, H in Hx.
  destruct x; [|done]. cbn. lia.
Qed.
Lemma g_fb_ok : folds_partition g_fb.
Proof.
  intros P D rest Hr. unfold g_fb in Hr. destruct (folds_by v_enc 30 P D) as [ts| |] eqn:E; [|by apply elem_of_nil in Hr..].
  apply elem_of_list_fmap in Hr as (t & -> & Ht). by eapply C44_folds_by.
Qed.
Lemma g_eqp_ok : equality_sound (v_eqp v_enc).
Proof. intros P Q. apply v_eqp_ok; [exact v_enc_inj|exact v_enc_closed]. Qed.
Lemma g_eqw_ok r s : v_eqw v_enc r s = true -> wvariant r s.
Proof. apply v_eqw_ok; [exact v_enc_inj|exact v_enc_closed]. Qed.
Definition g_safe symb se c ks bs st q k := C44_safe nat_sr u_al id (fun _ => false) 7 u_one (v_eqr v_enc) (v_eqp v_enc) (fun _ => 0%Z) (v_eqw v_enc) g_fb g_sat symb
  False g_base se c 10 30 ks bs st q k u_al_inj (v_eqr_ok v_enc v_enc_inj) g_eqp_ok g_eqw_ok g_fb_ok g_sat_ok v_comm.

Definition g_answers (symb : bool) (se : list stage) (c : nat) (ks : list nat) (bs : list bool) : bool :=
  match g_asks symb se c ks with Ok (bs', _) => bool_decide (bs' = bs) | _ => false end.
Lemma g_answers_ok symb se c ks bs : g_answers symb se c ks bs = true -> exists st, g_asks symb se c ks = Ok (bs, st).
Proof. unfold g_answers. generalize (g_asks symb se c ks). intros [[bs' st]| |] H; [|done..]. apply bool_decide_eq_true in H as ->. by exists st. Qed.

(** *** t(X) += q(X,X) is defined; the subgoal p(X,Y) of q is unfolded; then the rule
    q(X,W) += e(X,Y) * p(Y,U) * f(U,W) is folded into q(X,W) += e(X,Y) * q(Y,W) with the
    definition of q in the root.  The new program, in which q is recursive, is safe. *)
Definition g_def : wrule nat_sr := WRule (u_t "t" [X]) [Goal (g_q X X)].
Definition g_new : wrule nat_sr := WRule (g_q X W) [Goal (g_e X Y); Goal (g_q Y W)].
Definition g_u1 : wrule nat_sr := WRule (g_q (Var 110) (Var 112)) [Goal (g_e (Var 110) (Var 114)); Goal (g_f (Var 114) (Var 112))].
Definition g_u2 : wrule nat_sr := WRule (g_q (Var 116) (Var 118)) [Goal (g_e (Var 116) (Var 120)); Goal (g_p (Var 120) (Var 122)); Goal (g_f (Var 122) (Var 118))].
Definition g_se : list stage :=
  [Stage g_root HRoot;
   Stage (g_root ++ [g_def]) (HDefine 0 1);
   Stage (take 2 g_root ++ [g_def; g_u1; g_u2]) (HUnfold 1 2 0 0 [(3, 0); (4, 1)]);
   Stage (g_new :: take 2 g_root ++ [g_def; g_u1]) (HFold 2 1 0)].
Lemma g_se_session : g_session g_se 12.
Proof.
  assert (E1 : g_act (ADefine 0 [g_def]) [Stage g_root HRoot] 0 = Ok (take 2 g_se, 0)) by vmr.
  assert (E2 : g_act (AUnfold 1 2 0 0) (take 2 g_se) 0 = Ok (take 3 g_se, 12)) by vmr.
  assert (E3 : g_act (AFold 2 0 1 g_new [4]) (take 3 g_se) 12 = Ok (g_se, 12)) by vmr.
  eapply (session_act _ _ _ _ _ _ 20 _ _ 12); [eapply (session_act _ _ _ _ _ _ 20 _ _ 0); [eapply (session_act _ _ _ _ _ _ 20 _ _ 0); [apply session_root| |exact E1]| |exact E2]| |exact E3].
  - apply programb_ok. by vm_compute.
  - apply programb_ok. by vm_compute.
  - intros r b Hr Hb. vm_compute in Hr. injection Hr as <-. vm_compute in Hb. injection Hb as <-. right. by eexists _, _.
  - split.
    + eapply usable_mono; [apply (programb_ok [g_new]); by vm_compute|lia].
    + intros b Hb. vm_compute in Hb. injection Hb as <-. right. by eexists _, _.
Qed.
Lemma g_se_regular : regular False g_base (v_eqp v_enc) g_se.
Proof.
  assert (Hd : forall k rs h, g_se !! k = Some (Stage rs h) -> k < 4) by (intros k rs h H; by apply lookup_lt_Some in H).
  split.
  - intros k. destruct (decide (k < 4)) as [H|H].
    + apply distinctb_ok. destruct k as [|[|[|[|]]]]; [by vm_compute..|lia].
    + unfold rules_of. rewrite (proj2 (lookup_ge_None g_se k)) by (change (length g_se) with 4; lia). intros i j r s Hi. done.
  - intros k rs a i j d ix H. pose proof (Hd _ _ _ H) as Hk. destruct k as [|[|[|[|]]]]; [done|done| |done|lia]. injection H as <- <- <- <- <- <-.
    exists (WRule (g_q X W) [Goal (g_p X Y); Goal (g_f Y W)]). split; [done|]. apply (replaceableb_ok _ _ _ _ _ (g_p X Y)); [done| |by vm_compute].
    intros σ (x & y & [E|E]); discriminate.
  - intros k r rs a j d H. pose proof (Hd _ _ _ H) as Hk. destruct k as [|[|[|[|]]]]; [done|done|done| |lia]. injection H as <- <- <- <- <-.
    apply (replaceableb_ok _ _ _ _ _ (g_q Y W)); [done| |by vm_compute]. intros σ (x & y & [E|E]); discriminate.
  - intros k l Hk Hl E. assert (Hlk : l = k); [|by subst]. eapply differb_ok; [|exact Hk|exact Hl|exact E]. by vm_compute.
Qed.
Lemma g_se_answers symb : exists st, g_asks symb g_se 12 [3; 2; 1; 0] = Ok ([true; true; true; true], st).
Proof. apply g_answers_ok. destruct symb; vmr. Qed.
Lemma g_se_meaning : same_meaning (wderives False (rules_of g_se 3) g_base) (wderives False (g_root ++ [g_def]) g_base).
Proof.
  destruct (g_se_answers false) as [st E].
  pose proof (g_safe false g_se 12 [3; 2; 1; 0] [true; true; true; true] st 0 3 g_se_session g_se_regular E eq_refl eq_refl) as Hm. clear -Hm.
  assert (E1 : missing g_se 3 = []) by (by vm_compute). assert (E2 : definitions g_se = [g_def]) by (by vm_compute).
  change (rules_of g_se 0) with g_root in Hm. by rewrite E1, E2, app_nil_r in Hm.
Qed.
Theorem C44_safe_witness :
  g_session g_se 12 /\ regular False g_base (v_eqp v_enc) g_se /\
  (forall symb, exists st, g_asks symb g_se 12 [3; 2; 1; 0] = Ok ([true; true; true; true], st)) /\
  same_meaning (wderives False (rules_of g_se 3) g_base) (wderives False (g_root ++ [g_def]) g_base) /\
  exists t, wderives False (rules_of g_se 3) g_base t /\ wroot t = Goal (u_t "t" [u_n 1]) /\ wvalue (fun _ => (5 : nat_sr)) t = 125.
Proof.
  split; [exact g_se_session|]. split; [exact g_se_regular|]. split; [exact g_se_answers|]. split; [exact g_se_meaning|].
  pose (e := TLeaf (g_e (u_n 1) (u_n 1)) : wderiv nat_sr). pose (f := TLeaf (g_f (u_n 1) (u_n 1)) : wderiv nat_sr).
    pose (qq := WNode 4 (g_q (u_n 1) (u_n 1)) [e; f] : wderiv nat_sr). pose (qq' := WNode 0 (g_q (u_n 1) (u_n 1)) [e; qq] : wderiv nat_sr).
    exists (WNode 3 (u_t "t" [u_n 1]) [qq']). split; [|by vm_compute].
    assert (He : wderives False (rules_of g_se 3) g_base e) by (constructor; exists (u_n 1), (u_n 1); by left).
    assert (Hf : wderives False (rules_of g_se 3) g_base f) by (constructor; exists (u_n 1), (u_n 1); by right).
    econstructor; [done|by exists (fun _ => u_n 1)|done|]. constructor; [|done]. econstructor; [done|by exists (fun _ => u_n 1)|done|].
    constructor; [exact He|]. constructor; [|done]. econstructor; [done|by exists (fun _ => u_n 1)|done|].
    constructor; [exact He|]. by constructor; [exact Hf|].
Qed.

(** *** If q is folded by its own rule, q(X,W) += q(X,W), no derivation of q is left.
    The fold is reversible, but it is not safe. *)
Definition g_self : wrule nat_sr := WRule (g_q X W) [Goal (g_q X W)].
Definition g_loop : list stage := [Stage g_root HRoot; Stage (g_self :: take 2 g_root) (HFold 0 0 0)].
Theorem C44_unsafe_witness :
  g_session g_loop 0 /\ regular False g_base (v_eqp v_enc) g_loop /\
  (exists st, g_asks false g_loop 0 [1; 0] = Ok ([false; true], st)) /\
  (exists st, g_asks true g_loop 0 [1; 0] = Ok ([false; true], st)) /\
  ~ same_meaning (wderives False (rules_of g_loop 1) g_base) (wderives False (rules_of g_loop 0) g_base).
Proof.
  split; [|split; [|split; [|split]]].
  - assert (E1 : g_act (AFold 0 0 0 g_self [2]) [Stage g_root HRoot] 0 = Ok (g_loop, 0)) by vmr.
    eapply (session_act _ _ _ _ _ _ 20 _ _ 0); [apply (session_root _ _ _ _ _ _ g_root); apply programb_ok; by vm_compute| |exact E1]. split; [apply (programb_ok [g_self]); by vm_compute|].
    intros b Hb. vm_compute in Hb. injection Hb as <-. right. by eexists _, _.
  - split.
    + intros k. apply distinctb_ok. destruct k as [|[|k]]; by vm_compute.
    + intros [|[|k]]; by intros.
    + intros [|[|k]] r rs a j d H; [done| |done]. injection H as <- <- <- <- <-. apply (replaceableb_ok _ _ _ _ _ (g_q X W)); [done| |by vm_compute].
      intros σ (x & y & [E|E]); discriminate.
    + intros k l Hk Hl E. assert (Hlk : l = k); [|by subst]. eapply differb_ok; [|exact Hk|exact Hl|exact E]. by vm_compute.
  - apply g_answers_ok. vmr.
  - apply g_answers_ok. vmr.
  - change (rules_of g_loop 1) with (g_self :: take 2 g_root). change (rules_of g_loop 0) with g_root. intros (f & g & H1 & H2).
    assert (Hno : forall t a b, wderives False (g_self :: take 2 g_root) g_base t -> wroot t <> Goal (g_q a b)).
    { induction t as [v|x|i x ts IH] using wderiv_ind'; intros a b H E; [done|..].
      - injection E as ->. inversion H as [|? (y & z & [E|E])|]; discriminate.
      - injection E as ->. apply wderives_node in H as (r & Hr & (σ & _ & Eh & Eb) & _ & HF). destruct i as [|[|[|i]]]; [|injection Hr as <-; discriminate..|done].
        injection Hr as <-. destruct ts as [|t []]; try done. cbn in Eb. injection Eb as Eb. apply Forall_inv in IH, HF. by eapply IH, eq_sym. }
    pose (e := TLeaf (g_e (u_n 1) (u_n 1)) : wderiv nat_sr). pose (l := TLeaf (g_f (u_n 1) (u_n 1)) : wderiv nat_sr).
    pose (t := WNode 2 (g_q (u_n 1) (u_n 1)) [WNode 0 (g_p (u_n 1) (u_n 1)) [e]; l] : wderiv nat_sr).
    assert (He : wderives False g_root g_base e) by (constructor; exists (u_n 1), (u_n 1); by left).
    assert (Hl : wderives False g_root g_base l) by (constructor; exists (u_n 1), (u_n 1); by right).
    assert (Ht : wderives False g_root g_base t).
    { econstructor; [done|by exists (fun _ => u_n 1)|done|]. constructor; [|by constructor; [exact Hl|]]. econstructor; [done|by exists (fun _ => u_n 1)|done|]. by constructor; [exact He|]. }
    destruct (H2 t Ht) as [Hg Ef]. apply (Hno _ (u_n 1) (u_n 1) Hg). destruct (H1 _ Hg) as (_ & _ & Hr & _). by rewrite <- Hr, Ef.
Qed.

(** ** Two ways in which the check can be passed although the meaning changes; both
    are excluded by the form of C44.

    (1) The definitions come from a program that is not an ancestor of the program that is
    folded.  Root: goal += b * c.  On the root, d += b is defined.  The root itself is
    folded by that definition into goal += d * c.  This is judged safe, but the result
    has no rule for d. *)
Definition k_t (s : String.string) : term := u_t s [].
Definition k_base (x : term) : Prop := x = k_t "b" \/ x = k_t "c" \/ x = k_t "e".
Definition k_root : list (wrule nat_sr) := [WRule (k_t "goal") [Goal (k_t "b"); Goal (k_t "c")]].
Definition k_se : list stage :=
  [Stage k_root HRoot; Stage (k_root ++ [WRule (k_t "d") [Goal (k_t "b")]]) (HDefine 0 1); Stage [WRule (k_t "goal") [Goal (k_t "d"); Goal (k_t "c")]] (HFold 0 0 1)].
Theorem C44_missing_definitions_refuted :
  g_session k_se 0 /\ regular False k_base (v_eqp v_enc) k_se /\
  (exists st, g_asks false k_se 0 [2] = Ok ([true], st)) /\ (exists st, g_asks true k_se 0 [2] = Ok ([true], st)) /\
  (exists t, wderives False (rules_of k_se 0) k_base t /\ wroot t = Goal (k_t "goal")) /\
  ~ (exists t, wderives False (rules_of k_se 2) k_base t /\ wroot t = Goal (k_t "goal")).
Proof.
  split; [|split; [|split; [|split; [|split]]]].
  - assert (E1 : g_act (ADefine 0 [WRule (k_t "d") [Goal (k_t "b")]]) [Stage k_root HRoot] 0 = Ok (take 2 k_se, 0)) by vmr.
    assert (E2 : g_act (AFold 0 1 0 (WRule (k_t "goal") [Goal (k_t "d"); Goal (k_t "c")]) [0]) (take 2 k_se) 0 = Ok (k_se, 0)) by vmr.
    eapply (session_act _ _ _ _ _ _ 20 _ _ 0); [eapply (session_act _ _ _ _ _ _ 20 _ _ 0); [apply (session_root _ _ _ _ _ _ k_root)| |exact E1]| |exact E2].
    + apply programb_ok. by vm_compute.
    + apply programb_ok. by vm_compute.
    + split; [apply programb_ok; by vm_compute|]. intros b Hb. vm_compute in Hb. injection Hb as <-. right. by eexists _, _.
  - split.
    + intros k. apply distinctb_ok. destruct k as [|[|[|k]]]; by vm_compute.
    + intros [|[|[|k]]]; by intros.
    + intros [|[|[|k]]] r rs a j d H; [done|done| |done]. injection H as <- <- <- <- <-. apply (replaceableb_ok _ _ _ _ _ (k_t "d")); [done| |by vm_compute].
      intros σ [E|[E|E]]; discriminate.
    + intros k l Hk Hl E. assert (Hlk : l = k); [|by subst]. eapply differb_ok; [|exact Hk|exact Hl|exact E]. by vm_compute.
  - apply g_answers_ok. vmr.
  - apply g_answers_ok. vmr.
  - exists (WNode 0 (k_t "goal") [TLeaf (k_t "b"); TLeaf (k_t "c")]). split; [|done]. econstructor; [done|by exists (fun _ => u_n 1)|done|].
    constructor; [constructor; by left|]. constructor; [constructor; right; by left|done].
  - intros (t & Ht & E). destruct t as [v|x|i x ts]; [done|..].
    + injection E as ->. inversion Ht as [|? [E|[E|E]]|]; discriminate.
    + injection E as ->. apply wderives_node in Ht as (r & Hr & (σ & _ & Eh & Eb) & _ & HF). destruct i as [|i]; [|done]. injection Hr as <-.
      destruct ts as [|t ts]; [done|]. cbn in Eb. injection Eb as Eb _. apply Forall_inv in HF. destruct t as [v|x|i x us]; [done|..].
      * injection Eb as <-. inversion HF as [|? [E|[E|E]]|]; discriminate.
      * injection Eb as <-. apply wderives_node in HF as (r & Hr & (τ & _ & Eh' & _) & _ & _). destruct i as [|i]; [|done]. injection Hr as <-. discriminate.
Qed.

(** (2) An item that is already defined gets another definition.  Root: a += b.  b += c.
    The subgoal b is unfolded: a += c.  Then b += e is defined.  The rule a += c is folded
    into a += b by the definition of b in the root.  The programs before and after the
    fold are both judged safe, but only the second one can use e for a. *)
Definition l_root : list (wrule nat_sr) := [WRule (k_t "a") [Goal (k_t "b")]; WRule (k_t "b") [Goal (k_t "c")]].
Definition l_se : list stage :=
  [Stage l_root HRoot;
   Stage [WRule (k_t "b") [Goal (k_t "c")]; WRule (k_t "a") [Goal (k_t "c")]] (HUnfold 0 0 0 0 [(1, 1)]);
   Stage [WRule (k_t "b") [Goal (k_t "c")]; WRule (k_t "a") [Goal (k_t "c")]; WRule (k_t "b") [Goal (k_t "e")]] (HDefine 1 1);
   Stage [WRule (k_t "a") [Goal (k_t "b")]; WRule (k_t "b") [Goal (k_t "c")]; WRule (k_t "b") [Goal (k_t "e")]] (HFold 2 0 0)].
Definition l_base (x : term) : Prop := x = k_t "c" \/ x = k_t "e".
Definition l_w (x : term) : nat_sr := if decide (x = k_t "e") then 5 else 3.
Theorem C44_redefinition_refuted :
  g_session l_se 0 /\ lineage l_se 2 = [2; 1; 0] /\ lineage l_se 3 = [3; 2; 1; 0] /\
  (exists st, g_asks false l_se 0 [3; 2] = Ok ([true; true], st)) /\ (exists st, g_asks true l_se 0 [3; 2] = Ok ([true; true], st)) /\
  (exists t, wderives False (rules_of l_se 3) l_base t /\ wroot t = Goal (k_t "a") /\ wvalue l_w t = 5) /\
  ~ (exists t, wderives False (rules_of l_se 2) l_base t /\ wroot t = Goal (k_t "a") /\ wvalue l_w t = 5).
Proof.
  split; [|split; [by vm_compute|split; [by vm_compute|split; [|split; [|split]]]]].
  - assert (E1 : g_act (AUnfold 0 0 0 0) [Stage l_root HRoot] 0 = Ok (take 2 l_se, 0)) by vmr.
    assert (E2 : g_act (ADefine 1 [WRule (k_t "b") [Goal (k_t "e")]]) (take 2 l_se) 0 = Ok (take 3 l_se, 0)) by vmr.
    assert (E3 : g_act (AFold 2 0 0 (WRule (k_t "a") [Goal (k_t "b")]) [1]) (take 3 l_se) 0 = Ok (l_se, 0)) by vmr.
    eapply (session_act _ _ _ _ _ _ 20 _ _ 0); [eapply (session_act _ _ _ _ _ _ 20 _ _ 0); [eapply (session_act _ _ _ _ _ _ 20 _ _ 0); [apply (session_root _ _ _ _ _ _ l_root)| |exact E1]| |exact E2]| |exact E3].
    + apply programb_ok. by vm_compute.
    + intros r b Hr Hb. vm_compute in Hr. injection Hr as <-. vm_compute in Hb. injection Hb as <-. right. by eexists _, _.
    + apply programb_ok. by vm_compute.
    + split; [apply programb_ok; by vm_compute|]. intros b Hb. vm_compute in Hb. injection Hb as <-. right. by eexists _, _.
  - apply g_answers_ok. vmr.
  - apply g_answers_ok. vmr.
  - exists (WNode 0 (k_t "a") [WNode 2 (k_t "b") [TLeaf (k_t "e")]]). split; [|by vm_compute]. econstructor; [done|by exists (fun _ => u_n 1)|done|].
    constructor; [|done]. econstructor; [done|by exists (fun _ => u_n 1)|done|]. constructor; [constructor; by right|done].
  - intros (t & Ht & E & Ev). destruct t as [v|x|i x ts]; [done|..].
    + injection E as ->. inversion Ht as [|? [E|E]|]; discriminate.
    + injection E as ->. apply wderives_node in Ht as (r & Hr & (σ & _ & Eh & Eb) & _ & HF).
      destruct i as [|[|[|i]]]; [injection Hr as <-; discriminate| |injection Hr as <-; discriminate|done]. injection Hr as <-.
      destruct ts as [|t []]; try done. cbn in Eb. injection Eb as Eb. apply Forall_inv in HF. destruct t as [v|x|i x us]; [done|..].
      * injection Eb as <-. vm_compute in Ev. discriminate.
      * injection Eb as <-. apply wderives_node in HF as (r & Hr & (τ & _ & Eh' & _) & _ & _).
        destruct i as [|[|[|i]]]; [..|done]; injection Hr as <-; discriminate.
Qed.

Print Assumptions C44_safe.
Print Assumptions C44_safe_transformations.
Print Assumptions C44_safe_new_items.
Print Assumptions C44_freshness.
Print Assumptions C44_folds_by.
Print Assumptions C44_fuel.
Print Assumptions C44_safe_witness.
Print Assumptions C44_unsafe_witness.
Print Assumptions C44_missing_definitions_refuted.
Print Assumptions C44_redefinition_refuted.
