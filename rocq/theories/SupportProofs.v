(** The agenda algorithm on a ground Boolean program: it ends, and what it finds are
    exactly the derivable items. *)
From Coq Require Import List.
From stdpp Require Import gmap.
From Coq Require Import Lia.
From Verif Require Import PyBase Semiring TermModel TermSpec TermProofs ChartProofs SetsModel SetsProofs PruneModel
  SolverProofs UpdateModel UpdateSpec UpdateProofs EvalModel EvalSpec EvalProofs.
Import ListNotations.

Section support.
  Context (al cv : nat -> nat) (sort : list term -> list term) (test : term -> option bool).
  Context (Hal : forall i j, al i = al j -> i = j) (Hcv : forall i j, cv i = cv j -> i = j).
  Context (Hsort : forall l, Permutation (sort l) l).
  Notation B := bool_sr.
  Notation bwt := (fun _ : const => true : B).
  Notation one := (fun b : B => b).
  Notation "'heads' P" := (map whead (p_rules P)) (at level 10).

  Lemma Hnegb (C : B) : negb C = true -> C = szero.
  Proof. by destruct C. Qed.
  Lemma Heqb (a b : B) : Bool.eqb a b = true -> a = b.
  Proof. by destruct a, b. Qed.

  Record tok (P : pstate B) : Prop := {
    t_chart : chart_ok (R := B) test P;
    t_true : forall r, r ∈ p_rules P -> wbody r = [Val (true : B)];
    t_once : NoDup (heads P);
    t_bk : forall bk, p_buckets P = Some bk -> forall h, h ∈ heads P -> is_Some (bk !! h) }.

  Lemma tok_empty : tok (p_new [] 0).
  Proof. split; [apply chart_ok_empty| |constructor|done]. intros r Hr. by apply elem_of_nil in Hr. Qed.

  Lemma make_buckets_total n (rs : list (wrule B)) i bk bk' : (forall r, r ∈ rs -> crule test r) ->
    make_buckets bwt cv n ∅ i rs bk = Ok bk' ->
    (forall h, is_Some (bk !! h) -> is_Some (bk' !! h)) /\ forall h, h ∈ map whead rs -> is_Some (bk' !! h).
  Proof.
    revert i bk. induction rs as [|r rs IH]; intros i bk Hrs; cbn [make_buckets].
    { intros [= <-]. split; [done|]. intros h Hh. by apply elem_of_nil in Hh. }
    destruct (Hrs r) as [[Hg _] [v Hv]]; [by left|]. destruct r as [h b]. simpl in Hv. subst b.
    cbn [get_const_rhs wbody factor_const bind]. destruct (canonicalize cv n ∅ _) as [k| |] eqn:Ek; [|discriminate..]. cbn [bind].
    apply (canon_head cv Hcv) in Ek; [|done]. simpl in Ek. subst k. intros E. apply IH in E as [E1 E2]; [|intros r Hr; apply Hrs; by right].
    assert (Hb : forall k, is_Some (bk !! k) \/ k = h -> is_Some ((match bk !! h with None => <[h := i]> bk | Some _ => bk end) !! k)).
    { intros k Hk. destruct (bk !! h) eqn:Eb; [destruct Hk as [Hk| ->]; [done|by rewrite Eb]|].
      destruct (decide (k = h)) as [->|Hne]; [rewrite lookup_insert; eauto|]. rewrite lookup_insert_ne by done. by destruct Hk. }
    split.
    - intros k Hk. apply E1, Hb. by left.
    - intros k Hk. simpl in Hk. apply elem_of_cons in Hk as [->|Hk]; [apply E1, Hb; by right|by apply E2].
  Qed.

  Lemma update_bool n h y P P' : tok P -> head_ok test h -> all_const (R := B) bwt y ->
    update bwt negb one al cv n ∅ (WRule h y) P = Ok P' ->
    tok P' /\ (p_rules P' = p_rules P \/ (p_rules P' = p_rules P ++ [WRule h [Val (true : B)]] /\ h ∉ heads P)).
  Proof.
    intros HP Hh Hy E. destruct (update_chart (R := B) bwt negb one al cv test Hal Hcv Hnegb n h y P P' (t_chart P HP) Hh Hy E) as [HP' _].
    revert E. unfold update.
    destruct (constant_folding_rhs bwt negb one n ∅ (WRule h y)) as [o| |] eqn:Eo; [|discriminate..]. cbn [bind].
    destruct o as [r|]; [|intros [= <-]; split; [done|by left]].
    assert (r = WRule h [Val (true : B)]) as ->.
    { revert Eo. unfold constant_folding_rhs. cbn [wbody whead].
      destruct (split_body bwt n ∅ y sone []) as [[C xs]| |] eqn:Es; [|discriminate..]. cbn [bind].
      apply (split_body_ok (R := B) bwt ∅ Var acyclic_empty resolution_empty) in Es as [_ Ex].
      rewrite (fsub_Var y), (fsub_Var xs) in Ex. destruct (cpart_const (R := B) bwt y Hy) as [_ E2]. rewrite E2 in Ex. simpl in Ex. subst xs.
      rewrite andb_false_r. destruct C; simpl; [by intros [= <-]|discriminate]. }
    destruct (match p_buckets P with Some _ => Ok P | None => _ end) as [P1| |] eqn:E1; [|discriminate..]. cbn [bind].
    assert (H1 : p_rules P1 = p_rules P /\ p_f2r P1 = None /\ exists bk, p_buckets P1 = Some bk /\
              (forall h, h ∈ heads P -> is_Some (bk !! h)) /\
              forall h i, bk !! h = Some i -> exists r, p_rules P !! i = Some r /\ whead r = h).
    { destruct HP as [[Hr Hb Hx] Ht Hnd Htb]. destruct (p_buckets P) as [bk|] eqn:Ebk.
      - injection E1 as <-. split; [done|]. split; [done|]. exists bk. split; [done|]. split; [by apply Htb|]. by apply Hb.
      - destruct (make_buckets bwt cv n ∅ 0 (p_rules P) ∅) as [bk| |] eqn:Em; [|discriminate..]. cbn [bind] in E1.
        injection E1 as <-. simpl. split; [done|]. split; [done|]. exists bk. split; [done|]. split.
        + apply make_buckets_total in Em as [_ Em]; done.
        + eapply (make_buckets_chart (R := B)); [exact Hcv|exact Hr| | |exact Em]; [done|]. intros k i. by rewrite lookup_empty. }
    destruct H1 as (Hrs & Hf & bk & Hbk & Hbkt & Hbko). clear E1.
    unfold update_bucket. cbn [get_const_rhs wbody factor_const bind whead].
    destruct (canonicalize cv n ∅ h) as [k| |] eqn:Ek; [|discriminate..]. cbn [bind].
    apply (canon_head cv Hcv) in Ek; [|apply Hh]. subst k. rewrite Hbk. destruct (bk !! h) as [i|] eqn:Ei.
    - unfold merge_at. destruct (Hbko h i Ei) as (s & Hs & Hsh). rewrite Hrs, Hs.
      pose proof (t_true P HP s ltac:(by eapply elem_of_list_lookup_2)) as Hv. rewrite Hv. cbn [factor_const bind].
      intros E. injection E as E.
      assert (Er : p_rules P' = p_rules P).
      { rewrite <- E. simpl. destruct s as [hs bs]. simpl in *. subst hs bs. by apply list_insert_id. }
      assert (Eb : p_buckets P' = Some bk) by (rewrite <- E; done).
      split; [|by left]. destruct HP as [Hok Ht Hnd Htb]. split; [done|by rewrite Er..|]. rewrite Er, Eb. intros bk' [= <-]. done.
    - destruct (fresh_rule al n ∅ (p_c P1) _) as [[r' c']| |] eqn:Ef; [|discriminate..]. cbn [bind].
      apply (fresh_ground al Hal) in Ef; [|apply Hh]. subst r'. unfold add_rule. cbn [p_f2r p_rules p_buckets p_c]. rewrite Hf. cbn [bind p_rules p_f2r p_c].
      intros E. injection E as E.
      assert (Er : p_rules P' = p_rules P ++ [WRule h [Val (true : B)]]) by (rewrite <- E, <- Hrs; reflexivity).
      assert (Eb : p_buckets P' = Some (<[h := length (p_rules P1)]> bk)) by (rewrite <- E; done).
      assert (Hn : h ∉ heads P). { intros Hin. destruct (Hbkt h Hin) as [? ?]. congruence. }
      split; [|right; done]. split; [done|..]; rewrite Er.
      + intros r Hr. apply elem_of_app in Hr as [Hr|Hr]; [by apply HP|]. by apply elem_of_list_singleton in Hr as ->.
      + rewrite map_app. apply NoDup_app. split; [apply HP|]. split; [|apply NoDup_singleton]. intros x Hx Hx'. simpl in Hx'. apply elem_of_list_singleton in Hx' as ->. done.
      + rewrite Eb. intros bk' [= <-] k Hk. rewrite map_app in Hk. apply elem_of_app in Hk as [Hk|Hk].
        * destruct (decide (k = h)) as [->|Hne]; [rewrite lookup_insert; eauto|]. rewrite lookup_insert_ne by done. by apply Hbkt.
        * simpl in Hk. apply elem_of_list_singleton in Hk as ->. rewrite lookup_insert. eauto.
  Qed.

  Lemma set_item_bool n h ys q q' : tok q -> head_ok test h -> (forall y, y ∈ ys -> all_const (R := B) bwt y) ->
    set_item bwt negb one al cv n h ys q = Ok q' ->
    tok q' /\ forall x, x ∈ heads q' -> x ∈ heads q \/ (x = h /\ ys <> []).
  Proof.
    revert q. induction ys as [|y ys IH]; intros q Hq Hh Hy; cbn [set_item]; [intros [= <-]; split; [done|by left]|].
    destruct (update bwt negb one al cv n ∅ (WRule h y) q) as [q1| |] eqn:E1; [|discriminate..]. cbn [bind]. intros E.
    destruct (update_bool n h y q q1 Hq Hh (Hy y ltac:(by left)) E1) as [Hq1 H1].
    apply IH in E as [Hq' H2]; [|done..|intros z Hz; apply Hy; by right]. split; [done|]. intros x Hx.
    apply H2 in Hx as [Hx|[-> _]]; [|by right]. destruct H1 as [->|[-> _]] in Hx; [by left|].
    rewrite map_app in Hx. apply elem_of_app in Hx as [Hx|Hx]; [by left|]. simpl in Hx. apply elem_of_list_singleton in Hx as ->. by right.
  Qed.

  (** subgoals of a lookup that gives something are in the chart *)
  Definition present (ch : list (wrule B)) (f : factor B) : Prop :=
    match f with Val _ | Goal (Cst _) => True | Goal b => test b = None -> b ∈ map whead ch end.
  Lemma lookup_vals_present hb ch f : (lookup_vals (R := B) test hb ch f <> []) -> present ch f.
  Proof.
    destruct f as [v|[w|k|ts]]; simpl; try done.
    all: intros H Ht; rewrite Ht in H; destruct hb.
    all: match type of H with map _ ?l0 <> [] => assert (exists r, r ∈ l0) as [r Hr] by (destruct l0 as [|r ?]; [done|exists r; by left]) end.
    all: apply elem_of_list_filter in Hr as [<- Hr]; apply elem_of_list_fmap; eauto.
  Qed.
  Lemma join2_ne (a b : list (list (factor B))) : join2 a b <> [] -> a <> [] /\ b <> [].
  Proof.
    intros H. split; intros ->; apply H; [done|]. unfold join2. clear. induction a as [|x a IH]; [done|]. simpl. done.
  Qed.
  Lemma lookup_body_present hb ch fs : lookup_body (R := B) test hb ch fs <> [] -> Forall (present ch) fs.
  Proof.
    induction fs as [|f fs IH]; [constructor|]. intros H. destruct fs as [|g fs].
    - constructor; [|constructor]. by eapply lookup_vals_present.
    - apply join2_ne in H as [H1 H2]. constructor; [by eapply lookup_vals_present|by apply IH].
  Qed.

  Section run.
  Context (P : list (wrule B)) (HP : heads_ok test P) (HnB : forall r b, r ∈ P -> b ∈ goals (wbody r) -> test b = None).
  (** any property of items that the rules keep *)
  Context (D : term -> Prop).
  Context (HD : forall r, r ∈ P -> (forall b, b ∈ goals (wbody r) -> (exists k, b = Cst k) \/ D b) -> D (whead r)).
  Definition within (q : pstate B) : Prop := forall x, x ∈ heads q -> D x.

  Lemma present_D ch f : (forall x, x ∈ map whead ch -> D x) -> (forall b, f = Goal b -> test b = None) -> present ch f ->
    forall b, f = Goal b -> (exists k, b = Cst k) \/ D b.
  Proof.
    intros Hch Ht Hp b ->. specialize (Ht b eq_refl). destruct b as [w|k|ts]; simpl in Hp; [right; auto|left; eauto|right; auto].
  Qed.
  Lemma goals_in (b : term) (fs : list (factor B)) : b ∈ goals fs -> Goal b ∈ fs.
  Proof. unfold goals. rewrite elem_of_list_omap. intros ([v|c] & Hf & E); [done|]. by injection E as ->. Qed.
  Lemma in_goals (b : term) (fs : list (factor B)) : Goal b ∈ fs -> b ∈ goals fs.
  Proof. intros H. unfold goals. apply elem_of_list_omap. by exists (Goal b). Qed.

  Lemma step_rules_bool n Q q q' : (forall r, r ∈ Q -> r ∈ P) -> tok q -> within q ->
    step_rules bwt negb one al cv test n Q [] q = Ok q' -> tok q' /\ within q'.
  Proof using HnB HP HD Hal Hcv.
    revert q. induction Q as [|r Q IH]; intros q HQ Hq Hw; cbn [step_rules]; [by intros [= <-]|].
    destruct (set_item _ _ _ _ _ _ _ _ q) as [q1| |] eqn:E1; [|discriminate..]. cbn [bind]. intros E.
    assert (Hr : r ∈ P) by (apply HQ; by left).
    apply set_item_bool in E1 as [Hq1 H1]; [|done|by apply HP|].
    2:{ apply lookup_body_const. intros s Hs. by apply elem_of_nil in Hs. }
    eapply IH; [..|exact E]; [intros s Hs; apply HQ; by right|done|]. intros x Hx. apply H1 in Hx as [Hx|[-> Hne]]; [by apply Hw|].
    apply lookup_body_present in Hne. apply (HD r Hr). intros b Hb. rewrite Forall_forall in Hne.
    eapply (present_D [] (Goal b)); [|intros c [= <-]; by eapply HnB|apply Hne; by apply goals_in|done]. intros y Hy. by apply elem_of_nil in Hy.
  Qed.

  Lemma agenda_rule_bool n new old u r ks q q' : r ∈ P -> crules test new -> crules test old -> crule test u ->
    (forall x, x ∈ map whead new -> D x) -> (forall x, x ∈ map whead old -> D x) -> D (whead u) ->
    tok q -> within q ->
    agenda_rule bwt negb one al cv test n new old u r ks q = Ok q' -> tok q' /\ within q'.
  Proof using HnB HP HD Hal Hcv.
    intros Hr Hnew Hold Hu Dn Do Du. revert q. induction ks as [|k ks IH]; intros q Hq Hw; cbn [agenda_rule]; [by intros [= <-]|].
    destruct (wbody r !! k) as [[v|b]|] eqn:Ek; cbn [bind]; [by apply IH| |discriminate].
    destruct (decide (whead u = b)) as [Eb|Hne]; cbn [bind]; [|by apply IH].
    destruct (set_item _ _ _ _ _ _ _ _ q) as [q1| |] eqn:E1; [|discriminate..]. cbn [bind]. intros E.
    apply set_item_bool in E1 as [Hq1 H1]; [|done|by apply HP|].
    2:{ intros y. apply join2_const; [|by apply lookup_body_const]. intros z. apply join2_const; [by apply lookup_body_const|].
        intros w Hw'. apply elem_of_list_singleton in Hw' as ->. by eapply crule_const. }
    eapply IH; [..|exact E]; [done|]. intros x Hx. apply H1 in Hx as [Hx|[-> Hne]]; [by apply Hw|].
    apply join2_ne in Hne as [Hne Hright]. apply join2_ne in Hne as [Hleft _].
    apply lookup_body_present in Hleft, Hright. rewrite Forall_forall in Hleft, Hright.
    apply (HD r Hr). intros c Hc. pose proof (HnB r c Hr Hc) as Ht. apply goals_in in Hc.
    rewrite <- (take_drop_middle (wbody r) k (Goal b) Ek) in Hc. apply elem_of_app in Hc as [Hc|Hc].
    - eapply (present_D new (Goal c)); [done|intros c' [= <-]; done|by apply Hleft|done].
    - apply elem_of_cons in Hc as [Hc|Hc].
      + injection Hc as ->. right. by rewrite <- Eb.
      + eapply (present_D old (Goal c)); [done|intros c' [= <-]; done|by apply Hright|done].
  Qed.
  Lemma agenda_rules_bool n new old u Q q q' : (forall r, r ∈ Q -> r ∈ P) -> crules test new -> crules test old -> crule test u ->
    (forall x, x ∈ map whead new -> D x) -> (forall x, x ∈ map whead old -> D x) -> D (whead u) ->
    tok q -> within q ->
    agenda_rules bwt negb one al cv test n new old u Q q = Ok q' -> tok q' /\ within q'.
  Proof using HnB HP HD Hal Hcv.
    intros HQ Hnew Hold Hu Dn Do Du. revert q. induction Q as [|r Q IH]; intros q Hq Hw; cbn [agenda_rules]; [by intros [= <-]|].
    destruct (agenda_rule _ _ _ _ _ _ _ _ _ _ _ _ q) as [q1| |] eqn:E1; [|discriminate..]. cbn [bind]. intros E.
    apply agenda_rule_bool in E1 as [Hq1 Hw1]; [|try done..]; [|apply HQ; by left].
    eapply IH; [..|exact E]; [intros s Hs; apply HQ; by right|done|done].
  Qed.

  Lemma pop_tok q q' u : tok q -> within q -> pop 0 q = Ok (q', u) -> tok q' /\ within q' /\ crule test u /\ D (whead u) /\ p_rules q = u :: p_rules q'.
  Proof using HP.
    intros Hq Hw E. destruct (pop_chart (R := B) bwt test 0 q q' u (t_chart q Hq) E) as (Hc & Hu & _).
    destruct q as [[|r l] bk ix c]; [done|]. injection E as <- <-. simpl in *.
    destruct Hq as [H1 H2 H3 H4]. simpl in *. apply NoDup_cons in H3 as [H3 H3'].
    split; [split; simpl; [done| |done|done]; intros s Hs; apply H2; by right|].
    split; [intros x Hx; apply Hw; simpl; by right|].
    split; [done|]. split; [|done]. apply Hw. by left.
  Qed.

  Definition bool_inv (old change new : pstate B) : Prop :=
    tok old /\ tok change /\ tok new /\ within old /\ within change /\ within new.

  Lemma agenda_loop_bool n t old change new old' change' new' : bool_inv old change new ->
    agenda_loop bwt negb one al cv sort test Bool.eqb n t P old change new = Ok (old', change', new') ->
    bool_inv old' change' new'.
  Proof using HnB HP HD Hal Hcv.
    revert old change new. induction t as [|t IH]; intros old change new Hi; cbn [agenda_loop]; [by intros [= <- <- <-]|].
    destruct (p_rules change) as [|u0 l0]; [by intros [= <- <- <-]|].
    destruct (pop 0 change) as [[ch1 u]| |] eqn:Ep; [|discriminate..]. cbn [bind].
    destruct Hi as (To & Tc & Tn & Wo & Wc & Wn). apply pop_tok in Ep as (Tc1 & Wc1 & Hu & Du & _); [|done..].
    destruct (user_lookup _ _ _ _ _ n new (whead u)) as [was| |] eqn:Ew; [|discriminate..]. cbn [bind].
    destruct (update _ _ _ _ _ n ∅ u new) as [new1| |] eqn:Eu; [|discriminate..]. cbn [bind].
    destruct u as [h y]. cbn [whead wbody] in *.
    assert (Hup : forall p p', tok p -> within p -> update bwt negb one al cv n ∅ (WRule h y) p = Ok p' -> tok p' /\ within p').
    { intros p p' Tp Wp E. apply update_bool in E as [Tp' H]; [|done|apply Hu|by eapply (crule_const (R := B)) in Hu]. split; [done|].
      intros x Hx. destruct H as [->|[-> _]] in Hx; [by apply Wp|]. rewrite map_app in Hx. apply elem_of_app in Hx as [Hx|Hx]; [by apply Wp|].
      simpl in Hx. by apply elem_of_list_singleton in Hx as ->. }
    apply Hup in Eu as [Tn1 Wn1]; [|done..].
    destruct (user_lookup _ _ _ _ _ n new1 h) as [now| |] eqn:Ew2; [|discriminate..]. cbn [bind].
    destruct (metric_le _ _ _ _ _ _ n was now) as [b| |] eqn:Em; [|discriminate..]. cbn [bind].
    destruct b; [by apply IH|].
    destruct (agenda_rules _ _ _ _ _ _ n (p_rules new1) (p_rules old) _ P ch1) as [ch2| |] eqn:Ea; [|discriminate..]. cbn [bind].
    apply agenda_rules_bool in Ea as [Tc2 Wc2]; [|try done..]; [|exact (ch_rules _ _ (t_chart _ Tn1))|exact (ch_rules _ _ (t_chart _ To))].
    destruct (update _ _ _ _ _ n ∅ (WRule h y) old) as [old1| |] eqn:Eo; [|discriminate..]. cbn [bind].
    apply Hup in Eo as [To1 Wo1]; [|done..]. by apply IH.
  Qed.
  End run.

  (** ** Termination *)
  Lemma heqb_refl (v : B) : Bool.eqb v v = true.
  Proof. by destruct v. Qed.
  Lemma metric_le_refl n (a : list (wrule B)) b : crules test a ->
    metric_le bwt negb one cv sort Bool.eqb n a a = Ok b -> b = true.
  Proof.
    intros Ha. unfold metric_le. destruct (constant_folding _ _ _ _ _ n ∅ a) as [a'| |] eqn:Ea; [|discriminate..]. cbn [bind].
    apply (constant_folding_chart (R := B) bwt negb one cv sort test Hcv Hnegb Hsort) in Ea as (Ha' & _ & _); [|done].
    replace (forallb (fun x => bool_decide (x ∈ map whead a')) (map whead a')) with true.
    2:{ symmetry. apply forallb_forall. intros x Hx. apply bool_decide_eq_true. by apply elem_of_list_In. }
    cbn [andb]. intros [= <-]. apply forallb_forall. intros x Hx. apply elem_of_list_In, elem_of_list_fmap in Hx as (r & -> & Hr).
    unfold chart_value. destruct (filter (fun s => whead s = whead r) a') as [|s l] eqn:Ef.
    - assert (Hin : r ∈ filter (fun s => whead s = whead r) a') by (by apply elem_of_list_filter). rewrite Ef in Hin. by apply elem_of_nil in Hin.
    - assert (Hs : s ∈ a') by (eapply (proj1 (elem_of_list_filter _ _ _)); rewrite Ef; by left).
      destruct (Ha' s Hs) as [_ [v ->]]. apply heqb_refl.
  Qed.

  Section ends.
  Context (P : list (wrule B)) (HP : heads_ok test P) (HnB : forall r b, r ∈ P -> b ∈ goals (wbody r) -> test b = None).
  Notation D := (fun x => x ∈ map whead P).
  Lemma D_heads r : r ∈ P -> (forall b, b ∈ goals (wbody r) -> (exists k, b = Cst k) \/ D b) -> D (whead r).
  Proof. intros Hr _. apply elem_of_list_fmap. eauto. Qed.

  Lemma agenda_loop_ends m l old change new :
    bool_inv D old change new -> ag_inv bwt test P old change new ->
    length (map whead P) - length (p_rules new) <= m -> length (p_rules change) <= l ->
    exists t s n0, p_rules (snd (fst s)) = [] /\ forall t' n, t <= t' -> n0 <= n -> agenda_loop bwt negb one al cv sort test Bool.eqb n t' P old change new = Ok s.
  Proof.
    revert l old change new. induction m as [m IHm] using lt_wf_ind. intros l. induction l as [|l IHl]; intros old change new Hb Hi Hm Hl.
    { exists 0, (old, change, new), 0. assert (Ec : p_rules change = []) by (destruct (p_rules change); [done|simpl in Hl; lia]).
      split; [done|]. intros t' n _ _. destruct t'; cbn [agenda_loop]; [done|]. by rewrite Ec. }
    destruct (p_rules change) as [|u0 l0] eqn:Ec.
    { exists 0, (old, change, new), 0. split; [done|]. intros t' n _ _. destruct t'; cbn [agenda_loop]; [done|]. by rewrite Ec. }
    destruct (pop 0 change) as [[ch1 u]|e|] eqn:Ep; [|unfold pop in Ep; by rewrite Ec in Ep..].
    pose proof Hi as (Ho & Hc & Hn & Von & Veq). destruct (pop_chart (R := B) bwt test 0 change ch1 u Hc Ep) as (Hc1 & Hu & Vc).
    pose proof Hb as (To & Tc & Tn & Wo & Wc & Wn).
    destruct (pop_tok P HP D change ch1 u Tc Wc Ep) as (Tc1 & Wc1 & _ & Du & Erc).
    destruct (constant_folding_settles (R := B) bwt negb one cv sort (filter (fun r => whead r = whead u) (p_rules new))) as [was [n1 S1]].
    destruct u as [h y]. cbn [whead wbody] in *.
    destruct (update_chart_settles (R := B) bwt negb one al cv test Hal Hcv Hnegb h y new Hn (proj1 Hu) (crule_const (R := B) bwt test _ Hu)) as [new1 [n2 S2]].
    destruct (update_chart (R := B) bwt negb one al cv test Hal Hcv Hnegb n2 h y new new1 Hn (proj1 Hu) (crule_const (R := B) bwt test _ Hu) (S2 n2 (le_n _))) as [Hn1 Vn1].
    destruct (update_bool n2 h y new new1 Tn (proj1 Hu) (crule_const (R := B) bwt test _ Hu) (S2 n2 (le_n _))) as [Tn1 Cn1].
    destruct (constant_folding_settles (R := B) bwt negb one cv sort (filter (fun r => whead r = h) (p_rules new1))) as [now [n3 S3]].
    destruct (metric_le_settles (R := B) bwt negb one cv sort Bool.eqb was now) as [b [n4 S4]].
    destruct (agenda_rules_settles (R := B) bwt negb one al cv test Hal Hcv Hnegb (p_rules new1) (p_rules old) (WRule h y) P ch1 (ch_rules _ _ Hn1) (ch_rules _ _ Ho) Hu HP Hc1) as [ch2 [n5 S5]].
    destruct (update_chart_settles (R := B) bwt negb one al cv test Hal Hcv Hnegb h y old Ho (proj1 Hu) (crule_const (R := B) bwt test _ Hu)) as [old1 [n6 S6]].
    set (N := max n1 (max n2 (max n3 (max n4 (max n5 n6))))).
    assert (Hstep : forall t n, N <= n -> agenda_loop bwt negb one al cv sort test Bool.eqb n (S t) P old change new =
       if b then agenda_loop bwt negb one al cv sort test Bool.eqb n t P old ch1 new1
       else agenda_loop bwt negb one al cv sort test Bool.eqb n t P old1 ch2 new1).
    { intros t n Hn'. cbn [agenda_loop]. rewrite Ec, Ep. cbn [bind whead]. unfold user_lookup.
      rewrite S1 by lia. cbn [bind]. rewrite S2 by lia. cbn [bind]. rewrite S3 by lia. cbn [bind]. rewrite S4 by lia. cbn [bind].
      destruct b; [done|]. rewrite S5 by lia. cbn [bind]. rewrite S6 by lia. done. }
    assert (E1 : agenda_loop bwt negb one al cv sort test Bool.eqb N 1 P old change new =
         Ok (if b then old else old1, if b then ch1 else ch2, new1)).
    { rewrite Hstep by lia. by destruct b. }
    assert (Hnext : ag_inv bwt test P (if b then old else old1) (if b then ch1 else ch2) new1)
      by (eapply (agenda_loop_ok (R := B) bwt negb one al cv sort test Hal Hcv Hnegb Hsort Bool.eqb Heqb P HP N 1 old change new); done).
    assert (Hbnext : bool_inv D (if b then old else old1) (if b then ch1 else ch2) new1)
      by (eapply (agenda_loop_bool P HP HnB D D_heads N 1 old change new); done).
    assert (Hgo : exists t s n0, p_rules (snd (fst s)) = [] /\ forall t' n, t <= t' -> n0 <= n -> agenda_loop bwt negb one al cv sort test Bool.eqb n t' P (if b then old else old1) (if b then ch1 else ch2) new1 = Ok s).
    { destruct b.
      - apply IHl; [done|done| |].
        + destruct Cn1 as [->|[-> _]]; [done|]. rewrite app_length. lia.
        + rewrite Ec in Erc. injection Erc as _ Erc. simpl in Hl. subst l0. exact (le_S_n _ _ Hl).
      - assert (Hgrow : length (p_rules new1) = S (length (p_rules new)) /\ h ∉ map whead (p_rules new)).
        { destruct Cn1 as [E|[-> Hh]]; [|rewrite app_length; simpl; split; [lia|done]].
          exfalso. assert (was = now) as ->.
          { specialize (S1 (max n1 n3) ltac:(lia)). specialize (S3 (max n1 n3) ltac:(lia)). rewrite E in S3. rewrite S1 in S3. by injection S3. }
          assert (Hnow : crules test now).
          { specialize (S3 n3 (le_n _)). apply (constant_folding_chart (R := B) bwt negb one cv sort test Hcv Hnegb Hsort) in S3 as [S3 _]; [done|].
            apply filter_crules. exact (ch_rules _ _ Hn1). }
          specialize (S4 n4 (le_n _)). by apply metric_le_refl in S4. }
        assert (Hlt : length (p_rules new) < length (map whead P)).
        { assert (Hsub : length (h :: map whead (p_rules new)) <= length (map whead P)).
          { apply NoDup_incl_length.
            - constructor; [intros Hin; apply elem_of_list_In in Hin; by destruct Hgrow|]. apply NoDup_ListNoDup, Tn.
            - intros x Hx. apply elem_of_list_In. apply elem_of_list_In, elem_of_cons in Hx as [->|Hx]; [done|by apply Wn]. }
          eapply Nat.le_trans; [|exact Hsub]. exact (le_n_S _ _ (Nat.eq_le_incl _ _ (eq_sym (map_length whead (p_rules new))))). }
        apply (IHm (length (map whead P) - length (p_rules new1))) with (l := length (p_rules ch2)); [lia|done|done|lia|lia]. }
    destruct Hgo as (t & s & n0 & Hs & Hgo). exists (S t), s, (max N n0). split; [done|]. intros [|t'] n Ht Hn'; [lia|].
    rewrite Hstep by lia. destruct b; apply Hgo; lia.
  Qed.
  End ends.
End support.
