(** Proofs about bottom-up evaluation and the enumeration of derivations. *)
From Coq Require Import List.
From stdpp Require Import gmap.
From Coq Require Import Lia.
From Verif Require Import PyBase Semiring TermModel TermSpec TermProofs CoverProofs ChartProofs SetsModel SetsProofs PruneModel
  SolverProofs UpdateModel UpdateSpec UpdateProofs EvalModel EvalSpec.
From Coq Require String Ascii.
Import String.StringSyntax Ascii.AsciiSyntax.
Import ListNotations.

Lemma ground_canonical cv t : (forall i j, cv i = cv j -> i = j) -> ground t -> canonical cv t = t.
Proof. intros H Ht. destruct (canonical_variant cv t H) as (ρ & _ & ->). by apply sub_ground. Qed.

(** sums over the rules with a given head, as sums with a test *)
Lemma suml_filter_dec {S : semiring} {A} (p : A -> Prop) `{forall a, Decision (p a)} l (f : A -> S) :
  suml (filter p l) f = suml l (fun a => if decide (p a) then f a else szero).
Proof.
  induction l as [|a l IH]; [done|]. rewrite filter_cons, suml_cons. case_decide; [by rewrite suml_cons, IH|by rewrite IH, sadd_0_l].
Qed.

Section charts.
  Context {R : semiring} (wt : const -> R) (negligible is_one : R -> bool) (al cv : nat -> nat) (sort : list term -> list term).
  Context (test : term -> option bool).
  Context (Hal : forall i j, al i = al j -> i = j) (Hcv : forall i j, cv i = cv j -> i = j).
  Context (Hneg : forall C, negligible C = true -> C = szero).
  Context (Hsort : forall l, Permutation (sort l) l).

  Notation vprod y := (prodl (constants wt y)).
  Notation cval := (chart_val wt).

  Definition head_ok (h : term) : Prop := ground h /\ item_head h /\ test h = None.
  Definition crule (r : wrule R) : Prop := head_ok (whead r) /\ exists v, wbody r = [Val v].
  Definition all_const (y : list (factor R)) : Prop := forall f, f ∈ y -> const_of wt f <> None.
  Record chart_ok (P : pstate R) : Prop := {
    ch_rules : forall r, r ∈ p_rules P -> crule r;
    ch_bk : forall bk, p_buckets P = Some bk -> forall h i, bk !! h = Some i -> exists r, p_rules P !! i = Some r /\ whead r = h;
    ch_ix : p_f2r P = None }.

  Lemma chart_ok_new rs c : (forall r, r ∈ rs -> crule r) -> chart_ok (p_new rs c).
  Proof. intros H. by split. Qed.

  Lemma fsub_Var1 (f : factor R) : fsub Var f = f.
  Proof. destruct f as [v|b]; simpl; [done|]. by rewrite sub_Var. Qed.

  Lemma cpart_const fs : all_const fs -> cpart wt fs = vprod fs /\ gpart wt fs = [].
  Proof.
    induction fs as [|f fs IH]; intros H; [done|].
    destruct IH as [E1 E2]; [intros g Hg; apply H; by right|]. cbn [cpart gpart]. unfold constants. cbn [omap list_omap].
    pose proof (H f ltac:(by left)) as Hf. destruct (const_of wt f) as [v|]; [|done]. simpl. by rewrite E1, E2.
  Qed.
  Lemma constants_app y z : constants wt (y ++ z) = constants wt y ++ constants wt z.
  Proof. unfold constants. by rewrite omap_app. Qed.
  Lemma vprod_app y z : vprod (y ++ z) = smul (vprod y) (vprod z).
  Proof. by rewrite constants_app, prodl_app. Qed.
  Lemma all_const_app y z : all_const y -> all_const z -> all_const (y ++ z).
  Proof. intros H1 H2 f Hf. apply elem_of_app in Hf as [Hf|Hf]; auto. Qed.

  Lemma cval_nil x : cval [] x = szero.
  Proof. done. Qed.
  Lemma cval_app a b x : cval (a ++ b) x = sadd (cval a x) (cval b x).
  Proof. unfold chart_val. by rewrite list.filter_app, suml_app. Qed.
  Lemma cval_one h y x : cval [WRule h y] x = if decide (h = x) then vprod y else szero.
  Proof. unfold chart_val. rewrite suml_filter_dec, suml_cons, suml_nil, sadd_0_r. done. Qed.
  Lemma cval_cons r a x : cval (r :: a) x = sadd (if decide (whead r = x) then vprod (wbody r) else szero) (cval a x).
  Proof. unfold chart_val. by rewrite !suml_filter_dec, suml_cons. Qed.
  Lemma cval_insert rs i s y x : rs !! i = Some s ->
    cval (<[i := WRule (whead s) [Val (sadd (vprod (wbody s)) y)]]> rs) x = sadd (cval rs x) (if decide (whead s = x) then y else szero).
  Proof.
    revert i. induction rs as [|r rs IH]; intros [|i]; simpl; intros E; try done.
    - injection E as ->. rewrite !cval_cons. simpl. case_decide; [|by rewrite !sadd_0_r].
      rewrite smul_1_r. rewrite <- !sadd_assoc. f_equal. apply sadd_comm.
    - rewrite !cval_cons, IH by done. by rewrite sadd_assoc.
  Qed.

  Lemma folding_const n h y o : all_const y -> constant_folding_rhs wt negligible is_one n ∅ (WRule h y) = Ok o ->
    match o with None => vprod y = szero | Some r => r = WRule h [Val (vprod y)] end.
  Proof.
    intros Hy. unfold constant_folding_rhs. cbn [wbody whead].
    destruct (split_body wt n ∅ y sone []) as [[C xs]| |] eqn:Es; [|discriminate..]. cbn [bind].
    apply (split_body_ok wt ∅ Var acyclic_empty resolution_empty) in Es as [EC Ex].
    rewrite smul_1_l in EC. rewrite (fsub_Var y) in EC. rewrite (fsub_Var y), (fsub_Var xs) in Ex.
    destruct (cpart_const y Hy) as [E1 E2]. rewrite E2 in Ex. rewrite E1 in EC. simpl in Ex. subst xs C.
    rewrite andb_false_r.
    destruct (negligible _) eqn:En; [intros [= <-]; by apply Hneg|by intros [= <-]].
  Qed.

  Lemma get_const_val n h v : get_const_rhs wt n ∅ (WRule h [Val v]) = Ok (Some v).
  Proof. done. Qed.

  Lemma canon_head n h k : ground h -> canonicalize cv n ∅ h = Ok k -> k = h.
  Proof.
    intros Hh E. apply (canonicalize_ok ∅ Var acyclic_empty resolution_empty) in E as ->. rewrite sub_Var. by apply ground_canonical.
  Qed.

  Lemma make_buckets_chart n (rs0 rs : list (wrule R)) i bk bk' : (forall r, r ∈ rs0 -> crule r) -> (forall j r, rs !! j = Some r -> rs0 !! (i + j) = Some r) ->
    (forall h i, bk !! h = Some i -> exists r, rs0 !! i = Some r /\ whead r = h) ->
    make_buckets wt cv n ∅ i rs bk = Ok bk' ->
    forall h i, bk' !! h = Some i -> exists r, rs0 !! i = Some r /\ whead r = h.
  Proof.
    intros H0. revert i bk. induction rs as [|r rs IH]; intros i bk Hrs Hbk; cbn [make_buckets].
    - by intros [= <-].
    - assert (Hi : rs0 !! i = Some r) by (rewrite <- (Nat.add_0_r i); by apply (Hrs 0)).
      destruct (H0 r) as [[Hg _] [v Hv]]; [by eapply elem_of_list_lookup_2|]. destruct r as [h b]. simpl in Hv. subst b.
      rewrite get_const_val. cbn [bind]. destruct (canonicalize cv n ∅ _) as [k| |] eqn:Ek; [|discriminate..]. cbn [bind].
      apply canon_head in Ek; [|done]. simpl in Ek. subst k. apply IH.
      + intros j s Hj. specialize (Hrs (S j) s Hj). by rewrite Nat.add_succ_r in Hrs.
      + intros k j. destruct (bk !! h) eqn:Eb; [apply Hbk|]. destruct (decide (k = h)) as [->|Hn].
        * rewrite lookup_insert. intros [= <-]. eauto.
        * rewrite lookup_insert_ne by done. apply Hbk.
  Qed.

  Lemma fresh_ground n c h (v : R) (r' : wrule R) c' : ground h -> fresh_rule al n ∅ c (WRule h [Val v]) = Ok (r', c') -> r' = WRule h [Val v].
  Proof.
    intros Hh E. apply (fresh_rule_ok al Hal ∅ Var acyclic_empty resolution_empty) in E as (ρ & -> & _).
    unfold rrename, rsub. simpl. rewrite sub_Var. by rewrite sub_ground.
  Qed.

  Lemma update_chart n h y P P' : chart_ok P -> head_ok h -> all_const y ->
    update wt negligible is_one al cv n ∅ (WRule h y) P = Ok P' ->
    chart_ok P' /\ forall x, cval (p_rules P') x = sadd (cval (p_rules P) x) (if decide (h = x) then vprod y else szero).
  Proof.
    intros HP Hh Hy. unfold update.
    destruct (constant_folding_rhs wt negligible is_one n ∅ (WRule h y)) as [o| |] eqn:Eo; [|discriminate..]. cbn [bind].
    pose proof (folding_const n h y o Hy Eo) as Ho. destruct o as [r|]; [subst r|].
    2:{ intros [= <-]. split; [done|]. intros x. rewrite Ho. by case_decide; rewrite sadd_0_r. }
    set (C := vprod y) in *.
    destruct (match p_buckets P with Some _ => Ok P | None => _ end) as [P1| |] eqn:E1; [|discriminate..]. cbn [bind].
    assert (H1 : p_rules P1 = p_rules P /\ p_f2r P1 = None /\ exists bk, p_buckets P1 = Some bk /\
              forall h i, bk !! h = Some i -> exists r, p_rules P !! i = Some r /\ whead r = h).
    { destruct HP as [Hr Hb Hx]. destruct (p_buckets P) as [bk|] eqn:Ebk.
      - injection E1 as <-. split; [done|]. split; [done|]. exists bk. split; [done|]. by apply Hb.
      - destruct (make_buckets wt cv n ∅ 0 (p_rules P) ∅) as [bk| |] eqn:Em; [|discriminate..]. cbn [bind] in E1.
        injection E1 as <-. simpl. split; [done|]. split; [done|]. exists bk. split; [done|].
        eapply make_buckets_chart; [done|..|done]; [done|]. intros k i. by rewrite lookup_empty. }
    destruct H1 as (Hrs & Hf & bk & Hbk & Hbko). clear E1.
    unfold update_bucket. rewrite get_const_val. cbn [bind whead].
    destruct (canonicalize cv n ∅ h) as [k| |] eqn:Ek; [|discriminate..]. cbn [bind].
    apply canon_head in Ek; [|apply Hh]. subst k. rewrite Hbk. destruct (bk !! h) as [i|] eqn:Ei.
    - unfold merge_at. destruct (Hbko h i Ei) as (s & Hs & Hsh). rewrite Hrs, Hs.
      destruct (ch_rules P HP s) as [Hsok [v Hv]]; [by eapply elem_of_list_lookup_2|]. rewrite Hv. cbn [factor_const bind].
      intros [= <-]. simpl. assert (Hc : sadd v C = sadd (vprod (wbody s)) C) by (rewrite Hv; simpl; by rewrite smul_1_r).
      rewrite Hc. split; [split; simpl|].
      + intros r Hr. apply elem_of_list_lookup in Hr as [j Hj]. apply list_lookup_insert_Some in Hj as [(-> & <- & _)|[_ Hj]].
        * split; [done|]. simpl. eauto.
        * apply HP. by eapply elem_of_list_lookup_2.
      + intros bk' Hb k j Hj. rewrite Hbk in Hb. injection Hb as <-. destruct (decide (j = i)) as [->|Hn].
        * exists (WRule (whead s) [Val (sadd (vprod (wbody s)) C)]). split; [apply list_lookup_insert; by eapply lookup_lt_Some|].
          simpl. destruct (Hbko k i Hj) as (s' & Hs' & <-). congruence.
        * rewrite list_lookup_insert_ne by done. by apply Hbko.
      + done.
      + intros x. rewrite (cval_insert _ i s) by done. by rewrite Hsh.
    - destruct (fresh_rule al n ∅ (p_c P1) _) as [[r' c']| |] eqn:Ef; [|discriminate..]. cbn [bind].
      apply fresh_ground in Ef; [|apply Hh]. subst r'. unfold add_rule. cbn [p_f2r p_rules p_buckets p_c]. rewrite Hf. cbn [bind p_rules p_f2r p_c].
      intros [= <-]. rewrite Hrs. split; [split; simpl|].
      + intros r Hr. apply elem_of_app in Hr as [Hr|Hr]; [by apply HP|]. apply elem_of_list_singleton in Hr as ->. split; [done|]. simpl. eauto.
      + intros bk' [= <-] k j. destruct (decide (k = h)) as [->|Hn].
        * rewrite lookup_insert. intros [= <-]. exists (WRule h [Val C]). split; [|done]. by rewrite lookup_app_r, Nat.sub_diag by lia.
        * rewrite lookup_insert_ne by done. intros Hj. destruct (Hbko k j Hj) as (s & Hs & Hsh). exists s. split; [|done]. by apply lookup_app_l_Some.
      + done.
      + intros x. simpl. rewrite cval_app, cval_one. simpl. by rewrite smul_1_r.
  Qed.

  Lemma update_chart_settles h y P : chart_ok P -> head_ok h -> all_const y ->
    exists P', settles (fun n => update wt negligible is_one al cv n ∅ (WRule h y) P) P'.
  Proof.
    intros HP Hh Hy. unfold update.
    destruct (constant_folding_rhs_settles wt negligible is_one ∅ Var acyclic_empty resolution_empty (WRule h y)) as [o Ho].
    assert (Ho' : match o with None => vprod y = szero | Some r => r = WRule h [Val (vprod y)] end).
    { destruct Ho as [n0 Ho]. eapply (folding_const n0); [done|]. by apply Ho. }
    destruct o as [r|].
    2:{ exists P. eapply (settles_bind _ (fun n (o : option (wrule R)) => match o with None => Ok P | Some r => _ end)); [exact Ho|]. apply settles_ret. }
    subst r. set (C := vprod y) in *.
    assert (H1 : exists P1, settles (fun n => match p_buckets P with
                 | Some _ => Ok P
                 | None => let* bk := make_buckets wt cv n ∅ 0 (p_rules P) ∅ in Ok (PState (p_rules P) (Some bk) (p_f2r P) (p_c P))
                 end) P1).
    { destruct (p_buckets P) as [bk|]; [eexists; apply settles_ret|].
      destruct (make_buckets_settles wt cv ∅ Var (p_rules P) acyclic_empty resolution_empty 0 ∅) as [bk Hbk].
      eexists. eapply (settles_bind _ (fun n bk => Ok (PState (p_rules P) (Some bk) (p_f2r P) (p_c P)))); [exact Hbk|]. apply settles_ret. }
    destruct H1 as [P1 H1].
    assert (Hp1 : p_rules P1 = p_rules P /\ p_f2r P1 = None /\ exists bk, p_buckets P1 = Some bk /\
              forall h i, bk !! h = Some i -> exists r, p_rules P !! i = Some r /\ whead r = h).
    { destruct H1 as [n0 H1]. specialize (H1 n0 (le_n _)). destruct HP as [Hr Hb Hx]. destruct (p_buckets P) as [bk|] eqn:Ebk.
      - injection H1 as <-. split; [done|]. split; [done|]. exists bk. split; [done|]. by apply Hb.
      - destruct (make_buckets wt cv n0 ∅ 0 (p_rules P) ∅) as [bk| |] eqn:Em; [|discriminate..]. cbn [bind] in H1.
        injection H1 as <-. simpl. split; [done|]. split; [done|]. exists bk. split; [done|].
        eapply make_buckets_chart; [done|..|done]; [done|]. intros k i. by rewrite lookup_empty. }
    destruct Hp1 as (Hrs & Hf & bk & Hbk & Hbko).
    destruct (canonicalize_settles ∅ Var acyclic_empty resolution_empty cv h) as [n2 H2]. rewrite sub_Var in H2.
    rewrite (ground_canonical cv h Hcv) in H2 by apply Hh.
    destruct (fresh_rule_settles al Hal ∅ Var acyclic_empty resolution_empty (p_c P1) (WRule h [Val C])) as (r' & c' & [n3 H3]).
    destruct Ho as [n0 Ho], H1 as [n1 H1].
    destruct (bk !! h) as [i|] eqn:Ei.
    - destruct (Hbko h i Ei) as (s & Hs & Hsh). destruct (ch_rules P HP s) as [Hsok [v Hv]]; [by eapply elem_of_list_lookup_2|].
      eexists. exists (max n0 (max n1 (max n2 n3))). intros n Hn. rewrite Ho by lia. cbn [bind]. rewrite H1 by lia. cbn [bind].
      unfold update_bucket. rewrite get_const_val. cbn [bind whead]. rewrite H2 by lia. cbn [bind]. rewrite Hbk, Ei.
      unfold merge_at. rewrite Hrs, Hs, Hv. cbn [factor_const bind]. reflexivity.
    - eexists. exists (max n0 (max n1 (max n2 n3))). intros n Hn. rewrite Ho by lia. cbn [bind]. rewrite H1 by lia. cbn [bind].
      unfold update_bucket. rewrite get_const_val. cbn [bind whead]. rewrite H2 by lia. cbn [bind]. rewrite Hbk, Ei.
      rewrite H3 by lia. cbn [bind]. unfold add_rule. cbn [p_f2r p_rules p_buckets p_c]. rewrite Hf. cbn [bind p_rules p_f2r p_c]. reflexivity.
  Qed.

  (** * Lookups *)
  Notation fv := (factor_val wt test).
  Definition crules (ch : list (wrule R)) : Prop := forall r, r ∈ ch -> crule r.
  (** the value found in a chart without builtins *)
  Definition fv0 (I : term -> R) (f : factor R) : R :=
    match f with Val _ | Goal (Cst _) => szero | Goal b => I b end.

  Lemma suml_wbody ch b : suml (map wbody (filter (fun r => whead r = b) ch)) (fun y => vprod y) = cval ch b.
  Proof. by rewrite suml_map. Qed.
  Lemma lookup_vals_val ch f : suml (lookup_vals test true ch f) (fun y => vprod y) = fv (cval ch) f.
  Proof.
    destruct f as [v|[w|k|ts]]; simpl; rewrite ?suml_cons, ?suml_nil, ?sadd_0_r; simpl; rewrite ?smul_1_r; try done.
    all: destruct (test _) as [[]|]; rewrite ?suml_cons, ?suml_nil, ?sadd_0_r; simpl; rewrite ?smul_1_r; try done; apply suml_wbody.
  Qed.
  Lemma lookup_vals_val0 ch f : suml (lookup_vals test false ch f) (fun y => vprod y) = fv0 (cval ch) f.
  Proof. destruct f as [v|[w|k|ts]]; simpl; try done; apply suml_wbody. Qed.
  Lemma join2_val a b : suml (join2 a b) (fun y => vprod y) = smul (suml a (fun y => vprod y)) (suml b (fun y => vprod y)).
  Proof.
    unfold join2. rewrite suml_flat_map, suml_mul_r. apply suml_ext. intros y _. rewrite suml_map, suml_mul_l.
    apply suml_ext. intros z _. apply vprod_app.
  Qed.
  Lemma lookup_body_val ch fs : suml (lookup_body test true ch fs) (fun y => vprod y) = prodl (map (fv (cval ch)) fs).
  Proof.
    induction fs as [|f fs IH]; [simpl; by rewrite suml_cons, suml_nil, sadd_0_r; simpl; rewrite smul_1_r|].
    destruct fs as [|g fs].
    - cbn [lookup_body map prodl fold_right]. rewrite smul_1_r. apply lookup_vals_val.
    - etrans; [apply (join2_val (lookup_vals test true ch f) (lookup_body test true ch (g :: fs)))|].
      by rewrite IH, lookup_vals_val.
  Qed.

  Lemma crule_const r : crule r -> all_const (wbody r).
  Proof. intros [_ [v ->]] f Hf. by apply elem_of_list_singleton in Hf as ->. Qed.
  Lemma lookup_vals_const hb ch f y : crules ch -> y ∈ lookup_vals test hb ch f -> all_const y.
  Proof.
    intros Hc Hy.
    assert (H1 : forall b, y ∈ map wbody (filter (fun r => whead r = b) ch) -> all_const y).
    { intros b H. apply elem_of_list_fmap in H as (r & -> & Hr). apply elem_of_list_filter in Hr as [_ Hr]. by apply crule_const, Hc. }
    assert (H2 : forall g, const_of wt g <> None -> y ∈ [[g]] -> all_const y).
    { intros g Hg H. apply elem_of_list_singleton in H as ->. intros g' H'. by apply elem_of_list_singleton in H' as ->. }
    destruct f as [v|[w|k|ts]], hb; simpl in Hy; try (by apply elem_of_nil in Hy); try (by apply (H1 _ Hy)); try (by eapply H2, Hy).
    all: destruct (test _) as [[]|]; try (by apply elem_of_nil in Hy); try (by apply (H1 _ Hy)); by eapply H2, Hy.
  Qed.
  Lemma join2_const a b y : (forall y, y ∈ a -> all_const y) -> (forall y, y ∈ b -> all_const y) -> y ∈ join2 a b -> all_const y.
  Proof.
    intros Ha Hb H. unfold join2 in H. apply elem_of_list_In, in_flat_map in H as (z & Hz & H). apply in_map_iff in H as (w & <- & Hw).
    apply all_const_app; [apply Ha|apply Hb]; by apply elem_of_list_In.
  Qed.
  Lemma lookup_body_const hb ch fs : crules ch -> forall y, y ∈ lookup_body test hb ch fs -> all_const y.
  Proof.
    intros Hc. induction fs as [|f fs IH]; intros y Hy.
    - apply elem_of_list_singleton in Hy as ->. intros g Hg. by apply elem_of_list_singleton in Hg as ->.
    - destruct fs as [|g fs]; [by eapply lookup_vals_const|]. eapply join2_const; [|exact IH|exact Hy]. intros z. by apply lookup_vals_const.
  Qed.

  (** * set_item, step *)
  Lemma set_item_ok n h ys q q' : chart_ok q -> head_ok h -> (forall y, y ∈ ys -> all_const y) ->
    set_item wt negligible is_one al cv n h ys q = Ok q' ->
    chart_ok q' /\ forall x, cval (p_rules q') x = sadd (cval (p_rules q) x) (if decide (h = x) then suml ys (fun y => vprod y) else szero).
  Proof.
    intros Hq Hh. revert q Hq. induction ys as [|y ys IH]; intros q Hq Hys; cbn [set_item].
    - intros [= <-]. split; [done|]. intros x. rewrite suml_nil. by case_decide; rewrite sadd_0_r.
    - destruct (update wt negligible is_one al cv n ∅ (WRule h y) q) as [q1| |] eqn:E1; [|discriminate..]. cbn [bind].
      destruct (update_chart n h y q q1 Hq Hh (Hys y ltac:(by left)) E1) as [Hq1 V1]. intros E.
      destruct (IH q1 Hq1 (fun z Hz => Hys z (elem_of_list_further _ _ _ Hz)) E) as [Hq' V]. split; [done|].
      intros x. rewrite V, V1, suml_cons. case_decide; [by rewrite sadd_assoc|by rewrite !sadd_0_r].
  Qed.
  Lemma set_item_settles h ys q : chart_ok q -> head_ok h -> (forall y, y ∈ ys -> all_const y) ->
    exists q', settles (fun n => set_item wt negligible is_one al cv n h ys q) q'.
  Proof.
    intros Hq Hh. revert q Hq. induction ys as [|y ys IH]; intros q Hq Hys; cbn [set_item]; [eexists; apply settles_ret|].
    destruct (update_chart_settles h y q Hq Hh (Hys y ltac:(by left))) as [q1 S1].
    assert (Hq1 : chart_ok q1).
    { destruct S1 as [n0 S1]. destruct (update_chart n0 h y q q1 Hq Hh (Hys y ltac:(by left)) (S1 n0 (le_n _))) as [H _]. done. }
    destruct (IH q1 Hq1 (fun z Hz => Hys z (elem_of_list_further _ _ _ Hz))) as [q' S']. exists q'.
    eapply (settles_bind _ (fun n q => set_item wt negligible is_one al cv n h ys q)); done.
  Qed.

  (** the contribution of the rules [P], as a sum with a test *)
  Definition contrib (P : list (wrule R)) (F : wrule R -> R) (x : term) : R :=
    suml P (fun r => if decide (whead r = x) then F r else szero).
  Lemma rhs_contrib P I x : rhs wt test P I x = contrib P (fun r => prodl (map (fv I) (wbody r))) x.
  Proof. unfold rhs, contrib. by rewrite suml_filter_dec. Qed.

  Definition heads_ok (P : list (wrule R)) : Prop := forall r, r ∈ P -> head_ok (whead r).

  Lemma step_rules_ok n P ch q q' : heads_ok P -> crules ch -> chart_ok q ->
    step_rules wt negligible is_one al cv test n P ch q = Ok q' ->
    chart_ok q' /\ forall x, cval (p_rules q') x = sadd (cval (p_rules q) x) (rhs wt test P (cval ch) x).
  Proof.
    intros HP Hc. revert q. induction P as [|r P IH]; intros q Hq; cbn [step_rules].
    - intros [= <-]. split; [done|]. intros x. by rewrite rhs_contrib; unfold contrib; rewrite suml_nil, sadd_0_r.
    - destruct (set_item wt negligible is_one al cv n (whead r) _ q) as [q1| |] eqn:E1; [|discriminate..]. cbn [bind]. intros E.
      destruct (set_item_ok n _ _ q q1 Hq (HP r ltac:(by left)) (lookup_body_const true ch (wbody r) Hc) E1) as [Hq1 V1].
      destruct (IH (fun s Hs => HP s (elem_of_list_further _ _ _ Hs)) q1 Hq1 E) as [Hq' V]. split; [done|].
      intros x. rewrite V, V1, lookup_body_val, !rhs_contrib. unfold contrib. rewrite suml_cons. by rewrite sadd_assoc.
  Qed.
  Lemma step_rules_settles P ch q : heads_ok P -> crules ch -> chart_ok q ->
    exists q', settles (fun n => step_rules wt negligible is_one al cv test n P ch q) q'.
  Proof.
    intros HP Hc. revert q. induction P as [|r P IH]; intros q Hq; cbn [step_rules]; [eexists; apply settles_ret|].
    destruct (set_item_settles (whead r) (lookup_body test true ch (wbody r)) q Hq (HP r ltac:(by left)) (lookup_body_const true ch (wbody r) Hc)) as [q1 S1].
    assert (Hq1 : chart_ok q1).
    { destruct S1 as [n0 S1]. destruct (set_item_ok n0 _ _ q q1 Hq (HP r ltac:(by left)) (lookup_body_const true ch (wbody r) Hc) (S1 n0 (le_n _))) as [H _]. done. }
    destruct (IH (fun s Hs => HP s (elem_of_list_further _ _ _ Hs)) q1 Hq1) as [q' S']. exists q'.
    eapply (settles_bind _ (fun n q => step_rules wt negligible is_one al cv test n P ch q)); done.
  Qed.

  Lemma chart_ok_empty : chart_ok (p_new [] 0).
  Proof. apply chart_ok_new. intros r Hr. by apply elem_of_nil in Hr. Qed.

  Lemma step_ok n P ch q : heads_ok P -> chart_ok ch -> step wt negligible is_one al cv test n P ch = Ok q ->
    chart_ok q /\ forall x, cval (p_rules q) x = rhs wt test P (cval (p_rules ch)) x.
  Proof.
    intros HP Hc E. destruct (step_rules_ok n P (p_rules ch) (p_new [] 0) q HP (ch_rules _ Hc) chart_ok_empty E) as [H V].
    split; [done|]. intros x. rewrite V. simpl. by rewrite cval_nil, sadd_0_l.
  Qed.
  Lemma step_settles P ch : heads_ok P -> chart_ok ch -> exists q, settles (fun n => step wt negligible is_one al cv test n P ch) q.
  Proof. intros HP Hc. apply step_rules_settles; [done|exact (ch_rules _ Hc)|apply chart_ok_empty]. Qed.

  Lemma fv_ext I J f : (forall x, I x = J x) -> fv I f = fv J f.
  Proof. intros H. destruct f as [v|[w|k|ts]]; simpl; try done; by rewrite H. Qed.
  Lemma rhs_ext P I J x : (forall x, I x = J x) -> rhs wt test P I x = rhs wt test P J x.
  Proof.
    intros H. rewrite !rhs_contrib. unfold contrib. apply suml_ext. intros r _. case_decide; [|done]. f_equal.
    apply map_ext. intros f. by apply fv_ext.
  Qed.

  (** * fc *)
  Section loops.
  Context (same : list (wrule R) -> list (wrule R) -> bool).
  Context (Hsame : forall a b, crules a -> crules b -> same a b = true -> forall x, cval a x = cval b x).
  Context (P : list (wrule R)) (HP : heads_ok P).
  Notation it := (iterate wt test P).

  Lemma iterate_fix k : (forall x, it (S k) x = it k x) -> forall j x, it (j + k) x = it k x.
  Proof.
    intros H j. induction j as [|j IH]; intros x; [done|]. change (it (S j + k) x) with (rhs wt test P (it (j + k)) x).
    rewrite (rhs_ext P _ (it k)) by done. apply H.
  Qed.

  Lemma fc_loop_ok n k j old last new : chart_ok old -> (forall x, cval (p_rules old) x = it j x) ->
    match last with Some c => c = old | None => True end ->
    fc_loop wt negligible is_one al cv test same n k P old last = Ok new ->
    chart_ok new /\ forall x, cval (p_rules new) x = it (k + j) x.
  Proof.
    revert j old last. induction k as [|k IH]; intros j old last Ho Vo Hl; cbn [fc_loop].
    - destruct last as [c|]; [|discriminate]. intros [= <-]. subst c. done.
    - destruct (step wt negligible is_one al cv test n P old) as [q| |] eqn:Eq; [|discriminate..]. cbn [bind].
      destruct (step_ok n P old q HP Ho Eq) as [Hq Vq].
      assert (Vq' : forall x, cval (p_rules q) x = it (S j) x) by (intros x; rewrite Vq; by apply rhs_ext).
      destruct (same (p_rules q) (p_rules old)) eqn:Es.
      + intros [= <-]. split; [done|]. intros x.
        pose proof (Hsame _ _ (ch_rules _ Hq) (ch_rules _ Ho) Es) as Hs.
        assert (Hf : forall x, it (S j) x = it j x) by (intros y; by rewrite <- Vq', Hs, Vo).
        rewrite Vq', Hf. symmetry. by apply (iterate_fix j Hf (S k)).
      + intros E. destruct (IH (S j) q (Some q) Hq Vq' eq_refl E) as [Hn Vn]. split; [done|]. intros x. rewrite Vn. by rewrite Nat.add_succ_r.
  Qed.
  Lemma fc_loop_settles k old last : chart_ok old -> (0 < k \/ last <> None) ->
    exists new, settles (fun n => fc_loop wt negligible is_one al cv test same n k P old last) new.
  Proof.
    revert old last. induction k as [|k IH]; intros old last Ho Hl; cbn [fc_loop].
    - destruct last as [c|]; [eexists; apply settles_ret|]. destruct Hl as [Hl|Hl]; [lia|done].
    - destruct (step_settles P old HP Ho) as [q Sq].
      assert (Hq : chart_ok q). { destruct Sq as [n0 Sq]. destruct (step_ok n0 P old q HP Ho (Sq n0 (le_n _))) as [H _]. done. }
      destruct (same (p_rules q) (p_rules old)) eqn:Es.
      + exists q. eapply (settles_bind _ (fun n q => if same (p_rules q) (p_rules old) then Ok q else fc_loop wt negligible is_one al cv test same n k P q (Some q))); [exact Sq|]. rewrite Es. apply settles_ret.
      + destruct (IH q (Some q) Hq) as [r Sr]; [by right|]. exists r.
        eapply (settles_bind _ (fun n q => if same (p_rules q) (p_rules old) then Ok q else fc_loop wt negligible is_one al cv test same n k P q (Some q))); [exact Sq|]. by rewrite Es.
  Qed.

  Lemma fc_run_ok n k j old new : chart_ok old -> (forall x, cval (p_rules old) x = it j x) ->
    fc_run wt negligible is_one al cv test same n k P old = Ok new ->
    solution wt test P (cval (p_rules new)) /\ exists j', forall x, cval (p_rules new) x = it j' x.
  Proof.
    revert j old. induction k as [|k IH]; intros j old Ho Vo; cbn [fc_run]; [discriminate|].
    destruct (step wt negligible is_one al cv test n P old) as [q| |] eqn:Eq; [|discriminate..]. cbn [bind].
    destruct (step_ok n P old q HP Ho Eq) as [Hq Vq].
    assert (Vq' : forall x, cval (p_rules q) x = it (S j) x) by (intros x; rewrite Vq; by apply rhs_ext).
    destruct (same (p_rules q) (p_rules old)) eqn:Es; [|by apply (IH (S j))].
    intros [= <-]. pose proof (Hsame _ _ (ch_rules _ Hq) (ch_rules _ Ho) Es) as Hs. split; [|by exists (S j)].
    intros x. rewrite (rhs_ext P _ _ x Hs). apply Vq.
  Qed.
  End loops.

  (** * constant_folding of charts *)
  Lemma crule_eta r : crule r -> exists h v, r = WRule h [Val v] /\ head_ok h.
  Proof. intros [Hh [v Hv]]. exists (whead r), v. destruct r as [h y]. simpl in *. by subst. Qed.

  Lemma cf_fold_chart n rs rs' : crules rs -> cf_fold wt negligible is_one n ∅ rs = Ok rs' ->
    crules rs' /\ forall x, cval rs' x = cval rs x.
  Proof.
    revert rs'. induction rs as [|r rs IH]; intros rs' Hrs; cbn [cf_fold]; [by intros [= <-]|].
    destruct (constant_folding_rhs wt negligible is_one n ∅ r) as [o| |] eqn:Eo; [|discriminate..]. cbn [bind].
    destruct (cf_fold wt negligible is_one n ∅ rs) as [rest| |] eqn:Er; [|discriminate..]. cbn [bind]. intros [= <-].
    destruct (IH rest (fun s Hs => Hrs s (elem_of_list_further _ _ _ Hs)) eq_refl) as [H1 H2].
    destruct (crule_eta r (Hrs r ltac:(by left))) as (h & v & -> & Hh).
    apply folding_const in Eo; [|apply (crule_const (WRule h [Val v])); split; [done|]; simpl; eauto]. simpl in Eo. rewrite smul_1_r in Eo.
    destruct o as [r'|].
    - subst r'. split.
      + intros s Hs. apply elem_of_cons in Hs as [->|Hs]; [|by apply H1]. split; [done|]. simpl. eauto.
      + intros x. by rewrite !cval_cons, H2.
    - subst v. split; [done|]. intros x. rewrite cval_cons, H2. simpl. rewrite smul_1_r. case_decide; by rewrite sadd_0_l.
  Qed.

  Local Open Scope string_scope.
  Definition skelk (h : term) : term := Fn [Cst (CStr "$skel"); h].
  Local Close Scope string_scope.
  Definition centry (e : term * (term * list (factor R) * R)) : Prop :=
    let '(k, (h, xs, _)) := e in xs = [] /\ k = skelk h /\ head_ok h.
  Definition eval1 (d : list (term * (term * list (factor R) * R))) (x : term) : R :=
    suml d (fun e => let '(_, (h, _, C)) := e in if decide (h = x) then C else szero).

  Lemma merge_skel_chart d h C : Forall centry d -> head_ok h ->
    Forall centry (merge_skel (skelk h) h [] C d) /\
    forall x, eval1 (merge_skel (skelk h) h [] C d) x = sadd (eval1 d x) (if decide (h = x) then C else szero).
  Proof.
    intros Hd Hh. induction Hd as [|[k [[h' xs'] v]] d [Hx [Hk Hh']] Hd [IH1 IH2]]; cbn [merge_skel].
    - split; [apply Forall_singleton; done|]. intros x. unfold eval1. rewrite suml_cons, !suml_nil, sadd_0_l, sadd_0_r. done.
    - case_decide as E.
      + assert (h' = h) as -> by (unfold skelk in *; congruence). split; [apply Forall_cons; done|]. intros x. unfold eval1. rewrite !suml_cons.
        case_decide; [|by rewrite !sadd_0_r]. rewrite <- !sadd_assoc. f_equal. apply sadd_comm.
      + split; [apply Forall_cons; done|]. intros x. unfold eval1 in *. rewrite !suml_cons, IH2. by rewrite sadd_assoc.
  Qed.
  Lemma cf_merge_chart n rs d d' : crules rs -> Forall centry d -> cf_merge wt cv sort n ∅ rs d = Ok d' ->
    Forall centry d' /\ forall x, eval1 d' x = sadd (eval1 d x) (cval rs x).
  Proof.
    revert d. induction rs as [|r rs IH]; intros d Hrs Hd; cbn [cf_merge].
    - intros [= <-]. split; [done|]. intros x. by rewrite cval_nil, sadd_0_r.
    - destruct (crule_eta r (Hrs r ltac:(by left))) as (h & v & -> & Hh). cbn [split_const_and_symbolic wbody factor_const bind whead].
      assert (Es : sort (goals (@nil (factor R))) = []). { apply Permutation_nil. symmetry. apply Hsort. }
      rewrite Es. destruct (canonicalize cv n ∅ _) as [key| |] eqn:Ek; [|discriminate..]. cbn [bind].
      apply canon_head in Ek; [|unfold ground; simpl; by rewrite (proj1 Hh)]. subst key.
      destruct (merge_skel_chart d h v Hd Hh) as [H1 H2]. intros E.
      destruct (IH _ (fun s Hs => Hrs s (elem_of_list_further _ _ _ Hs)) H1 E) as [H3 H4]. split; [done|].
      intros x. rewrite H4, H2, cval_cons. simpl. by rewrite smul_1_r, sadd_assoc.
  Qed.
  Definition chval (ch : list (term * R)) (x : term) : R := suml ch (fun kv => if decide (fst kv = x) then snd kv else szero).
  Lemma chart_add_chart h v ch : Forall (fun kv => head_ok (fst kv)) ch -> NoDup (map fst ch) -> head_ok h ->
    Forall (fun kv => head_ok (fst kv)) (chart_add h v ch) /\ NoDup (map fst (chart_add h v ch)) /\
    (forall k, k ∈ map fst (chart_add h v ch) -> k = h \/ k ∈ map fst ch) /\
    forall x, chval (chart_add h v ch) x = sadd (chval ch x) (if decide (h = x) then v else szero).
  Proof.
    intros Hc Hn Hh. induction Hc as [|[k w] ch Hk Hc IH]; cbn [chart_add].
    - split; [apply Forall_singleton; done|]. split; [simpl; constructor; [by apply not_elem_of_nil|constructor]|].
      split; [intros k Hk; apply elem_of_list_singleton in Hk; by left|].
      intros x. unfold chval. rewrite suml_cons, !suml_nil. simpl. by rewrite !sadd_0_l, sadd_0_r.
    - simpl in Hn. apply NoDup_cons in Hn as [Hn1 Hn2]. destruct (IH Hn2) as (I1 & I2 & I3 & I4). case_decide as E.
      + subst k. split; [by constructor|]. split; [simpl; by constructor|]. split; [intros k Hk'; by right|].
        intros x. unfold chval. rewrite !suml_cons. simpl. case_decide; [|by rewrite !sadd_0_r]. rewrite <- !sadd_assoc. f_equal. apply sadd_comm.
      + split; [by constructor|]. split; [|split].
        * simpl. constructor; [|done]. intros Hin. apply I3 in Hin as [->|Hin]; done.
        * intros j Hj. simpl in Hj. apply elem_of_cons in Hj as [->|Hj]; [right; simpl; by left|].
          apply I3 in Hj as [->|Hj]; [by left|right; simpl; by right].
        * intros x. unfold chval in *. rewrite !suml_cons, I4. by rewrite sadd_assoc.
  Qed.
  Lemma cf_emit_chart n d ch sy ch' sy' : Forall centry d -> Forall (fun kv => head_ok (fst kv)) ch -> NoDup (map fst ch) ->
    cf_emit is_one cv n ∅ d ch sy = Ok (ch', sy') ->
    sy' = sy /\ Forall (fun kv => head_ok (fst kv)) ch' /\ NoDup (map fst ch') /\ forall x, chval ch' x = sadd (chval ch x) (eval1 d x).
  Proof.
    intros Hd. revert ch. induction Hd as [|[k [[h xs] v]] d [Hx [Hk Hh]] Hd IH]; intros ch Hc Hn; cbn [cf_emit].
    - intros [= <- <-]. repeat split; try done. intros x. unfold eval1. by rewrite suml_nil, sadd_0_r.
    - subst xs. destruct (canonicalize cv n ∅ h) as [k'| |] eqn:Ek; [|discriminate..]. cbn [bind].
      apply canon_head in Ek; [|apply Hh]. subst k'. destruct (chart_add_chart h v ch Hc Hn Hh) as (C1 & C2 & _ & C4).
      intros E. destruct (IH _ C1 C2 E) as (-> & E2 & E3 & E4). repeat split; try done.
      intros x. rewrite E4, C4. unfold eval1. rewrite suml_cons. by rewrite sadd_assoc.
  Qed.
  Lemma constant_folding_chart n rs rs' : crules rs -> constant_folding wt negligible is_one cv sort n ∅ rs = Ok rs' ->
    crules rs' /\ NoDup (map whead rs') /\ forall x, cval rs' x = cval rs x.
  Proof.
    intros Hrs. unfold constant_folding.
    destruct (cf_fold wt negligible is_one n ∅ rs) as [rs1| |] eqn:E1; [|discriminate..]. cbn [bind].
    destruct (cf_fold_chart n rs rs1 Hrs E1) as [H1 V1].
    destruct (cf_merge wt cv sort n ∅ rs1 []) as [d| |] eqn:E2; [|discriminate..]. cbn [bind].
    destruct (cf_merge_chart n rs1 [] d H1 (Forall_nil_2 _) E2) as [H2 V2].
    destruct (cf_emit is_one cv n ∅ d [] []) as [[ch sy]| |] eqn:E3; [|discriminate..]. cbn [bind].
    destruct (cf_emit_chart n d [] [] ch sy H2 (Forall_nil_2 _) (NoDup_nil_2) E3) as (-> & H3 & H4 & V3).
    intros [= <-]. simpl. split; [|split].
    - intros r Hr. apply elem_of_list_fmap in Hr as (kv & -> & Hkv). split; [simpl; by apply (proj1 (Forall_forall _ _) H3)|]. simpl. eauto.
    - rewrite map_map. simpl. done.
    - intros x. rewrite <- V1. assert (E : eval1 d x = cval rs1 x) by (rewrite V2; unfold eval1; by rewrite suml_nil, sadd_0_l).
      rewrite <- E. assert (E' : chval ch x = eval1 d x) by (rewrite V3; unfold chval; by rewrite suml_nil, sadd_0_l).
      rewrite <- E'. unfold chart_val, chval. rewrite suml_filter_dec, suml_map. apply suml_ext. intros kv _. simpl. by rewrite smul_1_r.
  Qed.

  (** * Differences *)
  Definition dterm (new old d : term -> R) (fs : list (factor R)) (k : nat) : R :=
    match fs !! k with
    | Some f => smul (smul (prodl (map (fv new) (take k fs))) (fv0 d f)) (prodl (map (fv old) (drop (S k) fs)))
    | None => szero
    end.
  Definition dsum (new old d : term -> R) (fs : list (factor R)) : R :=
    suml (seq 0 (length fs)) (dterm new old d fs).
  Lemma dsum_ext new old d new' old' d' fs : (forall x, new x = new' x) -> (forall x, old x = old' x) -> (forall x, d x = d' x) ->
    dsum new old d fs = dsum new' old' d' fs.
  Proof.
    intros H1 H2 H3. unfold dsum. apply suml_ext. intros k _. unfold dterm. destruct (fs !! k) as [f|]; [|done].
    f_equal; [f_equal|].
    - f_equal. apply map_ext. intros g. by apply fv_ext.
    - destruct f as [v|[w|c|ts]]; simpl; done.
    - f_equal. apply map_ext. intros g. by apply fv_ext.
  Qed.
  Lemma dsum_cons new old d f fs : dsum new old d (f :: fs) =
    sadd (smul (fv0 d f) (prodl (map (fv old) fs))) (smul (fv new f) (dsum new old d fs)).
  Proof.
    unfold dsum. cbn [length seq]. rewrite suml_cons, <- seq_shift, suml_map, suml_mul_l. f_equal.
    - unfold dterm. simpl. by rewrite smul_1_l, drop_0.
    - apply suml_ext. intros k _. unfold dterm. simpl. destruct (fs !! k); [|by rewrite smul_0_r]. by rewrite !smul_assoc.
  Qed.
  Definition plain (d : term -> R) : Prop := forall b v, test b = Some v -> d b = szero.
  Lemma fv_add new old d f : (forall x, new x = sadd (old x) (d x)) -> plain d -> fv new f = sadd (fv old f) (fv0 d f).
  Proof.
    intros H Hp. destruct f as [v|[w|k|ts]]; simpl; rewrite ?sadd_0_r; try done.
    all: destruct (test _) as [[]|] eqn:E; [rewrite (Hp _ _ E), sadd_0_r; done..|apply H].
  Qed.
  Lemma product_difference new old d fs : (forall x, new x = sadd (old x) (d x)) -> plain d ->
    prodl (map (fv new) fs) = sadd (prodl (map (fv old) fs)) (dsum new old d fs).
  Proof.
    intros H Hp. induction fs as [|f fs IH]; [unfold dsum; simpl; by rewrite suml_nil, sadd_0_r|].
    rewrite dsum_cons. simpl. rewrite IH at 1. rewrite (fv_add new old d f H Hp) at 1.
    rewrite smul_add_r, (smul_add_l _ (fv old f)). rewrite <- sadd_assoc. f_equal. f_equal.
    rewrite (fv_add new old d f H Hp). done.
  Qed.
  Definition delta (P : list (wrule R)) (new old d : term -> R) (x : term) : R := contrib P (fun r => dsum new old d (wbody r)) x.
  Lemma delta_ext P new old d new' old' d' x : (forall x, new x = new' x) -> (forall x, old x = old' x) -> (forall x, d x = d' x) ->
    delta P new old d x = delta P new' old' d' x.
  Proof.
    intros H1 H2 H3. unfold delta, contrib. apply suml_ext. intros r _. case_decide; [|done]. by apply dsum_ext.
  Qed.
  Lemma rhs_difference P new old d x : (forall x, new x = sadd (old x) (d x)) -> plain d ->
    rhs wt test P new x = sadd (rhs wt test P old x) (delta P new old d x).
  Proof.
    intros H Hp. rewrite !rhs_contrib. unfold contrib, delta, contrib. rewrite <- suml_add. apply suml_ext. intros r _.
    case_decide; [by apply product_difference|by rewrite sadd_0_r].
  Qed.
  Lemma cval_plain ch : crules ch -> plain (cval ch).
  Proof.
    intros Hc b v Hb. unfold chart_val. rewrite suml_filter_dec. rewrite (suml_ext _ _ (fun _ => szero)); [apply suml_zero|].
    intros r Hr. case_decide as E; [|done]. destruct (Hc r) as [(_ & _ & Ht) _]; [by apply elem_of_list_In|]. congruence.
  Qed.

  Lemma set_items_ok n h lefts vs rights q q' : chart_ok q -> head_ok h ->
    (forall y, y ∈ lefts -> all_const y) -> (forall y, y ∈ vs -> all_const y) -> (forall y, y ∈ rights -> all_const y) ->
    set_items wt negligible is_one al cv n h lefts vs rights q = Ok q' ->
    chart_ok q' /\ forall x, cval (p_rules q') x = sadd (cval (p_rules q) x)
      (if decide (h = x) then smul (smul (suml lefts (fun y => vprod y)) (suml vs (fun y => vprod y))) (suml rights (fun y => vprod y)) else szero).
  Proof.
    intros Hq Hh Hl Hv Hr. revert q Hq. induction vs as [|v vs IH]; intros q Hq; cbn [set_items].
    - intros [= <-]. split; [done|]. intros x. rewrite suml_nil, smul_0_r, smul_0_l. case_decide; by rewrite sadd_0_r.
    - destruct (set_item wt negligible is_one al cv n h _ q) as [q1| |] eqn:E1; [|discriminate..]. cbn [bind]. intros E.
      assert (Hj : forall y, y ∈ join2 (join2 lefts [v]) rights -> all_const y).
      { intros y. apply join2_const; [|done]. intros z. apply join2_const; [done|]. intros w Hw. apply elem_of_list_singleton in Hw as ->. apply Hv. by left. }
      destruct (set_item_ok n h _ q q1 Hq Hh Hj E1) as [Hq1 V1].
      destruct (IH (fun s Hs => Hv s (elem_of_list_further _ _ _ Hs)) q1 Hq1 E) as [Hq' V]. split; [done|].
      intros x. rewrite V, V1, !join2_val, !suml_cons, suml_nil, sadd_0_r. case_decide; [|by rewrite !sadd_0_r].
      by rewrite <- sadd_assoc, <- smul_add_l, <- smul_add_r.
  Qed.
  Lemma set_items_settles h lefts vs rights q : chart_ok q -> head_ok h ->
    (forall y, y ∈ lefts -> all_const y) -> (forall y, y ∈ vs -> all_const y) -> (forall y, y ∈ rights -> all_const y) ->
    exists q', settles (fun n => set_items wt negligible is_one al cv n h lefts vs rights q) q'.
  Proof.
    intros Hq Hh Hl Hv Hr. revert q Hq. induction vs as [|v vs IH]; intros q Hq; cbn [set_items]; [eexists; apply settles_ret|].
    assert (Hj : forall y, y ∈ join2 (join2 lefts [v]) rights -> all_const y).
    { intros y. apply join2_const; [|done]. intros z. apply join2_const; [done|]. intros w Hw. apply elem_of_list_singleton in Hw as ->. apply Hv. by left. }
    destruct (set_item_settles h _ q Hq Hh Hj) as [q1 S1].
    assert (Hq1 : chart_ok q1) by (destruct S1 as [n0 S1]; apply (set_item_ok n0 h _ q q1 Hq Hh Hj (S1 n0 (le_n _)))).
    destruct (IH (fun s Hs => Hv s (elem_of_list_further _ _ _ Hs)) q1 Hq1) as [q' S']. exists q'.
    eapply (settles_bind _ (fun n q => set_items wt negligible is_one al cv n h lefts vs rights q)); done.
  Qed.

  Lemma delta_rule_ok n new old d r ks q q' : crules new -> crules old -> crules d -> head_ok (whead r) -> chart_ok q ->
    delta_rule wt negligible is_one al cv test n new old d r ks q = Ok q' ->
    chart_ok q' /\ forall x, cval (p_rules q') x = sadd (cval (p_rules q) x)
      (if decide (whead r = x) then suml ks (dterm (cval new) (cval old) (cval d) (wbody r)) else szero).
  Proof.
    intros Hn Ho Hd Hh. revert q. induction ks as [|k ks IH]; intros q Hq; cbn [delta_rule].
    - intros [= <-]. split; [done|]. intros x. rewrite suml_nil. case_decide; by rewrite sadd_0_r.
    - destruct (wbody r !! k) as [f|] eqn:Ef; [|discriminate].
      destruct (set_items wt negligible is_one al cv n (whead r) _ _ _ q) as [q1| |] eqn:E1; [|discriminate..]. cbn [bind]. intros E.
      destruct (set_items_ok n (whead r) _ _ _ q q1 Hq Hh (lookup_body_const true new _ Hn) (fun y => lookup_vals_const false d f y Hd)
                  (lookup_body_const true old _ Ho) E1) as [Hq1 V1].
      destruct (IH q1 Hq1 E) as [Hq' V]. split; [done|]. intros x. rewrite V, V1, !lookup_body_val, lookup_vals_val0, suml_cons.
      case_decide; [|by rewrite !sadd_0_r]. rewrite <- sadd_assoc. f_equal. unfold dterm at 2. by rewrite Ef.
  Qed.
  Lemma delta_rule_settles new old d r ks q : crules new -> crules old -> crules d -> head_ok (whead r) -> chart_ok q ->
    (forall k, k ∈ ks -> k < length (wbody r)) ->
    exists q', settles (fun n => delta_rule wt negligible is_one al cv test n new old d r ks q) q'.
  Proof.
    intros Hn Ho Hd Hh. revert q. induction ks as [|k ks IH]; intros q Hq Hk; cbn [delta_rule]; [eexists; apply settles_ret|].
    destruct (wbody r !! k) as [f|] eqn:Ef.
    2:{ apply lookup_ge_None in Ef. specialize (Hk k ltac:(by left)). lia. }
    destruct (set_items_settles (whead r) (lookup_body test true new (take k (wbody r))) (lookup_vals test false d f)
      (lookup_body test true old (drop (S k) (wbody r))) q Hq Hh (lookup_body_const true new _ Hn) (fun y => lookup_vals_const false d f y Hd)
                  (lookup_body_const true old _ Ho)) as [q1 S1].
    assert (Hq1 : chart_ok q1).
    { destruct S1 as [n0 S1]. apply (set_items_ok n0 (whead r) _ _ _ q q1 Hq Hh (lookup_body_const true new _ Hn) (fun y => lookup_vals_const false d f y Hd)
                  (lookup_body_const true old _ Ho) (S1 n0 (le_n _))). }
    destruct (IH q1 Hq1 (fun j Hj => Hk j (elem_of_list_further _ _ _ Hj))) as [q' S']. exists q'.
    eapply (settles_bind _ (fun n q => delta_rule wt negligible is_one al cv test n new old d r ks q)); done.
  Qed.
  Lemma delta_rules_ok n new old d P q q' : crules new -> crules old -> crules d -> heads_ok P -> chart_ok q ->
    delta_rules wt negligible is_one al cv test n new old d P q = Ok q' ->
    chart_ok q' /\ forall x, cval (p_rules q') x = sadd (cval (p_rules q) x) (delta P (cval new) (cval old) (cval d) x).
  Proof.
    intros Hn Ho Hd HP. revert q. induction P as [|r P IH]; intros q Hq; cbn [delta_rules].
    - intros [= <-]. split; [done|]. intros x. unfold delta, contrib. by rewrite suml_nil, sadd_0_r.
    - destruct (delta_rule wt negligible is_one al cv test n new old d r _ q) as [q1| |] eqn:E1; [|discriminate..]. cbn [bind]. intros E.
      destruct (delta_rule_ok n new old d r _ q q1 Hn Ho Hd (HP r ltac:(by left)) Hq E1) as [Hq1 V1].
      destruct (IH (fun s Hs => HP s (elem_of_list_further _ _ _ Hs)) q1 Hq1 E) as [Hq' V]. split; [done|].
      intros x. rewrite V, V1. unfold delta, contrib. rewrite suml_cons. by rewrite sadd_assoc.
  Qed.
  Lemma delta_rules_settles new old d P q : crules new -> crules old -> crules d -> heads_ok P -> chart_ok q ->
    exists q', settles (fun n => delta_rules wt negligible is_one al cv test n new old d P q) q'.
  Proof.
    intros Hn Ho Hd HP. revert q. induction P as [|r P IH]; intros q Hq; cbn [delta_rules]; [eexists; apply settles_ret|].
    destruct (delta_rule_settles new old d r (seq 0 (length (wbody r))) q Hn Ho Hd (HP r ltac:(by left)) Hq) as [q1 S1].
    { intros k Hk. apply elem_of_seq in Hk. lia. }
    assert (Hq1 : chart_ok q1) by (destruct S1 as [n0 S1]; apply (delta_rule_ok n0 new old d r _ q q1 Hn Ho Hd (HP r ltac:(by left)) Hq (S1 n0 (le_n _)))).
    destruct (IH (fun s Hs => HP s (elem_of_list_further _ _ _ Hs)) q1 Hq1) as [q' S']. exists q'.
    eapply (settles_bind _ (fun n q => delta_rules wt negligible is_one al cv test n new old d P q)); done.
  Qed.

  Lemma crules_app a b : crules a -> crules b -> crules (a ++ b).
  Proof. intros Ha Hb r Hr. apply elem_of_app in Hr as [Hr|Hr]; auto. Qed.

  Lemma seminaive_update_ok n P old d new q : heads_ok P -> chart_ok old -> chart_ok d ->
    seminaive_update wt negligible is_one al cv sort test n P old d = Ok (new, q) ->
    chart_ok new /\ chart_ok q /\ (forall x, cval (p_rules new) x = sadd (cval (p_rules old) x) (cval (p_rules d) x)) /\
    forall x, cval (p_rules q) x = delta P (cval (p_rules new)) (cval (p_rules old)) (cval (p_rules d)) x.
  Proof.
    intros HP Ho Hd. unfold seminaive_update.
    destruct (constant_folding wt negligible is_one cv sort n ∅ (p_rules old ++ p_rules d)) as [nw| |] eqn:E1; [|discriminate..]. cbn [bind].
    destruct (constant_folding_chart n _ nw (crules_app _ _ (ch_rules _ Ho) (ch_rules _ Hd)) E1) as (H1 & _ & V1).
    destruct (delta_rules wt negligible is_one al cv test n nw (p_rules old) (p_rules d) P (p_new [] 0)) as [q1| |] eqn:E2; [|discriminate..]. cbn [bind].
    destruct (delta_rules_ok n nw (p_rules old) (p_rules d) P (p_new [] 0) q1 H1 (ch_rules _ Ho) (ch_rules _ Hd) HP chart_ok_empty E2) as (H2 & V2).
    destruct (constant_folding wt negligible is_one cv sort n ∅ (p_rules q1)) as [q2| |] eqn:E3; [|discriminate..]. cbn [bind].
    destruct (constant_folding_chart n _ q2 (ch_rules _ H2) E3) as (H3 & _ & V3).
    intros [= <- <-]. simpl. split; [by apply chart_ok_new|]. split; [by apply chart_ok_new|]. split.
    - intros x. by rewrite V1, cval_app.
    - intros x. rewrite V3, V2. simpl. by rewrite cval_nil, sadd_0_l.
  Qed.
  Lemma seminaive_update_settles P old d : heads_ok P -> chart_ok old -> chart_ok d ->
    exists nq, settles (fun n => seminaive_update wt negligible is_one al cv sort test n P old d) nq.
  Proof.
    intros HP Ho Hd. unfold seminaive_update.
    destruct (constant_folding_settles wt negligible is_one cv sort (p_rules old ++ p_rules d)) as [nw [n1 S1]].
    destruct (constant_folding_chart n1 _ nw (crules_app _ _ (ch_rules _ Ho) (ch_rules _ Hd)) (S1 n1 (le_n _))) as (H1 & _).
    destruct (delta_rules_settles nw (p_rules old) (p_rules d) P (p_new [] 0) H1 (ch_rules _ Ho) (ch_rules _ Hd) HP chart_ok_empty) as [q1 [n2 S2]].
    destruct (constant_folding_settles wt negligible is_one cv sort (p_rules q1)) as [q2 [n3 S3]].
    exists (p_new nw 0, p_new q2 0), (max n1 (max n2 n3)). intros n Hn.
    rewrite S1 by lia. cbn [bind]. rewrite S2 by lia. cbn [bind]. rewrite S3 by lia. done.
  Qed.

  Section loops2.
  Context (same : list (wrule R) -> list (wrule R) -> bool).
  Context (Hsame : forall a b, crules a -> crules b -> same a b = true -> forall x, cval a x = cval b x).
  Context (P : list (wrule R)) (HP : heads_ok P).
  Notation it := (iterate wt test P).

  (** the state before round [j + 1] *)
  Definition sn_inv (j : nat) (m d : pstate R) : Prop :=
    chart_ok m /\ chart_ok d /\ (forall x, cval (p_rules m) x = it j x) /\
    forall x, it (S j) x = sadd (it j x) (cval (p_rules d) x).
  Lemma sn_step n j m d m' d' : sn_inv j m d -> seminaive_update wt negligible is_one al cv sort test n P m d = Ok (m', d') ->
    sn_inv (S j) m' d' /\ forall x, cval (p_rules d') x = delta P (it (S j)) (it j) (cval (p_rules d)) x.
  Proof.
    intros (Hm & Hd & Vm & Vd) E. destruct (seminaive_update_ok n P m d m' d' HP Hm Hd E) as (Hm' & Hd' & Vm' & Vd').
    assert (V1 : forall x, cval (p_rules m') x = it (S j) x) by (intros x; by rewrite Vm', Vm, Vd).
    assert (V2 : forall x, cval (p_rules d') x = delta P (it (S j)) (it j) (cval (p_rules d)) x).
    { intros x. rewrite Vd'. by apply delta_ext. }
    split; [|done]. split; [done|]. split; [done|]. split; [done|].
    intros x. rewrite V2. change (it (S (S j)) x) with (rhs wt test P (it (S j)) x).
    apply rhs_difference; [done|]. exact (cval_plain _ (ch_rules _ Hd)).
  Qed.
  Lemma sn_start n d : step wt negligible is_one al cv test n P (p_new [] 0) = Ok d -> sn_inv 0 (p_new [] 0) d.
  Proof.
    intros E. destruct (step_ok n P _ d HP chart_ok_empty E) as [Hd Vd]. split; [apply chart_ok_empty|]. split; [done|]. split; [done|].
    intros x. rewrite Vd. simpl. rewrite sadd_0_l. by apply rhs_ext.
  Qed.
  Lemma sn_stop j m m' d' : sn_inv j m d' \/ chart_ok m -> (forall x, cval (p_rules m) x = it j x) -> sn_inv (S j) m' d' ->
    match p_rules d' with [] => true | _ => same (p_rules m) (p_rules m') end = true ->
    forall x, it (S (S j)) x = it (S j) x.
  Proof.
    intros Hm Vm (Hm' & Hd' & Vm' & Vd') Hs x.
    assert (Hc : chart_ok m) by (destruct Hm as [[H _]|H]; done).
    destruct (p_rules d') as [|r l] eqn:Ed.
    - rewrite Vd', cval_nil. apply sadd_0_r.
    - pose proof (Hsame _ _ (ch_rules _ Hc) (ch_rules _ Hm') Hs) as H.
      change (it (S (S j)) x) with (rhs wt test P (it (S j)) x). change (it (S j) x) with (rhs wt test P (it j) x).
      apply rhs_ext. intros y. by rewrite <- Vm', <- Vm, H.
  Qed.

  Lemma seminaive_loop_ok n k j m d new : sn_inv j m d ->
    seminaive_loop wt negligible is_one al cv sort test same n k P m d = Ok new ->
    chart_ok new /\ forall x, cval (p_rules new) x = it (k + j) x.
  Proof.
    revert j m d. induction k as [|k IH]; intros j m d Hi; cbn [seminaive_loop].
    - intros [= <-]. destruct Hi as (H1 & _ & H2 & _). done.
    - destruct (seminaive_update wt negligible is_one al cv sort test n P m d) as [[m' d']| |] eqn:E; [|discriminate..]. cbn [bind].
      destruct (sn_step n j m d m' d' Hi E) as [Hi' _].
      destruct (match p_rules d' with [] => true | _ => _ end) eqn:Es.
      + intros [= <-]. split; [apply Hi'|]. intros x. destruct Hi as (Hm & _ & Vm & _).
        pose proof (sn_stop j m m' d' (or_intror Hm) Vm Hi' Es) as Hf. destruct Hi' as (_ & _ & Vm' & _). rewrite Vm'.
        symmetry. change (S k + j) with (S (k + j)). rewrite <- Nat.add_succ_r. by apply (iterate_fix P (S j) Hf k).
      + intros E'. destruct (IH (S j) m' d' Hi' E') as [Hn Vn]. split; [done|]. intros x. rewrite Vn. by rewrite Nat.add_succ_r.
  Qed.
  Lemma seminaive_loop_settles k j m d : sn_inv j m d ->
    exists new, settles (fun n => seminaive_loop wt negligible is_one al cv sort test same n k P m d) new.
  Proof.
    revert j m d. induction k as [|k IH]; intros j m d Hi; cbn [seminaive_loop]; [eexists; apply settles_ret|].
    destruct (seminaive_update_settles P m d HP (proj1 Hi) (proj1 (proj2 Hi))) as [[m' d'] Su].
    assert (Hi' : sn_inv (S j) m' d') by (destruct Su as [n0 Su]; apply (sn_step n0 j m d m' d' Hi (Su n0 (le_n _)))).
    destruct (IH (S j) m' d' Hi') as [new Sn].
    exists (if match p_rules d' with [] => true | _ => same (p_rules m) (p_rules m') end then m' else new).
    eapply (settles_bind _ (fun n (md : pstate R * pstate R) => let '(m', d') := md in
      if match p_rules d' with [] => true | _ => same (p_rules m) (p_rules m') end then Ok m'
      else seminaive_loop wt negligible is_one al cv sort test same n k P m' d')); [exact Su|]. cbn beta iota.
    destruct (match p_rules d' with [] => true | _ => _ end); [apply settles_ret|exact Sn].
  Qed.
  Lemma seminaive_run_ok n k j m d new : sn_inv j m d ->
    seminaive_run wt negligible is_one al cv sort test same n k P m d = Ok new ->
    solution wt test P (cval (p_rules new)) /\ exists j', forall x, cval (p_rules new) x = it j' x.
  Proof.
    revert j m d. induction k as [|k IH]; intros j m d Hi; cbn [seminaive_run]; [discriminate|].
    destruct (seminaive_update wt negligible is_one al cv sort test n P m d) as [[m' d']| |] eqn:E; [|discriminate..]. cbn [bind].
    destruct (sn_step n j m d m' d' Hi E) as [Hi' _].
    destruct (match p_rules d' with [] => true | _ => _ end) eqn:Es; [|by apply (IH (S j))].
    intros [= <-]. destruct Hi as (Hm & _ & Vm & _).
    pose proof (sn_stop j m m' d' (or_intror Hm) Vm Hi' Es) as Hf. destruct Hi' as (_ & _ & Vm' & _). split; [|eauto].
    intros x. rewrite (rhs_ext P _ _ x Vm'), Vm'. symmetry. apply Hf.
  Qed.
  End loops2.

  (** * agenda *)
  Section agenda.
  Context (close : R -> R -> bool) (Hclose : forall a b, close a b = true -> a = b).
  Context (P : list (wrule R)) (HP : heads_ok P).

  Lemma chart_value_cval a x : crules a -> NoDup (map whead a) -> cval a x = default szero (chart_value a x).
  Proof.
    intros Hc. induction a as [|r a IH]; [done|]. simpl. intros Hn. apply NoDup_cons in Hn as [Hn1 Hn2].
    unfold chart_value. rewrite filter_cons, cval_cons. case_decide as E.
    - destruct (Hc r ltac:(by left)) as [_ [v ->]]. simpl. rewrite smul_1_r.
      assert (E0 : cval a x = szero); [|by rewrite E0, sadd_0_r].
      unfold chart_val. rewrite suml_filter_dec. rewrite (suml_ext _ _ (fun _ => szero)); [apply suml_zero|].
      intros s Hs. case_decide as Es; [|done]. exfalso. apply Hn1. rewrite E, <- Es. apply elem_of_list_fmap. exists s. split; [done|]. by apply elem_of_list_In.
    - rewrite sadd_0_l. apply IH; [|done]. intros s Hs. apply Hc. by right.
  Qed.
  Lemma metric_le_ok n a b : crules a -> crules b -> metric_le wt negligible is_one cv sort close n a b = Ok true ->
    forall x, cval a x = cval b x.
  Proof.
    intros Ha Hb. unfold metric_le.
    destruct (constant_folding wt negligible is_one cv sort n ∅ a) as [a'| |] eqn:E1; [|discriminate..]. cbn [bind].
    destruct (constant_folding wt negligible is_one cv sort n ∅ b) as [b'| |] eqn:E2; [|discriminate..]. cbn [bind].
    destruct (constant_folding_chart n a a' Ha E1) as (Ha' & Na & Va). destruct (constant_folding_chart n b b' Hb E2) as (Hb' & Nb & Vb).
    destruct (forallb _ (map whead a') && _) eqn:Ek; [|discriminate]. intros [= E] x.
    apply andb_prop in Ek as [K1 K2]. rewrite forallb_forall in K1, K2. rewrite forallb_forall in E.
    rewrite <- Va, <- Vb. rewrite (chart_value_cval a' x Ha' Na), (chart_value_cval b' x Hb' Nb).
    destruct (decide (x ∈ map whead a')) as [Hx|Hx].
    - specialize (E x (proj1 (elem_of_list_In _ _) Hx)).
      destruct (chart_value a' x) as [v|], (chart_value b' x) as [w|]; try discriminate. simpl. by apply Hclose.
    - assert (Hx' : x ∉ map whead b').
      { intros H. specialize (K2 x (proj1 (elem_of_list_In _ _) H)). by apply bool_decide_eq_true in K2. }
      assert (Hno : forall c : list (wrule R), x ∉ map whead c -> chart_value c x = None).
      { intros c Hc. unfold chart_value. destruct (filter (fun r => whead r = x) c) as [|r l] eqn:Ef; [done|].
        exfalso. apply Hc. assert (Hr : r ∈ filter (fun r => whead r = x) c) by (rewrite Ef; by left).
        apply elem_of_list_filter in Hr as [<- Hr]. apply elem_of_list_fmap. eauto. }
      by rewrite !Hno.
  Qed.
  Lemma metric_le_settles a b : exists o, settles (fun n => metric_le wt negligible is_one cv sort close n a b) o.
  Proof.
    destruct (constant_folding_settles wt negligible is_one cv sort a) as [a' [n1 S1]].
    destruct (constant_folding_settles wt negligible is_one cv sort b) as [b' [n2 S2]].
    assert (H : exists o, forall n, max n1 n2 <= n -> metric_le wt negligible is_one cv sort close n a b = Ok o).
    { unfold metric_le.
      destruct (forallb (fun x => bool_decide (x ∈ map whead b')) (map whead a') && forallb (fun x => bool_decide (x ∈ map whead a')) (map whead b')) eqn:Ek.
      - eexists. intros n Hn. rewrite S1 by lia. cbn [bind]. rewrite S2 by lia. cbn [bind]. rewrite Ek. reflexivity.
      - eexists. intros n Hn. rewrite S1 by lia. cbn [bind]. rewrite S2 by lia. cbn [bind]. rewrite Ek. reflexivity. }
    destruct H as [o H]. exists o, (max n1 n2). exact H.
  Qed.

  Lemma lookup_single (u : wrule R) (f : factor R) : lookup_vals test false [u] f =
    match f with Goal b => if decide (whead u = b) then match b with Cst _ => [] | _ => [wbody u] end else [] | Val _ => [] end.
  Proof.
    destruct f as [v|b]; [done|]. unfold lookup_vals. destruct b as [w|k|ts].
    1,3: rewrite filter_cons, list.filter_nil; by case_decide.
    by case_decide.
  Qed.

  Lemma agenda_rule_ok n new old u r ks q q' : crules new -> crules old -> crule u -> head_ok (whead r) -> chart_ok q ->
    agenda_rule wt negligible is_one al cv test n new old u r ks q = Ok q' ->
    chart_ok q' /\ forall x, cval (p_rules q') x = sadd (cval (p_rules q) x)
      (if decide (whead r = x) then suml ks (dterm (cval new) (cval old) (cval [u]) (wbody r)) else szero).
  Proof.
    intros Hn Ho Hu Hh. revert q. induction ks as [|k ks IH]; intros q Hq; cbn [agenda_rule].
    - intros [= <-]. split; [done|]. intros x. rewrite suml_nil. case_decide; by rewrite sadd_0_r.
    - destruct (wbody r !! k) as [f|] eqn:Ef; [|discriminate].
      assert (Hlu : forall f, suml (lookup_vals test false [u] f) (fun y => vprod y) = fv0 (cval [u]) f) by apply lookup_vals_val0.
      specialize (Hlu f). rewrite lookup_single in Hlu.
      assert (Hskip : fv0 (cval [u]) f = szero -> forall q1, q1 = q -> agenda_rule wt negligible is_one al cv test n new old u r ks q1 = Ok q' ->
         chart_ok q' /\ forall x, cval (p_rules q') x = sadd (cval (p_rules q) x)
          (if decide (whead r = x) then suml (k :: ks) (dterm (cval new) (cval old) (cval [u]) (wbody r)) else szero)).
      { intros Hz q1 -> E. destruct (IH q Hq E) as [Hq' V]. split; [done|]. intros x. rewrite V. f_equal. case_decide; [|done].
        rewrite suml_cons. unfold dterm at 2. rewrite Ef, Hz, smul_0_r, smul_0_l. by rewrite sadd_0_l. }
      destruct f as [v|b]; [by apply Hskip|]. case_decide as Eb; [|cbn [bind]; apply Hskip; [by rewrite <- Hlu|done]].
      assert (Hb : match b with Cst _ => [] | _ => [wbody u] end = [wbody u] :> list (list (factor R))).
      { destruct Hu as [(_ & (g & args & Hg) & _) _]. rewrite Eb in Hg. by rewrite Hg. }
      rewrite Hb, suml_cons, suml_nil, sadd_0_r in Hlu.
      destruct (set_item wt negligible is_one al cv n (whead r) _ q) as [q1| |] eqn:E1; [|discriminate..]. cbn [bind]. intros E.
      assert (Hj : forall y, y ∈ join2 (join2 (lookup_body test true new (take k (wbody r))) [wbody u]) (lookup_body test true old (drop (S k) (wbody r))) -> all_const y).
      { intros y. apply join2_const; [|by apply lookup_body_const]. intros z. apply join2_const; [by apply lookup_body_const|].
        intros w Hw. apply elem_of_list_singleton in Hw as ->. by apply crule_const. }
      destruct (set_item_ok n (whead r) _ q q1 Hq Hh Hj E1) as [Hq1 V1].
      destruct (IH q1 Hq1 E) as [Hq' V]. split; [done|]. intros x. rewrite V, V1, !join2_val, !lookup_body_val, !suml_cons, suml_nil, sadd_0_r.
      case_decide; [|by rewrite !sadd_0_r]. rewrite <- sadd_assoc. f_equal. unfold dterm at 2. by rewrite Ef, <- Hlu.
  Qed.
  Lemma agenda_rule_settles new old u r ks q : crules new -> crules old -> crule u -> head_ok (whead r) -> chart_ok q ->
    (forall k, k ∈ ks -> k < length (wbody r)) ->
    exists q', settles (fun n => agenda_rule wt negligible is_one al cv test n new old u r ks q) q'.
  Proof.
    intros Hn Ho Hu Hh. revert q. induction ks as [|k ks IH]; intros q Hq Hk; cbn [agenda_rule]; [eexists; apply settles_ret|].
    destruct (wbody r !! k) as [f|] eqn:Ef.
    2:{ apply lookup_ge_None in Ef. specialize (Hk k ltac:(by left)). lia. }
    assert (Hs : exists q1, settles (fun n => match f with
        | Val _ => Ok q
        | Goal b => if decide (whead u = b) then set_item wt negligible is_one al cv n (whead r)
              (join2 (join2 (lookup_body test true new (take k (wbody r))) [wbody u]) (lookup_body test true old (drop (S k) (wbody r)))) q
              else Ok q end) q1 /\ chart_ok q1).
    { destruct f as [v|b]; [exists q; split; [apply settles_ret|done]|]. case_decide; [|exists q; split; [apply settles_ret|done]].
      assert (Hj : forall y, y ∈ join2 (join2 (lookup_body test true new (take k (wbody r))) [wbody u]) (lookup_body test true old (drop (S k) (wbody r))) -> all_const y).
      { intros y. apply join2_const; [|by apply lookup_body_const]. intros z. apply join2_const; [by apply lookup_body_const|].
        intros w Hw. apply elem_of_list_singleton in Hw as ->. by apply crule_const. }
      destruct (set_item_settles (whead r) _ q Hq Hh Hj) as [q1 S1]. exists q1. split; [done|].
      destruct S1 as [n0 S1]. apply (set_item_ok n0 (whead r) _ q q1 Hq Hh Hj (S1 n0 (le_n _))). }
    destruct Hs as (q1 & [n1 S1] & Hq1).
    destruct (IH q1 Hq1 (fun j Hj => Hk j (elem_of_list_further _ _ _ Hj))) as [q' [n2 S2]]. exists q', (max n1 n2). intros n Hn'.
    specialize (S1 n ltac:(lia)). destruct f as [v|b]; rewrite S1; cbn [bind]; apply S2; lia.
  Qed.
  Lemma agenda_rules_ok n new old u Q q q' : crules new -> crules old -> crule u -> heads_ok Q -> chart_ok q ->
    agenda_rules wt negligible is_one al cv test n new old u Q q = Ok q' ->
    chart_ok q' /\ forall x, cval (p_rules q') x = sadd (cval (p_rules q) x) (delta Q (cval new) (cval old) (cval [u]) x).
  Proof.
    intros Hn Ho Hd HQ. revert q. induction Q as [|r Q IH]; intros q Hq; cbn [agenda_rules].
    - intros [= <-]. split; [done|]. intros x. unfold delta, contrib. by rewrite suml_nil, sadd_0_r.
    - destruct (agenda_rule wt negligible is_one al cv test n new old u r _ q) as [q1| |] eqn:E1; [|discriminate..]. cbn [bind]. intros E.
      destruct (agenda_rule_ok n new old u r _ q q1 Hn Ho Hd (HQ r ltac:(by left)) Hq E1) as [Hq1 V1].
      destruct (IH (fun s Hs => HQ s (elem_of_list_further _ _ _ Hs)) q1 Hq1 E) as [Hq' V]. split; [done|].
      intros x. rewrite V, V1. unfold delta, contrib. rewrite suml_cons. by rewrite sadd_assoc.
  Qed.
  Lemma agenda_rules_settles new old u Q q : crules new -> crules old -> crule u -> heads_ok Q -> chart_ok q ->
    exists q', settles (fun n => agenda_rules wt negligible is_one al cv test n new old u Q q) q'.
  Proof.
    intros Hn Ho Hd HQ. revert q. induction Q as [|r Q IH]; intros q Hq; cbn [agenda_rules]; [eexists; apply settles_ret|].
    destruct (agenda_rule_settles new old u r (seq 0 (length (wbody r))) q Hn Ho Hd (HQ r ltac:(by left)) Hq) as [q1 S1].
    { intros k Hk. apply elem_of_seq in Hk. lia. }
    assert (Hq1 : chart_ok q1) by (destruct S1 as [n0 S1]; apply (agenda_rule_ok n0 new old u r _ q q1 Hn Ho Hd (HQ r ltac:(by left)) Hq (S1 n0 (le_n _)))).
    destruct (IH (fun s Hs => HQ s (elem_of_list_further _ _ _ Hs)) q1 Hq1) as [q' S']. exists q'.
    eapply (settles_bind _ (fun n q => agenda_rules wt negligible is_one al cv test n new old u Q q)); done.
  Qed.

  Lemma pop_chart i q q' u : chart_ok q -> pop i q = Ok (q', u) ->
    chart_ok q' /\ crule u /\ forall x, cval (p_rules q) x = sadd (cval [u] x) (cval (p_rules q') x).
  Proof.
    intros Hq. unfold pop. destruct (p_rules q !! i) as [r|] eqn:E; [|discriminate]. intros [= <- <-].
    assert (Er : p_rules q = take i (p_rules q) ++ r :: drop (S i) (p_rules q)) by (symmetry; by apply take_drop_middle).
    split; [split; simpl|split].
    - intros s Hs. apply (ch_rules _ Hq). rewrite Er. apply elem_of_app in Hs as [Hs|Hs]; apply elem_of_app; [by left|right; by right].
    - done.
    - done.
    - apply (ch_rules _ Hq). by eapply elem_of_list_lookup_2.
    - intros x. simpl. rewrite Er at 1. rewrite !cval_app, !cval_cons, cval_nil, sadd_0_r. apply sadd_swap.
  Qed.
  Lemma filter_crules ch x : crules ch -> crules (filter (fun r => whead r = x) ch).
  Proof. intros H r Hr. apply elem_of_list_filter in Hr as [_ Hr]. auto. Qed.
  Lemma user_lookup_ok n ch x rs : chart_ok ch -> user_lookup wt negligible is_one cv sort n ch x = Ok rs ->
    crules rs /\ cval rs x = cval (p_rules ch) x.
  Proof.
    intros Hc E. destruct (constant_folding_chart n _ rs (filter_crules _ x (ch_rules _ Hc)) E) as (H & _ & V). split; [done|].
    rewrite V. unfold chart_val. f_equal. apply list_filter_filter_l. done.
  Qed.

  Definition ag_inv (old change new : pstate R) : Prop :=
    chart_ok old /\ chart_ok change /\ chart_ok new /\ (forall x, cval (p_rules old) x = cval (p_rules new) x) /\
    forall x, sadd (cval (p_rules new) x) (cval (p_rules change) x) = rhs wt test P (cval (p_rules new)) x.

  Lemma agenda_loop_ok n t old change new old' change' new' : ag_inv old change new ->
    agenda_loop wt negligible is_one al cv sort test close n t P old change new = Ok (old', change', new') ->
    ag_inv old' change' new'.
  Proof.
    revert old change new. induction t as [|t IH]; intros old change new Hi; cbn [agenda_loop]; [by intros [= <- <- <-]|].
    destruct (p_rules change) as [|u0 l0]; [by intros [= <- <- <-]|].
    destruct (pop 0 change) as [[ch1 u]| |] eqn:Ep; [|discriminate..]. cbn [bind].
    destruct Hi as (Ho & Hc & Hn & Von & Veq). destruct (pop_chart 0 change ch1 u Hc Ep) as (Hc1 & Hu & Vc).
    destruct (user_lookup wt negligible is_one cv sort n new (whead u)) as [was| |] eqn:Ew; [|discriminate..]. cbn [bind].
    destruct (user_lookup_ok n new (whead u) was Hn Ew) as [Hwas Vwas].
    destruct (update wt negligible is_one al cv n ∅ u new) as [new1| |] eqn:Eu; [|discriminate..]. cbn [bind].
    destruct u as [h y]. cbn [whead wbody] in *.
    destruct (update_chart n h y new new1 Hn (proj1 Hu) (crule_const _ Hu) Eu) as [Hn1 Vn1].
    assert (Vn1' : forall x, cval (p_rules new1) x = sadd (cval (p_rules new) x) (cval [WRule h y] x)) by (intros x; by rewrite Vn1, cval_one).
    destruct (user_lookup wt negligible is_one cv sort n new1 h) as [now| |] eqn:Ew2; [|discriminate..]. cbn [bind].
    destruct (user_lookup_ok n new1 h now Hn1 Ew2) as [Hnow Vnow].
    destruct (metric_le wt negligible is_one cv sort close n was now) as [b| |] eqn:Em; [|discriminate..]. cbn [bind].
    destruct b.
    - pose proof (metric_le_ok n was now Hwas Hnow Em h) as Es. rewrite Vwas, Vnow in Es.
      assert (Vs : forall x, cval (p_rules new1) x = cval (p_rules new) x).
      { intros x. destruct (decide (h = x)) as [<-|Hne]; [done|]. rewrite Vn1, decide_False by done. apply sadd_0_r. }
      apply IH. split; [done|]. split; [done|]. split; [done|]. split; [intros x; by rewrite Vs|].
      intros x. rewrite (rhs_ext P _ _ x Vs), <- Veq, Vc, Vn1', sadd_assoc. done.
    - destruct (agenda_rules wt negligible is_one al cv test n (p_rules new1) (p_rules old) _ P ch1) as [ch2| |] eqn:Ea; [|discriminate..]. cbn [bind].
      destruct (agenda_rules_ok n _ _ _ P ch1 ch2 (ch_rules _ Hn1) (ch_rules _ Ho) Hu HP Hc1 Ea) as [Hc2 Vc2].
      destruct (update wt negligible is_one al cv n ∅ (WRule h y) old) as [old1| |] eqn:Eo; [|discriminate..]. cbn [bind].
      destruct (update_chart n h y old old1 Ho (proj1 Hu) (crule_const _ Hu) Eo) as [Ho1 Vo1].
      apply IH. split; [done|]. split; [done|]. split; [done|]. split; [intros x; by rewrite Vo1, Vn1, Von|].
      intros x. rewrite Vc2.
      assert (Hsplit : rhs wt test P (cval (p_rules new1)) x = sadd (rhs wt test P (cval (p_rules old)) x)
                (delta P (cval (p_rules new1)) (cval (p_rules old)) (cval [WRule h y]) x)).
      { apply rhs_difference; [intros z; by rewrite Vn1', Von|]. apply cval_plain. intros r Hr. by apply elem_of_list_singleton in Hr as ->. }
      rewrite Hsplit, (rhs_ext P _ _ x Von), <- Veq, Vc, Vn1'. by rewrite !sadd_assoc.
  Qed.
  Lemma agenda_loop_settles t old change new : ag_inv old change new ->
    exists o, settles (fun n => agenda_loop wt negligible is_one al cv sort test close n t P old change new) o.
  Proof.
    revert old change new. induction t as [|t IH]; intros old change new Hi; [eexists; apply settles_ret|].
    destruct (p_rules change) as [|u0 l0] eqn:Ec.
    { exists (old, change, new), 0. intros n _. cbn [agenda_loop]. by rewrite Ec. }
    destruct (pop 0 change) as [[ch1 u]|e|] eqn:Ep; [|unfold pop in Ep; by rewrite Ec in Ep..].
    pose proof Hi as (Ho & Hc & Hn & Von & Veq). destruct (pop_chart 0 change ch1 u Hc Ep) as (Hc1 & Hu & Vc).
    destruct (constant_folding_settles wt negligible is_one cv sort (filter (fun r => whead r = whead u) (p_rules new))) as [was [n1 S1]].
    destruct u as [h y]. cbn [whead wbody] in *.
    destruct (update_chart_settles h y new Hn (proj1 Hu) (crule_const _ Hu)) as [new1 [n2 S2]].
    destruct (update_chart n2 h y new new1 Hn (proj1 Hu) (crule_const _ Hu) (S2 n2 (le_n _))) as [Hn1 Vn1].
    destruct (constant_folding_settles wt negligible is_one cv sort (filter (fun r => whead r = h) (p_rules new1))) as [now [n3 S3]].
    destruct (metric_le_settles was now) as [b [n4 S4]].
    destruct (agenda_rules_settles (p_rules new1) (p_rules old) (WRule h y) P ch1 (ch_rules _ Hn1) (ch_rules _ Ho) Hu HP Hc1) as [ch2 [n5 S5]].
    destruct (update_chart_settles h y old Ho (proj1 Hu) (crule_const _ Hu)) as [old1 [n6 S6]].
    set (N := max n1 (max n2 (max n3 (max n4 (max n5 n6))))).
    assert (Hstep : forall n, N <= n -> agenda_loop wt negligible is_one al cv sort test close n (S t) P old change new =
       if b then agenda_loop wt negligible is_one al cv sort test close n t P old ch1 new1
       else agenda_loop wt negligible is_one al cv sort test close n t P old1 ch2 new1).
    { intros n Hn'. cbn [agenda_loop]. rewrite Ec, Ep. cbn [bind whead]. unfold user_lookup.
      rewrite S1 by lia. cbn [bind]. rewrite S2 by lia. cbn [bind]. rewrite S3 by lia. cbn [bind]. rewrite S4 by lia. cbn [bind].
      destruct b; [done|]. rewrite S5 by lia. cbn [bind]. rewrite S6 by lia. done. }
    assert (Hnext : ag_inv (if b then old else old1) (if b then ch1 else ch2) new1).
    { assert (E1 : agenda_loop wt negligible is_one al cv sort test close N 1 P old change new =
         Ok (if b then old else old1, if b then ch1 else ch2, new1)).
      { cbn [agenda_loop]. rewrite Ec, Ep. cbn [bind whead]. unfold user_lookup.
        rewrite S1 by lia. cbn [bind]. rewrite S2 by lia. cbn [bind]. rewrite S3 by lia. cbn [bind]. rewrite S4 by lia. cbn [bind].
        destruct b; [done|]. rewrite S5 by lia. cbn [bind]. rewrite S6 by lia. done. }
      by apply (agenda_loop_ok N 1 old change new). }
    destruct (IH _ _ _ Hnext) as [o [n7 S7]]. exists o, (max N n7). intros n Hn'.
    rewrite Hstep by lia.
    destruct b; apply S7; lia.
  Qed.
  Lemma agenda_start n change : step wt negligible is_one al cv test n P (p_new [] 0) = Ok change -> ag_inv (p_new [] 0) change (p_new [] 0).
  Proof.
    intros E. destruct (step_ok n P _ change HP chart_ok_empty E) as [Hd Vd].
    split; [apply chart_ok_empty|]. split; [done|]. split; [apply chart_ok_empty|]. split; [done|].
    intros x. rewrite Vd. simpl. by rewrite cval_nil, sadd_0_l.
  Qed.
  End agenda.
End charts.
