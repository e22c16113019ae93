(** Proofs about [newton]. *)
From Coq Require Import List Permutation Ring.
From stdpp Require Import gmap.
From Coq Require Import Lia.
From Verif Require Import PyBase Semiring TermModel TermSpec SetsModel SetsProofs PruneModel UpdateModel UpdateSpec UpdateProofs UnifyProofs TermProofs
  EvalModel EvalSpec EvalProofs KleeneModel KleeneSpec KleeneProofs NewtonModel NewtonSpec LinsolveProofs.
Import ListNotations.

Section newton.
  Context {R : semiring} (wt : const -> R) (negligible is_one : R -> bool) (al cv : nat -> nat) (sort : list term -> list term).
  Context (test : term -> option bool).
  Context (Hal : forall i j, al i = al j -> i = j) (Hcv : forall i j, cv i = cv j -> i = j).
  Context (Hneg : forall C, negligible C = true -> C = szero) (Hone : forall C, is_one C = true -> C = sone).
  Context (Hsort : forall l, Permutation (sort l) l).
  Context (Hcomm : forall x y : R, smul x y = smul y x).
  Notation fv := (factor_val wt test).
  Notation cval := (chart_val wt).
  Notation vprod y := (prodl (constants wt y)).
  Notation pv I y := (prodl (map (fv I) y)).
  Notation F P := (rhs wt test P).

  Lemma sr_theory : semi_ring_theory (@szero R) (@sone R) sadd smul eq.
  Proof using Hcomm.
    split; intros; auto using sadd_0_l, sadd_comm, sadd_assoc, smul_1_l, smul_0_l, smul_assoc, smul_add_l.
  Qed.
  Add Ring sr_ring : sr_theory.

  (** ** Updating a program whose rules have one subgoal at most *)
  Definition good_item (b : term) : Prop := ground b /\ (forall k, b <> Cst k) /\ test b = None.
  Definition lbody (y : list (factor R)) : Prop :=
    (exists v, y = [Val v]) \/ exists b, good_item b /\ (y = [Goal b] \/ exists v, y = [Val v; Goal b]).
  Definition lrule (r : wrule R) : Prop := head_ok test (whead r) /\ lbody (wbody r).
  Record lin_ok (q : pstate R) : Prop := {
    l_rules : forall r, r ∈ p_rules q -> lrule r;
    l_bk : forall bk, p_buckets q = Some bk -> forall h i, bk !! h = Some i -> exists v, p_rules q !! i = Some (WRule h [Val v]);
    l_none : p_buckets q = None -> p_rules q = [];
    l_ix : p_f2r q = None }.
  Lemma lin_ok_empty : lin_ok (p_new [] 0).
  Proof. split; simpl; [|done..]. intros r Hr. by apply elem_of_nil in Hr. Qed.

  (** what the new bodies look like *)
  Definition nbody (y : list (factor R)) : Prop := gpart wt y = [] \/ exists b, good_item b /\ gpart wt y = [Goal b].
  Lemma const_of_fv I f v : const_of wt f = Some v -> fv I f = v.
  Proof. destruct f as [w|[w|k|ts]]; simpl; congruence. Qed.
  Lemma pv_split I y : pv I y = smul (cpart wt y) (pv I (gpart wt y)).
  Proof using Hcomm.
    induction y as [|f y IH]; [simpl; ring|]. cbn [map cpart gpart]. change (prodl (fv I f :: map (fv I) y)) with (smul (fv I f) (pv I y)). rewrite IH.
    destruct (const_of wt f) as [v|] eqn:E.
    - rewrite (const_of_fv I f v E). ring.
    - cbn [map]. change (prodl (fv I f :: map (fv I) (gpart wt y))) with (smul (fv I f) (pv I (gpart wt y))). ring.
  Qed.
  Lemma gpart_app y z : gpart wt (y ++ z) = gpart wt y ++ gpart wt z.
  Proof. induction y as [|f y IH]; [done|]. simpl. destruct (const_of wt f); [done|]. simpl. by rewrite IH. Qed.

  Lemma rhs_app a b I x : F (a ++ b) I x = sadd (F a I x) (F b I x).
  Proof. unfold rhs. by rewrite list.filter_app, suml_app. Qed.
  Lemma rhs_nil I x : F [] I x = szero.
  Proof. done. Qed.
  Lemma rhs_one h y I x : F [WRule h y] I x = if decide (h = x) then pv I y else szero.
  Proof. unfold rhs. rewrite suml_filter_dec, suml_cons, suml_nil, sadd_0_r. done. Qed.
  Lemma rhs_cons r a I x : F (r :: a) I x = sadd (if decide (whead r = x) then pv I (wbody r) else szero) (F a I x).
  Proof. unfold rhs. by rewrite !suml_filter_dec, suml_cons. Qed.
  Lemma rhs_insert rs i h v y I x : rs !! i = Some (WRule h [Val v]) ->
    F (<[i := WRule h [Val (sadd v y)]]> rs) I x = sadd (F rs I x) (if decide (h = x) then y else szero).
  Proof using Hcomm.
    revert i. induction rs as [|r rs IH]; intros [|i]; simpl; intros E; try done.
    - injection E as ->. rewrite !rhs_cons. simpl. case_decide; ring.
    - rewrite !rhs_cons, IH by done. ring.
  Qed.

  Lemma folding_lin n h y o : nbody y -> constant_folding_rhs wt negligible is_one n ∅ (WRule h y) = Ok o ->
    match o with
    | None => forall I, pv I y = szero
    | Some r => whead r = h /\ lbody (wbody r) /\ forall I, pv I (wbody r) = pv I y
    end.
  Proof using Hcomm Hneg Hone.
    intros Hy. unfold constant_folding_rhs. cbn [wbody whead].
    destruct (split_body wt n ∅ y sone []) as [[C xs]| |] eqn:Es; [|discriminate..]. cbn [bind].
    apply (split_body_ok wt ∅ Var acyclic_empty resolution_empty) in Es as [EC Ex].
    rewrite smul_1_l in EC. rewrite (fsub_Var y) in EC. rewrite (fsub_Var y), (fsub_Var xs) in Ex. simpl in Ex. subst xs C.
    destruct (negligible _) eqn:En.
    { intros [= <-] I. rewrite pv_split, (Hneg _ En). ring. }
    destruct Hy as [E|(b & Hb & E)]; rewrite E.
    - rewrite andb_false_r. intros [= <-]. split; [done|]. split; [left; simpl; eauto|]. intros I. rewrite (pv_split I y), E. simpl. ring.
    - destruct (is_one _) eqn:E1; cbn [andb negb].
      + intros [= <-]. split; [done|]. split; [right; exists b; eauto|]. intros I. rewrite (pv_split I y), E, (Hone _ E1). simpl. ring.
      + intros [= <-]. split; [done|]. split; [right; exists b; simpl; eauto|]. intros I. rewrite (pv_split I y), E. simpl. ring.
  Qed.
  Lemma fresh_same n c (r r' : wrule R) c' : lrule r -> fresh_rule al n ∅ c r = Ok (r', c') -> r' = r.
  Proof using Hal.
    intros [[Hh _] Hb] E. apply (fresh_rule_ok al Hal ∅ Var acyclic_empty resolution_empty) in E as (ρ & -> & _).
    unfold rrename, rsub. destruct r as [h y]. cbn [whead wbody] in *. rewrite sub_Var, (fsub_Var y). f_equal; [by apply sub_ground|].
    destruct Hb as [[v ->]|(b & (Hb & _) & [->|[v ->]])]; [done|..]; simpl; by rewrite (sub_ground _ b Hb).
  Qed.

  Lemma update_bucket_lin n r P bk : lrule r -> p_buckets P = Some bk -> lin_ok P ->
    forall P' o, update_bucket wt al cv n ∅ r P = Ok (P', o) ->
    (o = None /\ P' = P) \/
    (exists i, o = Some i) /\ lin_ok P' /\ forall I x, F (p_rules P') I x = sadd (F (p_rules P) I x) (if decide (whead r = x) then pv I (wbody r) else szero).
  Proof using Hal Hcv Hcomm.
    intros Hr Hbk HP P' o. unfold update_bucket.
    destruct (get_const_rhs wt n ∅ r) as [[C|]| |] eqn:Eg; [|cbn [bind]; intros [= <- <-]; by left|discriminate..]. cbn [bind].
    assert (Eb : wbody r = [Val C]).
    { unfold get_const_rhs in Eg. destruct Hr as [_ [[v Ev]|(b & (_ & Hk & _) & [Ev|[v Ev]])]]; rewrite Ev in Eg |- *.
      - simpl in Eg. by injection Eg as ->.
      - apply (factor_const_ok wt ∅ Var acyclic_empty resolution_empty) in Eg. rewrite fsub_Var1 in Eg. destruct b as [w|k|ts]; simpl in Eg; [done| |done]. by destruct (Hk k).
      - done. }
    destruct (canonicalize cv n ∅ (whead r)) as [k| |] eqn:Ek; [|discriminate..]. cbn [bind].
    assert (k = whead r) as -> by (by eapply (canon_head cv Hcv); [apply Hr|]). rewrite Hbk.
    destruct (bk !! whead r) as [i|] eqn:Ei.
    - destruct (l_bk P HP bk Hbk _ _ Ei) as [v Hv]. unfold merge_at. rewrite Hv. cbn [wbody whead factor_const bind].
      intros [= <- <-]. right. split; [eauto|]. split; [split; simpl|].
      + intros s Hs. apply elem_of_list_lookup in Hs as [j Hj]. apply list_lookup_insert_Some in Hj as [(-> & <- & _)|[_ Hj]].
        * split; [apply Hr|]. left. simpl. eauto.
        * apply HP. by eapply elem_of_list_lookup_2.
      + intros bk' Hb h j Hj. rewrite Hbk in Hb. injection Hb as <-. destruct (decide (j = i)) as [->|Hn].
        * destruct (l_bk P HP bk Hbk h i Hj) as [v' Hv']. rewrite Hv in Hv'. injection Hv' as <- <-. eexists. apply list_lookup_insert. by eapply lookup_lt_Some.
        * rewrite list_lookup_insert_ne by done. by apply (l_bk P HP bk Hbk).
      + rewrite Hbk. done.
      + apply HP.
      + intros I x. cbn [p_rules]. rewrite (rhs_insert (p_rules P) i (whead r) v C I x Hv). rewrite Eb. simpl. rewrite smul_1_r. done.
    - destruct (fresh_rule al n ∅ (p_c P) r) as [[r' c']| |] eqn:Ef; [|discriminate..]. cbn [bind].
      apply fresh_same in Ef; [|done]. subst r'. unfold add_rule. cbn [p_f2r p_rules p_buckets p_c]. rewrite (l_ix P HP). cbn [bind p_rules p_f2r p_c].
      intros [= <- <-]. right. split; [eauto|]. split; [split; simpl|].
      + intros s Hs. apply elem_of_app in Hs as [Hs|Hs]; [by apply HP|]. by apply elem_of_list_singleton in Hs as ->.
      + intros bk' [= <-] h j. destruct (decide (h = whead r)) as [->|Hn].
        * rewrite lookup_insert. intros [= <-]. exists C. rewrite lookup_app_r, Nat.sub_diag by lia. destruct r as [h b]. simpl in *. by subst b.
        * rewrite lookup_insert_ne by done. intros Hj. destruct (l_bk P HP bk Hbk h j Hj) as [v Hv]. exists v. by apply lookup_app_l_Some.
      + done.
      + done.
      + intros I x. cbn [p_rules]. rewrite rhs_app. destruct r as [h b]. by rewrite rhs_one.
  Qed.

  Lemma update_lin n h y P P' : lin_ok P -> head_ok test h -> nbody y ->
    update wt negligible is_one al cv n ∅ (WRule h y) P = Ok P' ->
    lin_ok P' /\ forall I x, F (p_rules P') I x = sadd (F (p_rules P) I x) (if decide (h = x) then pv I y else szero).
  Proof using Hal Hcv Hcomm Hneg Hone.
    intros HP Hh Hy. unfold update.
    destruct (constant_folding_rhs wt negligible is_one n ∅ (WRule h y)) as [o| |] eqn:Eo; [|discriminate..]. cbn [bind].
    pose proof (folding_lin n h y o Hy Eo) as Ho. destruct o as [r|].
    2:{ intros [= <-]. split; [done|]. intros I x. rewrite Ho. case_decide; ring. }
    destruct Ho as (Hrh & Hrb & Hrv).
    destruct (match p_buckets P with Some _ => Ok P | None => _ end) as [P1| |] eqn:E1; [|discriminate..]. cbn [bind].
    assert (H1 : lin_ok P1 /\ p_rules P1 = p_rules P /\ exists bk, p_buckets P1 = Some bk).
    { destruct (p_buckets P) as [bk|] eqn:Ebk; [injection E1 as <-; eauto|]. rewrite (l_none P HP Ebk) in E1. cbn [make_buckets bind] in E1. injection E1 as <-.
      simpl. split; [|rewrite (l_none P HP Ebk); eauto]. split; simpl; [intros s Hs; by apply elem_of_nil in Hs|intros bk [= <-] k i; by rewrite lookup_empty|done|apply HP]. }
    destruct H1 as (HP1 & Hrs & bk & Hbk). clear E1.
    assert (Hr : lrule r) by (split; [by rewrite Hrh|done]).
    destruct (update_bucket wt al cv n ∅ r P1) as [[P2 o]| |] eqn:E2; [|discriminate..]. cbn [bind].
    destruct (update_bucket_lin n r P1 bk Hr Hbk HP1 P2 o E2) as [[-> ->]|([i ->] & HP2 & V2)].
    2:{ intros [= <-]. split; [done|]. intros I x. rewrite V2, Hrs, Hrh, Hrv. done. }
    destruct (fresh_rule al n ∅ (p_c P1) r) as [[r' c']| |] eqn:Ef; [|discriminate..]. cbn [bind].
    apply fresh_same in Ef; [|done]. subst r'. unfold add_rule. cbn [p_f2r p_rules p_buckets p_c]. rewrite (l_ix P1 HP1). cbn [bind p_rules p_f2r p_c].
    intros [= <-]. split; [split; simpl|].
    - intros s Hs. apply elem_of_app in Hs as [Hs|Hs]; [by apply HP1|]. by apply elem_of_list_singleton in Hs as ->.
    - intros bk' Hb k j Hj. destruct (l_bk P1 HP1 bk' Hb k j Hj) as [v Hv]. exists v. by apply lookup_app_l_Some.
    - intros Hb. rewrite Hbk in Hb. done.
    - done.
    - intros I x. cbn [p_rules]. rewrite rhs_app, Hrs. rewrite <- (Hrv I). subst h. destruct r as [h b]. by rewrite rhs_one.
  Qed.

  Lemma update_lin_settles h y P : lin_ok P -> head_ok test h -> nbody y ->
    exists P', settles (fun n => update wt negligible is_one al cv n ∅ (WRule h y) P) P'.
  Proof using Hal Hcv Hcomm Hneg Hone.
    intros HP Hh Hy. unfold update.
    destruct (constant_folding_rhs_settles wt negligible is_one ∅ Var acyclic_empty resolution_empty (WRule h y)) as [o [n0 Ho]].
    pose proof (folding_lin n0 h y o Hy (Ho n0 (le_n _))) as Ho'. destruct o as [r|].
    2:{ exists P, n0. intros n Hn. by rewrite Ho. }
    destruct Ho' as (Hrh & Hrb & Hrv).
    assert (H1 : exists P1, settles (fun n => match p_buckets P with
                 | Some _ => Ok P
                 | None => let* bk := make_buckets wt cv n ∅ 0 (p_rules P) ∅ in Ok (PState (p_rules P) (Some bk) (p_f2r P) (p_c P))
                 end) P1 /\ lin_ok P1 /\ p_rules P1 = p_rules P /\ exists bk, p_buckets P1 = Some bk).
    { destruct (p_buckets P) as [bk|] eqn:Ebk; [exists P; split; [apply settles_ret|eauto]|]. rewrite (l_none P HP Ebk). cbn [make_buckets bind].
      eexists. split; [apply settles_ret|]. simpl. split; [|eauto].
      split; simpl; [intros s Hs; by apply elem_of_nil in Hs|intros bk [= <-] k i; by rewrite lookup_empty|done|apply HP]. }
    destruct H1 as (P1 & [n1 S1] & HP1 & Hrs & bk & Hbk).
    assert (Hr : lrule r) by (split; [by rewrite Hrh|done]).
    destruct (get_const_rhs_settles wt ∅ Var acyclic_empty resolution_empty r) as [g [n2 S2]].
    destruct (canonicalize_settles ∅ Var acyclic_empty resolution_empty cv (whead r)) as [n3 S3]. rewrite sub_Var in S3.
    rewrite (ground_canonical cv (whead r) Hcv) in S3 by apply Hr.
    destruct (fresh_rule_settles al Hal ∅ Var acyclic_empty resolution_empty (p_c P1) r) as (r' & c' & [n4 S4]).
    destruct g as [C|].
    - destruct (bk !! whead r) as [i|] eqn:Ei.
      + destruct (l_bk P1 HP1 bk Hbk _ _ Ei) as [v Hv]. eexists. exists (max n0 (max n1 (max n2 (max n3 n4)))). intros n Hn.
        rewrite Ho by lia. cbn [bind]. rewrite S1 by lia. cbn [bind]. unfold update_bucket. rewrite S2 by lia. cbn [bind]. rewrite S3 by lia. cbn [bind].
        rewrite Hbk, Ei. unfold merge_at. rewrite Hv. cbn [wbody whead factor_const bind]. reflexivity.
      + eexists. exists (max n0 (max n1 (max n2 (max n3 n4)))). intros n Hn.
        rewrite Ho by lia. cbn [bind]. rewrite S1 by lia. cbn [bind]. unfold update_bucket. rewrite S2 by lia. cbn [bind]. rewrite S3 by lia. cbn [bind].
        rewrite Hbk, Ei. rewrite S4 by lia. cbn [bind]. unfold add_rule. cbn [p_f2r p_rules p_buckets p_c]. rewrite (l_ix P1 HP1). cbn [bind p_rules p_f2r p_c]. reflexivity.
    - eexists. exists (max n0 (max n1 (max n2 (max n3 n4)))). intros n Hn.
      rewrite Ho by lia. cbn [bind]. rewrite S1 by lia. cbn [bind]. unfold update_bucket. rewrite S2 by lia. cbn [bind].
      rewrite S4 by lia. cbn [bind]. unfold add_rule. cbn [p_f2r p_rules p_buckets p_c]. rewrite (l_ix P1 HP1). cbn [bind p_rules p_f2r p_c]. reflexivity.
  Qed.

  Lemma set_item_lin n h ys q q' : lin_ok q -> head_ok test h -> (forall y, y ∈ ys -> nbody y) ->
    set_item wt negligible is_one al cv n h ys q = Ok q' ->
    lin_ok q' /\ forall I x, F (p_rules q') I x = sadd (F (p_rules q) I x) (if decide (h = x) then suml ys (fun y => pv I y) else szero).
  Proof using Hal Hcv Hcomm Hneg Hone.
    intros Hq Hh. revert q Hq. induction ys as [|y ys IH]; intros q Hq Hys; cbn [set_item].
    - intros [= <-]. split; [done|]. intros I x. rewrite suml_nil. case_decide; ring.
    - destruct (update wt negligible is_one al cv n ∅ (WRule h y) q) as [q1| |] eqn:E1; [|discriminate..]. cbn [bind].
      destruct (update_lin n h y q q1 Hq Hh (Hys y ltac:(by left)) E1) as [Hq1 V1]. intros E.
      destruct (IH q1 Hq1 (fun z Hz => Hys z (elem_of_list_further _ _ _ Hz)) E) as [Hq' V]. split; [done|].
      intros I x. rewrite V, V1, suml_cons. case_decide; ring.
  Qed.
  Lemma set_item_lin_settles h ys q : lin_ok q -> head_ok test h -> (forall y, y ∈ ys -> nbody y) ->
    exists q', settles (fun n => set_item wt negligible is_one al cv n h ys q) q'.
  Proof using Hal Hcv Hcomm Hneg Hone.
    intros Hq Hh. revert q Hq. induction ys as [|y ys IH]; intros q Hq Hys; cbn [set_item]; [eexists; apply settles_ret|].
    destruct (update_lin_settles h y q Hq Hh (Hys y ltac:(by left))) as [q1 S1].
    assert (Hq1 : lin_ok q1).
    { destruct S1 as [n0 S1]. destruct (update_lin n0 h y q q1 Hq Hh (Hys y ltac:(by left)) (S1 n0 (le_n _))) as [H _]. done. }
    destruct (IH q1 Hq1 (fun z Hz => Hys z (elem_of_list_further _ _ _ Hz))) as [q' S']. exists q'.
    eapply (settles_bind _ (fun n q => set_item wt negligible is_one al cv n h ys q)); done.
  Qed.

  (** ** Lookups with one subgoal left *)
  Lemma const_gpart y : all_const wt y <-> gpart wt y = [].
  Proof.
    induction y as [|f y IH]; [split; [done|]; intros _ f Hf; by apply elem_of_nil in Hf|]. cbn [gpart]. split.
    - intros H. pose proof (H f ltac:(by left)). destruct (const_of wt f); [|done]. apply IH. intros g Hg. apply H. by right.
    - destruct (const_of wt f) eqn:E; [|done]. intros H g Hg. apply elem_of_cons in Hg as [->|Hg]; [congruence|]. by apply IH.
  Qed.
  Lemma pv_const I y : all_const wt y -> pv I y = vprod y.
  Proof using Hcomm. intros Hy. rewrite pv_split. destruct (cpart_const wt y Hy) as [-> ->]. simpl. ring. Qed.
  Lemma join2_pv I a b : suml (join2 a b) (fun y => pv I y) = smul (suml a (fun y => pv I y)) (suml b (fun y => pv I y)).
  Proof.
    unfold join2. rewrite suml_flat_map, suml_mul_r. apply suml_ext. intros y _. rewrite suml_map, suml_mul_l.
    apply suml_ext. intros z _. by rewrite map_app, prodl_app.
  Qed.
  Lemma lookup_body_pv I ch fs : crules test ch -> suml (lookup_body test true ch fs) (fun y => pv I y) = pv (cval ch) fs.
  Proof using Hcomm.
    intros Hc. rewrite <- lookup_body_val. apply suml_ext. intros y Hy. apply pv_const. eapply (lookup_body_const wt test true ch fs Hc). by apply elem_of_list_In.
  Qed.
  Lemma lookup_vals_pv0 I ch f : crules test ch -> suml (lookup_vals test false ch f) (fun y => pv I y) = fv0 (cval ch) f.
  Proof using Hcomm.
    intros Hc. rewrite <- (lookup_vals_val0 wt test). apply suml_ext. intros y Hy. apply pv_const. eapply (lookup_vals_const wt test false ch f y Hc). by apply elem_of_list_In.
  Qed.
  Lemma join2_nbody a b : (forall y, y ∈ a -> nbody y) -> (forall y, y ∈ b -> all_const wt y) -> forall y, y ∈ join2 a b -> nbody y.
  Proof.
    intros Ha Hb y H. unfold join2 in H. apply elem_of_list_In, in_flat_map in H as (z & Hz & H). apply in_map_iff in H as (w & <- & Hw).
    unfold nbody. rewrite gpart_app. rewrite (proj1 (const_gpart w) (Hb w ltac:(by apply elem_of_list_In))), app_nil_r. apply Ha. by apply elem_of_list_In.
  Qed.
  Lemma join2_goal a f : (forall y, y ∈ a -> all_const wt y) -> nbody [f] -> forall y, y ∈ join2 a [[f]] -> nbody y.
  Proof.
    intros Ha Hf y H. unfold join2 in H. apply elem_of_list_In, in_flat_map in H as (z & Hz & H). apply in_map_iff in H as (w & <- & Hw).
    destruct Hw as [<-|[]]. unfold nbody. rewrite gpart_app. rewrite (proj1 (const_gpart z) (Ha z ltac:(by apply elem_of_list_In))). apply Hf.
  Qed.

  Definition nb (fs : list (factor R)) : Prop := forall b, b ∈ goals fs -> ground b /\ test b = None.
  Lemma nb_cons f fs : nb (f :: fs) -> nb fs.
  Proof. intros H b Hb. apply H. destruct f; [done|by right]. Qed.
  Lemma nb_head b fs : nb (Goal b :: fs) -> ground b /\ test b = None.
  Proof. intros H. apply H. by left. Qed.
  Lemma nb_lookup fs k f : nb fs -> fs !! k = Some f -> nb [f].
  Proof.
    intros H Hk b Hb. apply H. destruct f as [v|c]; [by apply elem_of_nil in Hb|]. apply elem_of_list_singleton in Hb as ->.
    unfold goals. apply elem_of_list_omap. exists (Goal c). split; [by eapply elem_of_list_lookup_2|done].
  Qed.
  Lemma subgoal_good f b : nb [f] -> subgoal f = Some b -> f = Goal b /\ good_item b.
  Proof.
    intros H. destruct f as [v|[w|k|ts]]; simpl; [done| |done|]; intros [= <-]; split; try done; destruct (nb_head _ _ H); split; try done; split; try done.
  Qed.
  Lemma subgoal_none I f : subgoal f = None -> fv0 (R := R) I f = szero.
  Proof. by destruct f as [v|[w|k|ts]]. Qed.
  Lemma nb_fv I f : nb [f] -> subgoal f <> None -> fv I f = fv0 I f.
  Proof. intros H. destruct f as [v|[w|k|ts]]; simpl; [done| |done|]; intros _; by rewrite (proj2 (nb_head _ _ H)). Qed.

  (** the terms of the expansion *)
  Definition hterm (w v d : term -> R) (fs : list (factor R)) (ij : nat * nat) : R :=
    match fs !! fst ij, fs !! snd ij with
    | Some fi, Some fj =>
        smul (smul (smul (smul (pv w (take (fst ij) fs)) (fv0 d fi)) (pv v (take (snd ij - S (fst ij)) (drop (S (fst ij)) fs)))) (fv0 d fj))
             (pv v (drop (S (snd ij)) fs))
    | _, _ => szero
    end.
  Definition hsum (w v d : term -> R) (fs : list (factor R)) : R := suml (pairs (length fs)) (hterm w v d fs).
  Notation dsum := (dsum wt test).
  Notation dterm := (dterm wt test).

  Lemma pairs_S K : pairs (S K) = map (fun j => (0, S j)) (seq 0 K) ++ map (fun ij => (S (fst ij), S (snd ij))) (pairs K).
  Proof.
    unfold pairs. cbn [seq flat_map]. f_equal.
    - replace (S K - 1) with K by lia. rewrite <- seq_shift, map_map. done.
    - rewrite <- seq_shift, flat_map_concat_map, map_map, (flat_map_concat_map _ (seq 0 K)), concat_map, map_map. f_equal. apply map_ext. intros i.
      replace (S K - S (S i)) with (K - S i) by lia. rewrite map_map. rewrite <- (seq_shift (K - S i) (S i)), map_map. done.
  Qed.
  Lemma hsum_cons w v d f fs : hsum w v d (f :: fs) = sadd (smul (fv0 d f) (dsum v v d fs)) (smul (fv w f) (hsum w v d fs)).
  Proof using Hcomm.
    unfold hsum. cbn [length]. rewrite pairs_S, suml_app, !suml_map. unfold EvalProofs.dsum. rewrite !suml_mul_l. f_equal.
    - apply suml_ext. intros j _. unfold hterm, EvalProofs.dterm. cbn [fst snd lookup list_lookup]. change ((f :: fs) !! 0) with (Some f). change ((f :: fs) !! S j) with (fs !! j).
      destruct (fs !! j) as [g|]; [|ring]. replace (S j - 1) with j by lia. simpl. rewrite drop_0. ring.
    - apply suml_ext. intros [i j] _. unfold hterm. cbn [fst snd]. change ((f :: fs) !! S i) with (fs !! i). change ((f :: fs) !! S j) with (fs !! j).
      destruct (fs !! i) as [g|]; [|ring]. destruct (fs !! j) as [g'|]; [|ring]. replace (S j - S (S i)) with (j - S i) by lia. simpl. ring.
  Qed.
  Lemma fv_add' w v d f : nb [f] -> (forall x, w x = sadd (v x) (d x)) -> fv w f = sadd (fv v f) (fv0 d f).
  Proof using Hcomm.
    intros H Hw. destruct f as [c|[x|k|ts]]; simpl; [ring| |ring|]; by rewrite (proj2 (nb_head _ _ H)).
  Qed.
  Lemma expand w v d fs : nb fs -> (forall x, w x = sadd (v x) (d x)) -> pv w fs = sadd (pv v fs) (sadd (dsum v v d fs) (hsum w v d fs)).
  Proof using Hcomm.
    intros Hn Hw. induction fs as [|f fs IH]; [unfold hsum, EvalProofs.dsum, pairs; simpl; rewrite !suml_nil; ring|].
    specialize (IH (nb_cons _ _ Hn)). rewrite dsum_cons, hsum_cons. cbn [map].
    change (prodl (fv w f :: map (fv w) fs)) with (smul (fv w f) (pv w fs)). change (prodl (fv v f :: map (fv v) fs)) with (smul (fv v f) (pv v fs)).
    rewrite IH. rewrite (fv_add' w v d f); [ring| |done]. intros b Hb. apply Hn. destruct f as [c|c]; [by apply elem_of_nil in Hb|].
    apply elem_of_list_singleton in Hb as ->. by left.
  Qed.

  (** derivatives at zero *)
  Notation Z := (fun _ : term => @szero R).
  Lemma pv_zero fs : nb fs -> subgoals fs <> [] -> pv Z fs = szero.
  Proof using Hcomm.
    induction fs as [|f fs IH]; [done|]. intros Hn. cbn [map]. change (prodl (fv Z f :: map (fv Z) fs)) with (smul (fv Z f) (pv Z fs)).
    unfold subgoals. cbn [omap list_omap]. destruct (subgoal f) as [b|] eqn:E.
    - intros _. rewrite (nb_fv Z f); [|by eapply (nb_lookup _ 0)|congruence]. destruct f as [c|[x|k|ts]]; simpl in *; try done; ring.
    - intros H. rewrite IH; [ring|by eapply nb_cons|done].
  Qed.
  Lemma no_subgoals I fs : subgoals fs = [] -> pv I fs = pv Z fs /\ dsum Z Z I fs = szero.
  Proof using Hcomm.
    induction fs as [|f fs IH]; [done|]. unfold subgoals. cbn [omap list_omap]. destruct (subgoal f) as [b|] eqn:E; [done|]. intros H. destruct (IH H) as [H1 H2].
    rewrite dsum_cons, H2. cbn [map]. change (prodl (fv I f :: map (fv I) fs)) with (smul (fv I f) (pv I fs)). change (prodl (fv Z f :: map (fv Z) fs)) with (smul (fv Z f) (pv Z fs)).
    rewrite H1, (subgoal_none I f E). split; [|ring]. f_equal. destruct f as [c|[x|k|ts]]; simpl in *; done.
  Qed.
  Lemma subgoals_cons f (fs : list (factor R)) : subgoals (f :: fs) = match subgoal f with Some b => b :: subgoals fs | None => subgoals fs end.
  Proof. reflexivity. Qed.
  Lemma derivative_zero I fs : nb fs ->
    sadd (pv Z fs) (dsum Z Z I fs) = if decide (length (subgoals fs) <= 1) then pv I fs else szero.
  Proof using Hcomm.
    induction fs as [|f fs IH]; intros Hn; [simpl; unfold EvalProofs.dsum; simpl; rewrite suml_nil; ring|].
    pose proof (nb_lookup (f :: fs) 0 f Hn eq_refl) as Hf. apply nb_cons in Hn. specialize (IH Hn).
    rewrite dsum_cons. cbn [map]. change (prodl (fv I f :: map (fv I) fs)) with (smul (fv I f) (pv I fs)). change (prodl (fv Z f :: map (fv Z) fs)) with (smul (fv Z f) (pv Z fs)).
    rewrite subgoals_cons. destruct (subgoal f) as [b|] eqn:E; cbn [length].
    - assert (EZ : fv Z f = szero) by (rewrite (nb_fv Z f Hf) by congruence; destruct f as [c|[x|k|ts]]; simpl in *; done).
      rewrite EZ, (nb_fv I f Hf) by congruence.
      destruct (subgoals fs) as [|b' bs] eqn:Es.
      + rewrite (proj1 (no_subgoals I fs Es)).
        idtac. simpl. ring.
      + rewrite decide_False by (cbn [length]; lia). rewrite (pv_zero fs Hn) by (rewrite Es; done). ring.
    - assert (EZ : fv Z f = fv I f) by (destruct f as [c|[x|k|ts]]; simpl in *; done). rewrite EZ, (subgoal_none I f E).
      transitivity (smul (fv I f) (sadd (pv Z fs) (dsum Z Z I fs))); [ring|]. rewrite IH. destruct (decide _); ring.
  Qed.

  (** ** The linearized program *)
  Lemma recursive_case_ok n next r ks q q' : crules test next -> head_ok test (whead r) -> nb (wbody r) -> lin_ok q ->
    recursive_case wt negligible is_one al cv test n next r ks q = Ok q' ->
    lin_ok q' /\ forall I x, F (p_rules q') I x =
      sadd (F (p_rules q) I x) (if decide (whead r = x) then suml ks (dterm (cval next) (cval next) I (wbody r)) else szero).
  Proof using Hal Hcv Hcomm Hneg Hone.
    intros Hc Hh Hn. revert q. induction ks as [|k ks IH]; intros q Hq; cbn [recursive_case].
    { intros [= <-]. split; [done|]. intros I x. rewrite suml_nil. case_decide; ring. }
    destruct (match wbody r !! k with None => _ | Some f => _ end) as [q1| |] eqn:E1; [|discriminate..]. cbn [bind]. intros E2.
    assert (H1 : lin_ok q1 /\ forall I x, F (p_rules q1) I x = sadd (F (p_rules q) I x) (if decide (whead r = x) then dterm (cval next) (cval next) I (wbody r) k else szero)).
    { destruct (wbody r !! k) as [f|] eqn:Ef; [|discriminate]. pose proof (nb_lookup _ _ _ Hn Ef) as Hf. destruct (subgoal f) as [b|] eqn:Es.
      - destruct (subgoal_good f b Hf Es) as [-> Hb].
        eapply (set_item_lin n (whead r) _ q q1 Hq Hh) in E1 as [Hq1 V1].
        2:{ apply join2_nbody; [apply join2_goal|by apply lookup_body_const].
          - by apply lookup_body_const.
          - right. exists b. split; [done|]. cbn [gpart const_of]. destruct b as [w|c|ts]; [done| |done]. destruct Hb as (_ & Hb & _). by destruct (Hb c). }
        split; [done|]. intros I x. rewrite V1. case_decide; [|done]. f_equal. rewrite !join2_pv, !lookup_body_pv by done.
        rewrite suml_cons, suml_nil. unfold EvalProofs.dterm. rewrite Ef. rewrite <- (nb_fv I (Goal b) Hf) by congruence. cbn [map].
        change (prodl [fv I (Goal b)]) with (smul (fv I (Goal b)) sone). ring.
      - injection E1 as <-. split; [done|]. intros I x. unfold EvalProofs.dterm. rewrite Ef, (subgoal_none I f Es). case_decide; ring. }
    destruct H1 as [Hq1 V1]. destruct (IH q1 Hq1 E2) as [Hq' V']. split; [done|]. intros I x. rewrite V', V1, suml_cons. case_decide; ring.
  Qed.
  Lemma base_case_ok n next change chart r ps q q' : crules test next -> crules test change -> crules test chart -> head_ok test (whead r) -> nb (wbody r) -> lin_ok q ->
    base_case wt negligible is_one al cv test n next change chart r ps q = Ok q' ->
    lin_ok q' /\ forall I x, F (p_rules q') I x =
      sadd (F (p_rules q) I x) (if decide (whead r = x) then suml ps (hterm (cval next) (cval chart) (cval change) (wbody r)) else szero).
  Proof using Hal Hcv Hcomm Hneg Hone.
    intros Hc Hd Hv Hh Hn. revert q. induction ps as [|[i j] ps IH]; intros q Hq; cbn [base_case].
    { intros [= <-]. split; [done|]. intros I x. rewrite suml_nil. case_decide; ring. }
    destruct (match wbody r !! i with None => _ | Some f => _ end) as [q1| |] eqn:E1; [|discriminate..]. cbn [bind]. intros E2.
    assert (H1 : lin_ok q1 /\ forall I x, F (p_rules q1) I x = sadd (F (p_rules q) I x) (if decide (whead r = x) then hterm (cval next) (cval chart) (cval change) (wbody r) (i, j) else szero)).
    { destruct (wbody r !! i) as [fi|] eqn:Ei; [|discriminate]. destruct (wbody r !! j) as [fj|] eqn:Ej; [|discriminate].
      unfold hterm. cbn [fst snd]. rewrite Ei, Ej.
      destruct (subgoal fi) as [bi|] eqn:Esi; [destruct (subgoal fj) as [bj|] eqn:Esj|].
      - eapply (set_item_lin n (whead r) _ q q1 Hq Hh) in E1 as [Hq1 V1].
        2:{ intros y Hy. left. apply const_gpart. revert Hy. apply join2_const; [intros z; apply join2_const; [intros z'; apply join2_const; [intros z''; apply join2_const|]|]|].
          all: try (by apply lookup_body_const). all: intros u Hu; by eapply lookup_vals_const, Hu. }
        split; [done|]. intros I x. rewrite V1. case_decide; [|done]. f_equal. by rewrite !join2_pv, !lookup_body_pv, !lookup_vals_pv0 by done.
      - injection E1 as <-. split; [done|]. intros I x. rewrite (subgoal_none _ fj Esj). case_decide; ring.
      - injection E1 as <-. split; [done|]. intros I x. rewrite (subgoal_none _ fi Esi). case_decide; ring. }
    destruct H1 as [Hq1 V1]. destruct (IH q1 Hq1 E2) as [Hq' V']. split; [done|]. intros I x. rewrite V', V1, suml_cons. case_decide; ring.
  Qed.
  Definition DF (P : list (wrule R)) (v I : term -> R) (x : term) : R := contrib P (fun r => dsum v v I (wbody r)) x.
  Definition HF (P : list (wrule R)) (w v d : term -> R) (x : term) : R := contrib P (fun r => hsum w v d (wbody r)) x.
  Definition nbs (P : list (wrule R)) : Prop := forall r, r ∈ P -> head_ok test (whead r) /\ nb (wbody r).
  Lemma nbs_cons r P : nbs (r :: P) -> nbs P.
  Proof. intros H s Hs. apply H. by right. Qed.
  Lemma linearized_ok n next change chart P q q' : crules test next -> crules test change -> crules test chart -> nbs P -> lin_ok q ->
    linearized wt negligible is_one al cv test n next change chart P q = Ok q' ->
    lin_ok q' /\ forall I x, F (p_rules q') I x =
      sadd (F (p_rules q) I x) (sadd (DF P (cval next) I x) (HF P (cval next) (cval chart) (cval change) x)).
  Proof using Hal Hcv Hcomm Hneg Hone.
    intros Hc Hd Hv. revert q. induction P as [|r P IH]; intros q HP Hq; cbn [linearized].
    { intros [= <-]. split; [done|]. intros I x. unfold DF, HF, contrib. rewrite !suml_nil. ring. }
    destruct (HP r ltac:(by left)) as [Hh Hn].
    destruct (recursive_case wt negligible is_one al cv test n next r _ q) as [q1| |] eqn:E1; [|discriminate..]. cbn [bind].
    destruct (recursive_case_ok n next r _ q q1 Hc Hh Hn Hq E1) as [Hq1 V1].
    destruct (base_case wt negligible is_one al cv test n next change chart r _ q1) as [q2| |] eqn:E2; [|discriminate..]. cbn [bind].
    destruct (base_case_ok n next change chart r _ q1 q2 Hc Hd Hv Hh Hn Hq1 E2) as [Hq2 V2].
    intros E3. destruct (IH q2 (nbs_cons _ _ HP) Hq2 E3) as [Hq' V']. split; [done|]. intros I x. rewrite V', V2, V1.
    unfold DF, HF, contrib. rewrite !suml_cons. unfold hsum, EvalProofs.dsum. case_decide; ring.
  Qed.

  Lemma expand_rhs P w v d x : nbs P -> (forall x, w x = sadd (v x) (d x)) -> F P w x = sadd (F P v x) (sadd (DF P v d x) (HF P w v d x)).
  Proof using Hcomm.
    intros HP Hw. induction P as [|r P IH]; [unfold DF, HF, contrib; rewrite !rhs_nil, !suml_nil; ring|].
    rewrite !rhs_cons, IH by (by eapply nbs_cons). unfold DF, HF, contrib. rewrite !suml_cons. case_decide; [|ring].
    rewrite (expand w v d (wbody r)); [ring|by apply HP; left|done].
  Qed.
  Lemma linear_rules_rhs P I x : nbs P -> F (linear_rules P) I x = sadd (F P Z x) (DF P Z I x).
  Proof using Hcomm.
    intros HP. induction P as [|r P IH]; [unfold DF, contrib, linear_rules; rewrite filter_nil, !rhs_nil, !suml_nil; ring|].
    unfold linear_rules. rewrite filter_cons. fold (linear_rules P). rewrite (rhs_cons r P Z). unfold DF, contrib. rewrite suml_cons.
    pose proof (derivative_zero I (wbody r) ltac:(apply HP; by left)) as Hd.
    specialize (IH (nbs_cons _ _ HP)). unfold DF, contrib in IH.
    destruct (decide (length (subgoals (wbody r)) <= 1)) as [Hl|Hl].
    - rewrite rhs_cons, IH. case_decide; [rewrite <- Hd; ring|ring].
    - rewrite IH. case_decide; [|ring].
      transitivity (sadd (sadd (pv Z (wbody r)) (dsum Z Z I (wbody r))) (sadd (F P Z x) (suml P (fun r => if decide (whead r = x) then dsum Z Z I (wbody r) else szero)))); [rewrite Hd; ring|ring].
  Qed.

  (** returning *)
  Lemma recursive_case_settles next r ks q : crules test next -> head_ok test (whead r) -> nb (wbody r) -> lin_ok q ->
    (forall k, k ∈ ks -> k < length (wbody r)) ->
    exists q', settles (fun n => recursive_case wt negligible is_one al cv test n next r ks q) q'.
  Proof using Hal Hcv Hcomm Hneg Hone.
    intros Hc Hh Hn. revert q. induction ks as [|k ks IH]; intros q Hq Hk; cbn [recursive_case]; [eexists; apply settles_ret|].
    assert (H1 : exists q1, settles (fun n => match wbody r !! k with
                 | None => Raise IndexError
                 | Some f => match subgoal f with None => Ok q | Some _ => set_item wt negligible is_one al cv n (whead r)
                                   (join2 (join2 (lookup_body test true next (take k (wbody r))) [[f]]) (lookup_body test true next (drop (S k) (wbody r)))) q end
                 end) q1).
    { destruct (lookup_lt_is_Some_2 (wbody r) k) as [f Ef]; [apply Hk; by left|]. rewrite Ef. pose proof (nb_lookup _ _ _ Hn Ef) as Hf. destruct (subgoal f) as [b|] eqn:Es; [|eexists; apply settles_ret].
      destruct (subgoal_good f b Hf Es) as [-> Hb]. apply set_item_lin_settles; [done|done|].
      apply join2_nbody; [apply join2_goal|by apply lookup_body_const]; [by apply lookup_body_const|].
      right. exists b. split; [done|]. cbn [gpart const_of]. destruct b as [w|c|ts]; [done| |done]. destruct Hb as (_ & Hb & _). by destruct (Hb c). }
    destruct H1 as [q1 S1].
    assert (Hq1 : lin_ok q1).
    { destruct S1 as [n0 S1]. destruct (recursive_case_ok n0 next r [k] q q1 Hc Hh Hn Hq) as [H _]; [|done]. cbn [recursive_case]. rewrite S1 by lia. done. }
    destruct (IH q1 Hq1) as [q' S']; [intros k' Hk'; apply Hk; by right|]. exists q'. eapply (settles_bind _ (fun n q => recursive_case wt negligible is_one al cv test n next r ks q)); done.
  Qed.
  Lemma base_case_settles next change chart r ps q : crules test next -> crules test change -> crules test chart -> head_ok test (whead r) -> nb (wbody r) -> lin_ok q ->
    (forall ij, ij ∈ ps -> fst ij < length (wbody r) /\ snd ij < length (wbody r)) ->
    exists q', settles (fun n => base_case wt negligible is_one al cv test n next change chart r ps q) q'.
  Proof using Hal Hcv Hcomm Hneg Hone.
    intros Hc Hd Hv Hh Hn. revert q. induction ps as [|[i j] ps IH]; intros q Hq Hk; cbn [base_case]; [eexists; apply settles_ret|].
    destruct (Hk (i, j) ltac:(by left)) as [Li Lj]. cbn [fst snd] in Li, Lj.
    assert (H1 : exists q1, settles (fun n => base_case wt negligible is_one al cv test n next change chart r [(i, j)] q) q1 ).
    { cbn [base_case]. destruct (lookup_lt_is_Some_2 (wbody r) i Li) as [fi Ei]. destruct (lookup_lt_is_Some_2 (wbody r) j Lj) as [fj Ej]. rewrite Ei, Ej.
      destruct (subgoal fi) as [bi|]; [|eexists; apply settles_ret]. destruct (subgoal fj) as [bj|]; [|eexists; apply settles_ret].
      edestruct set_item_lin_settles as [q1 [n0 S1]]; [exact Hq|exact Hh| |exists q1, n0; intros n Hn'; rewrite S1 by lia; reflexivity].
      intros y Hy. left. apply const_gpart. revert Hy. apply join2_const; [intros z; apply join2_const; [intros z'; apply join2_const; [intros z''; apply join2_const|]|]|].
      all: try (by apply lookup_body_const). all: intros u Hu; by eapply lookup_vals_const, Hu. }
    destruct H1 as [q1 [n0 S1]].
    assert (Hq1 : lin_ok q1).
    { destruct (base_case_ok n0 next change chart r [(i, j)] q q1 Hc Hd Hv Hh Hn Hq (S1 n0 (le_n _))) as [H _]. done. }
    destruct (IH q1 Hq1) as [q' [n1 S']]; [intros k' Hk'; apply Hk; by right|]. exists q', (max n0 n1). intros n Hn'.
    specialize (S1 n ltac:(lia)). cbn [base_case] in S1.
    destruct (match wbody r !! i with None => _ | Some f => _ end) as [q2| |]; [|discriminate S1..]. cbn [bind] in *. injection S1 as ->. apply S'. lia.
  Qed.
  Lemma pairs_lt K ij : ij ∈ pairs K -> fst ij < K /\ snd ij < K.
  Proof.
    intros H. apply elem_of_list_In, in_flat_map in H as (i & Hi & H). apply in_map_iff in H as (j & <- & Hj). apply in_seq in Hi, Hj. simpl. lia.
  Qed.
  Lemma linearized_settles next change chart P q : crules test next -> crules test change -> crules test chart -> nbs P -> lin_ok q ->
    exists q', settles (fun n => linearized wt negligible is_one al cv test n next change chart P q) q'.
  Proof using Hal Hcv Hcomm Hneg Hone.
    intros Hc Hd Hv. revert q. induction P as [|r P IH]; intros q HP Hq; cbn [linearized]; [eexists; apply settles_ret|].
    destruct (HP r ltac:(by left)) as [Hh Hn].
    destruct (recursive_case_settles next r (seq 0 (length (wbody r))) q Hc Hh Hn Hq) as [q1 S1]; [intros k Hk; apply elem_of_seq in Hk; lia|].
    assert (Hq1 : lin_ok q1) by (destruct S1 as [n0 S1]; by eapply (recursive_case_ok n0 next r _ q q1 Hc Hh Hn Hq), S1).
    destruct (base_case_settles next change chart r (pairs (length (wbody r))) q1 Hc Hd Hv Hh Hn Hq1) as [q2 S2]; [apply pairs_lt|].
    assert (Hq2 : lin_ok q2) by (destruct S2 as [n0 S2]; by eapply (base_case_ok n0 next change chart r _ q1 q2 Hc Hd Hv Hh Hn Hq1), S2).
    destruct (IH q2 (nbs_cons _ _ HP) Hq2) as [q' S']. destruct S1 as [n1 S1], S2 as [n2 S2], S' as [n3 S3].
    exists q', (max n1 (max n2 n3)). intros n Hn'. rewrite S1 by lia. cbn [bind]. rewrite S2 by lia. cbn [bind]. apply S3. lia.
  Qed.

  (** ** The loop *)
  Context (same : list (wrule R) -> list (wrule R) -> bool).
  Context (Hsame : forall a b, const_chart test a -> const_chart test b -> same a b = true -> forall x, cval a x = cval b x).
  Context (star : R -> R) (Hstar : star_unfold star).
  Notation solve := (solve_linear wt al cv sort test star).
  Notation cfold n := (constant_folding wt negligible is_one cv sort n ∅).

  Lemma const_chart_crules (ch : list (wrule R)) : const_chart test ch <-> crules test ch.
  Proof.
    split; intros H r Hr.
    - destruct (H r Hr) as (H1 & H2 & H3 & H4). done.
    - destruct (H r Hr) as [(H1 & H2 & H3) H4]. done.
  Qed.
  Lemma lrules_program q : lin_ok q ->
    ground_program test (p_rules q) /\ no_builtins test (p_rules q) /\ forall r, r ∈ p_rules q -> length (subgoals (wbody r)) <= 1.
  Proof.
    intros Hq.
    assert (Hg : forall r b, r ∈ p_rules q -> b ∈ goals (wbody r) -> ground b /\ test b = None).
    { intros r b Hr Hb. destruct (l_rules q Hq r Hr) as [_ [[v E]|(c & (H1 & _ & H2) & [E|[v E]])]]; rewrite E in Hb; [by apply elem_of_nil in Hb|..];
        apply elem_of_list_singleton in Hb as ->; done. }
    split; [|split].
    - intros r Hr. destruct (l_rules q Hq r Hr) as [(H1 & H2 & H3) _]. split; [done|]. split; [done|]. split; [done|]. intros b Hb. by eapply Hg.
    - intros r b Hr Hb. by eapply Hg.
    - intros r Hr. destruct (l_rules q Hq r Hr) as [_ [[v E]|(c & _ & [E|[v E]])]]; rewrite E; destruct c || idtac; simpl; lia.
  Qed.
  Lemma DF_ext P v v' I x : (forall y, v y = v' y) -> DF P v I x = DF P v' I x.
  Proof. intros H. unfold DF, contrib. apply suml_ext. intros r _. case_decide; [|done]. by apply dsum_ext. Qed.

  Section program.
  Context (P : list (wrule R)) (HP : ground_program test P) (HnB : no_builtins test P).

  Lemma program_nbs : nbs P.
  Proof using HP HnB.
    intros r Hr. destruct (HP r Hr) as (H1 & H2 & H3 & H4). split; [done|]. intros b Hb. split; [by apply H4|by eapply HnB].
  Qed.

  Record ninv (chart cp : list (wrule R)) : Prop := {
    ni_chart : crules test chart;
    ni_ground : ground_program test cp;
    ni_nB : no_builtins test cp;
    ni_lin : forall r, r ∈ cp -> length (subgoals (wbody r)) <= 1;
    ni_rest : exists B, (forall I x, F cp I x = sadd (B x) (DF P (cval chart) I x)) /\ forall x, F P (cval chart) x = sadd (cval chart x) (B x) }.

  Lemma ninv_start : ninv [] (linear_rules P).
  Proof using HP HnB Hcomm.
    split.
    - intros r Hr. by apply elem_of_nil in Hr.
    - intros r Hr. apply elem_of_list_filter in Hr as [_ Hr]. by apply HP.
    - intros r b Hr. apply elem_of_list_filter in Hr as [_ Hr]. by apply HnB.
    - intros r Hr. by apply elem_of_list_filter in Hr as [Hr _].
    - exists (F P Z). split.
      + intros I x. rewrite linear_rules_rhs by apply program_nbs. done.
      + intros x. change (F P Z x = sadd szero (F P Z x)). ring.
  Qed.

  Lemma round n t chart cp change next : ninv chart cp -> solve n t cp = Ok change -> cfold n (chart ++ change) = Ok next ->
    crules test change /\ crules test next /\ NoDup (map whead next) /\ (forall x, cval next x = sadd (cval chart x) (cval change x)) /\
    (forall x, cval change x = F cp (cval change) x) /\
    forall le I, star_order star le -> (forall x, le szero x) -> above wt test le cp I -> forall x, le (cval change x) (I x).
  Proof using Hal Hcv Hsort Hcomm Hneg Hstar.
    intros Hi Es Ef.
    destruct (solve_linear_ok wt al cv sort test Hal Hcv Hsort Hcomm star Hstar cp n t change (ni_ground _ _ Hi) (ni_nB _ _ Hi) Es) as (H1 & _ & H3 & H4).
    apply const_chart_crules in H1.
    destruct (constant_folding_chart wt negligible is_one cv sort test Hcv Hneg Hsort n _ next (crules_app test _ _ (ni_chart _ _ Hi) H1) Ef) as (N1 & N2 & N3).
    repeat (split; [done|]). split; [intros x; by rewrite N3, cval_app|]. split; done.
  Qed.
  Lemma ninv_step n t chart cp change next q : ninv chart cp -> solve n t cp = Ok change -> cfold n (chart ++ change) = Ok next ->
    linearized wt negligible is_one al cv test n next change chart P (p_new [] 0) = Ok q -> ninv next (p_rules q).
  Proof using Hal Hcv Hsort Hcomm Hneg Hone Hstar HP HnB.
    intros Hi Es Ef El. destruct (round n t chart cp change next Hi Es Ef) as (H1 & H2 & H3 & H4 & H5 & _).
    destruct (linearized_ok n next change chart P (p_new [] 0) q H2 H1 (ni_chart _ _ Hi) program_nbs lin_ok_empty El) as [Hq Vq].
    destruct (lrules_program q Hq) as (L1 & L2 & L3). split; [done..|].
    destruct (ni_rest _ _ Hi) as (B & HB1 & HB2). exists (HF P (cval next) (cval chart) (cval change)). split.
    - intros I x. rewrite Vq. cbn [p_rules p_new]. rewrite rhs_nil. ring.
    - intros x. rewrite (expand_rhs P (cval next) (cval chart) (cval change) x program_nbs H4), HB2.
      assert (E : cval change x = sadd (B x) (DF P (cval chart) (cval change) x)) by (rewrite H5 at 1; apply HB1).
      rewrite H4, E. ring.
  Qed.

  (** an invariant of the values, by rounds *)
  Lemma newton_loop_ok (J : nat -> (term -> R) -> Prop) n t k T i chart cp ch :
    (forall i chart cp change next, ninv chart cp -> J i (cval chart) -> solve n t cp = Ok change -> cfold n (chart ++ change) = Ok next -> J (S i) (cval next)) ->
    ninv chart cp -> J i (cval chart) ->
    newton_loop wt negligible is_one al cv sort test same star n t k T P i chart cp = Ok ch ->
    crules test ch /\ NoDup (map whead ch) /\
    exists i' chart' cp' change, ninv chart' cp' /\ J i' (cval chart') /\ J (S i') (cval ch) /\ solve n t cp' = Ok change /\ cfold n (chart' ++ change) = Ok ch /\
      (same chart' ch = true \/ T = Some (S i')).
  Proof using Hal Hcv Hsort Hcomm Hneg Hone Hstar HP HnB.
    intros HJ. revert i chart cp. induction k as [|k IH]; intros i chart cp Hi Hj; cbn [newton_loop]; [discriminate|].
    destruct (solve n t cp) as [change| |] eqn:Es; [|discriminate..]. cbn [bind].
    destruct (cfold n (chart ++ change)) as [next| |] eqn:Ef; [|discriminate..]. cbn [bind].
    destruct (round n t chart cp change next Hi Es Ef) as (_ & N1 & N2 & _).
    assert (Hj' : J (S i) (cval next)) by (by eapply HJ).
    destruct (same chart next) eqn:Ec.
    { intros [= <-]. split; [done|]. split; [done|]. exists i, chart, cp, change. repeat (split; [done|]). by left. }
    destruct (bool_decide (T = Some (S i))) eqn:Et.
    { intros [= <-]. split; [done|]. split; [done|]. exists i, chart, cp, change. apply bool_decide_eq_true in Et. repeat (split; [done|]). by right. }
    destruct (linearized wt negligible is_one al cv test n next change chart P (p_new [] 0)) as [q| |] eqn:El; [|discriminate..]. cbn [bind].
    apply IH; [|done]. by eapply ninv_step.
  Qed.

  (** orders *)
  Section order.
  Context (le : R -> R -> Prop) (diff : R -> R -> R) (Hle : newton_order star le diff).
  Lemma le_plus x y : le x (sadd x y).
  Proof using Hle Hcomm.
    replace x with (sadd x szero) at 1 by ring. apply (so_add _ _ (no_star _ _ _ Hle)); [apply (so_refl _ _ (no_star _ _ _ Hle))|apply (no_zero _ _ _ Hle)].
  Qed.
  Lemma fv_mono I J f : (forall x, le (I x) (J x)) -> le (fv I f) (fv J f).
  Proof using Hle.
    pose proof (so_refl _ _ (no_star _ _ _ Hle)) as Hr. intros H. destruct f as [v|[w|k|ts]]; simpl; [apply Hr| |apply Hr|]; destruct (test _) as [[]|]; auto.
  Qed.
  Lemma pv_mono I J fs : (forall x, le (I x) (J x)) -> le (pv I fs) (pv J fs).
  Proof using Hle Hcomm.
    pose proof (no_star _ _ _ Hle) as Ho. intros H. induction fs as [|f fs IH]; [apply (so_refl _ _ Ho)|]. cbn [map].
    change (prodl (fv I f :: map (fv I) fs)) with (smul (fv I f) (pv I fs)). change (prodl (fv J f :: map (fv J) fs)) with (smul (fv J f) (pv J fs)).
    eapply (so_trans _ _ Ho); [apply (so_mul_l _ _ Ho), IH|]. rewrite (Hcomm (fv I f)), (Hcomm (fv J f)). apply (so_mul_l _ _ Ho). by apply fv_mono.
  Qed.
  Lemma rhs_mono Q I J x : (forall x, le (I x) (J x)) -> le (F Q I x) (F Q J x).
  Proof using Hle Hcomm.
    pose proof (no_star _ _ _ Hle) as Ho. intros H. induction Q as [|r Q IH]; [apply (so_refl _ _ Ho)|]. rewrite !rhs_cons. apply (so_add _ _ Ho); [|done].
    case_decide; [by apply pv_mono|apply (so_refl _ _ Ho)].
  Qed.

  (** [v] is below everything that is above the equations *)
  Lemma round_upper n t chart cp change next mu : ninv chart cp -> solve n t cp = Ok change -> cfold n (chart ++ change) = Ok next ->
    above wt test le P mu -> (forall x, le (cval chart x) (mu x)) -> forall x, le (cval next x) (mu x).
  Proof using Hal Hcv Hsort Hcomm Hneg Hstar HP HnB Hle.
    intros Hi Es Ef Hmu Hv. pose proof (no_star _ _ _ Hle) as Ho. destruct (round n t chart cp change next Hi Es Ef) as (_ & _ & _ & H4 & _ & H6).
    destruct (ni_rest _ _ Hi) as (B & HB1 & HB2). pose (d := fun x => diff (mu x) (cval chart x)).
    assert (Hd : forall x, mu x = sadd (cval chart x) (d x)) by (intros x; symmetry; by apply (no_diff _ _ _ Hle)).
    assert (Ha : above wt test le cp d).
    { intros x. rewrite HB1. apply (no_greatest _ _ _ Hle). eapply (so_trans _ _ Ho); [|apply Hmu].
      rewrite (expand_rhs P mu (cval chart) d x program_nbs Hd), HB2.
      replace (sadd (sadd (cval chart x) (B x)) (sadd (DF P (cval chart) d x) (HF P mu (cval chart) d x)))
        with (sadd (sadd (cval chart x) (sadd (B x) (DF P (cval chart) d x))) (HF P mu (cval chart) d x)) by ring. apply le_plus. }
    intros x. rewrite H4, Hd. apply (so_add _ _ Ho); [apply (so_refl _ _ Ho)|]. by apply (H6 le d Ho (no_zero _ _ _ Hle) Ha).
  Qed.
  Lemma round_lower n t chart cp change next i : ninv chart cp -> solve n t cp = Ok change -> cfold n (chart ++ change) = Ok next ->
    (forall x, le (iterate wt test P i x) (cval chart x)) -> forall x, le (iterate wt test P (S i) x) (cval next x).
  Proof using Hal Hcv Hsort Hcomm Hneg Hstar HP HnB Hle.
    intros Hi Es Ef Hv x. pose proof (no_star _ _ _ Hle) as Ho. destruct (round n t chart cp change next Hi Es Ef) as (_ & _ & _ & H4 & H5 & _).
    destruct (ni_rest _ _ Hi) as (B & HB1 & HB2). cbn [iterate]. eapply (so_trans _ _ Ho); [by apply rhs_mono|]. rewrite HB2, H4.
    apply (so_add _ _ Ho); [apply (so_refl _ _ Ho)|]. rewrite H5, HB1. apply le_plus.
  Qed.
  Lemma round_same n t chart cp change next : ninv chart cp -> solve n t cp = Ok change -> cfold n (chart ++ change) = Ok next ->
    same chart next = true -> solution wt test P (cval next).
  Proof using Hal Hcv Hsort Hcomm Hneg Hstar HP HnB Hle Hsame.
    intros Hi Es Ef Hs x. pose proof (no_star _ _ _ Hle) as Ho. destruct (round n t chart cp change next Hi Es Ef) as (_ & N1 & _ & H4 & H5 & _).
    assert (Hv : forall x, cval chart x = cval next x) by (apply Hsame; [apply const_chart_crules, Hi|by apply const_chart_crules|done]).
    destruct (ni_rest _ _ Hi) as (B & HB1 & HB2). rewrite <- (rhs_ext wt test P (cval chart) (cval next) x Hv), <- Hv, HB2.
    apply (no_antisym _ _ _ Hle); [apply le_plus|]. rewrite (Hv x) at 2. rewrite H4, H5, HB1.
    apply (so_add _ _ Ho); [apply (so_refl _ _ Ho)|]. apply le_plus.
  Qed.
  Lemma iterate_below mu i : above wt test le P mu -> forall x, le (iterate wt test P i x) (mu x).
  Proof using Hle Hcomm.
    intros Hmu. induction i as [|i IH]; intros x; [apply (no_zero _ _ _ Hle)|]. cbn [iterate].
    eapply (so_trans _ _ (no_star _ _ _ Hle)); [by apply rhs_mono|apply Hmu].
  Qed.

  Lemma newton_ok n t k T ch : newton wt negligible is_one al cv sort test same star n t k T P = Ok ch ->
    const_chart test ch /\ NoDup (map whead ch) /\
    (forall mu, above wt test le P mu -> forall x, le (cval ch x) (mu x)) /\
    (T = None -> solution wt test P (cval ch)) /\
    (forall j, T = Some j -> forall x, le (iterate wt test P j x) (cval ch x)).
  Proof using Hal Hcv Hsort Hcomm Hneg Hone Hstar HP HnB Hle Hsame.
    intros E. pose proof (no_star _ _ _ Hle) as Ho.
    destruct (newton_loop_ok (fun i v => (forall mu, above wt test le P mu -> forall x, le (v x) (mu x)) /\ forall x, le (iterate wt test P i x) (v x))
      n t k T 0 [] (linear_rules P) ch) with (4 := E) as (H1 & H2 & i & chart & cp & change & Hi & HJ & HJ' & Es & Ef & Hend).
    { intros i chart cp change next Hi [Hu Hl] Es Ef. split.
      - intros mu Hmu. eapply (round_upper n t chart cp change next mu); eauto.
      - eapply (round_lower n t chart cp change next i); eauto. }
    { apply ninv_start. }
    { split; [intros mu _ x; apply (no_zero _ _ _ Hle)|intros x; apply (so_refl _ _ Ho)]. }
    split; [by apply const_chart_crules|]. split; [done|]. split; [apply HJ'|].
    assert (Hsol : same chart ch = true -> solution wt test P (cval ch)) by (intros Hs; by eapply (round_same n t chart cp change ch)).
    split.
    - intros ->. apply Hsol. by destruct Hend.
    - intros j ->. destruct Hend as [Hs|[= ->]]; [|apply HJ']. intros x. apply iterate_below. intros y. rewrite <- (Hsol Hs y). apply (so_refl _ _ Ho).
  Qed.
  End order.

  (** with a bound on the rounds it returns *)
  Lemma linear_cp cp : (forall r, r ∈ cp -> length (subgoals (wbody r)) <= 1) -> linear wt test cp.
  Proof. intros H r Hr _. rewrite <- subgoals_items. by apply H. Qed.
  Lemma newton_loop_settles j : forall i chart cp, ninv chart cp -> exists ch n0 t0, forall n t k, n0 <= n -> t0 <= t -> j < k ->
    newton_loop wt negligible is_one al cv sort test same star n t k (Some (S (i + j))) P i chart cp = Ok ch.
  Proof using Hal Hcv Hsort Hcomm Hneg Hone Hstar HP HnB.
    induction j as [|j IH]; intros i chart cp Hi.
    all: destruct (solve_linear_settles wt al cv sort test Hal Hcv Hsort star cp (ni_ground _ _ Hi) (ni_nB _ _ Hi) (linear_cp cp (ni_lin _ _ Hi))) as (change & n1 & t1 & S1).
    all: destruct (constant_folding_settles wt negligible is_one cv sort (chart ++ change)) as [next [n2 S2]].
    - exists next, (max n1 n2), t1. intros n t [|k] Hn Ht Hk; [lia|]. cbn [newton_loop]. rewrite S1 by lia. cbn [bind]. rewrite S2 by lia. cbn [bind].
      rewrite Nat.add_0_r, bool_decide_true by done. by destruct (same chart next).
    - destruct (same chart next) eqn:Ec.
      { exists next, (max n1 n2), t1. intros n t [|k] Hn Ht Hk; [lia|]. cbn [newton_loop]. rewrite S1 by lia. cbn [bind]. rewrite S2 by lia. cbn [bind]. by rewrite Ec. }
      destruct (round (max n1 n2) t1 chart cp change next Hi) as (R1 & R2 & _); [apply S1; lia|apply S2; lia|].
      destruct (linearized_settles next change chart P (p_new [] 0) R2 R1 (ni_chart _ _ Hi) program_nbs lin_ok_empty) as [q [n3 S3]].
      destruct (IH (S i) next (p_rules q)) as (ch & n4 & t4 & S4).
      { eapply (ninv_step (max n1 (max n2 n3)) t1 chart cp change next q Hi); [apply S1|apply S2|apply S3]; lia. }
      exists ch, (max n1 (max n2 (max n3 n4))), (max t1 t4). intros n t [|k] Hn Ht Hk; [lia|]. cbn [newton_loop].
      rewrite S1 by lia. cbn [bind]. rewrite S2 by lia. cbn [bind]. rewrite Ec, bool_decide_false by (intros [= ?]; lia). rewrite S3 by lia. cbn [bind].
      replace (i + S j) with (S i + j) by lia. apply S4; lia.
  Qed.
  Lemma newton_settles j : exists ch n0 t0, forall n t k, n0 <= n -> t0 <= t -> j < k ->
    newton wt negligible is_one al cv sort test same star n t k (Some (S j)) P = Ok ch.
  Proof using Hal Hcv Hsort Hcomm Hneg Hone Hstar HP HnB. apply (newton_loop_settles j 0 [] (linear_rules P)). apply ninv_start. Qed.
  Lemma newton_zero n t k : newton wt negligible is_one al cv sort test same star n t k (Some 0) P = newton wt negligible is_one al cv sort test same star n t k None P.
  Proof.
    unfold newton. assert (H : forall chart cp i, newton_loop wt negligible is_one al cv sort test same star n t k (Some 0) P i chart cp =
      newton_loop wt negligible is_one al cv sort test same star n t k None P i chart cp); [|apply H].
    induction k as [|k IH]; intros chart cp i; [done|]. cbn [newton_loop].
    destruct (solve n t cp); [|done..]. cbn [bind]. destruct (cfold n _) as [next| |]; [|done..]. cbn [bind]. destruct (same chart next); [done|].
    rewrite !bool_decide_false by done. destruct (linearized _ _ _ _ _ _ _ _ _ _ _); [|done..]. apply IH.
  Qed.
  End program.
End newton.
