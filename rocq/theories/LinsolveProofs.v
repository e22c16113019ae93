(** Proofs about [solve_linear]. *)
From Coq Require Import List.
From stdpp Require Import gmap.
From Coq Require Import Lia.
From Coq Require String Ascii.
From Verif Require Import PyBase Semiring TermModel TermSpec TermProofs CoverProofs ChartProofs SetsModel SetsProofs PruneModel
  SolverProofs UpdateModel UpdateSpec UpdateProofs EvalModel EvalSpec EvalProofs SupportProofs KleeneModel KleeneSpec KleeneProofs
  NewtonModel NewtonSpec.
Import String.StringSyntax Ascii.AsciiSyntax.
Import ListNotations.

Section linear.
  Local Open Scope string_scope.
  Local Open Scope list_scope.
  Local Open Scope nat_scope.
  Context {R : semiring}.
  Context (wt : const -> R) (al cv : nat -> nat) (sort : list term -> list term) (test : term -> option bool).
  Context (Hal : forall i j, al i = al j -> i = j) (Hcv : forall i j, cv i = cv j -> i = j).
  Context (Hsort : forall l, Permutation (sort l) l).
  Context (Hcomm : forall x y : R, smul x y = smul y x).
  Context (star : R -> R) (Hstar : star_unfold star).
  Notation fv := (factor_val wt test).
  Notation cval := (chart_val wt).
  Notation bwt := (fun _ : const => true : bool_sr).

  Lemma subgoals_items (fs : list (factor R)) : subgoals fs = items fs.
  Proof.
    unfold subgoals, items, goals. induction fs as [|[v|[w|k|ts]] fs IH]; [done|..]; simpl; first [exact IH|f_equal; exact IH].
  Qed.
  Lemma elem_of_subgoals b (fs : list (factor R)) : b ∈ subgoals fs <-> Goal b ∈ fs /\ forall k, b <> Cst k.
  Proof.
    unfold subgoals. rewrite elem_of_list_omap. split.
    - intros ([v|[w|k|ts]] & Hf & E); try done; injection E as <-; split; try done.
    - intros [H Hk]. exists (Goal b). split; [done|]. destruct b as [w|k|ts]; [done| |done]. by destruct (Hk k).
  Qed.

  Section program.
  Context (P : list (wrule R)) (HP : ground_program test P) (HnB : no_builtins test P).

  Lemma goals_map_Goal (gs : list term) : goals (R := bool_sr) (map Goal gs) = gs.
  Proof. unfold goals. induction gs as [|g gs IH]; [done|]. simpl. f_equal. exact IH. Qed.
  Lemma elem_of_booleanize r : r ∈ booleanize P <-> exists s, s ∈ P /\ r = WRule (whead s) (map Goal (subgoals (wbody s))).
  Proof. unfold booleanize. rewrite elem_of_list_fmap. naive_solver. Qed.
  Lemma bool_heads : heads_ok test (booleanize P).
  Proof using HP. intros r Hr. apply elem_of_booleanize in Hr as (s & Hs & ->). destruct (HP s Hs) as (H1 & H2 & H3 & _). done. Qed.
  Lemma bool_nB r b : r ∈ booleanize P -> b ∈ goals (wbody r) -> test b = None.
  Proof using HnB.
    intros Hr Hb. apply elem_of_booleanize in Hr as (s & Hs & ->). simpl in Hb. rewrite goals_map_Goal in Hb.
    apply elem_of_subgoals in Hb as [Hb _]. apply (HnB s b Hs). unfold goals. apply elem_of_list_omap. by exists (Goal b).
  Qed.

  Definition closed_in (D : term -> Prop) : Prop :=
    forall r, r ∈ P -> (forall b, b ∈ subgoals (wbody r) -> D b) -> D (whead r).

  Record support_ok (Bs : list (wrule bool_sr)) : Prop := {
    so_rules : crules test Bs;
    so_true : forall r, r ∈ Bs -> wbody r = [Val (true : bool_sr)];
    so_once : NoDup (map whead Bs);
    so_closed : closed_in (fun x => x ∈ map whead Bs);
    so_least : forall D, closed_in D -> forall x, x ∈ map whead Bs -> D x }.

  Lemma agenda_result n t old change new :
    agenda (R := bool_sr) bwt negb (fun b => b) al cv sort test Bool.eqb n t (booleanize P) = Ok (old, change, new) ->
    p_rules change = [] -> support_ok (p_rules new).
  Proof using HP HnB Hal Hcv Hsort.
    unfold agenda. destruct (step _ _ _ _ _ _ n (booleanize P) (p_new [] 0)) as [d| |] eqn:Ed; [|discriminate..]. cbn [bind]. intros E Hz.
    pose proof (agenda_start (R := bool_sr) bwt negb (fun b => b) al cv test Hal Hcv Hnegb (booleanize P) bool_heads n d Ed) as Hi.
    pose proof (agenda_loop_ok (R := bool_sr) bwt negb (fun b => b) al cv sort test Hal Hcv Hnegb Hsort Bool.eqb Heqb (booleanize P) bool_heads n t _ _ _ _ _ _ Hi E) as Hi'.
    assert (Hd : forall D, closed_in D -> bool_inv test D old change new).
    { intros D HD.
      assert (HD' : forall r, r ∈ booleanize P -> (forall b, b ∈ goals (wbody r) -> (exists k, b = Cst k) \/ D b) -> D (whead r)).
      { intros r Hr Hb. apply elem_of_booleanize in Hr as (s & Hs & ->). apply (HD s Hs). intros b Hbs. simpl in Hb. rewrite goals_map_Goal in Hb.
        destruct (Hb b Hbs) as [[k ->]|H]; [|done]. apply elem_of_subgoals in Hbs as [_ Hk]. by destruct (Hk k). }
      apply (agenda_loop_bool al cv sort test Hal Hcv (booleanize P) bool_heads bool_nB D HD' n t (p_new [] 0) d (p_new [] 0)); [|done].
      destruct (step_rules_bool al cv test Hal Hcv (booleanize P) bool_heads bool_nB D HD' n (booleanize P) (p_new [] 0) d) as [T W];
        [done|apply tok_empty| |exact Ed|].
      { intros x Hx. by apply elem_of_nil in Hx. }
      split; [apply tok_empty|]. split; [done|]. split; [apply tok_empty|]. split; [|split; [done|]]; intros x Hx; by apply elem_of_nil in Hx. }
    destruct (Hd (fun _ => True) ltac:(done)) as (_ & _ & T & _). destruct T as [T1 T2 T3 _].
    split; [exact (ch_rules _ _ T1)|done|done| |].
    - intros r Hr Hb.
      destruct Hi' as (_ & _ & _ & _ & V).
      assert (Vt : forall x, x ∈ map whead (p_rules new) <-> chart_val (R := bool_sr) bwt (p_rules new) x = true).
      { intros x. rewrite elem_of_list_fmap. split.
        - intros (s & -> & Hs). apply elem_of_Permutation in Hs as [l Hl]. unfold chart_val.
          rewrite (suml_perm _ (filter (fun r => whead r = whead s) (s :: l)) _) by (by rewrite <- Hl).
          rewrite filter_cons, decide_True by done. rewrite suml_cons.
          rewrite (T2 s) by (rewrite Hl; by left). done.
        - unfold chart_val. intros Ht. destruct (filter (fun r => whead r = x) (p_rules new)) as [|s l] eqn:Ef; [done|].
          assert (Hs : s ∈ filter (fun r => whead r = x) (p_rules new)) by (rewrite Ef; by left).
          apply elem_of_list_filter in Hs as [<- Hs]. eauto. }
      specialize (V (whead r)). rewrite Hz in V. rewrite cval_nil, sadd_0_r in V. apply Vt. rewrite V. clear V.
      assert (Hr' : WRule (whead r) (map Goal (subgoals (wbody r))) ∈ booleanize P) by (apply elem_of_booleanize; eauto).
      unfold rhs. apply elem_of_Permutation in Hr' as [l Hl].
      rewrite (suml_perm _ (filter (fun s => whead s = whead r) (WRule (whead r) (map Goal (subgoals (wbody r))) :: l)) _) by (by rewrite <- Hl).
      rewrite filter_cons, decide_True by done. rewrite suml_cons. cbn [wbody].
      replace (prodl _) with (true : bool_sr); [done|]. symmetry.
      assert (HB : forall b, b ∈ subgoals (wbody r) -> factor_val (R := bool_sr) bwt test (chart_val (R := bool_sr) bwt (p_rules new)) (Goal b) = true).
      { intros b Hbr. pose proof (proj1 (Vt b) (Hb b Hbr)) as Hv. apply elem_of_subgoals in Hbr as [Hbr Hk].
        assert (Ht : test b = None) by (apply (HnB r b Hr); unfold goals; apply elem_of_list_omap; by exists (Goal b)).
        destruct b as [w|k|ts]; simpl; [by rewrite Ht|done|by rewrite Ht]. }
      clear -HB. induction (subgoals (wbody r)) as [|b bs IH]; [done|].
      exact (f_equal2 (@smul bool_sr) (HB b ltac:(by left)) (IH (fun c Hc => HB c ltac:(by right)))).
    - intros D HD. by destruct (Hd D HD) as (_ & _ & _ & _ & _ & W).
  Qed.

  Lemma bool_support_ok n t Bs : bool_support al cv sort test n t P = Ok Bs -> support_ok Bs.
  Proof using HP HnB Hal Hcv Hsort.
    unfold bool_support. destruct (agenda _ _ _ _ _ _ _ _ n t (booleanize P)) as [[[old change] new]| |] eqn:E; [|discriminate..]. cbn [bind snd].
    destruct (p_rules change) eqn:Ec; [|discriminate]. intros [= <-]. by eapply agenda_result.
  Qed.
  Lemma bool_support_settles : exists Bs n0 t0, forall n t, n0 <= n -> t0 <= t -> bool_support al cv sort test n t P = Ok Bs.
  Proof using HP HnB Hal Hcv Hsort.
    destruct (step_settles (R := bool_sr) bwt negb (fun b => b) al cv test Hal Hcv Hnegb (booleanize P) (p_new [] 0) bool_heads (chart_ok_empty test)) as [d [n1 S1]].
    assert (Hi : ag_inv (R := bool_sr) bwt test (booleanize P) (p_new [] 0) d (p_new [] 0))
      by (eapply (agenda_start (R := bool_sr) bwt negb (fun b => b) al cv test Hal Hcv Hnegb (booleanize P) bool_heads n1), S1; done).
    assert (HD : forall r, r ∈ booleanize P -> (forall b, b ∈ goals (wbody r) -> (exists k, b = Cst k) \/ b ∈ map whead (booleanize P)) -> whead r ∈ map whead (booleanize P)).
    { intros r Hr _. apply elem_of_list_fmap. eauto. }
    assert (Hb : bool_inv test (fun x => x ∈ map whead (booleanize P)) (p_new [] 0) d (p_new [] 0)).
    { destruct (step_rules_bool al cv test Hal Hcv (booleanize P) bool_heads bool_nB _ HD n1 (booleanize P) (p_new [] 0) d) as [T W];
        [done|apply tok_empty| |exact (S1 n1 (le_n _))|].
      { intros x Hx. by apply elem_of_nil in Hx. }
      split; [apply tok_empty|]. split; [done|]. split; [apply tok_empty|]. split; [|split; [done|]]; intros x Hx; by apply elem_of_nil in Hx. }
    destruct (agenda_loop_ends al cv sort test Hal Hcv Hsort (booleanize P) bool_heads bool_nB _ _ _ _ _ Hb Hi (le_n _) (le_n _)) as (t0 & [[o c] w] & n2 & Hs & Hgo).
    simpl in Hs. destruct c as [[|r0 l0] c1 c2 c3]; [|done]. exists (p_rules w), (max n1 n2), t0. intros n t Hn Ht. unfold bool_support, agenda. rewrite S1 by lia. cbn [bind]. rewrite Hgo by lia. cbn [bind snd].
    done.
  Qed.
  End program.

  (** ** Charts as dictionaries *)
  Definition dval {K} `{EqDecision K} (d : list (K * R)) (k : K) : R := suml d (fun kv => if decide (fst kv = k) then snd kv else szero).
  Lemma dval_absent {K} `{EqDecision K} (d : list (K * R)) k : k ∉ map fst d -> dval d k = szero.
  Proof.
    intros H. unfold dval. induction d as [|kv d IH]; [done|]. simpl in H. apply not_elem_of_cons in H as [H1 H2].
    rewrite suml_cons, IH by done. case_decide; [by subst|]. apply sadd_0_l.
  Qed.
  Lemma dict_add_val {K} `{EqDecision K} (k : K) v (d : list (K * R)) k' :
    dval (dict_add k v d) k' = sadd (dval d k') (if decide (k = k') then v else szero).
  Proof.
    unfold dval. induction d as [|[k1 w] d IH]; cbn [dict_add].
    - rewrite suml_cons, suml_nil. simpl. rewrite sadd_0_r, !sadd_0_l. done.
    - destruct (decide (k1 = k)) as [->|Hne].
      + rewrite !suml_cons. simpl. destruct (decide (k = k')); [|by rewrite !sadd_0_l, sadd_0_r].
        rewrite <- !sadd_assoc. f_equal. apply sadd_comm.
      + rewrite !suml_cons, IH. simpl. by rewrite sadd_assoc.
  Qed.
  Lemma dict_add_keys {K} `{EqDecision K} (k : K) v (d : list (K * R)) k' :
    k' ∈ map fst (dict_add k v d) <-> k' = k \/ k' ∈ map fst d.
  Proof.
    induction d as [|[k1 w] d IH]; cbn [dict_add]; [simpl; rewrite elem_of_list_singleton, elem_of_nil; tauto|].
    destruct (decide (k1 = k)) as [->|Hne]; simpl; rewrite ?elem_of_cons; [tauto|]. rewrite IH. tauto.
  Qed.
  Lemma dict_add_nodup {K} `{EqDecision K} (k : K) v (d : list (K * R)) : NoDup (map fst d) -> NoDup (map fst (dict_add k v d)).
  Proof.
    induction d as [|[k1 w] d IH]; cbn [dict_add]; [intros _; apply NoDup_singleton|]. simpl. intros H. apply NoDup_cons in H as [H1 H2].
    destruct (decide (k1 = k)) as [->|Hne]; simpl; constructor; try done; [|by apply IH].
    rewrite dict_add_keys. naive_solver.
  Qed.

  (** ** The system of equations *)
  Lemma extract_val fs c vs : extract wt fs c vs = (smul c (cpart wt fs), vs ++ subgoals fs).
  Proof.
    revert c vs. induction fs as [|[v|[w|k|ts]] fs IH]; intros c vs; cbn [extract cpart const_of].
    - by rewrite smul_1_r, app_nil_r.
    - by rewrite IH, smul_assoc.
    - rewrite IH, <- app_assoc. done.
    - by rewrite IH, smul_assoc.
    - rewrite IH, <- app_assoc. done.
  Qed.
  Lemma prod_split I (fs : list (factor R)) : (forall b, b ∈ goals fs -> test b = None) ->
    prodl (map (fv I) fs) = smul (cpart wt fs) (prodl (map I (subgoals fs))).
  Proof using Hcomm.
    induction fs as [|f fs IH]; intros H; [simpl; by rewrite smul_1_l|].
    assert (IH' : prodl (map (fv I) fs) = smul (cpart wt fs) (prodl (map I (subgoals fs)))).
    { apply IH. intros b Hb. apply H. destruct f; [done|by right]. }
    cbn [map prodl fold_right] in *. change (fold_right smul sone (map (fv I) fs)) with (prodl (map (fv I) fs)). rewrite IH'.
    destruct f as [v|[w|k|ts]]; cbn [cpart const_of factor_val subgoals].
    - by rewrite smul_assoc.
    - rewrite (H (Var w)) by (by left). cbn. rewrite !smul_assoc. f_equal. apply Hcomm.
    - by rewrite smul_assoc.
    - rewrite (H (Fn ts)) by (by left). cbn. rewrite !smul_assoc. f_equal. apply Hcomm.
  Qed.

  Lemma join2_length {S : semiring} (a b : list (list (factor S))) : length (join2 a b) = length a * length b.
  Proof. unfold join2. induction a as [|x a IH]; [done|]. simpl. by rewrite app_length, map_length, IH. Qed.
  Definition inst (Bs : list (wrule bool_sr)) (r : wrule R) : bool :=
    forallb (fun b => bool_decide (b ∈ map whead Bs)) (subgoals (wbody r)).
  Lemma inst_true Bs r : inst Bs r = true <-> forall b, b ∈ subgoals (wbody r) -> b ∈ map whead Bs.
  Proof.
    unfold inst. rewrite forallb_forall. split.
    - intros H b Hb. by apply elem_of_list_In, H, bool_decide_eq_true in Hb.
    - intros H b Hb. apply bool_decide_eq_true, H. by apply elem_of_list_In.
  Qed.
  Lemma filter_once {S : semiring} (Bs : list (wrule S)) b : NoDup (map whead Bs) ->
    length (filter (fun r => whead r = b) Bs) = if bool_decide (b ∈ map whead Bs) then 1 else 0.
  Proof.
    induction Bs as [|r Bs IH]; [by rewrite bool_decide_false by (by intros ?%elem_of_nil)|]. simpl. intros H. apply NoDup_cons in H as [H1 H2].
    rewrite filter_cons. destruct (decide (whead r = b)) as [E|E].
    - subst b. rewrite (bool_decide_true (whead r ∈ _)) by (by left). simpl. rewrite IH, bool_decide_false by done. done.
    - rewrite IH by done. erewrite bool_decide_ext; [done|]. rewrite elem_of_cons. naive_solver.
  Qed.
  Lemma instances_val Bs r : NoDup (map whead Bs) -> (forall b, b ∈ goals (wbody r) -> test b = None) ->
    instances test Bs (wbody r) = if inst Bs r then 1 else 0.
  Proof.
    intros HB. unfold instances, inst. induction (wbody r) as [|f fs IH]; intros H; [done|].
    assert (IH' : length (lookup_body (R := bool_sr) test true Bs (map to_bool fs)) = if forallb (fun b => bool_decide (b ∈ map whead Bs)) (subgoals fs) then 1 else 0).
    { apply IH. intros b Hb. apply H. destruct f; [done|by right]. }
    assert (Hf : length (lookup_vals (R := bool_sr) test true Bs (to_bool f)) = match subgoal f with None => 1 | Some b => if bool_decide (b ∈ map whead Bs) then 1 else 0 end).
    { destruct f as [v|[w|k|ts]]; simpl; [done| |done|]; rewrite (H _ ltac:(by left)), map_length; exact (filter_once (S := bool_sr) Bs _ HB). }
    assert (Hc : length (lookup_body (R := bool_sr) test true Bs (map to_bool (f :: fs))) =
      length (lookup_vals (R := bool_sr) test true Bs (to_bool f)) * length (lookup_body (R := bool_sr) test true Bs (map to_bool fs))).
    { destruct fs as [|g fs]; [cbn [map lookup_body]; simpl; lia|]. apply join2_length. }
    rewrite Hc, Hf, IH'. clear. unfold subgoals. cbn [omap list_omap]. destruct (subgoal f) as [b|]; cbn [forallb].
    - destruct (bool_decide (b ∈ map whead Bs)); cbn [andb]; destruct (forallb _ _); done.
    - destruct (forallb _ _); done.
  Qed.

  Definition keyM (Bs : list (wrule bool_sr)) (r : wrule R) (k : term * term) : Prop :=
    inst Bs r = true /\ whead r = fst k /\ subgoals (wbody r) = [snd k].
  Definition keyV (Bs : list (wrule bool_sr)) (r : wrule R) (x : term) : Prop :=
    inst Bs r = true /\ whead r = x /\ subgoals (wbody r) = [].
  Global Instance keyM_dec Bs r k : Decision (keyM Bs r k).
  Proof. unfold keyM. apply _. Defined.
  Global Instance keyV_dec Bs r x : Decision (keyV Bs r x).
  Proof. unfold keyV. apply _. Defined.

  Lemma canon_settles t : ground t -> exists n0, forall n, n0 <= n -> canonicalize cv n ∅ t = Ok t.
  Proof using Hcv.
    intros Ht. destruct (canonicalize_settles ∅ Var acyclic_empty resolution_empty cv t) as [n0 H0]. rewrite sub_Var in H0.
    rewrite (ground_canonical cv t Hcv Ht) in H0. by exists n0.
  Qed.
  Lemma ground_tmp (h v : term) : ground h -> ground v -> ground (Fn [Cst (CStr "tmp"); h; v]).
  Proof. unfold ground. intros Hh Hv. simpl. by rewrite Hh, Hv. Qed.
  Definition ground_rule (r : wrule R) : Prop := ground (whead r) /\ forall b, b ∈ goals (wbody r) -> ground b /\ test b = None.
  Lemma subgoal_ground r b : ground_rule r -> b ∈ subgoals (wbody r) -> ground b.
  Proof.
    intros [_ H] Hb. apply elem_of_subgoals in Hb as [Hb _]. apply H. unfold goals. apply elem_of_list_omap. by exists (Goal b).
  Qed.

  Record grows (Bs : list (wrule bool_sr)) (Q : list (wrule R)) (MV MV' : system (R := R)) : Prop := {
    g_dM : NoDup (map fst (fst MV'));
    g_dV : NoDup (map fst (snd MV'));
    g_M : forall k, dval (fst MV') k = sadd (dval (fst MV) k) (suml Q (fun r => if decide (keyM Bs r k) then cpart wt (wbody r) else szero));
    g_V : forall x, dval (snd MV') x = sadd (dval (snd MV) x) (suml Q (fun r => if decide (keyV Bs r x) then cpart wt (wbody r) else szero));
    g_kM : forall k, k ∈ map fst (fst MV') <-> k ∈ map fst (fst MV) \/ exists r, r ∈ Q /\ keyM Bs r k;
    g_kV : forall x, x ∈ map fst (snd MV') <-> x ∈ map fst (snd MV) \/ exists r, r ∈ Q /\ keyV Bs r x;
    g_one : forall r, r ∈ Q -> inst Bs r = true -> length (subgoals (wbody r)) <= 1 }.

  Lemma build_system_ok n Bs Q MV MV' : NoDup (map whead Bs) -> Forall ground_rule Q ->
    NoDup (map fst (fst MV)) -> NoDup (map fst (snd MV)) ->
    build_system wt cv test n Bs Q MV = Ok MV' -> grows Bs Q MV MV'.
  Proof using Hcv.
    intros HB. revert MV. induction Q as [|r Q IH]; intros MV HQ HM HV; cbn [build_system].
    { intros [= <-]. split; try done; intros; rewrite ?suml_nil, ?sadd_0_r; try done.
      - split; [by left|]. intros [H|(r & Hr & _)]; [done|by apply elem_of_nil in Hr].
      - split; [by left|]. intros [H|(r & Hr & _)]; [done|by apply elem_of_nil in Hr].
      - by apply elem_of_nil in H. }
    apply Forall_cons in HQ as [Hr HQ]. rewrite instances_val by (done || apply Hr). destruct (inst Bs r) eqn:Ei.
    2:{ cbn [add_instances bind]. intros E. apply IH in E as [H1 H2 H3 H4 H5 H6 H7]; [|done..]. split; try done.
        - intros k. rewrite H3, suml_cons, decide_False by (intros [? _]; congruence). by rewrite sadd_0_l.
        - intros k. rewrite H4, suml_cons, decide_False by (intros [? _]; congruence). by rewrite sadd_0_l.
        - intros k. rewrite H5. split; [intros [H|(s & Hs & Hk)]; [by left|right; exists s; split; [by right|done]]|].
          intros [H|(s & Hs & Hk)]; [by left|]. apply elem_of_cons in Hs as [->|Hs]; [destruct Hk as [Hk _]; congruence|right; eauto].
        - intros k. rewrite H6. split; [intros [H|(s & Hs & Hk)]; [by left|right; exists s; split; [by right|done]]|].
          intros [H|(s & Hs & Hk)]; [by left|]. apply elem_of_cons in Hs as [->|Hs]; [destruct Hk as [Hk _]; congruence|right; eauto].
        - intros s Hs Hi. apply elem_of_cons in Hs as [->|Hs]; [congruence|by apply H7]. }
    cbn [add_instances]. destruct (add_instance wt cv n r MV) as [MV1| |] eqn:E1; [|discriminate..]. cbn [bind]. intros E.
    revert E1. unfold add_instance. destruct MV as [M V]. rewrite extract_val, smul_1_l. cbn [app]. simpl in HM, HV.
    destruct (subgoals (wbody r)) as [|b [|b' bs]] eqn:Es; [| |discriminate].
    - destruct (canonicalize cv n ∅ (whead r)) as [h| |] eqn:Eh; [|discriminate..]. cbn [bind]. apply (canon_head cv Hcv) in Eh; [|exact (proj1 Hr)]. subst h.
      intros [= <-]. apply IH in E as [H1 H2 H3 H4 H5 H6 H7]; [|done|done|by apply dict_add_nodup]. simpl in *. split; try done; simpl.
      + intros k. rewrite H3, suml_cons, decide_False by (intros (_ & _ & ?); congruence). by rewrite sadd_0_l.
      + intros x. rewrite H4, suml_cons, dict_add_val. rewrite <- sadd_assoc. f_equal. f_equal.
        destruct (decide (whead r = x)); [rewrite decide_True by done; done|rewrite decide_False by (intros (_ & ? & _); done); done].
      + intros k. rewrite H5. split; [intros [H|(s & Hs & Hk)]; [by left|right; exists s; split; [by right|done]]|].
        intros [H|(s & Hs & Hk)]; [by left|]. apply elem_of_cons in Hs as [->|Hs]; [destruct Hk as (_ & _ & Hk); congruence|right; eauto].
      + intros x. rewrite H6, dict_add_keys. split.
        * intros [[->|H]|(s & Hs & Hk)]; [right; exists r; split; [by left|done]|by left|right; exists s; split; [by right|done]].
        * intros [H|(s & Hs & Hk)]; [by left; right|]. apply elem_of_cons in Hs as [->|Hs]; [left; left; by destruct Hk as (_ & <- & _)|right; eauto].
      + intros s Hs Hi. apply elem_of_cons in Hs as [->|Hs]; [rewrite Es; simpl; lia|by apply H7].
    - assert (Hb : ground b) by (eapply subgoal_ground; [done|rewrite Es; by left]).
      destruct (canonicalize cv n ∅ _) as [h| |] eqn:Eh; [|discriminate..]. cbn [bind]. apply (canon_head cv Hcv) in Eh; [|by apply ground_tmp; [exact (proj1 Hr)|]].
      subst h. intros [= <-]. apply IH in E as [H1 H2 H3 H4 H5 H6 H7]; [|done|by apply dict_add_nodup|done]. simpl in *. split; try done; simpl.
      + intros [x y]. rewrite H3, suml_cons, dict_add_val. rewrite <- sadd_assoc. f_equal. f_equal.
        destruct (decide ((whead r, b) = (x, y))) as [[= <- <-]|Hne]; [rewrite decide_True by done; done|rewrite decide_False; [done|]].
        intros (_ & Hh & Hs). simpl in *. apply Hne. f_equal; congruence.
      + intros k. rewrite H4, suml_cons, decide_False by (intros (_ & _ & ?); congruence). by rewrite sadd_0_l.
      + intros k. rewrite H5, dict_add_keys. split.
        * intros [[->|H]|(s & Hs & Hk)]; [right; exists r; split; [by left|done]|by left|right; exists s; split; [by right|done]].
        * intros [H|(s & Hs & Hk)]; [by left; right|]. apply elem_of_cons in Hs as [->|Hs]; [left; left|right; eauto].
          destruct k as [x y], Hk as (_ & Hh & Hk). simpl in *. f_equal; congruence.
      + intros k. rewrite H6. split; [intros [H|(s & Hs & Hk)]; [by left|right; exists s; split; [by right|done]]|].
        intros [H|(s & Hs & Hk)]; [by left|]. apply elem_of_cons in Hs as [->|Hs]; [destruct Hk as (_ & _ & Hk); congruence|right; eauto].
      + intros s Hs Hi. apply elem_of_cons in Hs as [->|Hs]; [rewrite Es; simpl; lia|by apply H7].
  Qed.

  Lemma build_system_settles Bs Q MV : NoDup (map whead Bs) -> Forall ground_rule Q ->
    (forall r, r ∈ Q -> inst Bs r = true -> length (subgoals (wbody r)) <= 1) ->
    exists MV', settles (fun n => build_system wt cv test n Bs Q MV) MV'.
  Proof using Hcv.
    intros HB. revert MV. induction Q as [|r Q IH]; intros MV HQ H1; cbn [build_system]; [eexists; apply settles_ret|].
    apply Forall_cons in HQ as [Hr HQ].
    assert (Hs : exists MV1, settles (fun n => add_instances wt cv n (instances test Bs (wbody r)) r MV) MV1).
    { rewrite instances_val by (done || apply Hr). destruct (inst Bs r) eqn:Ei; cbn [add_instances]; [|eexists; apply settles_ret].
      specialize (H1 r ltac:(by left) Ei). unfold add_instance. destruct MV as [M V]. rewrite extract_val, smul_1_l. cbn [app].
      destruct (subgoals (wbody r)) as [|b [|b' bs]] eqn:Es; [| |simpl in H1; lia].
      - destruct (canon_settles (whead r) (proj1 Hr)) as [n0 H0]. eexists. exists n0. intros n Hn. rewrite H0 by lia. cbn [bind]. reflexivity.
      - assert (Hb : ground b) by (eapply subgoal_ground; [done|rewrite Es; by left]).
        destruct (canon_settles (Fn [Cst (CStr "tmp"); whead r; b])) as [n0 H0]; [by apply ground_tmp; [exact (proj1 Hr)|]|].
        eexists. exists n0. intros n Hn. rewrite H0 by lia. cbn [bind]. reflexivity. }
    destruct Hs as [MV1 H2]. destruct (IH MV1 HQ) as [MV2 H3]; [intros s Hs; apply H1; by right|].
    exists MV2. eapply (settles_bind _ (fun n MV => build_system wt cv test n Bs Q MV)); [exact H2|exact H3].
  Qed.
  Lemma build_system_raises Bs Q MV : NoDup (map whead Bs) -> Forall ground_rule Q ->
    (exists r, r ∈ Q /\ inst Bs r = true /\ 1 < length (subgoals (wbody r))) ->
    exists n0, forall n, n0 <= n -> build_system wt cv test n Bs Q MV = Raise AssertionError.
  Proof using Hcv.
    intros HB. revert MV. induction Q as [|r Q IH]; intros MV HQ (s & Hs & Hi & Hl); [by apply elem_of_nil in Hs|]. cbn [build_system].
    apply Forall_cons in HQ as [Hr HQ].
    destruct (decide (inst Bs r = true /\ 1 < length (subgoals (wbody r)))) as [[Hi' Hl']|Hno].
    { exists 0. intros n _. rewrite instances_val, Hi' by (done || apply Hr). cbn [add_instances]. unfold add_instance. destruct MV as [M V].
      rewrite extract_val. cbn [app]. destruct (subgoals (wbody r)) as [|b [|b' bs]]; simpl in Hl'; [lia|lia|done]. }
    assert (Hsett : exists MV1, settles (fun n => add_instances wt cv n (instances test Bs (wbody r)) r MV) MV1).
    { destruct (build_system_settles Bs [r] MV HB) as [MV1 H1]; [constructor; [done|constructor]| |].
      - intros r' Hr' Hi'. apply elem_of_list_singleton in Hr' as ->. destruct (decide (1 < length (subgoals (wbody r)))); [by destruct Hno|lia].
      - exists MV1. destruct H1 as [n0 H1]. exists n0. intros n Hn. specialize (H1 n Hn). cbn [build_system] in H1.
        destruct (add_instances _ _ _ _ _ _) as [MV2| |]; [|discriminate..]. exact H1. }
    destruct Hsett as [MV1 [n1 H1]]. destruct (IH MV1 HQ) as [n2 H2].
    { apply elem_of_cons in Hs as [->|Hs]; [by destruct Hno|eauto]. }
    exists (max n1 n2). intros n Hn. rewrite H1 by lia. cbn [bind]. apply H2. lia.
  Qed.

  (** ** The arrays *)
  Lemma ix_add_in x ix y : y ∈ ix_add x ix <-> y = x \/ y ∈ ix.
  Proof. unfold ix_add. case_decide; [naive_solver|]. rewrite elem_of_app, elem_of_list_singleton. tauto. Qed.
  Lemma ix_add_nodup x ix : NoDup ix -> NoDup (ix_add x ix).
  Proof.
    intros H. unfold ix_add. case_decide; [done|]. apply NoDup_app. split; [done|]. split; [|apply NoDup_singleton].
    intros y Hy Hy'. apply elem_of_list_singleton in Hy' as ->. done.
  Qed.
  Lemma ix_of_lookup ix x i : NoDup ix -> ix_of x ix = Some i <-> ix !! i = Some x.
  Proof.
    revert i. induction ix as [|y ix IH]; intros i Hd; [done|]. apply NoDup_cons in Hd as [Hy Hd]. cbn [ix_of].
    destruct (decide (x = y)) as [->|Hne].
    - split; [by intros [= <-]|]. destruct i as [|i]; [done|]. simpl. intros H. apply elem_of_list_lookup_2 in H. done.
    - destruct i as [|i]; simpl.
      + split; [by destruct (ix_of x ix)|intros [= ->]; done].
      + rewrite <- IH by done. destruct (ix_of x ix); simpl; naive_solver.
  Qed.
  Lemma alphabet_ok (MV : system (R := R)) : NoDup (alphabet MV) /\
    forall x, x ∈ alphabet MV <-> (exists k, k ∈ map fst (fst MV) /\ (x = fst k \/ x = snd k)) \/ x ∈ map fst (snd MV).
  Proof.
    unfold alphabet. destruct MV as [M V]. simpl.
    assert (HM : forall ix, NoDup ix -> NoDup (fold_left (fun ix (kv : (term * term) * R) => ix_add (snd (fst kv)) (ix_add (fst (fst kv)) ix)) M ix) /\
      forall x, x ∈ fold_left (fun ix (kv : (term * term) * R) => ix_add (snd (fst kv)) (ix_add (fst (fst kv)) ix)) M ix <-> x ∈ ix \/ exists k, k ∈ map fst M /\ (x = fst k \/ x = snd k)).
    { induction M as [|kv M IH]; intros ix Hd; simpl.
      { split; [done|]. intros x. split; [by left|]. intros [H|(k & Hk & _)]; [done|by apply elem_of_nil in Hk]. }
      destruct (IH (ix_add (snd (fst kv)) (ix_add (fst (fst kv)) ix))) as [H1 H2]; [by apply ix_add_nodup, ix_add_nodup|].
      split; [done|]. intros x. rewrite H2, !ix_add_in. split.
      - intros [[->|[->|H]]|(k & Hk & H)]; [right; exists (fst kv); split; [by left|by right]|right; exists (fst kv); split; [by left|by left]|by left|].
        right. exists k. split; [by right|done].
      - intros [H|(k & Hk & H)]; [by left; right; right|]. apply elem_of_cons in Hk as [->|Hk]; [left; tauto|right; eauto]. }
    assert (HV : forall ix, NoDup ix -> NoDup (fold_left (fun ix (kv : term * R) => ix_add (fst kv) ix) V ix) /\
      forall x, x ∈ fold_left (fun ix (kv : term * R) => ix_add (fst kv) ix) V ix <-> x ∈ ix \/ x ∈ map fst V).
    { induction V as [|kv V IH]; intros ix Hd; simpl.
      { split; [done|]. intros x. rewrite elem_of_nil. tauto. }
      destruct (IH (ix_add (fst kv) ix)) as [H1 H2]; [by apply ix_add_nodup|]. split; [done|]. intros x. rewrite H2, ix_add_in, elem_of_cons. tauto. }
    destruct (HM [] ltac:(constructor)) as [M1 M2]. destruct (HV _ M1) as [V1 V2]. split; [done|]. intros x. rewrite V2, M2, elem_of_nil. tauto.
  Qed.
  Lemma pack_M_val ix (M : list ((term * term) * R)) i j x y : NoDup ix -> NoDup (map fst M) -> ix !! i = Some x -> ix !! j = Some y ->
    (forall k, k ∈ map fst M -> fst k ∈ ix /\ snd k ∈ ix) -> pack_M ix M i j = dval M (x, y).
  Proof.
    intros Hd HM Hi Hj Hk. unfold pack_M.
    assert (G : forall MM : matrix R, fold_left (fun MM (kv : (term * term) * R) => match ix_of (fst (fst kv)) ix, ix_of (snd (fst kv)) ix with
                          | Some i, Some j => mset MM i j (snd kv)
                          | _, _ => MM
                          end) M MM i j = if decide ((x, y) ∈ map fst M) then dval M (x, y) else MM i j).
    2:{ rewrite G. case_decide; [done|]. by rewrite dval_absent. }
    induction M as [|[[a b] v] M IH]; intros MM; [done|]. simpl in HM. apply NoDup_cons in HM as [Ha HM]. cbn [fold_left fst snd].
    rewrite IH by (done || (intros k Hk'; apply Hk; by right)). clear IH.
    destruct (Hk (a, b) ltac:(by left)) as [Ia Ib]. simpl in Ia, Ib. apply elem_of_list_lookup in Ia as [p Hp], Ib as [q Hq].
    rewrite (proj2 (ix_of_lookup ix a p Hd) Hp), (proj2 (ix_of_lookup ix b q Hd) Hq). unfold dval. rewrite suml_cons. cbn [fst snd map].
    destruct (decide ((a, b) = (x, y))) as [E|Hne].
    - injection E as -> ->. rewrite decide_False by done. rewrite decide_True by (by left).
      assert (p = i) as -> by exact (NoDup_lookup _ _ _ _ Hd Hp Hi). assert (q = j) as -> by exact (NoDup_lookup _ _ _ _ Hd Hq Hj).
      unfold mset. rewrite !Nat.eqb_refl. simpl. change (suml M _) with (dval M (x, y)). rewrite dval_absent by done. by rewrite sadd_0_r.
    - rewrite sadd_0_l. change (suml M _) with (dval M (x, y)).
      assert (Em : mset MM p q v i j = MM i j).
      { unfold mset. destruct (Nat.eqb i p) eqn:E1; [|done]. destruct (Nat.eqb j q) eqn:E2; [|done].
        apply Nat.eqb_eq in E1, E2. subst p q. exfalso. apply Hne. f_equal; congruence. }
      rewrite Em. destruct (decide ((x, y) ∈ map fst M)) as [Hin|Hin].
      + rewrite decide_True by (by right). done.
      + rewrite decide_False; [done|]. intros H. apply elem_of_cons in H as [H|H]; [by apply Hne|done].
  Qed.
  Lemma pack_V_val ix (V : list (term * R)) i x : NoDup ix -> NoDup (map fst V) -> ix !! i = Some x ->
    (forall k, k ∈ map fst V -> k ∈ ix) -> pack_V ix V i = dval V x.
  Proof.
    intros Hd HM Hi Hk. unfold pack_V.
    assert (G : forall VV : nat -> R, fold_left (fun VV (kv : term * R) => match ix_of (fst kv) ix with
                          | Some i => fun a => if Nat.eqb a i then snd kv else VV a
                          | None => VV
                          end) V VV i = if decide (x ∈ map fst V) then dval V x else VV i).
    2:{ rewrite G. case_decide; [done|]. by rewrite dval_absent. }
    induction V as [|[a v] V IH]; intros VV; [done|]. simpl in HM. apply NoDup_cons in HM as [Ha HM]. cbn [fold_left fst snd].
    rewrite IH by (done || (intros k Hk'; apply Hk; by right)). clear IH.
    pose proof (Hk a ltac:(by left)) as Ia. apply elem_of_list_lookup in Ia as [p Hp].
    rewrite (proj2 (ix_of_lookup ix a p Hd) Hp). unfold dval. rewrite suml_cons. cbn [fst snd map].
    destruct (decide (a = x)) as [->|Hne].
    - rewrite decide_False by done. rewrite decide_True by (by left).
      assert (p = i) as -> by exact (NoDup_lookup _ _ _ _ Hd Hp Hi). rewrite Nat.eqb_refl. change (suml V _) with (dval V x). rewrite dval_absent by done. by rewrite sadd_0_r.
    - rewrite sadd_0_l. change (suml V _) with (dval V x).
      assert (Em : (i =? p) = false) by (apply Nat.eqb_neq; intros ->; congruence). rewrite Em.
      destruct (decide (x ∈ map fst V)) as [Hin|Hin].
      + rewrite decide_True by (by right). done.
      + rewrite decide_False; [done|]. intros H. apply elem_of_cons in H as [H|H]; [by apply Hne|done].
  Qed.
  Lemma sumn_list {A} (l : list A) (F : nat -> R) (G : A -> R) : (forall i a, l !! i = Some a -> F i = G a) -> sumn (length l) F = suml l G.
  Proof.
    induction l as [|a l IH] using rev_ind; intros H; [done|]. rewrite app_length. simpl. rewrite Nat.add_1_r. simpl.
    rewrite suml_app, suml_cons, suml_nil, sadd_0_r. f_equal.
    - apply IH. intros i b Hi. apply H. by apply lookup_app_l_Some.
    - apply H. by rewrite lookup_app_r, Nat.sub_diag by lia.
  Qed.

  Lemma suml_pick {A} `{EqDecision A} (l : list A) (a : A) (F : A -> R) : NoDup l -> a ∈ l ->
    suml l (fun y => if decide (y = a) then F y else szero) = F a.
  Proof.
    intros Hd Ha. induction l as [|y l IH]; [by apply elem_of_nil in Ha|]. apply NoDup_cons in Hd as [Hy Hd]. rewrite suml_cons.
    destruct (decide (y = a)) as [->|Hne].
    - rewrite (suml_ext l _ (fun _ => szero)), suml_zero, sadd_0_r; [done|]. intros b Hb. rewrite decide_False; [done|]. intros ->. apply Hy. by apply elem_of_list_In.
    - rewrite sadd_0_l. apply IH; [done|]. apply elem_of_cons in Ha as [->|Ha]; done.
  Qed.
  Lemma sol_heads (ix : list term) (sol : nat -> R) : map whead (imap (fun i x => WRule x [Val (sol i)]) ix) = ix.
  Proof.
    revert sol. induction ix as [|x ix IH]; intros sol; [done|]. simpl. f_equal. exact (IH (fun i => sol (S i))).
  Qed.
  Lemma sol_val (ix : list term) (sol : nat -> R) i x : NoDup ix -> ix !! i = Some x ->
    cval (imap (fun i x => WRule x [Val (sol i)]) ix) x = sol i.
  Proof.
    revert sol i. induction ix as [|y ix IH]; intros sol i Hd Hi; [done|]. apply NoDup_cons in Hd as [Hy Hd].
    rewrite imap_cons, cval_cons. cbn [whead wbody]. destruct i as [|i]; simpl in Hi.
    - injection Hi as ->. rewrite decide_True by done. simpl. rewrite smul_1_r.
      assert (E : cval (imap ((fun i x => WRule x [Val (sol i)]) ∘ S) ix) x = szero); [|by rewrite E, sadd_0_r].
      unfold chart_val. destruct (filter (fun r => whead r = x) _) as [|r l] eqn:Ef; [done|].
      assert (Hr : r ∈ filter (fun r => whead r = x) (imap ((fun i x => WRule x [Val (sol i)]) ∘ S) ix)) by (rewrite Ef; by left).
      apply elem_of_list_filter in Hr as [<- Hr]. exfalso. apply Hy. rewrite <- (sol_heads ix (fun i => sol (S i))). apply elem_of_list_fmap. eauto.
    - rewrite decide_False; [|intros ->; apply Hy; by eapply elem_of_list_lookup_2]. rewrite sadd_0_l.
      exact (IH (fun i => sol (S i)) i Hd Hi).
  Qed.
  Lemma cval_absent (ch : list (wrule R)) x : x ∉ map whead ch -> cval ch x = szero.
  Proof.
    intros H. unfold chart_val. destruct (filter (fun r => whead r = x) ch) as [|r l] eqn:E; [done|].
    assert (Hr : r ∈ filter (fun r => whead r = x) ch) by (rewrite E; by left). apply elem_of_list_filter in Hr as [<- Hr].
    exfalso. apply H. apply elem_of_list_fmap. eauto.
  Qed.

  Section solve.
  Context (P : list (wrule R)) (HP : ground_program test P) (HnB : no_builtins test P).
  Context (Bs : list (wrule bool_sr)) (HBs : support_ok P Bs) (MV : system (R := R)) (HMV : grows Bs P ([], []) MV).
  Notation ix := (alphabet MV).

  Lemma program_ground : Forall ground_rule P.
  Proof.
    apply Forall_forall. intros r Hr. destruct (HP r Hr) as (H1 & _ & _ & H2). split; [done|]. intros b Hb. split; [by apply H2|by eapply HnB].
  Qed.
  Lemma ix_keyM r k : r ∈ P -> keyM Bs r k -> fst k ∈ ix /\ snd k ∈ ix.
  Proof. intros Hr Hk. split; apply alphabet_ok; left; exists k; (split; [apply (g_kM _ _ _ _ HMV); eauto|tauto]). Qed.
  Lemma ix_keyV r x : r ∈ P -> keyV Bs r x -> x ∈ ix.
  Proof. intros Hr Hk. apply alphabet_ok. right. apply (g_kV _ _ _ _ HMV). eauto. Qed.
  Lemma ix_support x : x ∈ ix -> x ∈ map whead Bs.
  Proof.
    intros Hx. apply alphabet_ok in Hx as [(k & Hk & Hx)|Hx].
    - apply (g_kM _ _ _ _ HMV) in Hk as [Hk|(r & Hr & Hi & Hh & Hs)]; [by apply elem_of_nil in Hk|]. pose proof (proj1 (inst_true Bs r) Hi) as Hi2. destruct Hx as [->| ->].
      + rewrite <- Hh. by apply (so_closed _ _ HBs).
      + apply Hi2. rewrite Hs. by left.
    - apply (g_kV _ _ _ _ HMV) in Hx as [Hk|(r & Hr & Hi & Hh & Hs)]; [by apply elem_of_nil in Hk|]. pose proof (proj1 (inst_true Bs r) Hi) as Hi2.
      rewrite <- Hh. by apply (so_closed _ _ HBs).
  Qed.
  Lemma head_ix r : r ∈ P -> inst Bs r = true -> whead r ∈ ix.
  Proof.
    intros Hr Hi. pose proof (g_one _ _ _ _ HMV r Hr Hi) as H1. destruct (subgoals (wbody r)) as [|b [|b' bs]] eqn:Es; [| |simpl in H1; lia].
    - by apply (ix_keyV r).
    - by apply (ix_keyM r (whead r, b)).
  Qed.

  (** the equations of the rules that are instantiated *)
  Definition ieq (I : term -> R) (x : term) : R :=
    suml P (fun r => if decide (whead r = x /\ inst Bs r = true) then prodl (map (fv I) (wbody r)) else szero).
  Lemma system_val (I : term -> R) i x (Ix : nat -> R) : ix !! i = Some x -> (forall j y, ix !! j = Some y -> Ix j = I y) ->
    sadd (pack_V ix (snd MV) i) (sumn (length ix) (fun j => smul (pack_M ix (fst MV) i j) (Ix j))) = ieq I x.
  Proof.
    intros Hi HI. destruct (alphabet_ok MV) as [Hd Hin].
    rewrite (pack_V_val ix (snd MV) i x Hd (g_dV _ _ _ _ HMV) Hi) by (intros k Hk; apply Hin; by right).
    rewrite (sumn_list ix _ (fun y => smul (dval (fst MV) (x, y)) (I y))).
    2:{ intros j y Hj. rewrite (HI j y Hj). f_equal. apply pack_M_val; [done|apply (g_dM _ _ _ _ HMV)|done|done|].
        intros k Hk. split; apply Hin; left; exists k; tauto. }
    rewrite (g_V _ _ _ _ HMV), (dval_absent (snd ([] : list ((term * term) * R), [])) x), sadd_0_l by (intros H; by apply elem_of_nil in H).
    rewrite (suml_ext ix _ (fun y => suml P (fun r => smul (if decide (keyM Bs r (x, y)) then cpart wt (wbody r) else szero) (I y)))).
    2:{ intros y _. rewrite (g_M _ _ _ _ HMV), (dval_absent (fst ([], [] : list (term * R))) (x, y)), sadd_0_l by (intros H; by apply elem_of_nil in H). apply suml_mul_r. }
    rewrite suml_swap, <- suml_add. unfold ieq. apply suml_ext. intros r Hr. apply elem_of_list_In in Hr.
    pose proof program_ground as HG. rewrite Forall_forall in HG. destruct (HG r Hr) as [_ Hg].
    destruct (decide (whead r = x /\ inst Bs r = true)) as [[Hh Hi']|Hno].
    - rewrite prod_split by (intros b Hb; by apply Hg). pose proof (g_one _ _ _ _ HMV r Hr Hi') as H1.
      destruct (subgoals (wbody r)) as [|b [|b' bs]] eqn:Es; [| |simpl in H1; lia].
      + rewrite decide_True by done. simpl. rewrite smul_1_r. rewrite (suml_ext ix _ (fun _ => szero)), suml_zero, sadd_0_r; [done|].
        intros y _. rewrite decide_False by (intros (_ & _ & ?); congruence). apply smul_0_l.
      + rewrite decide_False by (intros (_ & _ & ?); congruence). rewrite sadd_0_l. simpl. rewrite smul_1_r.
        assert (Hb : b ∈ ix) by (by apply (ix_keyM r (x, b))).
        rewrite (suml_ext ix _ (fun y => if decide (y = b) then smul (cpart wt (wbody r)) (I y) else szero)).
        2:{ intros y _. destruct (decide (y = b)) as [->|Hne].
            - rewrite decide_True; [done|]. done.
            - rewrite decide_False; [apply smul_0_l|]. intros (_ & _ & E). simpl in E. congruence. }
        by rewrite (suml_pick ix b (fun y => smul (cpart wt (wbody r)) (I y))).
    - rewrite decide_False by (intros (? & ? & _); tauto). rewrite sadd_0_l. rewrite (suml_ext ix _ (fun _ => szero)), suml_zero; [done|].
      intros y _. rewrite decide_False by (intros (? & ? & _); tauto). apply smul_0_l.
  Qed.

  Definition Sol : list (wrule R) :=
    imap (fun i x => WRule x [Val (linsolve star (length ix) (pack_M ix (fst MV)) (pack_V ix (snd MV)) i)]) ix.

  Lemma prod_zero I (fs : list (factor R)) b : Goal b ∈ fs -> (forall k, b <> Cst k) -> test b = None -> I b = szero -> prodl (map (fv I) fs) = szero.
  Proof.
    induction fs as [|f fs IH]; intros Hb Hk Ht Hz; [by apply elem_of_nil in Hb|]. cbn [map prodl fold_right].
    apply elem_of_cons in Hb as [<-|Hb].
    - assert (E : fv I (Goal b) = szero) by (destruct b as [w|k|ts]; simpl; [by rewrite Ht|by destruct (Hk k)|by rewrite Ht]). rewrite E. apply smul_0_l.
    - change (fold_right smul sone (map (fv I) fs)) with (prodl (map (fv I) fs)). rewrite IH by done. apply smul_0_r.
  Qed.
  Lemma rhs_ieq I x : (forall y, y ∉ map whead Bs -> I y = szero) -> rhs wt test P I x = ieq I x.
  Proof.
    intros Hz. unfold rhs, ieq. rewrite suml_filter_dec. apply suml_ext. intros r Hr. apply elem_of_list_In in Hr.
    destruct (decide (whead r = x)) as [Hh|Hh]; [|by rewrite decide_False by tauto].
    destruct (inst Bs r) eqn:Ei; [by rewrite decide_True|]. rewrite decide_False by (intros [_ ?]; done).
    assert (exists b, b ∈ subgoals (wbody r) /\ b ∉ map whead Bs) as (b & Hb & Hnb).
    { revert Ei. unfold inst. clear. induction (subgoals (wbody r)) as [|b bs IH]; [done|]. cbn [forallb]. destruct (decide (b ∈ map whead Bs)) as [Hb|Hb].
      - rewrite (bool_decide_eq_true_2 _ Hb). intros H. destruct (IH H) as (c & Hc & Hn). exists c. split; [by right|done].
      - intros _. exists b. split; [by left|done]. }
    apply elem_of_subgoals in Hb as [Hb Hk]. eapply prod_zero; [done|done| |by apply Hz].
    apply (HnB r b Hr). unfold goals. apply elem_of_list_omap. by exists (Goal b).
  Qed.

  Lemma Sol_solution : solution wt test P (cval Sol).
  Proof.
    destruct (alphabet_ok MV) as [Hd _].
    assert (Hz : forall y, y ∉ map whead Bs -> cval Sol y = szero).
    { intros y Hy. apply cval_absent. unfold Sol. rewrite sol_heads. intros H. by apply ix_support in H. }
    intros x. rewrite rhs_ieq by done. destruct (decide (x ∈ ix)) as [Hx|Hx].
    - apply elem_of_list_lookup in Hx as [i Hi]. unfold Sol at 1. rewrite (sol_val ix _ i x Hd Hi).
      rewrite (linsolve_fixpoint star Hstar) by (by eapply lookup_lt_Some).
      apply system_val; [done|]. intros j y Hj. unfold Sol. symmetry. by apply sol_val.
    - rewrite cval_absent by (unfold Sol; by rewrite sol_heads). symmetry. unfold ieq. rewrite (suml_ext P _ (fun _ => szero)); [apply suml_zero|].
      intros r Hr. apply elem_of_list_In in Hr. rewrite decide_False; [done|]. intros [<- Hi]. apply Hx. by apply head_ix.
  Qed.

  Lemma Sol_least (le : R -> R -> Prop) (I : term -> R) : star_order star le -> (forall x, le szero x) -> above wt test le P I ->
    forall x, le (cval Sol x) (I x).
  Proof.
    intros Hle H0 HI x. destruct (alphabet_ok MV) as [Hd _]. destruct (decide (x ∈ ix)) as [Hx|Hx].
    2:{ rewrite cval_absent; [done|]. unfold Sol. by rewrite sol_heads. }
    apply elem_of_list_lookup in Hx as [i Hi]. unfold Sol. rewrite (sol_val ix _ i x Hd Hi).
    assert (Hdef : forall j y, ix !! j = Some y -> default szero (I <$> (ix !! j)) = I y) by (intros j y ->; done).
    rewrite <- (Hdef i x Hi). apply (linsolve_least star le Hle _ _ _ (fun j => default szero (I <$> (ix !! j)))); [|by eapply lookup_lt_Some].
    clear x i Hi. intros i Hi. apply lookup_lt_is_Some in Hi as [x Hx]. rewrite (Hdef i x Hx).
    rewrite (system_val I i x (fun j => default szero (I <$> ix !! j)) Hx Hdef).
    eapply (so_trans _ _ Hle); [|apply HI]. unfold rhs, ieq. rewrite suml_filter_dec.
    clear HI Hdef. generalize P. clear -Hle H0. intros Q. induction Q as [|r Q IH]; [apply (so_refl _ _ Hle)|]. rewrite !suml_cons. apply (so_add _ _ Hle); [|done].
    destruct (decide (whead r = x)); [|rewrite decide_False by tauto; apply (so_refl _ _ Hle)].
    destruct (inst Bs r); [rewrite decide_True by done; apply (so_refl _ _ Hle)|rewrite decide_False by (intros [_ ?]; done); apply H0].
  Qed.

  Lemma Sol_chart : const_chart test Sol /\ NoDup (map whead Sol).
  Proof.
    unfold Sol. rewrite sol_heads. split; [|apply alphabet_ok]. intros r Hr.
    apply elem_of_lookup_imap in Hr as (i & x & -> & Hi). simpl.
    assert (Hx : x ∈ map whead Bs) by (apply ix_support; by eapply elem_of_list_lookup_2).
    apply elem_of_list_fmap in Hx as (s & -> & Hs). destruct (so_rules _ _ HBs s Hs) as [(H1 & H2 & H3) _]. split; [done|]. split; [done|]. split; [done|]. eauto.
  Qed.
  End solve.

  Lemma solve_linear_ok P n t S : ground_program test P -> no_builtins test P ->
    solve_linear wt al cv sort test star n t P = Ok S ->
    const_chart test S /\ NoDup (map whead S) /\ solution wt test P (cval S) /\
    forall le I, star_order star le -> (forall x, le szero x) -> above wt test le P I -> forall x, le (cval S x) (I x).
  Proof.
    intros HP HnB. unfold solve_linear.
    destruct (bool_support al cv sort test n t P) as [Bs| |] eqn:Eb; [|discriminate..]. cbn [bind].
    apply bool_support_ok in Eb; [|done..].
    destruct (build_system wt cv test n Bs P ([], [])) as [MV| |] eqn:Em; [|discriminate..]. cbn [bind]. intros [= <-].
    apply build_system_ok in Em; [|by apply (so_once _ _ Eb)|by apply program_ground|constructor|constructor].
    destruct (Sol_chart P Bs Eb MV Em) as [H1 H2]. split; [exact H1|]. split; [exact H2|]. split.
    - exact (Sol_solution P HP HnB Bs Eb MV Em).
    - intros le I Hle H0 HI. exact (Sol_least P HP HnB Bs MV Em le I Hle H0 HI).
  Qed.

  (** ** the support is what can be derived *)
  Scheme derives_mut := Minimality for derives Sort Prop
  with derives_all_mut := Minimality for derives_all Sort Prop.

  Lemma derivable_closed P : ground_program test P -> no_builtins test P -> closed_in P (derivable wt test P).
  Proof.
    intros HP HnB r Hr Hb. pose proof Hr as Hr'. apply elem_of_list_lookup in Hr as [i Hi]. destruct (HP r Hr') as (_ & Hh & Ht & _).
    assert (Hds : exists ds, derives_all wt test P (wbody r) ds) ;
      [|destruct Hds as [ds Hds]; exists (DNode i ds); apply D_item with (r := r); [done|done| |done]; intros k Hk; rewrite Hk in Hh; by destruct Hh as (? & ? & ?)].
    revert Hb. generalize (wbody r). clear. intros fs. induction fs as [|f fs IH]; intros Hb; [eexists; constructor|].
    assert (exists d, derives wt test P f d) as [d Hd].
    { destruct f as [v|b]; [eexists; constructor|]. destruct b as [w|k|ts]; [|eexists; constructor|]; (apply Hb; by left). }
    destruct IH as [ds Hds]; [|eexists; by constructor].
    intros b Hin. apply Hb. apply elem_of_subgoals in Hin as [H1 H2]. apply elem_of_subgoals. split; [by right|done].
  Qed.
  Lemma closed_derivable P D : no_builtins test P -> closed_in P D -> forall x d, (forall k, x <> Cst k) -> test x = None -> derives wt test P (Goal x) d -> D x.
  Proof.
    intros HnB HD x d Hk Ht Hd.
    pose (Q := fun (f : factor R) (_ : dtree R) => match f with Val _ => True | Goal b => (forall k, b <> Cst k) -> test b = None -> D b end).
    pose (Qs := fun (fs : list (factor R)) (_ : list (dtree R)) => forall b, b ∈ subgoals fs -> test b = None -> D b).
    refine (derives_mut R wt test P Q Qs _ _ _ _ _ _ (Goal x) d Hd Hk Ht); unfold Q, Qs.
    - done.
    - intros k H. by destruct (H k).
    - intros b _ H _ H'. congruence.
    - intros i r ds Hi _ _ _ IH _ _. pose proof (elem_of_list_lookup_2 _ _ _ Hi) as Hr. apply (HD r Hr). intros b Hb. apply IH; [done|].
      apply elem_of_subgoals in Hb as [Hb _]. apply (HnB r b Hr). unfold goals. apply elem_of_list_omap. by exists (Goal b).
    - intros b Hb. by apply elem_of_nil in Hb.
    - intros f fs d' ds _ H1 _ H2 b Hb Hn. apply elem_of_subgoals in Hb as [Hb Hc]. apply elem_of_cons in Hb as [<-|Hb]; [by apply H1|].
      apply H2; [|done]. by apply elem_of_subgoals.
  Qed.
  Lemma support_derivable P Bs : ground_program test P -> no_builtins test P -> support_ok P Bs ->
    forall x, (forall k, x <> Cst k) -> test x = None -> x ∈ map whead Bs <-> derivable wt test P x.
  Proof.
    intros HP HnB HB x Hk Ht. split.
    - apply (so_least _ _ HB). by apply derivable_closed.
    - intros [d Hd]. eapply (closed_derivable P (fun x => x ∈ map whead Bs)); [done|apply (so_closed _ _ HB)|done|done|done].
  Qed.
  Lemma inst_derivable P Bs r : ground_program test P -> no_builtins test P -> support_ok P Bs -> r ∈ P ->
    inst Bs r = true <-> forall b, b ∈ items (wbody r) -> derivable wt test P b.
  Proof.
    intros HP HnB HB Hr. rewrite <- subgoals_items.
    assert (Hs : forall b, b ∈ subgoals (wbody r) -> b ∈ map whead Bs <-> derivable wt test P b).
    { intros b Hb. apply elem_of_subgoals in Hb as [Hb Hc]. apply support_derivable; [done..|]. apply (HnB r b Hr). unfold goals. apply elem_of_list_omap. by exists (Goal b). }
    split.
    - intros Hi b Hb. apply (Hs b Hb). exact (proj1 (inst_true Bs r) Hi b Hb).
    - intros H. apply inst_true. intros b Hb. apply (Hs b Hb). by apply H.
  Qed.

  Lemma solve_linear_settles P : ground_program test P -> no_builtins test P -> linear wt test P ->
    exists S n0 t0, forall n t, n0 <= n -> t0 <= t -> solve_linear wt al cv sort test star n t P = Ok S.
  Proof using Hal Hcv Hsort.
    intros HP HnB HL. destruct (bool_support_settles P HP HnB) as (Bs & n0 & t0 & HB).
    pose proof (bool_support_ok P HP HnB n0 t0 Bs (HB n0 t0 (le_n _) (le_n _))) as Hs.
    destruct (build_system_settles Bs P ([], [])) as [MV [n1 H1]]; [apply (so_once _ _ Hs)|by apply program_ground| |].
    { intros r Hr Hi. rewrite subgoals_items. apply HL; [done|]. by apply (inst_derivable P Bs). }
    eexists _, (n0 `max` n1), t0. intros n t Hn Ht. unfold solve_linear. rewrite HB by lia. cbn [bind]. rewrite H1 by lia. cbn [bind]. reflexivity.
  Qed.
  Lemma solve_linear_raises P : ground_program test P -> no_builtins test P ->
    (exists r, r ∈ P /\ (forall b, b ∈ items (wbody r) -> derivable wt test P b) /\ 1 < length (items (wbody r))) ->
    exists n0 t0, forall n t, n0 <= n -> t0 <= t -> solve_linear wt al cv sort test star n t P = Raise AssertionError.
  Proof using Hal Hcv Hsort.
    intros HP HnB (r & Hr & Hi & Hl). destruct (bool_support_settles P HP HnB) as (Bs & n0 & t0 & HB).
    pose proof (bool_support_ok P HP HnB n0 t0 Bs (HB n0 t0 (le_n _) (le_n _))) as Hs.
    destruct (build_system_raises Bs P ([], [])) as [n1 H1]; [apply (so_once _ _ Hs)|by apply program_ground| |].
    { exists r. split; [done|]. split; [by apply (inst_derivable P Bs)|by rewrite subgoals_items]. }
    exists (n0 `max` n1), t0. intros n t Hn Ht. unfold solve_linear. rewrite HB by lia. cbn [bind]. rewrite H1 by lia. reflexivity.
  Qed.
End linear.
