(** Proofs about equations: a rule and the rule without its (true) equations have the
    same value. *)
From Coq Require Import List Lia.
From stdpp Require Import gmap.
From Coq Require String Ascii.
From Verif Require Import PyBase Semiring TermModel TermSpec TermProofs UnifyProofs SetsModel SetsProofs PruneModel SolverSpec SolverProofs
  ChartProofs UpdateModel UpdateSpec UpdateProofs ElimProofs NormalModel NormalSpec.
Import ListNotations.

(** * Sums *)
Section sums.
Context {R : semiring}.
Lemma sum_over_h {A B} (P : A -> Prop) (Q : B -> Prop) (f : A -> R) (g : B -> R) (h : A -> B) v :
  (forall a, P a -> Q (h a) /\ f a = g (h a)) -> (forall a a', P a -> P a' -> h a = h a' -> a = a') ->
  (forall b, Q b -> exists a, P a /\ h a = b) -> sum_over P f v <-> sum_over Q g v.
Proof.
  intros H1 H2 H3. split.
  - intros (L & HN & HL & Hz & ->). exists (map h L). split; [|split; [|split]].
    + clear Hz. induction HN as [|a L Ha HN IH]; [constructor|]. simpl. constructor.
      * intros Hin. apply elem_of_list_fmap in Hin as (a' & E & Hin). apply Ha.
        rewrite (H2 a a'); [done|apply HL; by left|apply HL; by right|done].
      * apply IH. intros a' Ha'. apply HL. by right.
    + intros b Hb. apply elem_of_list_fmap in Hb as (a & -> & Ha). by apply H1, HL.
    + intros b Hb. destruct (H3 b Hb) as (a & Ha & <-). destruct (Hz a Ha) as [Hin|H0].
      * left. by apply elem_of_list_fmap_1.
      * right. rewrite <- H0. symmetry. by apply H1.
    + rewrite suml_map. apply suml_ext. intros a Ha. apply H1, HL. by apply elem_of_list_In.
  - intros (L & HN & HL & Hz & ->).
    assert (HL' : exists L', map h L' = L /\ forall a, a ∈ L' -> P a).
    { clear Hz HN. induction L as [|b L IH]; [exists []; split; [done|]; intros a Ha; by apply elem_of_nil in Ha|].
      destruct IH as (L' & <- & HP); [intros b' Hb'; apply HL; by right|]. destruct (H3 b) as (a & Ha & <-); [apply HL; by left|].
      exists (a :: L'). split; [done|]. intros a' Ha'. apply elem_of_cons in Ha' as [->|Ha']; [done|by apply HP]. }
    destruct HL' as (L' & <- & HP). exists L'. split; [|split; [|split]].
    + by eapply NoDup_fmap_1.
    + done.
    + intros a Ha. destruct (Hz (h a)) as [Hin|H0]; [by apply H1| |right; rewrite <- H0; by apply H1].
      left. apply elem_of_list_fmap in Hin as (a' & E & Hin). rewrite (H2 a a'); [done|done|by apply HP|done].
    + rewrite suml_map. apply suml_ext. intros a Ha. symmetry. apply H1, HP. by apply elem_of_list_In.
Qed.
Lemma suml_filter {A} (L : list A) (b : A -> bool) (f : A -> R) : (forall a, a ∈ L -> b a = false -> f a = szero) ->
  suml (List.filter b L) f = suml L f.
Proof.
  induction L as [|a L IH]; intros H; [done|]. cbn [List.filter]. rewrite suml_cons. destruct (b a) eqn:E.
  - rewrite suml_cons, IH; [done|]. intros a' Ha'. apply H. by right.
  - rewrite IH by (intros a' Ha'; apply H; by right). rewrite (H a) by (done || by left). by rewrite sadd_0_l.
Qed.
Lemma sum_over_part {A} (P : A -> Prop) (b : A -> bool) (f : A -> R) v : (forall a, P a -> b a = false -> f a = szero) ->
  sum_over P f v <-> sum_over (fun a => P a /\ b a = true) f v.
Proof.
  intros H. split.
  - intros (L & HN & HL & Hz & ->). exists (List.filter b L). split; [|split; [|split]].
    + apply NoDup_ListNoDup, List.NoDup_filter. by apply NoDup_ListNoDup.
    + intros a Ha. apply elem_of_list_In, filter_In in Ha as [Ha Hb]. split; [|done]. apply HL. by apply elem_of_list_In.
    + intros a [Ha Hb]. destruct (Hz a Ha) as [Hin|H0]; [left|by right]. apply elem_of_list_In, filter_In. split; [by apply elem_of_list_In|done].
    + symmetry. apply suml_filter. intros a Ha. apply H. by apply HL.
  - intros (L & HN & HL & Hz & ->). exists L. split; [done|]. split; [intros a Ha; by apply HL|]. split; [|done].
    intros a Ha. destruct (b a) eqn:E; [by apply Hz|right; by apply H].
Qed.
End sums.

(** * Rules with marked equations *)
Section marked.
Context {R : semiring} (I : term -> R) (HI : equality I).
Notation fac := (factor R).

Definition all_of (fs : list (bool * fac)) : list fac := map snd fs.
Definition kept (fs : list (bool * fac)) : list fac := map snd (List.filter (fun f => negb (fst f)) fs).
Definition marks_ok (fs : list (bool * fac)) : Prop := forall f, In (true, f) fs -> exists x y, f = Goal (x ≐ y).
Definition shape (fs : list fac) : list (option R) := map (fun f => match f with Val v => Some v | Goal _ => None end) fs.
Definition true_eqs (σ : nat -> term) (fs : list (bool * fac)) : Prop := forall b, In (true, Goal b) fs -> holds σ b.

Fixpoint drop_ys (fs : list (bool * fac)) (ys : list term) : list term :=
  match fs, ys with
  | (_, Val _) :: fs, ys => drop_ys fs ys
  | (m, Goal _) :: fs, y :: ys => if m then drop_ys fs ys else y :: drop_ys fs ys
  | _, _ => []
  end.
Definition is_true_eq (y : term) : bool := match y with Fn [_; a; b] => bool_decide (a = b) | _ => false end.
Fixpoint eqs_true (fs : list (bool * fac)) (ys : list term) : bool :=
  match fs, ys with
  | (_, Val _) :: fs, ys => eqs_true fs ys
  | (m, Goal _) :: fs, y :: ys => (negb m || is_true_eq y) && eqs_true fs ys
  | _, _ => true
  end.

Lemma marks_cons f fs : marks_ok (f :: fs) -> marks_ok fs.
Proof. intros H g Hg. apply H. by right. Qed.
Lemma drop_inst σ fs : marks_ok fs -> drop_ys fs (map (sub σ) (goals (all_of fs))) = map (sub σ) (goals (kept fs)).
Proof.
  induction fs as [|[m [v|b]] fs IH]; intros Hm; [done|..]; pose proof (marks_cons _ _ Hm) as Hm'.
  - destruct m; [destruct (Hm (Val v)) as (x & y & E); [by left|done]|]. cbn. by apply IH.
  - destruct m; cbn; [by apply IH|]. f_equal. by apply IH.
Qed.
Lemma eqs_inst σ fs : marks_ok fs -> eqs_true fs (map (sub σ) (goals (all_of fs))) = true <-> true_eqs σ fs.
Proof.
  induction fs as [|[m [v|b]] fs IH]; intros Hm; [split; [intros _ b []|done]|..]; pose proof (marks_cons _ _ Hm) as Hm'.
  - cbn. rewrite (IH Hm'). split; intros H b Hb; [destruct Hb as [Hb|Hb]; [done|by apply H]|apply H; by right].
  - cbn. rewrite andb_true_iff. rewrite (IH Hm'). destruct m; cbn.
    + destruct (Hm (Goal b)) as (x & y & [= ->]); [by left|]. cbn. rewrite bool_decide_eq_true. split.
      * intros [H1 H2] b Hb. destruct Hb as [[= <-]|Hb]; [|by apply H2]. by intros x' y' [= <- <-].
      * intros H. split; [by apply (H (x ≐ y)); [by left|]|]. intros b Hb. apply H. by right.
    + split; [intros [_ H] b' Hb; destruct Hb as [Hb|Hb]; [done|by apply H]|]. intros H. split; [done|]. intros b' Hb. apply H. by right.
Qed.
Lemma bv_shape fs fs' ys : shape fs = shape fs' -> body_value I fs ys = body_value I fs' ys.
Proof.
  revert fs' ys. induction fs as [|[v|b] fs IH]; intros [|[v'|b'] fs'] ys E; try done; cbn in E.
  - injection E as -> E. cbn. by rewrite (IH fs').
  - injection E as E. cbn. destruct ys; [done|]. by rewrite (IH fs').
Qed.
Lemma bv_drop σ fs : marks_ok fs ->
  body_value I (all_of fs) (map (sub σ) (goals (all_of fs))) =
  if eqs_true fs (map (sub σ) (goals (all_of fs))) then body_value I (kept fs) (map (sub σ) (goals (kept fs))) else szero.
Proof.
  induction fs as [|[m [v|b]] fs IH]; intros Hm; [done|..]; pose proof (marks_cons _ _ Hm) as Hm'; specialize (IH Hm').
  - destruct m; [destruct (Hm (Val v)) as (x & y & E); [by left|done]|].
    change (smul v (body_value I (all_of fs) (map (sub σ) (goals (all_of fs)))) =
      if eqs_true fs (map (sub σ) (goals (all_of fs))) then smul v (body_value I (kept fs) (map (sub σ) (goals (kept fs)))) else szero).
    rewrite IH. destruct (eqs_true _ _); [done|]. apply smul_0_r.
  - destruct m.
    + destruct (Hm (Goal b)) as (x & y & [= ->]); [by left|].
      change (smul (I (sub σ x ≐ sub σ y)) (body_value I (all_of fs) (map (sub σ) (goals (all_of fs)))) =
        if bool_decide (sub σ x = sub σ y) && eqs_true fs (map (sub σ) (goals (all_of fs))) then body_value I (kept fs) (map (sub σ) (goals (kept fs))) else szero).
      rewrite HI, IH. destruct (decide _) as [E|E].
      * rewrite bool_decide_true by done. apply smul_1_l.
      * rewrite bool_decide_false by done. apply smul_0_l.
    + change (smul (I (sub σ b)) (body_value I (all_of fs) (map (sub σ) (goals (all_of fs)))) =
        if eqs_true fs (map (sub σ) (goals (all_of fs))) then smul (I (sub σ b)) (body_value I (kept fs) (map (sub σ) (goals (kept fs)))) else szero).
      rewrite IH. destruct (eqs_true _ _); [done|]. apply smul_0_r.
Qed.

Lemma marked_rule r1 r2 fs :
  wbody r1 = all_of fs -> marks_ok fs -> shape (kept fs) = shape (wbody r2) ->
  (forall σ, (forall v, ground (σ v)) -> true_eqs σ fs -> exists σ', (forall v, ground (σ' v)) /\
     sub σ' (whead r2) = sub σ (whead r1) /\ map (sub σ') (goals (wbody r2)) = map (sub σ) (goals (kept fs))) ->
  (forall σ', (forall v, ground (σ' v)) -> exists σ, (forall v, ground (σ v)) /\ true_eqs σ fs /\
     sub σ' (whead r2) = sub σ (whead r1) /\ map (sub σ') (goals (wbody r2)) = map (sub σ) (goals (kept fs))) ->
  (forall σ τ, (forall v, ground (σ v)) -> (forall v, ground (τ v)) -> true_eqs σ fs -> true_eqs τ fs ->
     sub σ (whead r1) = sub τ (whead r1) -> map (sub σ) (goals (kept fs)) = map (sub τ) (goals (kept fs)) ->
     map (sub σ) (goals (wbody r1)) = map (sub τ) (goals (wbody r1))) ->
  forall x v, rule_value I r1 x v <-> rule_value I r2 x v.
Proof.
  intros Eb Hm Hsh H1 H2 H3 x v. unfold rule_value. rewrite (sum_over_part _ (eqs_true fs)).
  2: { intros ys (σ & Hg & _ & <-) E. rewrite Eb in *. rewrite bv_drop by done. by rewrite E. }
  apply sum_over_h with (h := drop_ys fs).
  - intros ys [(σ & Hg & Hh & <-) E]. rewrite Eb in *. rewrite drop_inst by done.
    destruct (H1 σ Hg) as (σ' & Hg' & Hh' & Hb'); [by apply eqs_inst|]. split.
    + exists σ'. split; [done|]. split; [by rewrite Hh'|done].
    + rewrite bv_drop by done. rewrite E. by apply bv_shape.
  - intros ys ys' [(σ & Hg & Hh & <-) E] [(τ & Hg' & Hh' & <-) E'] Ed. rewrite Eb in *. rewrite !drop_inst in Ed by done.
    apply H3; try done; [by apply eqs_inst..|by rewrite Hh, Hh'].
  - intros ys (σ' & Hg & Hh & <-). destruct (H2 σ' Hg) as (σ & Hg' & Ht & Hh' & Hb'). exists (map (sub σ) (goals (all_of fs))). split.
    + split; [exists σ; rewrite Eb; split; [done|]; split; [by rewrite <- Hh'|done]|]. by apply eqs_inst.
    + rewrite drop_inst by done. done.
Qed.
End marked.

Lemma groundsub_ground (σ : nat -> term) t : (forall v, ground (σ v)) -> ground (sub σ t).
Proof.
  intros Hg. unfold ground. destruct (vars (sub σ t)) as [|v l] eqn:E; [done|]. exfalso.
  assert (Hv : In v (vars (sub σ t))) by (rewrite E; by left). apply vars_sub in Hv as (w & _ & Hw). by rewrite Hg in Hw.
Qed.

(** * Resolving equations *)
Section snapping.
Context {R : semiring}.
Notation fac := (factor R).
Definition is_eqf (f : fac) : bool :=
  match f with Goal (Fn [Cst k; _; _]) => bool_decide (k = eq_name) | _ => false end.
Definition mark (fs : list fac) : list (bool * fac) := map (fun f => (is_eqf f, f)) fs.
Lemma mark_all fs : all_of (mark fs) = fs.
Proof. unfold all_of, mark. rewrite map_map. apply map_id. Qed.
Lemma is_eqf_true f : is_eqf f = true -> exists x y, f = Goal (x ≐ y).
Proof.
  destruct f as [v|[w|k|[|[w|k|l] [|x [|y [|]]]]]]; try done. cbn. rewrite bool_decide_eq_true. intros ->. by exists x, y.
Qed.
Lemma mark_ok fs : marks_ok (mark fs).
Proof. intros f Hf. apply in_map_iff in Hf as (g & [= Hg <-] & _). by apply is_eqf_true. Qed.
Lemma mark_in fs b : In (true, Goal b) (mark fs) <-> Goal b ∈ fs /\ equation b.
Proof.
  unfold mark. rewrite in_map_iff. split.
  - intros (g & E & Hg). injection E as E ->. split; [by apply elem_of_list_In|]. apply is_eqf_true in E as (x & y & [= ->]). by exists x, y.
  - intros (Hb & x & y & ->). exists (Goal (x ≐ y)). split; [done|by apply elem_of_list_In].
Qed.
Lemma kept_in fs f : In f (kept (mark fs)) <-> f ∈ fs /\ is_eqf f = false.
Proof.
  unfold kept, mark. rewrite in_map_iff. split.
  - intros (g & <- & Hg). apply filter_In in Hg as [Hg E]. apply in_map_iff in Hg as (f & <- & Hf). cbn in *.
    split; [by apply elem_of_list_In|]. by destruct (is_eqf f).
  - intros [Hf E]. exists (false, f). split; [done|]. apply filter_In. split; [|done]. apply in_map_iff. exists f. split; [by rewrite E|by apply elem_of_list_In].
Qed.
Lemma true_eqs_cons σ f fs : true_eqs σ (mark (f :: fs)) <-> (forall b, is_eqf f = true -> f = Goal b -> holds σ b) /\ true_eqs σ (mark fs).
Proof.
  unfold true_eqs, mark. cbn [map In]. split.
  - intros H. split; [|intros b Hb; apply H; by right]. intros b E ->. apply H. left. by rewrite E.
  - intros [H1 H2] b [Hb|Hb]; [|by apply H2]. injection Hb as E ->. by apply H1.
Qed.

Definition fvars (fs : list fac) : list nat := flat_map vars (goals fs).
Lemma snap_body_ok (V : gset nat) n : forall fs st o, acyclic st -> closed_V V st ->
  (forall b, Goal b ∈ fs -> const_functor b) -> (forall b, Goal b ∈ fs -> in_V V b) ->
  snap_body n st fs = Ok o ->
  match o with
  | None => forall σ, solves σ st -> ~ true_eqs σ (mark fs)
  | Some (st', ys) => acyclic st' /\ closed_V V st' /\ (forall v, v ∉ V -> st' !! v = st !! v) /\ ys = kept (mark fs) /\
      forall σ, solves σ st' <-> solves σ st /\ true_eqs σ (mark fs)
  end.
Proof.
  induction fs as [|f0 fs IH]; intros st o Hac Hcl Hcf HV E.
  - injection E as <-. split_and!; try done. intros σ. split; [|tauto]. intros H. split; [done|]. intros b [].
  - assert (Hcf' : forall b, Goal b ∈ fs -> const_functor b) by (intros b Hb; apply Hcf; by right).
    assert (HV' : forall b, Goal b ∈ fs -> in_V V b) by (intros b Hb; apply HV; by right).
    assert (Hrest : is_eqf f0 = false -> (let* o := snap_body n st fs in Ok (match o with Some (st', ys) => Some (st', f0 :: ys) | None => None end)) = Ok o ->
      match o with
      | None => forall σ, solves σ st -> ~ true_eqs σ (mark (f0 :: fs))
      | Some (st', ys) => acyclic st' /\ closed_V V st' /\ (forall v, v ∉ V -> st' !! v = st !! v) /\ ys = kept (mark (f0 :: fs)) /\
          forall σ, solves σ st' <-> solves σ st /\ true_eqs σ (mark (f0 :: fs))
      end).
    { intros Ef Er. destruct (snap_body n st fs) as [o'| |] eqn:Es; [|done..]. cbn [bind] in Er. injection Er as <-.
      specialize (IH st o' Hac Hcl Hcf' HV' Es).
      assert (Ht : forall σ, true_eqs σ (mark (f0 :: fs)) <-> true_eqs σ (mark fs)).
      { intros σ. rewrite true_eqs_cons. split; [tauto|]. intros H. split; [|done]. intros b Eb. congruence. }
      destruct o' as [[st' ys]|]; [|intros σ Hσ; rewrite Ht; by apply IH].
      destruct IH as (H1 & H2 & H3 & H4 & H5). split_and!; try done.
      - unfold kept, mark. cbn [map List.filter fst]. rewrite Ef. cbn. by rewrite H4.
      - intros σ. by rewrite Ht. }
    destruct f0 as [v|[w|k|[|f args]]]; cbn [snap_body] in E; try (by apply Hrest).
    assert (Hf : exists k, f = Cst k). { specialize (Hcf (Fn (f :: args)) (elem_of_list_here _ _)). destruct f; try done. by eexists. }
    destruct Hf as [k ->]. destruct n as [|n]; [done|]. cbn [snap bind] in E.
    destruct (decide (Cst k = Cst eq_name)) as [Ek|Ek].
    2: { apply Hrest; [|done]. cbn. destruct args as [|x [|y [|]]]; try done. apply bool_decide_eq_false. congruence. }
    injection Ek as ->. destruct args as [|x [|y [|]]]; try done.
    destruct (unify_f (S n) st x y) as [[st1 u]| |] eqn:Eu; [|done..]. cbn [bind] in E.
    destruct (unify_ok (S n) st x y st1 u Hac Eu) as (Hac1 & _ & Hu).
    assert (HVx : in_V V x /\ in_V V y).
    { specialize (HV _ (elem_of_list_here _ _)). unfold in_V in *. cbn in HV. rewrite app_nil_r in HV. split; intros v Hv; apply HV, in_or_app; auto. }
    destruct HVx as [HVx HVy].
    destruct (unify_dom V (S n) st x y st1 u Hac Hcl HVx HVy Eu) as [Hcl1 Hd1].
    assert (Hh : forall σ, true_eqs σ (mark (Goal (Fn [Cst eq_name; x; y]) :: fs)) <-> sub σ x = sub σ y /\ true_eqs σ (mark fs)).
    { intros σ. rewrite true_eqs_cons. split.
      - intros [H1 H2]. split; [|done]. apply (H1 (x ≐ y)); [by cbn|done|done].
      - intros [H1 H2]. split; [|done]. intros b _ [= <-] x' y' [= <- <-]. done. }
    destruct u.
    + specialize (IH st1 o Hac1 Hcl1 Hcf' HV' E). destruct o as [[st' ys]|].
      * destruct IH as (H1 & H2 & H3 & H4 & H5). split_and!; try done.
        -- intros v Hv. rewrite H3 by done. by apply Hd1.
        -- intros σ. rewrite Hh, H5, Hu. tauto.
      * intros σ Hσ. rewrite Hh. intros [H1 H2]. apply (IH σ); [by apply Hu|done].
    + injection E as <-. intros σ Hσ. rewrite Hh. intros [H1 H2]. by apply (Hu σ).
Qed.

Context (I : term -> R) (HI : equality I).
Lemma goals_in (fs : list fac) b : In b (goals fs) <-> Goal b ∈ fs.
Proof.
  rewrite <- elem_of_list_In. unfold goals. rewrite elem_of_list_omap. split.
  - intros ([v|b'] & H & E); [done|]. by injection E as ->.
  - intros H. by exists (Goal b).
Qed.
Lemma snapped_value r st θ : determined r -> acyclic st -> resolution st θ ->
  (forall σ, solves σ st <-> true_eqs σ (mark (wbody r))) ->
  forall x v, rule_value I r x v <-> rule_value I (rsub θ (WRule (whead r) (kept (mark (wbody r))))) x v.
Proof.
  intros Hd Hac Hθ Hst. apply (marked_rule I HI) with (fs := mark (wbody r)).
  - by rewrite mark_all.
  - apply mark_ok.
  - unfold shape, rsub. cbn [wbody whead]. rewrite map_map. apply map_ext. by intros [].
  - intros σ Hg Ht. exists σ. split; [done|]. apply Hst in Ht. cbn [rsub whead wbody].
    split; [by apply (resolution_most_general st)|]. rewrite goals_fsub, map_map. apply map_ext. intros b. by apply (resolution_most_general st).
  - intros σ' Hg. exists (fun v => sub σ' (θ v)).
    assert (Hs : forall t, sub (fun v => sub σ' (θ v)) t = sub σ' (sub θ t)) by (intros t; by rewrite sub_sub).
    split; [intros v; by apply groundsub_ground|]. split.
    + apply Hst. intros v t Ev. cbn. rewrite Hs. by rewrite <- (proj1 Hθ v t Ev).
    + cbn [rsub whead wbody]. rewrite Hs. split; [done|]. rewrite goals_fsub, map_map. apply map_ext. intros b. by rewrite Hs.
  - intros σ τ Hg1 Hg2 H1 H2 Hh Hk. apply map_ext_in. intros b Hb. apply goals_in in Hb.
    apply (Hd σ τ); try done.
    + intros b' Hb'. assert (Hc : is_eqf (Goal b') = true \/ is_eqf (Goal b') = false) by (by destruct (is_eqf _); auto).
      destruct Hc as [Hc|Hc].
      * apply is_eqf_true in Hc as (x & y & [= ->]). split; [apply H1|apply H2]; apply mark_in; (split; [done|by eexists _, _]).
      * split; intros x y ->; cbn in Hc; by rewrite bool_decide_true in Hc.
    + intros b' Hb' Hne. assert (Hin : In b' (goals (kept (mark (wbody r))))).
      { apply goals_in, elem_of_list_In, kept_in. split; [done|]. destruct (is_eqf (Goal b')) eqn:E; [|done]. exfalso. apply Hne. apply is_eqf_true in E as (x & y & [= ->]). by exists x, y. }
      clear -Hin Hk. induction (goals (kept (mark (wbody r)))) as [|c l IH]; [done|]. cbn in Hk. injection Hk as E1 E2.
      destruct Hin as [->|Hin]; [done|by apply IH].
Qed.
Lemma failed_value r : (forall σ, ~ true_eqs σ (mark (wbody r))) -> forall x v, rule_value I r x v <-> v = szero.
Proof.
  intros Hno x v. unfold rule_value. assert (Hz : forall ys, winst r x ys -> body_value I (wbody r) ys = szero).
  { intros ys (σ & Hg & _ & <-). pose proof (bv_drop I HI σ (mark (wbody r)) (mark_ok _)) as H. rewrite mark_all in H. rewrite H.
    destruct (eqs_true _ _) eqn:E; [|done]. exfalso. apply (Hno σ). apply eqs_inst; [apply mark_ok|]. by rewrite mark_all. }
  split.
  - intros (L & HN & HL & _ & ->). rewrite (suml_ext L _ (fun _ => szero)); [apply suml_zero|]. intros a Ha. apply Hz, HL. by apply elem_of_list_In.
  - intros ->. exists []. split; [constructor|]. split; [intros a Ha; by apply elem_of_nil in Ha|]. split; [intros ys Hys; right; by apply Hz|done].
Qed.
End snapping.

Section snap_program.
Context {R : semiring} (Hcomm : forall x y : R, smul x y = smul y x).
Context (wt : const -> R) (negligible is_one : R -> bool) (al cv : nat -> nat).
Context (Hal : forall i j, al i = al j -> i = j) (Hcv : forall i j, cv i = cv j -> i = j).
Context (Hneg : forall C, negligible C = true -> C = szero) (Hone : forall C, is_one C = true -> C = sone).

Definition good (c : nat) (r : wrule R) : Prop :=
  item_head (whead r) /\ (forall b, Goal b ∈ wbody r -> const_functor b) /\ determined r /\
  forall v j, v ∈ wvars r -> c <= j -> v <> al j.
Definition made (c : nat) (P : pstate R) : Prop :=
  c <= p_c P /\ forall r v, r ∈ p_rules P -> v ∈ wvars r -> exists j, v = al j /\ c <= j.
Lemma sub_item_head θ h : item_head h -> item_head (sub θ h).
Proof. intros (f & args & ->). by eexists _, _. Qed.

Lemma snap_rule_ok n c r P P' : good c r -> made c P -> inv wt cv P ->
  snap_rule al wt negligible is_one cv n r P = Ok P' ->
  made c P' /\ inv wt cv P' /\
  forall I, respects wt I -> equality I -> forall x v, prog_value I (p_rules P') x v <-> prog_value I (p_rules P ++ [r]) x v.
Proof.
  intros (Hh & Hcf & Hd & Hfr) Hm HP E. unfold snap_rule in E.
  destruct (snap_body n ∅ (wbody r)) as [o| |] eqn:Es; [|done..]. cbn [bind] in E.
  set (V := list_to_set (wvars r) : gset nat).
  assert (Hemp : closed_V V ∅) by (intros v t Hv; by rewrite lookup_empty in Hv).
  assert (HV : forall b, Goal b ∈ wbody r -> in_V V b).
  { intros b Hb v Hv. unfold V. apply elem_of_list_to_set, elem_of_app. right. apply elem_of_list_In, in_flat_map. exists b. split; [by apply goals_in|done]. }
  pose proof (snap_body_ok V n (wbody r) ∅ o acyclic_empty Hemp Hcf HV Es) as Hok.
  assert (H0 : forall σ, solves σ (∅ : store)) by (intros σ v t Ev; by rewrite lookup_empty in Ev).
  destruct o as [[st ys]|].
  - destruct Hok as (Hac & Hcl & Hdom & -> & Hst). destruct (acyclic_resolution st Hac) as [θ Hθ].
    assert (Hst' : forall σ, solves σ st <-> true_eqs σ (mark (wbody r))) by (intros σ; rewrite Hst; split; [tauto|done]).
    assert (Hu : unbound st (p_rules P)).
    { intros q v Hq Hv. destruct Hm as [_ Hm]. destruct (Hm q v Hq Hv) as (j & -> & Hj). rewrite Hdom; [apply lookup_empty|].
      intros Hin. apply elem_of_list_to_set in Hin. by apply (Hfr _ j Hin Hj). }
    split; [|split].
    + destruct (update_grows wt negligible is_one al cv Hal n st θ _ P P' Hac Hθ E) as [G1 G2]. destruct Hm as [Hm1 Hm2]. split; [lia|].
      intros q v Hq Hv. destruct (G2 q v Hq Hv) as [(q0 & Hq0 & Hv0)|(j & -> & Hj)]; [by eapply Hm2|]. exists j. split; [done|lia].
    + assert (HI0 : respects wt (fun t => match t with Cst k => wt k | _ => szero end)) by done.
      eapply (update_ok Hcomm wt negligible is_one al cv Hal Hcv Hneg Hone _ HI0 n st θ _ P P' Hac Hθ Hu HP); [|done]. by apply sub_item_head.
    + intros I HI Heq x v.
      destruct (update_ok Hcomm wt negligible is_one al cv Hal Hcv Hneg Hone I HI n st θ (WRule (whead r) (kept (mark (wbody r)))) P P' Hac Hθ Hu HP (sub_item_head θ _ Hh) E) as [_ H2].
      rewrite H2, !prog_value_app. setoid_rewrite prog_value_one. by setoid_rewrite (snapped_value I Heq r st θ Hd Hac Hθ Hst').
  - injection E as <-. split; [done|]. split; [done|]. intros I HI Heq x v. rewrite prog_value_app. setoid_rewrite prog_value_one.
    setoid_rewrite (failed_value I Heq r); [|intros σ; by apply Hok]. split.
    + intros H. exists v, szero. split; [done|]. split; [done|]. by rewrite sadd_0_r.
    + intros (v1 & v2 & H1 & -> & ->). by rewrite sadd_0_r.
Qed.
Lemma snap_rules_ok n c : forall rs P P', (forall r, r ∈ rs -> good c r) -> made c P -> inv wt cv P ->
  foldM (snap_rule al wt negligible is_one cv n) rs P = Ok P' ->
  forall I, respects wt I -> equality I -> forall x v, prog_value I (p_rules P') x v <-> prog_value I (p_rules P ++ rs) x v.
Proof.
  induction rs as [|r rs IH]; intros P P' Hg Hm HP E I HI Heq x v; cbn [foldM] in E; [injection E as <-; by rewrite app_nil_r|].
  destruct (snap_rule al wt negligible is_one cv n r P) as [P1| |] eqn:E1; [|done..]. cbn [bind] in E.
  destruct (snap_rule_ok n c r P P1 (Hg r (elem_of_list_here _ _)) Hm HP E1) as (Hm1 & HP1 & Hv).
  rewrite (IH P1 P' (fun q Hq => Hg q (elem_of_list_further _ _ _ Hq)) Hm1 HP1 E I HI Heq x v).
  change (r :: rs) with ([r] ++ rs). rewrite app_assoc. rewrite (prog_value_app I (p_rules P1) rs), (prog_value_app I (p_rules P ++ [r]) rs).
  by setoid_rewrite (Hv I HI Heq).
Qed.

Lemma snap_body_settles : forall (fs : list (factor R)) st, acyclic st ->
  (forall b, Goal b ∈ fs -> const_functor b /\ two_sided b) -> exists o, settles (fun n => snap_body n st fs) o.
Proof.
  induction fs as [|f0 fs IH]; intros st Hac Hg; [eexists; apply settles_ret|].
  assert (Hg' : forall b, Goal b ∈ fs -> const_functor b /\ two_sided b) by (intros b Hb; apply Hg; by right).
  assert (Hrest : exists o, settles (fun n => let* o := snap_body n st fs in Ok (match o with Some (st', ys) => Some (st', f0 :: ys) | None => None end)) o).
  { destruct (IH st Hac Hg') as [o Ho]. eexists. eapply (settles_bind (fun n => snap_body n st fs)); [exact Ho|]. apply settles_ret. }
  destruct f0 as [v|[w|k|[|f args]]]; try exact Hrest.
  - destruct (Hg (Fn []) (elem_of_list_here _ _)) as [[] _].
  - destruct (Hg (Fn (f :: args)) (elem_of_list_here _ _)) as [Hc Ht]. destruct f as [|k|]; try done.
    assert (Hs : settles (fun n => snap n st (Cst k)) (Cst k)) by (exists 1; intros [|n] Hn; [lia|done]).
    destruct (decide (Cst k = Cst eq_name)) as [Ek|Ek].
    + injection Ek as ->. specialize (Ht args eq_refl). destruct args as [|a [|b [|]]]; try done.
      destruct (unify_settles st a b Hac) as (st1 & u & Hu).
      assert (Hac1 : acyclic st1). { destruct Hu as [n0 Hu]. exact (proj1 (unify_ok n0 st a b st1 u Hac (Hu n0 (le_n _)))). }
      assert (Ho : exists o, settles (fun n => if u then snap_body n st1 fs else Ok None) o).
      { destruct u; [by apply IH|]. eexists. apply settles_ret. }
      destruct Ho as (o & n3 & Ho), Hs as [n1 Hs], Hu as [n2 Hu]. exists o, (n1 + n2 + n3). intros n Hn. cbn [snap_body].
      rewrite Hs by lia. cbn [bind]. rewrite decide_True by done. rewrite Hu by lia. cbn [bind]. apply Ho. lia.
    + destruct Hrest as (o & n3 & Ho), Hs as [n1 Hs]. exists o, (n1 + n3). intros n Hn. cbn [snap_body].
      rewrite Hs by lia. cbn [bind]. rewrite decide_False by done. apply Ho. lia.
Qed.
Lemma snap_rules_settles c : forall rs P, (forall r, r ∈ rs -> good c r /\ forall b, Goal b ∈ wbody r -> two_sided b) -> made c P -> inv wt cv P ->
  exists P', settles (fun n => foldM (snap_rule al wt negligible is_one cv n) rs P) P'.
Proof.
  induction rs as [|r rs IH]; intros P Hg Hm HP; [eexists; apply settles_ret|].
  destruct (Hg r (elem_of_list_here _ _)) as [Hr Ht]. pose proof Hr as (Hh & Hcf & Hd & Hfr).
  destruct (snap_body_settles (wbody r) ∅ acyclic_empty) as [o Ho]; [intros b Hb; split; [by apply Hcf|by apply Ht]|].
  assert (H1 : exists P1, settles (fun n => snap_rule al wt negligible is_one cv n r P) P1).
  { destruct o as [[st ys]|].
    - set (V := list_to_set (wvars r) : gset nat).
      assert (Hemp : closed_V V ∅) by (intros v t Hv; by rewrite lookup_empty in Hv).
      assert (HV : forall b, Goal b ∈ wbody r -> in_V V b).
      { intros b Hb v Hv. unfold V. apply elem_of_list_to_set, elem_of_app. right. apply elem_of_list_In, in_flat_map. exists b. split; [by apply goals_in|done]. }
      destruct Ho as [n0 Ho]. destruct (snap_body_ok V n0 (wbody r) ∅ _ acyclic_empty Hemp Hcf HV (Ho n0 (le_n _))) as (Hac & Hcl & Hdom & -> & Hst).
      destruct (acyclic_resolution _ Hac) as [θ Hθ].
      assert (Hu : unbound st (p_rules P)).
      { intros q v Hq Hv. destruct Hm as [_ Hm]. destruct (Hm q v Hq Hv) as (j & -> & Hj). rewrite Hdom; [apply lookup_empty|].
        intros Hin. apply elem_of_list_to_set in Hin. by apply (Hfr _ j Hin Hj). }
      assert (HI0 : respects wt (fun t => match t with Cst k => wt k | _ => szero end)) by done.
      destruct (update_settles Hcomm wt negligible is_one al cv Hal Hcv Hneg Hone _ HI0 st θ (WRule (whead r) (kept (mark (wbody r)))) P Hac Hθ Hu HP (sub_item_head θ _ Hh)) as [P1 HP1].
      exists P1. unfold snap_rule. eapply (settles_bind (fun n => snap_body n ∅ (wbody r))); [by exists n0|]. exact HP1.
    - exists P. unfold snap_rule. eapply (settles_bind (fun n => snap_body n ∅ (wbody r))); [exact Ho|]. apply settles_ret. }
  destruct H1 as [P1 H1]. pose proof H1 as [n0 H1']. destruct (snap_rule_ok n0 c r P P1 Hr Hm HP (H1' n0 (le_n _))) as (Hm1 & HP1 & _).
  destruct (IH P1 (fun q Hq => Hg q (elem_of_list_further _ _ _ Hq)) Hm1 HP1) as [P2 H2]. exists P2. cbn [foldM].
  eapply (settles_bind (fun n => snap_rule al wt negligible is_one cv n r P)); [exact H1|]. exact H2.
Qed.

(** no equation is left *)
Lemma split_in n st : forall (fs : list (factor R)) C xs C' xs', split_body wt n st fs C xs = Ok (C', xs') -> forall f, f ∈ xs' -> f ∈ xs \/ f ∈ fs.
Proof.
  induction fs as [|f0 fs IH]; intros C xs C' xs' E f Hf; cbn [split_body] in E; [injection E as _ <-; by left|].
  destruct (factor_const wt n st f0) as [[v|]| |]; [| |done..]; cbn [bind] in E; destruct (IH _ _ _ _ E f Hf) as [H|H].
  - by left.
  - right. by right.
  - apply elem_of_app in H as [H| ->%elem_of_list_singleton]; [by left|right; by left].
  - right. by right.
Qed.
Lemma folding_in n st r r1 : constant_folding_rhs wt negligible is_one n st r = Ok (Some r1) -> forall b, Goal b ∈ wbody r1 -> Goal b ∈ wbody r.
Proof.
  unfold constant_folding_rhs. destruct (split_body wt n st (wbody r) sone []) as [[C xs]| |] eqn:Es; [|done..]. cbn [bind]. intros E b Hb.
  assert (H : Goal b ∈ xs).
  { destruct (negligible C); [done|]. destruct (is_one C && _); injection E as <-; cbn [wbody] in Hb; [done|]. apply elem_of_cons in Hb as [Hb|Hb]; done. }
  destruct (split_in _ _ _ _ _ _ _ Es _ H) as [H'|H']; [by apply elem_of_nil in H'|done].
Qed.
Lemma added_goals n st θ (r r' : wrule R) c0 c (P P' : pstate R) i : acyclic st -> resolution st θ ->
  fresh_rule al n st c0 r = Ok (r', c) -> add_rule n st r' P = Ok (P', i) ->
  forall q b, q ∈ p_rules P' -> Goal b ∈ wbody q -> q ∈ p_rules P \/ exists b0 σ, Goal b0 ∈ wbody r /\ b = sub σ b0.
Proof.
  intros Hac Hθ Ef Ea q b Hq Hb. apply (fresh_rule_ok al Hal st θ Hac Hθ) in Ef as (ρ & -> & _ & _ & _). apply add_rule_rules in Ea as [E1 _]. rewrite E1 in Hq.
  apply elem_of_app in Hq as [Hq|Hq]; [by left|]. apply elem_of_list_singleton in Hq as ->. right. cbn [rrename rsub wbody] in Hb.
  apply elem_of_list_fmap in Hb as (f1 & E & Hb). apply elem_of_list_fmap in Hb as (f2 & -> & Hb). destruct f2 as [v|b0]; [done|]. cbn [fsub] in E. injection E as ->.
  exists b0, (fun v => sub (fun v => Var (ρ v)) (θ v)). split; [done|]. by rewrite sub_sub.
Qed.
Lemma update_goals n st θ r P P' : acyclic st -> resolution st θ -> update wt negligible is_one al cv n st r P = Ok P' ->
  forall q b, q ∈ p_rules P' -> Goal b ∈ wbody q -> (exists q0, q0 ∈ p_rules P /\ Goal b ∈ wbody q0) \/ exists b0 σ, Goal b0 ∈ wbody r /\ b = sub σ b0.
Proof.
  intros Hac Hθ. unfold update. destruct (constant_folding_rhs wt negligible is_one n st r) as [[r1|]| |] eqn:Ec; [|intros [= <-]; eauto|discriminate..].
  cbn [bind]. set (m := match p_buckets P with Some _ => Ok P | None => _ end).
  destruct m as [P1| |] eqn:Em; [|discriminate..]. cbn [bind].
  assert (H1 : p_rules P1 = p_rules P).
  { unfold m in Em. destruct (p_buckets P); [by injection Em as <-|]. destruct (make_buckets wt cv n st 0 (p_rules P) ∅); [|discriminate..]. by injection Em as <-. }
  clear Em m. rewrite <- H1. pose proof (folding_in _ _ _ _ Ec) as Hin.
  destruct (update_bucket wt al cv n st r1 P1) as [[P2 o]| |] eqn:Eu; [|discriminate..]. cbn [bind].
  unfold update_bucket in Eu. destruct (get_const_rhs wt n st r1) as [[C|]| |]; [| |discriminate..]; cbn [bind] in Eu.
  - destruct (canonicalize cv n st (whead r1)) as [h| |]; [|discriminate..]. cbn [bind] in Eu.
    destruct (p_buckets P1) as [bk|] eqn:Ebk; [|discriminate]. destruct (bk !! h) as [i|].
    + destruct (merge_at wt n st i C P1) as [P3| |] eqn:Em; [|discriminate..]. cbn [bind] in Eu. injection Eu as <- <-. intros [= <-] q b Hq Hb.
      left. unfold merge_at in Em. destruct (p_rules P1 !! i) as [s|] eqn:Es; [|discriminate]. destruct (wbody s) as [|f [|? ?]] eqn:Ef; [discriminate| |discriminate].
      destruct (factor_const wt n st f) as [[v|]| |]; [|discriminate..]. injection Em as <-. cbn [p_rules] in Hq.
      apply elem_of_list_lookup in Hq as [k Hk]. destruct (decide (k = i)) as [->|Hn].
      * rewrite list_lookup_insert in Hk by (by eapply lookup_lt_Some). injection Hk as <-. cbn [wbody] in Hb. by apply elem_of_list_singleton in Hb.
      * rewrite list_lookup_insert_ne in Hk by done. exists q. split; [by eapply elem_of_list_lookup_2|done].
    + destruct (fresh_rule al n st (p_c P1) r1) as [[r2 c]| |] eqn:Ef; [|discriminate..]. cbn [bind] in Eu.
      destruct (add_rule n st r2 _) as [[P3 i]| |] eqn:Ea; [|discriminate..]. cbn [bind] in Eu. injection Eu as <- <-. intros [= <-] q b Hq Hb.
      destruct (added_goals _ _ _ _ _ _ _ _ _ _ Hac Hθ Ef Ea q b Hq Hb) as [H|(b0 & σ & H & E)]; [left; by exists q|right; exists b0, σ; split; [by apply Hin|done]].
  - injection Eu as <- <-. destruct (fresh_rule al n st (p_c P1) r1) as [[r2 c]| |] eqn:Ef; [|discriminate..]. cbn [bind].
    destruct (add_rule n st r2 _) as [[P3 i]| |] eqn:Ea; [|discriminate..]. cbn [bind]. intros [= <-] q b Hq Hb.
    destruct (added_goals _ _ _ _ _ _ _ _ _ _ Hac Hθ Ef Ea q b Hq Hb) as [H|(b0 & σ & H & E)]; [left; by exists q|right; exists b0, σ; split; [by apply Hin|done]].
Qed.
Definition eq_free (P : pstate R) : Prop := forall q b, q ∈ p_rules P -> Goal b ∈ wbody q -> ~ equation b.
Lemma snap_rules_free n : forall rs P P', (forall r b, r ∈ rs -> Goal b ∈ wbody r -> const_functor b /\ forall v, b <> Var v) -> eq_free P ->
  foldM (snap_rule al wt negligible is_one cv n) rs P = Ok P' -> eq_free P'.
Proof.
  induction rs as [|r rs IH]; intros P P' Hg HP E; cbn [foldM] in E; [by injection E as <-|].
  destruct (snap_rule al wt negligible is_one cv n r P) as [P1| |] eqn:E1; [|done..]. cbn [bind] in E.
  apply (IH P1 P'); [intros q b Hq; apply Hg; by right| |done]. clear E IH P'. unfold snap_rule in E1.
  destruct (snap_body n ∅ (wbody r)) as [o| |] eqn:Es; [|done..]. cbn [bind] in E1.
  set (V := list_to_set (wvars r) : gset nat).
  assert (Hemp : closed_V V ∅) by (intros v t Hv; by rewrite lookup_empty in Hv).
  assert (HV : forall b, Goal b ∈ wbody r -> in_V V b).
  { intros b Hb v Hv. unfold V. apply elem_of_list_to_set, elem_of_app. right. apply elem_of_list_In, in_flat_map. exists b. split; [by apply goals_in|done]. }
  assert (Hr : forall b, Goal b ∈ wbody r -> const_functor b /\ forall v, b <> Var v) by (intros b; apply Hg; by left).
  pose proof (snap_body_ok V n (wbody r) ∅ o acyclic_empty Hemp (fun b Hb => proj1 (Hr b Hb)) HV Es) as Hok.
  destruct o as [[st ys]|]; [|by injection E1 as <-]. destruct Hok as (Hac & _ & _ & -> & _). destruct (acyclic_resolution _ Hac) as [θ Hθ].
  intros q b Hq Hb. destruct (update_goals _ _ _ _ _ _ Hac Hθ E1 q b Hq Hb) as [(q0 & Hq0 & Hb0)|(b0 & σ & Hb0 & ->)]; [by apply (HP q0)|].
  cbn [wbody] in Hb0. apply elem_of_list_In, kept_in in Hb0 as [Hb0 He]. destruct (Hr b0 Hb0) as [H1 H2]. intros (x & y & E).
  destruct b0 as [v|k|[|[w|k|l] args]]; try done; [by apply (H2 v)|]. cbn in E. injection E as -> E. destruct args as [|a [|a' [|]]]; try done.
Qed.
End snap_program.

(** * Making equations *)
Section flat.
Context (al : nat -> nat) (Hal : forall i j, al i = al j -> i = j).

Definition flats : list term -> nat -> res (list term * list term * nat) :=
  fix flats (args : list term) (c : nat) : res (list term * list term * nat) :=
    match args with
    | [] => Ok ([], [], c)
    | y :: ys =>
        let* (e, x, c) := flat al y c in
        let* (es, xs, c) := flats ys c in
        Ok (e ++ es, x :: xs, c)
    end.
Lemma flat_fn f args c : flat al (Fn (f :: args)) c =
  (let* (es, xs, c') := flats args (S c) in Ok (es ++ [t_eq (Var (al c)) (Fn (f :: xs))], Var (al c), c')).
Proof. done. Qed.

Definition low (c : nat) (x : term) : Prop := forall v, In v (vars x) -> forall j, c <= j -> v <> al j.
Definition all_hold (σ : nat -> term) (es : list term) : Prop := forall e, In e es -> holds σ e.

(** [xs] and the equations [es] stand for the terms [x]; the variables [al j] with
    [c <= j < c'] are new. *)
Record flat_ok (x : list term) (c : nat) (es xs : list term) (c' : nat) : Prop := {
  fo_le : c <= c';
  fo_len : length xs = length x;
  fo_new : forall v, In v (flat_map vars xs ++ flat_map vars es) -> In v (flat_map vars x) \/ exists j, v = al j /\ c <= j < c';
  fo_sound : forall σ, all_hold σ es -> map (sub σ) xs = map (sub σ) x;
  fo_exists : forall σ, (forall v, ground (σ v)) -> Forall (low c) x ->
    exists τ, (forall v, ground (τ v)) /\ (forall v, (forall j, c <= j < c' -> v <> al j) -> τ v = σ v) /\ all_hold τ es;
  fo_det : forall σ τ, all_hold σ es -> all_hold τ es -> map (sub σ) xs = map (sub τ) xs -> map (sub σ) es = map (sub τ) es }.

Lemma low_list c x v : Forall (low c) x -> In v (flat_map vars x) -> forall j, c <= j -> v <> al j.
Proof. intros H Hv. apply in_flat_map in Hv as (t & Ht & Hv). rewrite List.Forall_forall in H. by apply (H t). Qed.
Lemma low_le c c' x : c <= c' -> low c x -> low c' x.
Proof. intros Hc H v Hv j Hj. apply H; [done|lia]. Qed.
Lemma holds_ext σ τ e : (forall v, In v (vars e) -> σ v = τ v) -> holds σ e -> holds τ e.
Proof.
  intros H Hh x y ->. rewrite <- (sub_ext σ τ x), <- (sub_ext σ τ y); [by apply Hh|..]; intros v Hv; apply H; cbn; rewrite app_nil_r; apply in_or_app; auto.
Qed.
Lemma all_hold_app σ es1 es2 : all_hold σ (es1 ++ es2) <-> all_hold σ es1 /\ all_hold σ es2.
Proof.
  unfold all_hold. split; [intros H; split; intros e He; apply H, in_or_app; auto|].
  intros [H1 H2] e He. apply in_app_or in He as [He|He]; auto.
Qed.
Lemma fo_same x c : flat_ok x c [] x c.
Proof.
  split; try done.
  - intros v Hv. left. by rewrite app_nil_r in Hv.
  - intros σ Hg _. exists σ. split; [done|]. split; [done|]. intros e [].
Qed.
Lemma fo_weaken x c0 c es xs c' : c0 <= c -> flat_ok x c es xs c' -> flat_ok x c0 es xs c'.
Proof.
  intros Hc [H1 H2 H3 H4 H5 H6]. split; try done; [lia|..].
  - intros v Hv. destruct (H3 v Hv) as [H|(j & -> & Hj)]; [by left|right; exists j; split; [done|lia]].
  - intros σ Hg Hl. destruct (H5 σ Hg) as (τ & G1 & G2 & G3); [eapply List.Forall_impl; [|exact Hl]; intros t; by apply low_le|].
    exists τ. split; [done|]. split; [|done]. intros v Hv. apply G2. intros j Hj. apply Hv. lia.
Qed.
Lemma fo_app x1 c es1 xs1 c1 x2 es2 xs2 c2 : flat_ok x1 c es1 xs1 c1 -> flat_ok x2 c1 es2 xs2 c2 ->
  flat_ok (x1 ++ x2) c (es1 ++ es2) (xs1 ++ xs2) c2.
Proof.
  intros [A1 A2 A3 A4 A5 A6] [B1 B2 B3 B4 B5 B6]. split.
  - lia.
  - rewrite !app_length. lia.
  - intros v Hv. rewrite !flat_map_app in *. rewrite !in_app_iff in Hv. rewrite in_app_iff.
    assert (Hc : In v (flat_map vars xs1 ++ flat_map vars es1) \/ In v (flat_map vars xs2 ++ flat_map vars es2)) by (rewrite !in_app_iff; tauto).
    destruct Hc as [Hc|Hc].
    + destruct (A3 v Hc) as [H|(j & -> & Hj)]; [by left; left|right; exists j; split; [done|lia]].
    + destruct (B3 v Hc) as [H|(j & -> & Hj)]; [by left; right|right; exists j; split; [done|lia]].
  - intros σ Hh. apply all_hold_app in Hh as [H1 H2]. rewrite !map_app. by rewrite A4, B4.
  - intros σ Hg Hl. apply Forall_app in Hl as [Hl1 Hl2]. destruct (A5 σ Hg Hl1) as (τ1 & G1 & G2 & G3).
    destruct (B5 τ1 G1) as (τ & K1 & K2 & K3); [eapply List.Forall_impl; [|exact Hl2]; intros t; by apply low_le|].
    exists τ. split; [done|]. split.
    + intros v Hv. rewrite K2, G2; [done|intros j Hj; apply Hv; lia..].
    + apply all_hold_app. split; [|done]. intros e He. apply (holds_ext τ1); [|by apply G3]. intros v Hv. symmetry. apply K2. intros j Hj.
      destruct (A3 v) as [H|(k & -> & Hk)]; [apply in_or_app; right; apply in_flat_map; by exists e| |intros E; apply Hal in E; lia].
      apply (low_list c x1); [done|done|lia].
  - intros σ τ Hs Ht Hx. apply all_hold_app in Hs as [S1 S2]. apply all_hold_app in Ht as [T1 T2]. rewrite !map_app in Hx |- *.
    apply app_inj_1 in Hx as [X1 X2]; [|by rewrite !map_length]. f_equal; [by apply A6|by apply B6].
Qed.
Lemma fo_fn f args c es xs c' : flat_ok args c es xs c' -> flat_ok [Fn (f :: args)] c es [Fn (f :: xs)] c'.
Proof.
  intros [A1 A2 A3 A4 A5 A6]. split; try done.
  - intros v Hv. cbn in *. rewrite app_nil_r in *. rewrite !in_app_iff in Hv. destruct Hv as [[Hv|Hv]|Hv].
    + left. apply in_or_app. by left.
    + destruct (A3 v) as [H|H]; [apply in_or_app; by left|left; apply in_or_app; by right|by right].
    + destruct (A3 v) as [H|H]; [apply in_or_app; by right|left; apply in_or_app; by right|by right].
  - intros σ Hh. cbn. by rewrite (A4 σ Hh).
  - intros σ Hg Hl. apply A5; [done|]. apply Forall_cons_1, proj1 in Hl. apply List.Forall_forall. intros t Ht v Hv. apply Hl. cbn. apply in_or_app. right.
    apply in_flat_map. by exists t.
  - intros σ τ H1 H2 H3. apply A6; try done. cbn in H3. by injection H3.
Qed.
Lemma fo_name x c es h c' : flat_ok [x] (S c) es [h] c' -> flat_ok [x] c (es ++ [t_eq (Var (al c)) h]) [Var (al c)] c'.
Proof.
  intros [A1 A2 A3 A4 A5 A6]. split.
  - lia.
  - done.
  - intros v Hv. rewrite flat_map_app in Hv. cbn in Hv. rewrite !app_nil_r in *.
    assert (Hc : v = al c \/ In v (flat_map vars [h] ++ flat_map vars es)) by (cbn; rewrite !app_nil_r; destruct Hv as [<-|Hv]; [by left|]; rewrite !in_app_iff in *; cbn in Hv; naive_solver).
    destruct Hc as [->|Hc]; [right; exists c; split; [done|lia]|]. destruct (A3 v Hc) as [H|(j & -> & Hj)]; [left; cbn in H |- *; rewrite ?app_nil_r in *; exact H|right; exists j; split; [done|lia]].
  - intros σ Hh. apply all_hold_app in Hh as [H1 H2]. rewrite <- (A4 σ H1). cbn. f_equal. exact (H2 _ (or_introl eq_refl) (Var (al c)) h eq_refl).
  - intros σ Hg Hl. destruct (A5 σ Hg) as (τ1 & G1 & G2 & G3); [eapply List.Forall_impl; [|exact Hl]; intros t; apply low_le; lia|].
    set (τ := fun v => if decide (v = al c) then sub τ1 h else τ1 v).
    assert (Hτ : forall v, In v (flat_map vars [h] ++ flat_map vars es) -> τ v = τ1 v).
    { intros v Hv. unfold τ. rewrite decide_False; [done|]. intros ->. destruct (A3 _ Hv) as [H|(j & E & Hj)]; [|apply Hal in E; lia].
      apply (low_list c [x] (al c) Hl H c); [lia|done]. }
    exists τ. split; [|split].
    + intros v. unfold τ. destruct (decide _); [by apply groundsub_ground|done].
    + intros v Hv. unfold τ. rewrite decide_False by (apply Hv; lia). apply G2. intros j Hj. apply Hv. lia.
    + apply all_hold_app. split.
      * intros e He. apply (holds_ext τ1); [|by apply G3]. intros v Hv. symmetry. apply Hτ, in_or_app. right. apply in_flat_map. by exists e.
      * intros e [<-|[]] a b E. change (t_eq (Var (al c)) h) with (Var (al c) ≐ h) in E. injection E as <- <-. cbn [sub]. unfold τ at 1. rewrite decide_True by done. apply sub_ext. intros v Hv. symmetry. apply Hτ.
        apply in_or_app. left. cbn. rewrite app_nil_r. done.
  - intros σ τ Hs Ht Hx. apply all_hold_app in Hs as [S1 S2]. apply all_hold_app in Ht as [T1 T2]. cbn in Hx. injection Hx as Hx.
    assert (Hh : sub σ h = sub τ h).
    { transitivity (σ (al c)); [symmetry; exact (S2 _ (or_introl eq_refl) (Var (al c)) h eq_refl)|]. rewrite Hx. exact (T2 _ (or_introl eq_refl) (Var (al c)) h eq_refl). }
    rewrite !map_app. rewrite (A6 σ τ); try done; [|cbn; by rewrite Hh]. f_equal. cbn. by rewrite Hx, Hh.
Qed.

Lemma flat_ok' x : forall c es z c', flat al x c = Ok (es, z, c') -> flat_ok [x] c es [z] c'.
Proof.
  induction x as [v|k|l IH] using term_ind'; intros c es z c' E.
  - injection E as <- <- <-. apply fo_same.
  - injection E as <- <- <-. apply (fo_name (Cst k) c [] (Cst k)). apply fo_same.
  - destruct l as [|f args]; [done|]. rewrite flat_fn in E. destruct (flats args (S c)) as [[[es' xs] c1]| |] eqn:Ef; [|done..]. cbn [bind] in E.
    injection E as <- <- <-. apply fo_name, fo_fn. apply Forall_cons_1, proj2 in IH. clear -IH Ef Hal. revert Ef. generalize (S c) as d. revert es' xs c1.
    induction IH as [|y args Hy _ IH]; intros es xs c1 d Ef; [injection Ef as <- <- <-; apply fo_same|].
    cbn [flats] in Ef. destruct (flat al y d) as [[[e x] d1]| |] eqn:E1; [|done..]. cbn [bind] in Ef.
    fold flats in Ef. destruct (flats args d1) as [[[es' xs'] d2]| |] eqn:E2; [|done..]. cbn [bind] in Ef. injection Ef as <- <- <-.
    apply (fo_app [y] d e [x] d1); [by apply Hy|by apply IH].
Qed.
Lemma flats_ok args : forall c es xs c', flats args c = Ok (es, xs, c') -> flat_ok args c es xs c'.
Proof.
  induction args as [|y args IH]; intros c es xs c1 Ef; [injection Ef as <- <- <-; apply fo_same|].
  cbn [flats] in Ef. destruct (flat al y c) as [[[e x] d1]| |] eqn:E1; [|done..]. cbn [bind] in Ef.
  fold flats in Ef. destruct (flats args d1) as [[[es' xs'] d2]| |] eqn:E2; [|done..]. cbn [bind] in Ef. injection Ef as <- <- <-.
  apply (fo_app [y] c e [x] d1); [by apply flat_ok'|by apply IH].
Qed.

(** the forms of equations and results *)
Definition plain_eq (e : term) : Prop := exists v rhs, e = (Var v ≐ rhs) /\ ((exists k, rhs = Cst k) \/ shallow rhs).
Lemma flat_form x : forall c es z c', flat al x c = Ok (es, z, c') -> (exists v, z = Var v) /\ Forall plain_eq es.
Proof.
  induction x as [v|k|l IH] using term_ind'; intros c es z c' E.
  - injection E as <- <- <-. split; [by eexists|constructor].
  - injection E as <- <- <-. split; [by eexists|]. constructor; [|constructor]. exists (al c), (Cst k). split; [done|]. left. by eexists.
  - destruct l as [|f args]; [done|]. rewrite flat_fn in E. destruct (flats args (S c)) as [[[es' xs] c1]| |] eqn:Ef; [|done..]. cbn [bind] in E.
    injection E as <- <- <-. apply Forall_cons_1, proj2 in IH.
    assert (H : (exists vs, xs = map Var vs) /\ Forall plain_eq es').
    { clear -IH Ef. revert Ef. generalize (S c) as d. revert es' xs c1.
      induction IH as [|y args Hy _ IH]; intros es xs c1 d Ef; [injection Ef as <- <- <-; split; [by exists []|constructor]|].
      cbn [flats] in Ef. destruct (flat al y d) as [[[e x] d1]| |] eqn:E1; [|done..]. cbn [bind] in Ef.
      fold flats in Ef. destruct (flats args d1) as [[[es' xs'] d2]| |] eqn:E2; [|done..]. cbn [bind] in Ef. injection Ef as <- <- <-.
      destruct (Hy _ _ _ _ E1) as [[v ->] H1]. destruct (IH _ _ _ _ E2) as [[vs ->] H2]. split; [by exists (v :: vs)|by apply Forall_app]. }
    destruct H as [[vs ->] H]. split; [by eexists|]. apply Forall_app. split; [done|]. constructor; [|constructor].
    exists (al c), (Fn (f :: map Var vs)). split; [done|]. right. by exists f, vs.
Qed.
Lemma flats_form args : forall c es xs c', flats args c = Ok (es, xs, c') -> (exists vs, xs = map Var vs) /\ Forall plain_eq es.
Proof.
  induction args as [|y args IH]; intros c es xs c1 Ef; [injection Ef as <- <- <-; split; [by exists []|constructor]|].
  cbn [flats] in Ef. destruct (flat al y c) as [[[e x] d1]| |] eqn:E1; [|done..]. cbn [bind] in Ef.
  fold flats in Ef. destruct (flats args d1) as [[[es' xs'] d2]| |] eqn:E2; [|done..]. cbn [bind] in Ef. injection Ef as <- <- <-.
  destruct (flat_form _ _ _ _ _ E1) as [[v ->] H1]. destruct (IH _ _ _ _ E2) as [[vs ->] H2]. split; [by exists (v :: vs)|by apply Forall_app].
Qed.

Lemma normalize_term_inv x c tmps h c' : normalize_term al x c = Ok (tmps, h, c') ->
  (exists k, x = Cst k /\ tmps = [] /\ h = Cst k /\ c' = S c) \/
  exists f args xs, x = Fn (f :: args) /\ h = Fn (f :: xs) /\ flats args (S c) = Ok (tmps, xs, c').
Proof.
  intros E. unfold normalize_term in E. destruct x as [v|k|[|f args]]; [done|injection E as <- <- <-; left; by exists k|done|].
  rewrite flat_fn in E. destruct (flats args (S c)) as [[[es xs] c1]| |] eqn:Ef; [|done..]. cbn [bind] in E. rewrite rev_unit in E. cbn in E.
  rewrite removelast_last in E. injection E as <- <- <-. right. by exists f, args, xs.
Qed.
Lemma normalize_term_ok x c tmps h c' : normalize_term al x c = Ok (tmps, h, c') ->
  flat_ok [x] c tmps [h] c' /\ Forall plain_eq tmps /\ ((exists k, h = Cst k) \/ shallow h).
Proof.
  intros E. apply normalize_term_inv in E as [(k & -> & -> & -> & ->)|(f & args & xs & -> & -> & E)].
  - split; [|split; [constructor|left; by eexists]]. split; try done; [lia|..].
    + intros σ Hg _. exists σ. split; [done|]. split; [done|]. intros e [].
  - split; [|split].
    + apply fo_weaken with (S c); [lia|]. apply fo_fn. by apply flats_ok.
    + by eapply flats_form.
    + right. destruct (flats_form _ _ _ _ _ E) as [[vs ->] _]. by exists f, vs.
Qed.
End flat.

(** * Rules in normal form *)
Section normal.
Context {R : semiring} (al : nat -> nat) (Hal : forall i j, al i = al j -> i = j).
Notation fac := (factor R).

Lemma goals_cons_val v (fs : list fac) : goals (Val v :: fs) = goals fs.
Proof. done. Qed.
Lemma goals_cons_goal b (fs : list fac) : goals (Goal b :: fs) = b :: goals fs.
Proof. done. Qed.
Definition meq (t : term) : bool * fac := (true, Goal t).
Lemma meq_all tmps ms : all_of (map meq tmps ++ ms) = map Goal tmps ++ all_of ms.
Proof. unfold all_of. rewrite map_app, map_map. done. Qed.
Lemma meq_kept tmps ms : kept (map meq tmps ++ ms) = kept ms.
Proof. induction tmps as [|t tmps IH]; [done|]. exact IH. Qed.
Lemma meq_in tmps ms b : In (true, Goal b) (map meq tmps ++ ms) <-> In b tmps \/ In (true, Goal b) ms.
Proof.
  rewrite in_app_iff, in_map_iff. split.
  - intros [(t & [= <-] & H)|H]; auto.
  - intros [H|H]; [left; by exists b|by right].
Qed.
Lemma meq_ok tmps ms : Forall plain_eq tmps -> marks_ok ms -> marks_ok (map meq tmps ++ ms).
Proof.
  intros H1 H2 f Hf. apply in_app_or in Hf as [Hf|Hf]; [|by apply H2]. apply in_map_iff in Hf as (t & [= <-] & Ht).
  rewrite List.Forall_forall in H1. destruct (H1 t Ht) as (v & rhs & -> & _). by exists (Var v), rhs.
Qed.
Lemma kept_false (f : fac) ms : kept ((false, f) :: ms) = f :: kept ms.
Proof. done. Qed.

Lemma normal_form_goal y : is_normal_form y = true -> normal_goal y.
Proof.
  assert (Hsh : forall f args, forallb is_var args = true -> shallow (Fn (f :: args))).
  { intros f args H. exists f. revert H. clear. induction args as [|[v| |] args IH]; intros H; try done; [by exists []|]. destruct (IH H) as [vs E]. exists (v :: vs).
    injection E as E. by rewrite E. }
  destruct y as [w|k|[|f [|v [|rhs [|z l]]]]]; try done; cbn [is_normal_form]; try (intros H; right; left; by apply Hsh).
  destruct (decide (f = Cst eq_name)) as [->|_]; [|intros H; right; left; by apply Hsh].
  intros H. apply andb_true_iff in H as [H1 H2]. destruct v as [v| |]; try done. right. right. exists v, rhs. split; [done|].
  destruct rhs as [w|k|[|g l]]; try done; [left; by eexists|right; left; by eexists|right; right; by apply Hsh].
Qed.
Lemma plain_normal e : plain_eq e -> normal_goal e.
Proof. intros (v & rhs & -> & H). right. right. exists v, rhs. split; [done|by right]. Qed.

Definition same_root (y z : term) : Prop := y = z \/ exists f args xs, y = Fn (f :: args) /\ z = Fn (f :: xs) /\ length xs = length args.
Lemma same_root_eq y z : same_root y z -> equation y <-> equation z.
Proof.
  intros [->|(f & args & xs & -> & -> & Hl)]; [done|]. split; intros (a & b & E); injection E as -> ->.
  - destruct xs as [|a' [|b' [|]]]; try done. by exists a', b'.
  - destruct args as [|a' [|b' [|]]]; try done. by exists a', b'.
Qed.
Lemma same_root_const y z : same_root y z -> const_functor y -> const_functor z.
Proof. intros [->|(f & args & xs & -> & -> & Hl)]; [done|]. by destruct f. Qed.
Lemma normalize_term_root x c tmps h c' : normalize_term al x c = Ok (tmps, h, c') -> same_root x h.
Proof.
  intros E. apply normalize_term_inv in E as [(k & -> & -> & -> & ->)|(f & args & xs & -> & -> & E)]; [by left|].
  right. exists f, args, xs. split_and!; try done. apply (flats_ok al Hal) in E. apply (fo_len al _ _ _ _ _ E).
Qed.

Lemma normalize_body_ok : forall (fs : list fac) c ys c', normalize_body al fs c = Ok (ys, c') -> exists ms es,
  Forall2 same_root (goals fs) (goals (kept ms)) /\ all_of ms = ys /\ marks_ok ms /\ shape (kept ms) = shape fs /\ (forall b, In (true, Goal b) ms <-> In b es) /\
  (forall b, Goal b ∈ ys -> normal_goal b) /\ flat_ok al (goals fs) c es (goals (kept ms)) c'.
Proof.
  induction fs as [|[v|y] fs IH]; intros c ys c' E; cbn [normalize_body] in E.
  - injection E as <- <-. exists [], []. split_and!; try done; [constructor|intros f []|intros b Hb; by apply elem_of_nil in Hb|apply fo_same].
  - destruct (normalize_body al fs (S c)) as [[rest c1]| |] eqn:Er; [|done..]. cbn [bind] in E. injection E as <- <-.
    destruct (IH _ _ _ Er) as (ms & es & H0 & <- & H2 & H3 & H4 & H5 & H6). exists ((false, Val v) :: ms), es. split_and!.
    + done.
    + done.
    + intros f [Hf|Hf]; [done|by apply H2].
    + rewrite kept_false. exact (f_equal (cons _) H3).
    + intros b. rewrite <- H4. split; [intros [Hb|Hb]; done|by right].
    + intros b Hb. apply elem_of_cons in Hb as [Hb|Hb]; [done|by apply H5].
    + rewrite kept_false, !goals_cons_val. apply (fo_weaken al) with (S c); [lia|done].
  - destruct (is_normal_form y) eqn:Hn.
    + destruct (normalize_body al fs c) as [[rest c1]| |] eqn:Er; [|done..]. cbn [bind] in E. injection E as <- <-.
      destruct (IH _ _ _ Er) as (ms & es & H0 & <- & H2 & H3 & H4 & H5 & H6). exists ((false, Goal y) :: ms), es. split_and!.
      * rewrite kept_false, !goals_cons_goal. constructor; [by left|done].
      * done.
      * intros f [Hf|Hf]; [done|by apply H2].
      * rewrite kept_false. exact (f_equal (cons _) H3).
      * intros b. rewrite <- H4. split; [intros [Hb|Hb]; done|by right].
      * intros b Hb. apply elem_of_cons in Hb as [[= ->]|Hb]; [by apply normal_form_goal|by apply H5].
      * rewrite kept_false, !goals_cons_goal. apply (fo_app al Hal [y] c [] [y] c); [apply fo_same|done].
    + destruct (normalize_term al y c) as [[[tmps yy] c1]| |] eqn:Et; [|done..]. cbn [bind] in E.
      destruct (normalize_body al fs c1) as [[rest c2]| |] eqn:Er; [|done..]. cbn [bind] in E. injection E as <- <-.
      destruct (IH _ _ _ Er) as (ms & es & H0 & <- & H2 & H3 & H4 & H5 & H6). destruct (normalize_term_ok al Hal _ _ _ _ _ Et) as (T1 & T2 & T3).
      exists (map meq tmps ++ (false, Goal yy) :: ms), (tmps ++ es). split_and!.
      * rewrite meq_kept, kept_false, !goals_cons_goal. constructor; [by eapply normalize_term_root|done].
      * by rewrite meq_all.
      * apply meq_ok; [done|]. intros f [Hf|Hf]; [done|by apply H2].
      * rewrite meq_kept, kept_false. exact (f_equal (cons _) H3).
      * intros b. rewrite meq_in, in_app_iff, <- H4. split; [intros [Hb|[Hb|Hb]]; auto; done|]. intros [Hb|Hb]; [by left|right; by right].
      * intros b Hb. apply elem_of_app in Hb as [Hb|Hb].
        -- apply elem_of_list_In, in_map_iff in Hb as (t & [= <-] & Ht). rewrite List.Forall_forall in T2. by apply plain_normal, T2.
        -- apply elem_of_cons in Hb as [[= ->]|Hb]; [|by apply H5]. destruct T3 as [T3|T3]; [by left|right; by left].
      * rewrite meq_kept, kept_false, !goals_cons_goal. by apply (fo_app al Hal [y] c tmps [yy] c1).
Qed.

Lemma normalize_rule_good (r : wrule R) c r' c' : normalize_rule al r c = Ok (r', c') -> good al c r -> c <= c' /\ good al c' r'.
Proof.
  intros E (G1 & G2 & G3 & G4). unfold normalize_rule in E.
  destruct (normalize_term al (whead r) c) as [[[tmps h] c1]| |] eqn:Et; [|done..]. cbn [bind] in E.
  destruct (normalize_body al (wbody r) c1) as [[ys c2]| |] eqn:Er; [|done..]. cbn [bind] in E. injection E as <- <-.
  destruct (normalize_term_ok al Hal _ _ _ _ _ Et) as (T1 & T2 & T3). destruct (normalize_body_ok _ _ _ _ Er) as (ms & es & H0 & <- & H2 & H3 & H4 & H5 & H6).
  pose proof (fo_app al Hal [whead r] c tmps [h] c1 _ _ _ _ T1 H6) as Hf. cbn [app] in Hf. pose proof (fo_le al _ _ _ _ _ Hf) as Hc. split; [done|].
  assert (Hcase : forall b, Goal b ∈ map Goal tmps ++ all_of ms -> In b (tmps ++ es) \/ In b (goals (kept ms))).
  { intros b Hb. rewrite <- meq_all in Hb. apply elem_of_list_In, in_map_iff in Hb as ([m f] & E & Hb). cbn in E. subst f. destruct m.
    - left. apply in_or_app. apply meq_in in Hb. by rewrite H4 in Hb.
    - right. apply in_app_or in Hb as [Hb|Hb]; [by apply in_map_iff in Hb as (t & E & _)|]. apply goals_in, elem_of_list_In. unfold kept. apply in_map_iff.
      exists (false, Goal b). split; [done|]. apply filter_In. by split. }
  assert (Hkept : forall b, In b (goals (kept ms)) -> Goal b ∈ map Goal tmps ++ all_of ms).
  { intros b Hb. apply goals_in, elem_of_list_In in Hb. unfold kept in Hb. apply in_map_iff in Hb as ([m f] & E & Hb). cbn in E. subst f. apply filter_In, proj1 in Hb.
    apply elem_of_app. right. apply elem_of_list_In. unfold all_of. apply in_map_iff. by exists (m, Goal b). }
  assert (Hes : forall b, In b (tmps ++ es) -> Goal b ∈ map Goal tmps ++ all_of ms).
  { intros b Hb. rewrite <- meq_all. apply elem_of_list_In. unfold all_of. apply in_map_iff. exists (true, Goal b). split; [done|]. apply meq_in. rewrite H4. by apply in_app_iff. }
  assert (Heq : forall b, In b (tmps ++ es) -> equation b).
  { intros b Hb. assert (Hb' : In (true, Goal b) (map meq tmps ++ ms)) by (apply meq_in; rewrite H4; by apply in_app_iff).
    destruct (meq_ok tmps ms T2 H2 (Goal b) Hb') as (a & b' & [= ->]). by eexists _, _. }
  split; [|split; [|split]]; cbn [whead wbody].
  - destruct (normalize_term_root _ _ _ _ _ Et) as [<-|(f & args & xs & E1 & -> & Hl)]; [done|]. destruct G1 as (k & l & E2). rewrite E1 in E2. injection E2 as -> ->. by exists k, xs.
  - intros b Hb. destruct (Hcase b Hb) as [Hb'|Hb']; [by destruct (Heq b Hb') as (x & y & ->)|].
    apply elem_of_list_In, elem_of_list_lookup in Hb' as [i Hi]. destruct (Forall2_lookup_r _ _ _ _ _ H0 Hi) as (y & Hy & Hs). apply (same_root_const y); [done|].
    apply G2, goals_in, elem_of_list_In. apply elem_of_list_lookup. by exists i.
  - intros σ τ Hg1 Hg2 Hall Hh Hne. cbn [whead wbody] in *.
    assert (Hsσ : all_hold σ (tmps ++ es)) by (intros b Hb; by apply Hall, Hes).
    assert (Hsτ : all_hold τ (tmps ++ es)) by (intros b Hb; by apply Hall, Hes).
    pose proof (fo_sound al _ _ _ _ _ Hf σ Hsσ) as S1. pose proof (fo_sound al _ _ _ _ _ Hf τ Hsτ) as S2. cbn [map] in S1, S2. injection S1 as S1h S1. injection S2 as S2h S2.
    assert (Hi : forall i y z, goals (wbody r) !! i = Some y -> goals (kept ms) !! i = Some z -> sub σ y = sub σ z /\ sub τ y = sub τ z /\ same_root y z).
    { intros i y z Hy Hz. assert (K1 : map (sub σ) (goals (kept ms)) !! i = map (sub σ) (goals (wbody r)) !! i) by (by rewrite S1).
      assert (K2 : map (sub τ) (goals (kept ms)) !! i = map (sub τ) (goals (wbody r)) !! i) by (by rewrite S2).
      rewrite !list_lookup_fmap, Hy, Hz in K1, K2. cbn in K1, K2. injection K1 as K1. injection K2 as K2. split_and!; [done|done|].
      by apply (Forall2_lookup_lr _ _ _ _ _ _ H0 Hy Hz). }
    assert (Horig : forall b, Goal b ∈ wbody r -> sub σ b = sub τ b).
    { apply (G3 σ τ Hg1 Hg2).
      - intros b Hb. apply goals_in, elem_of_list_In, elem_of_list_lookup in Hb as [i Hy]. destruct (Forall2_lookup_l _ _ _ _ _ H0 Hy) as (z & Hz & _).
        destruct (Hi i b z Hy Hz) as (K1 & K2 & K3).
        assert (Hzin : Goal z ∈ map Goal tmps ++ all_of ms) by (apply Hkept, elem_of_list_In, elem_of_list_lookup; by exists i).
        destruct (Hall z Hzin) as [L1 L2]. split; intros x y ->.
        + destruct (proj1 (same_root_eq _ _ K3)) as (x' & y' & ->); [by eexists _, _|]. cbn in K1. injection K1 as -> ->. by apply L1.
        + destruct (proj1 (same_root_eq _ _ K3)) as (x' & y' & ->); [by eexists _, _|]. cbn in K2. injection K2 as -> ->. by apply L2.
      - by rewrite <- S1h, <- S2h.
      - intros b Hb Hn. apply goals_in, elem_of_list_In, elem_of_list_lookup in Hb as [i Hy]. destruct (Forall2_lookup_l _ _ _ _ _ H0 Hy) as (z & Hz & _).
        destruct (Hi i b z Hy Hz) as (K1 & K2 & K3). rewrite K1, K2. apply Hne; [apply Hkept, elem_of_list_In, elem_of_list_lookup; by exists i|].
        by rewrite <- (same_root_eq _ _ K3). }
    assert (Hk : map (sub σ) (goals (kept ms)) = map (sub τ) (goals (kept ms))).
    { rewrite S1, S2. apply map_ext_in. intros b Hb. by apply Horig, goals_in. }
    pose proof (fo_det al _ _ _ _ _ Hf σ τ Hsσ Hsτ) as Hd. cbn [map] in Hd. specialize (Hd (f_equal2 cons Hh Hk)).
    assert (Hin : forall b l, map (sub σ) l = map (sub τ) l -> In b l -> sub σ b = sub τ b).
    { clear. intros b. induction l as [|a l IH]; intros E Hb; [done|]. injection E as E1 E2. destruct Hb as [->|Hb]; [done|by apply IH]. }
    intros b Hb. destruct (Hcase b Hb) as [Hb'|Hb']; [by apply (Hin b (tmps ++ es))|by apply (Hin b (goals (kept ms)))].
  - intros v j Hv Hj. destruct (fo_new al _ _ _ _ _ Hf v) as [H|(k & -> & Hk)].
    + unfold wvars in Hv. cbn [whead wbody] in Hv. apply elem_of_list_In, in_app_or in Hv as [Hv|Hv].
      * apply in_or_app. left. apply in_flat_map. exists h. split; [by left|done].
      * apply in_flat_map in Hv as (b & Hb & Hv). apply goals_in in Hb. apply in_or_app. destruct (Hcase b Hb) as [Hb'|Hb']; [right|left]; apply in_flat_map; exists b; (split; [|done]); [done|by right].
    + apply G4; [|lia]. unfold wvars. apply elem_of_list_In. exact H.
    + intros E. apply Hal in E. lia.
Qed.
Lemma good_le c c' (r : wrule R) : c <= c' -> good al c r -> good al c' r.
Proof. intros Hc (G1 & G2 & G3 & G4). split_and!; try done. intros v j Hv Hj. apply G4; [done|lia]. Qed.
Lemma normalize_rules_good : forall (rs : list (wrule R)) c rs' c', normalize_unification al rs c = Ok (rs', c') ->
  (forall r, r ∈ rs -> good al c r) -> c <= c' /\ forall r, r ∈ rs' -> good al c' r.
Proof.
  unfold normalize_unification. induction rs as [|r rs IH]; intros c rs' c' E Hg; cbn [mapSM] in E.
  - injection E as <- <-. split; [done|]. by intros r ?%elem_of_nil.
  - destruct (normalize_rule al r c) as [[r1 c1]| |] eqn:E1; [|done..]. cbn [bind] in E.
    destruct (mapSM (normalize_rule al) rs c1) as [[rs1 c2]| |] eqn:E2; [|done..]. cbn [bind] in E. injection E as <- <-.
    destruct (normalize_rule_good _ _ _ _ E1 (Hg r (elem_of_list_here _ _))) as [H1 H2].
    destruct (IH _ _ _ E2) as [H3 H4]; [intros q Hq; apply (good_le c); [done|]; apply Hg; by right|]. split; [lia|].
    intros q Hq. apply elem_of_cons in Hq as [->|Hq]; [by apply (good_le c1)|by apply H4].
Qed.

Lemma normalize_rule_ok (r : wrule R) c r' c' : normalize_rule al r c = Ok (r', c') ->
  c <= c' /\ normal_rule r' /\
  ((forall v j, v ∈ wvars r -> c <= j -> v <> al j) -> forall I : term -> R, equality I -> forall x v, rule_value I r' x v <-> rule_value I r x v).
Proof.
  intros E. unfold normalize_rule in E.
  destruct (normalize_term al (whead r) c) as [[[tmps h] c1]| |] eqn:Et; [|done..]. cbn [bind] in E.
  destruct (normalize_body al (wbody r) c1) as [[ys c2]| |] eqn:Er; [|done..]. cbn [bind] in E. injection E as <- <-.
  destruct (normalize_term_ok al Hal _ _ _ _ _ Et) as (T1 & T2 & T3). destruct (normalize_body_ok _ _ _ _ Er) as (ms & es & H0 & <- & H2 & H3 & H4 & H5 & H6).
  pose proof (fo_app al Hal [whead r] c tmps [h] c1 _ _ _ _ T1 H6) as Hf. cbn [app] in Hf. split; [by apply (fo_le al _ _ _ _ _ Hf)|]. split.
  - split; [done|]. cbn [wbody]. intros b Hb. apply elem_of_app in Hb as [Hb|Hb]; [|by apply H5].
    apply elem_of_list_In, in_map_iff in Hb as (t & [= <-] & Ht). rewrite List.Forall_forall in T2. by apply plain_normal, T2.
  - intros Hfr I HI. set (fs := map meq tmps ++ ms).
    assert (Hh : forall σ, true_eqs σ fs <-> all_hold σ (tmps ++ es)).
    { intros σ. unfold true_eqs, all_hold, fs. split; intros H b Hb; apply H; [apply meq_in; rewrite H4; by apply in_app_iff|].
      apply meq_in in Hb. rewrite H4 in Hb. by apply in_app_iff. }
    assert (Hl : Forall (low al c) (whead r :: goals (wbody r))).
    { apply List.Forall_forall. intros t Ht v Hv j Hj. apply Hfr; [|done]. unfold wvars. apply elem_of_list_In, in_or_app.
      destruct Ht as [<-|Ht]; [by left|right]. apply in_flat_map. by exists t. }
    apply (marked_rule I HI) with (fs := fs).
    + unfold fs. by rewrite meq_all.
    + by apply meq_ok.
    + unfold fs. by rewrite meq_kept.
    + intros σ Hg Ht. exists σ. split; [done|]. apply Hh in Ht. pose proof (fo_sound al _ _ _ _ _ Hf σ Ht) as Hs. cbn [map] in Hs. injection Hs as Hs1 Hs2.
      unfold fs. rewrite meq_kept. by rewrite <- Hs1, <- Hs2.
    + intros σ' Hg. destruct (fo_exists al _ _ _ _ _ Hf σ' Hg Hl) as (τ & G1 & G2 & G3). exists τ. split; [done|]. split; [by apply Hh|].
      pose proof (fo_sound al _ _ _ _ _ Hf τ G3) as Hs. cbn [map] in Hs. injection Hs as Hs1 Hs2. unfold fs. rewrite meq_kept. cbn [whead]. rewrite Hs1, Hs2.
      assert (He : forall t, In t (whead r :: goals (wbody r)) -> sub σ' t = sub τ t).
      { intros t Ht. apply sub_ext. intros v Hv. symmetry. apply G2. intros j Hj. rewrite List.Forall_forall in Hl. apply (Hl t Ht v Hv). lia. }
      split; [apply He; by left|]. apply map_ext_in. intros t Ht. apply He. by right.
    + intros σ τ _ _ Hs Ht Eh Ek. apply Hh in Hs, Ht. unfold fs in Ek. rewrite meq_kept in Ek.
      pose proof (fo_det al _ _ _ _ _ Hf σ τ Hs Ht) as Hd. cbn [map whead] in Hd, Eh. specialize (Hd (f_equal2 cons Eh Ek)).
      apply map_ext_in. intros b Hb. apply goals_in, elem_of_list_In in Hb. cbn [wbody] in Hb.
      assert (Hin : forall l, map (sub σ) l = map (sub τ) l -> In b l -> sub σ b = sub τ b).
      { clear. induction l as [|a l IH]; intros E Hb; [done|]. injection E as E1 E2. destruct Hb as [->|Hb]; [done|by apply IH]. }
      assert (Hc : In b (tmps ++ es) \/ In b (goals (kept ms))).
      { rewrite <- meq_all in Hb. apply in_map_iff in Hb as ([m f] & E & Hb). cbn in E. subst f. destruct m.
        - left. apply in_or_app. apply meq_in in Hb. by rewrite H4 in Hb.
        - right. apply in_app_or in Hb as [Hb|Hb]; [by apply in_map_iff in Hb as (t & E & _)|]. apply goals_in, elem_of_list_In. unfold kept. apply in_map_iff.
          exists (false, Goal b). split; [done|]. apply filter_In. by split. }
      destruct Hc as [Hc|Hc]; [by apply (Hin (tmps ++ es))|by apply (Hin (goals (kept ms)))].
Qed.

Lemma normalize_rules_ok : forall (rs : list (wrule R)) c rs' c', normalize_unification al rs c = Ok (rs', c') ->
  Forall normal_rule rs' /\
  (fresh_rules al c rs -> forall I : term -> R, equality I -> forall x, Forall2 (fun r s => forall v, rule_value I r x v <-> rule_value I s x v) rs' rs).
Proof.
  unfold normalize_unification. induction rs as [|r rs IH]; intros c rs' c' E; cbn [mapSM] in E.
  - injection E as <- <-. split; [constructor|]. intros. constructor.
  - destruct (normalize_rule al r c) as [[r1 c1]| |] eqn:E1; [|done..]. cbn [bind] in E.
    destruct (mapSM (normalize_rule al) rs c1) as [[rs1 c2]| |] eqn:E2; [|done..]. cbn [bind] in E. injection E as <- <-.
    destruct (normalize_rule_ok _ _ _ _ E1) as (Hc & Hn & Hv). destruct (IH _ _ _ E2) as [H1 H2]. split; [by constructor|].
    intros Hf I HI x. constructor.
    + apply Hv; [|done]. intros v j Hvr Hj. by apply (Hf r v j (elem_of_list_here _ _)).
    + apply H2; [|done]. intros q v j Hq Hvq Hj. apply (Hf q v j); [by right|done|lia].
Qed.

(** normal forms are returned as they are *)
Lemma forallb_vars vs : forallb is_var (map Var vs) = true.
Proof. by induction vs. Qed.
Lemma flats_vars vs c : flats al (map Var vs) c = Ok ([], map Var vs, c).
Proof. induction vs as [|v vs IH]; [done|]. cbn [flats map]. cbn [flat bind]. fold (flats al). by rewrite IH. Qed.
Lemma normalize_shallow x c : shallow x -> normalize_term al x c = Ok ([], x, S c).
Proof. intros (f & vs & ->). unfold normalize_term. rewrite flat_fn, flats_vars. done. Qed.
Lemma normalize_cst k c : normalize_term al (Cst k) c = Ok ([], Cst k, S c).
Proof. done. Qed.
Lemma goal_normal_form b : normal_goal b -> (exists k, b = Cst k) \/ is_normal_form b = true.
Proof.
  assert (Hsh : forall f vs, is_normal_form (Fn (f :: map Var vs)) = true).
  { intros f vs. destruct vs as [|v [|w [|z vs]]]; try done; cbn [map is_normal_form]; [by destruct (decide _)|]. apply (forallb_vars (v :: w :: z :: vs)). }
  intros [H|[(f & vs & ->)|(v & rhs & -> & H)]]; [by left|right; apply Hsh|right].
  cbn [is_normal_form]. rewrite decide_True by done. cbn [is_var andb]. destruct H as [[w ->]|[[k ->]|(f & vs & ->)]]; [done..|]. apply forallb_vars.
Qed.
Lemma normalize_body_same : forall (fs : list fac) c, (forall b, Goal b ∈ fs -> normal_goal b) -> exists c', normalize_body al fs c = Ok (fs, c').
Proof.
  induction fs as [|[v|y] fs IH]; intros c H; cbn [normalize_body]; [by eexists|..].
  - destruct (IH (S c)) as [c' ->]; [intros b Hb; apply H; by right|]. by eexists.
  - destruct (goal_normal_form y) as [[k ->]|Hn]; [apply H; by left|..].
    + cbn [is_normal_form]. rewrite normalize_cst. cbn [bind]. destruct (IH (S c)) as [c' ->]; [intros b Hb; apply H; by right|]. by eexists.
    + rewrite Hn. destruct (IH c) as [c' ->]; [intros b Hb; apply H; by right|]. by eexists.
Qed.
Lemma normalize_rule_same (r : wrule R) c : normal_rule r -> exists c', normalize_rule al r c = Ok (r, c').
Proof.
  intros [Hh Hb]. unfold normalize_rule. assert (E : normalize_term al (whead r) c = Ok ([], whead r, S c)).
  { destruct Hh as [[k ->]|Hh]; [apply normalize_cst|by apply normalize_shallow]. }
  rewrite E. cbn [bind]. destruct (normalize_body_same (wbody r) (S c) Hb) as [c' ->]. exists c'. by destruct r.
Qed.
Lemma normalize_same : forall (rs : list (wrule R)) c, Forall normal_rule rs -> exists c', normalize_unification al rs c = Ok (rs, c').
Proof.
  unfold normalize_unification. induction rs as [|r rs IH]; intros c H; cbn [mapSM]; [by eexists|]. apply Forall_cons_1 in H as [H1 H2].
  destruct (normalize_rule_same r c H1) as [c1 ->]. cbn [bind]. destruct (IH c1 H2) as [c2 ->]. by eexists.
Qed.

(** no exception *)
Lemma flat_returns x : term_wf x -> forall c, exists es z c', flat al x c = Ok (es, z, c').
Proof.
  induction x as [v|k|l IH] using term_ind'; intros Hw c; [by eexists _, _, _..|]. destruct l as [|f args]; [done|].
  apply Forall_cons_1, proj2 in IH. rewrite flat_fn.
  assert (H : forall d, exists es xs c', flats al args d = Ok (es, xs, c')).
  { clear c. cbn in Hw. induction IH as [|y args Hy _ IH]; intros d; [by eexists _, _, _|]. destruct Hw as [Hw1 Hw2].
    cbn [flats]. destruct (Hy Hw1 d) as (e & z & d1 & ->). cbn [bind]. fold (flats al). destruct (IH Hw2 d1) as (es & xs & c' & ->). by eexists _, _, _. }
  destruct (H (S c)) as (es & xs & c' & ->). by eexists _, _, _.
Qed.
Lemma normalize_term_returns x c : term_wf x -> is_var x = false -> exists tmps h c', normalize_term al x c = Ok (tmps, h, c').
Proof.
  intros Hw Hv. unfold normalize_term. destruct x as [v|k|[|f args]]; try done; [by eexists _, _, _|].
  destruct (flat_returns _ Hw c) as (es & z & c' & E). rewrite E. cbn [bind]. rewrite flat_fn in E.
  destruct (flats al args (S c)) as [[[es' xs] c1]| |]; [|done..]. cbn [bind] in E. injection E as <- <- <-. rewrite rev_unit. cbn. by eexists _, _, _.
Qed.
Lemma normalize_body_returns : forall (fs : list fac) c, (forall b, Goal b ∈ fs -> term_wf b /\ is_var b = false) -> exists ys c', normalize_body al fs c = Ok (ys, c').
Proof.
  induction fs as [|[v|y] fs IH]; intros c H; cbn [normalize_body]; [by eexists _, _|..].
  - destruct (IH (S c)) as (ys & c' & ->); [intros b Hb; apply H; by right|]. by eexists _, _.
  - destruct (is_normal_form y).
    + destruct (IH c) as (ys & c' & ->); [intros b Hb; apply H; by right|]. by eexists _, _.
    + destruct (H y (elem_of_list_here _ _)) as [H1 H2]. destruct (normalize_term_returns y c H1 H2) as (tmps & h & c1 & ->). cbn [bind].
      destruct (IH c1) as (ys & c' & ->); [intros b Hb; apply H; by right|]. by eexists _, _.
Qed.
Lemma normalize_returns : forall (rs : list (wrule R)) c,
  (forall r, r ∈ rs -> (term_wf (whead r) /\ is_var (whead r) = false) /\ forall b, Goal b ∈ wbody r -> term_wf b /\ is_var b = false) ->
  exists rs' c', normalize_unification al rs c = Ok (rs', c').
Proof.
  unfold normalize_unification. induction rs as [|r rs IH]; intros c H; cbn [mapSM]; [by eexists _, _|].
  destruct (H r (elem_of_list_here _ _)) as [[H1 H2] H3]. unfold normalize_rule at 1. destruct (normalize_term_returns _ c H1 H2) as (tmps & h & c1 & ->). cbn [bind].
  destruct (normalize_body_returns _ c1 H3) as (ys & c2 & ->). cbn [bind]. destruct (IH c2) as (rs' & c' & ->); [intros q Hq; apply H; by right|]. by eexists _, _.
Qed.
End normal.
