(** Proofs about running the builtins: a rule and the rule with its true constraints
    replaced by one have the same value. *)
From Coq Require Import List Lia.
From stdpp Require Import gmap.
From Coq Require String Ascii.
From Verif Require Import PyBase Semiring TermModel TermSpec TermProofs UnifyProofs SetsModel SetsProofs PruneModel SolverSpec SolverProofs
  ChartProofs UpdateModel UpdateSpec UpdateProofs UnfoldProofs ElimProofs NormalModel NormalSpec NormalProofs SpecialSpec RunModel RunSpec.
Import String.StringSyntax Ascii.AsciiSyntax.
Import ListNotations.

Local Open Scope string_scope.
Definition cb {R : semiring} (f : factor R) : bool :=
  match f with Goal (Fn [Cst (CStr op); _; _]) => bool_decide (op ∈ (cmps ++ ["="; "is"])%list) | _ => false end%list.
Definition btrue (cmpf : String.string -> term -> term -> res bool) (is_true : term -> term -> bool) (y : term) : bool :=
  match y with
  | Cst _ => true
  | Fn [Cst (CStr op); a; b] =>
      if decide (op = "=") then bool_decide (a = b)
      else if decide (op ∈ cmps) then match cmpf op a b with Ok c => c | _ => false end
      else bool_decide (op = "is") && is_true a b
  | _ => false
  end%list.
Lemma btrue_ok cmpf is_true y : btrue cmpf is_true y = true <-> builtin_true cmpf is_true y.
Proof.
  destruct y as [v|k|[|[v|[z|op]|l] [|a [|b [|]]]]]; try done. unfold btrue, builtin_true.
  destruct (decide (op = "=")); [by rewrite bool_decide_eq_true|]. destruct (decide (op ∈ cmps)).
  - destruct (cmpf op a b) as [c| |]; try done. split; [by intros ->|congruence].
  - by rewrite andb_true_iff, bool_decide_eq_true.
Qed.
Lemma cb_ok {R : semiring} (f : factor R) : cb f = true <-> exists b, f = Goal b /\ constraint b.
Proof.
  split.
  - destruct f as [v|[w|k|[|[w|[z|op]|l] [|x [|y [|]]]]]]; try done. cbn. rewrite bool_decide_eq_true. intros H. eexists. split; [done|]. by exists op, x, y.
  - intros (b & -> & op & x & y & -> & H). unfold cb. by apply bool_decide_eq_true.
Qed.
Local Close Scope string_scope.
Lemma constraint_sub θ b : plain_goal b -> constraint (sub θ b) <-> constraint b.
Proof.
  intros [H1 H2]. split.
  - intros (op & x & y & E & Hop). destruct b as [v|k|[|[v|k|l] args]]; try done; [by destruct (H2 v)|].
    cbn in E. injection E as -> E. destruct args as [|x' [|y' [|]]]; try done. by exists op, x', y'.
  - intros (op & x & y & -> & Hop). cbn. by eexists op, _, _.
Qed.
Lemma plain_sub θ b : plain_goal b -> plain_goal (sub θ b).
Proof. intros [H1 H2]. destruct b as [v|k|[|[v|k|l] args]]; try done; by destruct (H2 v). Qed.

(** * Rules with marked constraints *)
Section marked.
Context {R : semiring} (I : term -> R) (T : term -> bool).
Context (HT : forall y, constraint y -> ground y -> I y = if T y then sone else szero).
Notation fac := (factor R).

Definition cmarks (fs : list (bool * fac)) : Prop := forall f, In (true, f) fs -> exists b, f = Goal b /\ constraint b.
Definition true_cs (σ : nat -> term) (fs : list (bool * fac)) : Prop := forall b, In (true, Goal b) fs -> T (sub σ b) = true.
Definition replaced (fs : list (bool * fac)) : list fac := map (fun f : bool * fac => if fst f then Val sone else snd f) fs.
Fixpoint cs_true (fs : list (bool * fac)) (ys : list term) : bool :=
  match fs, ys with
  | (_, Val _) :: fs, ys => cs_true fs ys
  | (m, Goal _) :: fs, y :: ys => (negb m || T y) && cs_true fs ys
  | _, _ => true
  end.
Lemma cmarks_cons f fs : cmarks (f :: fs) -> cmarks fs.
Proof. intros H g Hg. apply H. by right. Qed.
Lemma cdrop_inst σ fs : cmarks fs -> drop_ys fs (map (sub σ) (goals (all_of fs))) = map (sub σ) (goals (kept fs)).
Proof.
  induction fs as [|[m [v|b]] fs IH]; intros Hm; [done|..]; pose proof (cmarks_cons _ _ Hm) as Hm'.
  - destruct m; [destruct (Hm (Val v)) as (x & E & _); [by left|done]|]. cbn. by apply IH.
  - destruct m; cbn; [by apply IH|]. f_equal. by apply IH.
Qed.
Lemma cs_inst σ fs : cmarks fs -> cs_true fs (map (sub σ) (goals (all_of fs))) = true <-> true_cs σ fs.
Proof.
  induction fs as [|[m [v|b]] fs IH]; intros Hm; [split; [intros _ b []|done]|..]; pose proof (cmarks_cons _ _ Hm) as Hm'.
  - cbn. rewrite (IH Hm'). split; intros H b Hb; [destruct Hb as [Hb|Hb]; [done|by apply H]|apply H; by right].
  - cbn. rewrite andb_true_iff. rewrite (IH Hm'). destruct m; cbn.
    + split.
      * intros [H1 H2] b' Hb. destruct Hb as [[= <-]|Hb]; [done|by apply H2].
      * intros H. split; [apply H; by left|]. intros b' Hb. apply H. by right.
    + split; [intros [_ H] b' Hb; destruct Hb as [Hb|Hb]; [done|by apply H]|]. intros H. split; [done|]. intros b' Hb. apply H. by right.
Qed.
Lemma cbv_drop σ fs : (forall v, ground (σ v)) -> cmarks fs ->
  body_value I (all_of fs) (map (sub σ) (goals (all_of fs))) =
  if cs_true fs (map (sub σ) (goals (all_of fs))) then body_value I (kept fs) (map (sub σ) (goals (kept fs))) else szero.
Proof.
  intros Hg. induction fs as [|[m [v|b]] fs IH]; intros Hm; [done|..]; pose proof (cmarks_cons _ _ Hm) as Hm'; specialize (IH Hm').
  - destruct m; [destruct (Hm (Val v)) as (x & E & _); [by left|done]|].
    change (smul v (body_value I (all_of fs) (map (sub σ) (goals (all_of fs)))) =
      if cs_true fs (map (sub σ) (goals (all_of fs))) then smul v (body_value I (kept fs) (map (sub σ) (goals (kept fs)))) else szero).
    rewrite IH. destruct (cs_true _ _); [done|]. apply smul_0_r.
  - destruct m.
    + destruct (Hm (Goal b)) as (b' & [= <-] & op & x & y & Eb & Hop); [by left|].
      assert (Hb : I (sub σ b) = if T (sub σ b) then sone else szero) by (apply HT; [subst b; by eexists op, _, _|by apply groundsub_ground]).
      change (smul (I (sub σ b)) (body_value I (all_of fs) (map (sub σ) (goals (all_of fs)))) =
        if T (sub σ b) && cs_true fs (map (sub σ) (goals (all_of fs))) then body_value I (kept fs) (map (sub σ) (goals (kept fs))) else szero).
      rewrite Hb, IH. destruct (T (sub σ b)); [apply smul_1_l|apply smul_0_l].
    + change (smul (I (sub σ b)) (body_value I (all_of fs) (map (sub σ) (goals (all_of fs)))) =
        if cs_true fs (map (sub σ) (goals (all_of fs))) then smul (I (sub σ b)) (body_value I (kept fs) (map (sub σ) (goals (kept fs)))) else szero).
      rewrite IH. destruct (cs_true _ _); [done|]. apply smul_0_r.
Qed.

Definition cmark (fs : list fac) : list (bool * fac) := map (fun f => (cb f, f)) fs.
Lemma cmark_all fs : all_of (cmark fs) = fs.
Proof. unfold all_of, cmark. rewrite map_map. apply map_id. Qed.
Lemma cmark_ok fs : cmarks (cmark fs).
Proof. intros f Hf. apply in_map_iff in Hf as (g & [= Hg <-] & _). by apply cb_ok. Qed.
Lemma cmark_true σ fs : true_cs σ (cmark fs) <-> forall b, Goal b ∈ fs -> constraint b -> T (sub σ b) = true.
Proof.
  split.
  - intros H b Hb Hc. apply H. apply in_map_iff. exists (Goal b). split; [|by apply elem_of_list_In]. f_equal. apply cb_ok. by exists b.
  - intros H b Hb. apply in_map_iff in Hb as (g & [= E ->] & Hg). apply cb_ok in E as (b' & [= <-] & Hc). apply H; [by apply elem_of_list_In|done].
Qed.
Lemma in_kept (ms : list (bool * fac)) f : f ∈ kept ms <-> In (false, f) ms.
Proof.
  rewrite elem_of_list_In. unfold kept. rewrite in_map_iff. split.
  - intros ([[] g] & <- & Hg); apply filter_In in Hg as [Hg E]; done.
  - intros H. exists (false, f). split; [done|]. by apply filter_In.
Qed.
Lemma in_all (ms : list (bool * fac)) f : f ∈ all_of ms <-> In (true, f) ms \/ In (false, f) ms.
Proof.
  rewrite elem_of_list_In. unfold all_of. rewrite in_map_iff. split.
  - intros ([[] g] & <- & Hg); auto.
  - intros [H|H]; eexists; (split; [|exact H]); done.
Qed.
Lemma map_goals σ τ (fs : list fac) : (forall b, Goal b ∈ fs -> sub σ b = sub τ b) <-> map (sub σ) (goals fs) = map (sub τ) (goals fs).
Proof.
  split.
  - intros H. apply map_ext_in. intros b Hb. by apply H, goals_in.
  - intros H b Hb. apply goals_in in Hb. induction (goals fs) as [|c l IH]; [done|]. cbn in H. injection H as E1 E2. destruct Hb as [->|Hb]; [done|by apply IH].
Qed.
Lemma shape_fsub θ (fs : list fac) : shape (map (fsub θ) fs) = shape fs.
Proof. unfold shape. rewrite map_map. apply map_ext. by intros []. Qed.

Definition cdet (r : wrule R) : Prop :=
  forall σ τ, (forall v, ground (σ v)) -> (forall v, ground (τ v)) ->
    (forall b, Goal b ∈ wbody r -> constraint b -> T (sub σ b) = true /\ T (sub τ b) = true) ->
    sub σ (whead r) = sub τ (whead r) ->
    (forall b, Goal b ∈ wbody r -> ~ constraint b -> sub σ b = sub τ b) ->
    forall b, Goal b ∈ wbody r -> sub σ b = sub τ b.

Section one.
Context (r : wrule R) (ms : list (bool * fac)) (st : store) (θ : nat -> term).
Context (Eb : wbody r = all_of ms) (Hm : cmarks ms) (Hac : acyclic st) (Hθ : resolution st θ).
Context (Hst : forall σ, (forall v, ground (σ v)) -> solves σ st <-> true_cs σ ms).
Context (Hp : forall b, Goal b ∈ wbody r -> plain_goal b) (Hd : cdet r).
Let r2 := rsub θ (WRule (whead r) (kept ms)).

Lemma goal2 b : Goal b ∈ wbody r2 <-> exists b0, Goal b0 ∈ kept ms /\ b = sub θ b0.
Proof.
  unfold r2. cbn [rsub wbody]. rewrite elem_of_list_fmap. split.
  - intros ([v|b0] & E & H); [done|]. injection E as ->. by exists b0.
  - intros (b0 & H & ->). by exists (Goal b0).
Qed.
Lemma after σ : (forall v, ground (σ v)) -> let σ1 v := sub σ (θ v) in
  (forall v, ground (σ1 v)) /\ (forall t, sub σ1 t = sub σ (sub θ t)) /\ true_cs σ1 ms.
Proof.
  intros Hg σ1. assert (Hs : forall t, sub σ1 t = sub σ (sub θ t)) by (intros t; unfold σ1; by rewrite sub_sub).
  assert (Hg1 : forall v, ground (σ1 v)) by (intros v; by apply groundsub_ground). split_and!; try done.
  apply Hst; [done|]. intros v t Ev. rewrite Hs. unfold σ1. by rewrite <- (proj1 Hθ v t Ev).
Qed.
Lemma kept_plain b : Goal b ∈ kept ms -> plain_goal b.
Proof. intros H. apply Hp. rewrite Eb. apply in_all. right. by apply in_kept. Qed.
Lemma body_cases b : Goal b ∈ wbody r -> (In (true, Goal b) ms /\ constraint b) \/ Goal b ∈ kept ms.
Proof.
  rewrite Eb, in_all. intros [H|H]; [|right; by apply in_kept]. left. split; [done|]. by destruct (Hm _ H) as (b' & [= <-] & Hc).
Qed.
(** constraints of the new rule *)
Lemma cdet2 : cdet r2.
Proof.
  intros σ τ Hg1 Hg2 Hc Hh Hn b Hb. destruct (after σ Hg1) as (Gσ & Sσ & Tσ). destruct (after τ Hg2) as (Gτ & Sτ & Tτ). cbn zeta in *.
  apply goal2 in Hb as (b0 & Hb0 & ->). rewrite <- Sσ, <- Sτ. apply Hd; try done.
  - intros b Hb Hcb. destruct (body_cases b Hb) as [[H _]|H]; [split; [by apply Tσ|by apply Tτ]|]. rewrite Sσ, Sτ. apply Hc; [apply goal2; by exists b|].
    apply constraint_sub; [by apply kept_plain|done].
  - rewrite Sσ, Sτ. done.
  - intros b Hb Hcb. destruct (body_cases b Hb) as [[_ H]|H]; [done|]. rewrite Sσ, Sτ. apply Hn; [apply goal2; by exists b|].
    intros Hc'. apply Hcb. eapply constraint_sub; [by apply kept_plain|done].
  - rewrite Eb. apply in_all. right. by apply in_kept.
Qed.
Lemma run_value : forall x v, rule_value I r x v <-> rule_value I r2 x v.
Proof.
  intros x v. unfold rule_value.
  rewrite (sum_over_part (winst r x) (cs_true (cmark (wbody r)))).
  2: { intros ys (σ & Hg & _ & <-) E. pose proof (cbv_drop σ (cmark (wbody r)) Hg (cmark_ok _)) as H. rewrite cmark_all in H. rewrite H. by rewrite E. }
  rewrite (sum_over_part (winst r2 x) (cs_true (cmark (wbody r2)))).
  2: { intros ys (σ & Hg & _ & <-) E. pose proof (cbv_drop σ (cmark (wbody r2)) Hg (cmark_ok _)) as H. rewrite cmark_all in H. rewrite H. by rewrite E. }
  assert (C1 : forall (q : wrule R) σ, cs_true (cmark (wbody q)) (map (sub σ) (goals (wbody q))) = true <-> forall b, Goal b ∈ wbody q -> constraint b -> T (sub σ b) = true).
  { intros q σ. pose proof (cs_inst σ (cmark (wbody q)) (cmark_ok _)) as H. rewrite cmark_all in H. rewrite H. apply cmark_true. }
  assert (G2 : goals (wbody r2) = map (sub θ) (goals (kept ms))) by apply goals_fsub.
  apply sum_over_h with (h := drop_ys ms).
  - intros ys [(σ & Hg & Hh & <-) E]. rewrite C1 in E.
    assert (Ht : true_cs σ ms). { intros b Hb. destruct (Hm _ Hb) as (b' & [= <-] & Hc). apply E; [rewrite Eb; apply in_all; by left|done]. }
    pose proof (proj2 (Hst σ Hg) Ht) as Hs. pose proof (resolution_most_general st θ σ Hac Hθ Hs) as Hrm.
    rewrite Eb, cdrop_inst by done.
    assert (Em : map (sub σ) (goals (kept ms)) = map (sub σ) (goals (wbody r2))) by (rewrite G2, map_map; apply map_ext; intros b; by rewrite Hrm).
    split; [split|].
    + exists σ. split; [done|]. split; [|done]. cbn. by rewrite Hrm.
    + rewrite Em. apply C1. intros b Hb Hc. apply goal2 in Hb as (b0 & Hb0 & ->). rewrite Hrm. apply E; [rewrite Eb; apply in_all; right; by apply in_kept|].
      eapply constraint_sub; [by apply kept_plain|done].
    + rewrite cbv_drop by done. rewrite (proj2 (cs_inst σ ms Hm) Ht). apply bv_shape. unfold r2. cbn [rsub wbody]. by rewrite shape_fsub.
  - intros ys ys' [(σ & Hg & Hh & <-) E] [(τ & Hg' & Hh' & <-) E'] Ed. rewrite C1 in E, E'. rewrite Eb in Ed. rewrite !cdrop_inst in Ed by done.
    apply map_goals. apply map_goals in Ed || idtac. apply Hd; try done.
    + intros b Hb Hc. split; [by apply E|by apply E'].
    + by rewrite Hh, Hh'.
    + intros b Hb Hc. destruct (body_cases b Hb) as [[_ H]|H]; [done|]. by apply (proj2 (map_goals σ τ (kept ms)) Ed).
  - intros ys [(σ & Hg & Hh & <-) E]. rewrite C1 in E. destruct (after σ Hg) as (Gσ & Sσ & Tσ). cbn zeta in *. set (σ1 := fun v => sub σ (θ v)) in *.
    exists (map (sub σ1) (goals (wbody r))). split; [split|].
    + exists σ1. split; [done|]. split; [|done]. rewrite Sσ. exact Hh.
    + apply C1. intros b Hb Hc. destruct (body_cases b Hb) as [[H _]|H]; [by apply Tσ|]. rewrite Sσ. apply E; [apply goal2; by exists b|]. apply constraint_sub; [by apply kept_plain|done].
    + rewrite Eb, cdrop_inst by done. rewrite G2, map_map. apply map_ext. intros b. by rewrite Sσ.
Qed.
End one.

Lemma run_failed r ms : wbody r = all_of ms -> cmarks ms -> (forall σ, (forall v, ground (σ v)) -> ~ true_cs σ ms) ->
  forall x v, rule_value I r x v <-> v = szero.
Proof.
  intros Eb Hm Hno x v. unfold rule_value. assert (Hz : forall ys, winst r x ys -> body_value I (wbody r) ys = szero).
  { intros ys (σ & Hg & _ & <-). rewrite Eb, cbv_drop by done. destruct (cs_true _ _) eqn:E; [|done]. exfalso. apply (Hno σ Hg). by apply cs_inst. }
  split.
  - intros (L & HN & HL & _ & ->). rewrite (suml_ext L _ (fun _ => szero)); [apply suml_zero|]. intros a Ha. apply Hz, HL. by apply elem_of_list_In.
  - intros ->. exists []. split; [constructor|]. split; [intros a Ha; by apply elem_of_nil in Ha|]. split; [intros ys Hys; right; by apply Hz|done].
Qed.

(** a factor one does not count *)
Lemma replaced_goals θ (ms : list (bool * fac)) : cmarks ms -> goals (map (fsub θ) (replaced ms)) = goals (map (fsub θ) (kept ms)).
Proof.
  induction ms as [|[m [v|b]] ms IH]; intros Hm; [done|..]; pose proof (cmarks_cons _ _ Hm) as Hm'; specialize (IH Hm').
  - destruct m; [destruct (Hm (Val v)) as (x & E & _); [by left|done]|]. exact IH.
  - destruct m; [exact IH|]. cbn. by f_equal.
Qed.
Lemma replaced_value h θ (ms : list (bool * fac)) : cmarks ms -> forall x v,
  rule_value I (rsub θ (WRule h (replaced ms))) x v <-> rule_value I (rsub θ (WRule h (kept ms))) x v.
Proof.
  intros Hm x v. unfold rule_value. apply sum_over_h with (h := fun ys => ys); [|done|].
  - intros ys (σ & Hg & Hh & Hys). split.
    + exists σ. split; [done|]. split; [done|]. rewrite <- Hys. cbn [rsub wbody]. by rewrite replaced_goals.
    + clear Hys Hh. cbn [rsub wbody]. revert ys. induction ms as [|[m [w|b]] ms IH]; intros ys; [done|..]; pose proof (cmarks_cons _ _ Hm) as Hm'; specialize (IH Hm').
      * destruct m; [destruct (Hm (Val w)) as (y & E & _); [by left|done]|].
        change (smul w (body_value I (map (fsub θ) (replaced ms)) ys) = smul w (body_value I (map (fsub θ) (kept ms)) ys)). by rewrite IH.
      * destruct m.
        -- change (smul sone (body_value I (map (fsub θ) (replaced ms)) ys) = body_value I (map (fsub θ) (kept ms)) ys). by rewrite smul_1_l, IH.
        -- destruct ys as [|y ys]; [done|]. change (smul (I y) (body_value I (map (fsub θ) (replaced ms)) ys) = smul (I y) (body_value I (map (fsub θ) (kept ms)) ys)). by rewrite IH.
  - intros ys (σ & Hg & Hh & Hys). exists ys. split; [|done]. exists σ. split; [done|]. split; [done|]. rewrite <- Hys. cbn [rsub wbody]. by rewrite replaced_goals.
Qed.
End marked.

(** * One body *)
Section body.
Context {R : semiring} (cmpf : String.string -> term -> term -> res bool)
  (is_run : nat -> store -> term -> term -> res (list store)) (is_true : term -> term -> bool).
Context (His : is_exact is_true is_run).
Notation fac := (factor R).
Notation T := (btrue cmpf is_true).

Lemma true_cs_cons σ m (f : fac) ms : true_cs T σ ((m, f) :: ms) <-> (m = true -> forall b, f = Goal b -> T (sub σ b) = true) /\ true_cs T σ ms.
Proof.
  unfold true_cs. cbn [In]. split.
  - intros H. split; [intros -> b ->; apply H; by left|]. intros b Hb. apply H. by right.
  - intros [H1 H2] b [Hb|Hb]; [|by apply H2]. injection Hb as -> ->. by apply H1.
Qed.
Definition unmarked (fs : list fac) : list (bool * fac) := map (pair false) fs.
Lemma unmarked_all fs : all_of (unmarked fs) = fs.
Proof. unfold all_of, unmarked. rewrite map_map. apply map_id. Qed.
Lemma unmarked_marks fs : cmarks (unmarked fs).
Proof. intros f Hf. by apply in_map_iff in Hf as (g & ? & _). Qed.

Definition body_ok (V : gset nat) (st : store) (fs : list fac) (o : option (store * list fac)) : Prop :=
  exists ms, all_of ms = fs /\ cmarks ms /\
    match o with
    | None => forall σ, (forall v, ground (σ v)) -> solves σ st -> ~ true_cs T σ ms
    | Some (st', ys) => heap_over V st' /\ ys = replaced ms /\
        forall σ, (forall v, ground (σ v)) -> solves σ st' <-> solves σ st /\ true_cs T σ ms
    end.
Lemma go_ok V n st st1 m (f0 : fac) fs o :
  (m = true -> exists b, f0 = Goal b /\ constraint b) ->
  (forall σ, (forall v, ground (σ v)) -> solves σ st1 <-> solves σ st /\ (m = true -> forall b, f0 = Goal b -> T (sub σ b) = true)) ->
  (forall o, builtins_body cmpf is_run n st1 fs = Ok o -> body_ok V st1 fs o) ->
  (let* o := builtins_body cmpf is_run n st1 fs in
   Ok (match o with Some (st', ys) => Some (st', (if m then Val sone else f0) :: ys) | None => None end)) = Ok o ->
  body_ok V st (f0 :: fs) o.
Proof.
  intros Hc Hs IH E. destruct (builtins_body cmpf is_run n st1 fs) as [o'| |] eqn:Eo; [|done..]. cbn [bind] in E. injection E as <-.
  destruct (IH o' eq_refl) as (ms & H1 & H2 & H3). exists ((m, f0) :: ms).
  split; [unfold all_of in *; cbn; by rewrite H1|]. split.
  { intros f [Hf|Hf]; [|by apply H2]. injection Hf as -> <-. by apply Hc. }
  destruct o' as [[st' ys]|].
  - destruct H3 as (H3 & -> & H4). split_and!; try done. intros σ Hg. rewrite H4, Hs, true_cs_cons by done. tauto.
  - intros σ Hg Hσ. rewrite true_cs_cons. intros [H4 H5]. apply (H3 σ Hg); [|done]. by apply Hs.
Qed.
Lemma stop_ok V st b fs : constraint b -> (forall σ, (forall v, ground (σ v)) -> solves σ st -> T (sub σ b) <> true) -> body_ok V st (Goal b :: fs) None.
Proof.
  intros Hc Hs. exists ((true, Goal b) :: unmarked fs). split; [unfold all_of; cbn; f_equal; apply unmarked_all|]. split.
  { intros f [Hf|Hf]; [injection Hf as <-; by exists b|]. by apply unmarked_marks in Hf. }
  intros σ Hg Hσ. rewrite true_cs_cons. intros [H _]. apply (Hs σ Hg Hσ). by apply H.
Qed.

Local Open Scope string_scope.
Lemma body_run V n : forall fs st o, heap_over V st ->
  (forall b, Goal b ∈ fs -> plain_goal b) -> (forall b, Goal b ∈ fs -> in_V V b) ->
  builtins_body cmpf is_run n st fs = Ok o -> body_ok V st fs o.
Proof.
  induction fs as [|f0 fs IH]; intros st o Hst Hp HV E.
  { injection E as <-. exists []. split; [done|]. split; [intros f []|]. split_and!; try done. intros σ Hg. split; [|tauto]. intros H. split; [done|]. intros b []. }
  assert (Hp' : forall b, Goal b ∈ fs -> plain_goal b) by (intros b Hb; apply Hp; by right).
  assert (HV' : forall b, Goal b ∈ fs -> in_V V b) by (intros b Hb; apply HV; by right).
  assert (IH' : forall st1, heap_over V st1 -> forall o, builtins_body cmpf is_run n st1 fs = Ok o -> body_ok V st1 fs o) by (intros st1 H1 o' E'; by apply IH).
  assert (Leave : (let* o := builtins_body cmpf is_run n st fs in Ok (match o with Some (st', ys) => Some (st', (f0 :: ys)%list) | None => None end)) = Ok o -> body_ok V st (f0 :: fs) o).
  { intros El. apply (go_ok V n st st false f0 fs o); [done| |by apply IH'|done]. intros σ Hg. split; [|tauto]. intros H. by split. }
  cbn [builtins_body] in E. destruct f0 as [w|b]; [by apply Leave|]. specialize (Hp b (elem_of_list_here _ _)). specialize (HV b (elem_of_list_here _ _)).
  destruct Hp as [Hcf Hnv]. destruct n as [|n]; [done|]. destruct b as [v|k|[|[v|k|l] args]]; try done; [by destruct (Hnv v)|by apply Leave|].
  cbn [snap bind] in E. destruct k as [z|op]; [by apply Leave|]. destruct args as [|x [|y [|]]]; try (by apply Leave).
  { by destruct (decide (op ∈ ["$free"; "$bound"]%list)); [|apply Leave]. }
  assert (HVx : in_V V x /\ in_V V y).
  { unfold in_V in *. cbn in HV. rewrite app_nil_r in HV. split; intros v Hv; apply HV, in_or_app; auto. }
  destruct HVx as [HVx HVy]. pose proof Hst as (Hac & Hdom & Hcl).
  set (b0 := Fn [Cst (CStr op); x; y]) in *.
  assert (Hsub : forall σ, sub σ b0 = Fn [Cst (CStr op); sub σ x; sub σ y]%list) by done.
  destruct (decide (op ∈ cmps)) as [Ho|Ho].
  - assert (Hc : constraint b0) by (exists op, x, y; split; [done|]; apply elem_of_app; by left).
    assert (Hne : op <> "=") by (intros ->; revert Ho; apply (bool_decide_unpack ("=" ∉ cmps)); by vm_compute).
    assert (HTb : forall σ, T (sub σ b0) = match cmpf op (sub σ x) (sub σ y) with Ok c => c | _ => false end).
    { intros σ. rewrite Hsub. unfold btrue. rewrite decide_False by done. by rewrite decide_True. }
    destruct (acyclic_resolution _ Hac) as [θ Hθ].
    destruct (is_ground (S n) st x) as [gx| |] eqn:Ex; [|done..]. cbn [bind] in E. apply (is_ground_ok st θ Hac Hθ) in Ex.
    destruct (if gx then is_ground (S n) st y else Ok false) as [gy| |] eqn:Ey; [|done..]. cbn [bind] in E.
    destruct (gx && gy) eqn:Eg; [|by apply Leave]. apply andb_true_iff in Eg as [-> ->]. apply (is_ground_ok st θ Hac Hθ) in Ey.
    symmetry in Ex, Ey. rewrite bool_decide_eq_true in Ex, Ey.
    destruct (deref (S n) st x) as [x'| |] eqn:Dx; [|done..]. cbn [bind] in E. apply (deref_ok st θ Hac Hθ) in Dx as ->.
    destruct (deref (S n) st y) as [y'| |] eqn:Dy; [|done..]. cbn [bind] in E. apply (deref_ok st θ Hac Hθ) in Dy as ->.
    assert (Hs : forall σ, solves σ st -> sub σ x = sub θ x /\ sub σ y = sub θ y).
    { intros σ Hσ. rewrite <- (resolution_most_general st θ σ Hac Hθ Hσ x), <- (resolution_most_general st θ σ Hac Hθ Hσ y). split; by apply sub_ground. }
    destruct (cmpf op (sub θ x) (sub θ y)) as [[]| |] eqn:Ec; [| |done..]; cbn [bind] in E.
    + apply (go_ok V (S n) st st true (Goal b0) fs o); [by exists b0| |by apply IH'|done]. intros σ Hg. split; [|tauto]. intros Hσ. split; [done|].
      intros _ b [= <-]. destruct (Hs σ Hσ) as [-> ->] || idtac. rewrite HTb. destruct (Hs σ Hσ) as [-> ->]. by rewrite Ec.
    + injection E as <-. apply stop_ok; [done|]. intros σ Hg Hσ. rewrite HTb. destruct (Hs σ Hσ) as [-> ->]. by rewrite Ec.
  - destruct (decide (op = "=")) as [->|He].
    + assert (Hc : constraint b0) by (exists "=", x, y; split; [done|]; apply elem_of_app; right; by left).
      assert (HTb : forall σ, T (sub σ b0) = bool_decide (sub σ x = sub σ y)) by done.
      destruct (unify_f (S n) st x y) as [[st1 u]| |] eqn:Eu; [|done..]. cbn [bind] in E.
      destruct (unify_ok (S n) st x y st1 u Hac Eu) as (Hac1 & _ & Hu). destruct (unify_dom V (S n) st x y st1 u Hac Hcl HVx HVy Eu) as [Hcl1 Hd1].
      assert (Hst1 : heap_over V st1).
      { split; [done|]. split; [|exact Hcl1]. intros v Hv. destruct (decide (v ∈ V)) as [|Hn]; [done|]. apply elem_of_dom in Hv as [t Ht]. rewrite Hd1 in Ht by done.
        apply Hdom. apply elem_of_dom. by exists t. }
      destruct u.
      * apply (go_ok V (S n) st st1 true (Goal b0) fs o); [by exists b0| |by apply IH'|done]. intros σ Hg. rewrite Hu. split.
        -- intros [H1 H2]. split; [done|]. intros _ b [= <-]. rewrite HTb. by apply bool_decide_eq_true.
        -- intros [H1 H2]. split; [done|]. specialize (H2 eq_refl b0 eq_refl). rewrite HTb in H2. by apply bool_decide_eq_true in H2.
      * injection E as <-. apply stop_ok; [done|]. intros σ Hg Hσ. rewrite HTb, bool_decide_eq_true. by apply Hu.
    + destruct (decide (op = "is")) as [->|Hi].
      2: { destruct (decide (op = "$not_matches")); [done|by apply Leave]. }
      assert (Hc : constraint b0) by (exists "is", x, y; split; [done|]; apply elem_of_app; right; right; by left).
      assert (HTb : forall σ, T (sub σ b0) = is_true (sub σ x) (sub σ y)) by done.
      destruct (is_run (S n) st x y) as [sts|e|] eqn:Er; [|destruct e; try done; by apply Leave|done].
      destruct (His V (S n) st x y sts Hst) as [Hin Hn]; [intros w [Hw|Hw]; [by apply HVx|by apply HVy]|done|].
      destruct sts as [|st1 [|]]; [| |done].
      * injection E as <-. apply stop_ok; [done|]. intros σ Hg Hσ. rewrite HTb. specialize (Hn σ Hg Hσ). by destruct (is_true _ _).
      * destruct (Hin st1) as [Hst1 Hsub1]; [by left|].
        apply (go_ok V (S n) st st1 true (Goal b0) fs o); [by exists b0| |by apply IH'|done]. intros σ Hg. split.
        -- intros H1. assert (H0 : solves σ st) by (intros v t Hv; apply H1; by eapply lookup_weaken). split; [done|]. intros _ b [= <-]. rewrite HTb.
           specialize (Hn σ Hg H0). cbn in Hn. rewrite (proj2 (solvesb_spec σ st1) H1) in Hn. by destruct (is_true _ _).
        -- intros [H0 H2]. specialize (H2 eq_refl b0 eq_refl). rewrite HTb in H2. specialize (Hn σ Hg H0). rewrite H2 in Hn. cbn in Hn.
           apply solvesb_spec. by destruct (solvesb σ st1).
Qed.
Local Close Scope string_scope.
End body.

(** * How many subgoals are left *)
Lemma is_ground_true n st : forall x b, is_ground n st x = Ok b -> ground x -> b = true.
Proof.
  induction n as [|n IH]; intros x b E Hg; [done|]. destruct x as [v|k|xs]; [done|by injection E as <-|]. cbn [is_ground] in E.
  unfold ground in Hg. cbn in Hg. revert E Hg. induction xs as [|x xs IHx]; intros E Hg; [by injection E as <-|]. cbn [forallM] in E. cbn in Hg. apply app_eq_nil in Hg as [H1 H2].
  destruct (is_ground n st x) as [bx| |] eqn:Ex; [|done..]. cbn [bind] in E. rewrite (IH x bx Ex H1) in E. by apply IHx.
Qed.
Section count.
Context {R : semiring} (cmpf : String.string -> term -> term -> res bool)
  (is_run : nat -> store -> term -> term -> res (list store)).
Notation len fs := (length (goals fs)).
Notation one f := (match f with Goal _ => 1 | Val _ => 0 end).
Lemma len_cons (f : factor R) fs : len (f :: fs) = one f + len fs.
Proof. by destruct f. Qed.
Local Open Scope string_scope.
Lemma body_count n : forall (fs : list (factor R)) st st' ys, (forall b, Goal b ∈ fs -> plain_goal b) ->
  builtins_body cmpf is_run n st fs = Ok (Some (st', ys)) ->
  len ys <= len fs /\ forall b, Goal b ∈ fs -> ready b -> len ys < len fs.
Proof.
  induction fs as [|f0 fs IH]; intros st st' ys Hp E; [injection E as <- <-; split; [done|]; by intros b ?%elem_of_nil|].
  assert (Hp' : forall b, Goal b ∈ fs -> plain_goal b) by (intros b Hb; apply Hp; by right).
  assert (Go : forall st1 y, (let* o := builtins_body cmpf is_run n st1 fs in Ok (match o with Some (st', ys) => Some (st', (y :: ys)%list) | None => None end)) = Ok (Some (st', ys)) ->
    exists zs, ys = (y :: zs)%list /\ len zs <= len fs /\ forall b, Goal b ∈ fs -> ready b -> len zs < len fs).
  { intros st1 y El. destruct (builtins_body cmpf is_run n st1 fs) as [[[st2 zs]|]| |] eqn:Eo; [|done..]. cbn [bind] in El. injection El as -> <-.
    exists zs. split; [done|]. by apply (IH st1 st'). }
  assert (Leave : forall st1 y, (match y with Goal _ => 1 | Val _ => 0 end) = (match f0 with Goal _ => 1 | Val _ => 0 end) -> (forall b, f0 = Goal b -> ~ ready b) ->
    (let* o := builtins_body cmpf is_run n st1 fs in Ok (match o with Some (st', ys) => Some (st', (y :: ys)%list) | None => None end)) = Ok (Some (st', ys)) ->
    len ys <= len (f0 :: fs) /\ forall b, Goal b ∈ (f0 :: fs)%list -> ready b -> len ys < len (f0 :: fs)).
  { intros st1 y Hy Hn El. destruct (Go st1 y El) as (zs & -> & H1 & H2). split.
    - rewrite !len_cons. lia.
    - intros b Hb Hr. apply elem_of_cons in Hb as [Hb|Hb]; [by destruct (Hn b)|]. specialize (H2 b Hb Hr). rewrite !len_cons. lia. }
  assert (Gone : forall st1 b0, f0 = Goal b0 -> (let* o := builtins_body cmpf is_run n st1 fs in Ok (match o with Some (st', ys) => Some (st', (Val sone :: ys)%list) | None => None end)) = Ok (Some (st', ys)) ->
    len ys <= len (f0 :: fs) /\ forall b, Goal b ∈ (f0 :: fs)%list -> ready b -> len ys < len (f0 :: fs)).
  { intros st1 b0 -> El. destruct (Go st1 _ El) as (zs & -> & H1 & H2). rewrite !len_cons. split; [lia|]. intros; lia. }
  cbn [builtins_body] in E. destruct f0 as [w|b]; [by apply (Leave st (Val w))|]. destruct (Hp b (elem_of_list_here _ _)) as [Hcf Hnv].
  destruct n as [|n]; [done|]. destruct b as [v|k|[|[v|k|l] args]]; try done; [by destruct (Hnv v)| |].
  { apply (Leave st (Goal (Cst k))); [done| |done]. intros b [= <-] [(x & y & ?)|(op & x & y & ? & _)]; done. }
  cbn [snap bind] in E.
  assert (Nr : forall b, (match args with [_; _] => match k with CStr op => op ∉ cmps /\ op <> "=" | _ => True end | _ => True end) -> Goal (R := R) (Fn (Cst k :: args)) = Goal b -> ~ ready b).
  { intros b H [= <-] [(x & y & [= -> ->])|(op & x & y & [= -> ->] & Ho & _)]; cbn in H; tauto. }
  destruct k as [z|op]; [apply (Leave st (Goal (Fn (Cst (CInt z) :: args)))); [done| |done]; intros b; apply Nr; by destruct args as [|? [|? [|]]]|].
  pose proof (Leave st (Goal (Fn (Cst (CStr op) :: args))) eq_refl) as L0.
  destruct args as [|x [|y [|]]]; [by apply L0; [intros b; apply Nr|]|..|by apply L0; [intros b; apply Nr|]].
  { destruct (decide (op ∈ ["$free"; "$bound"]%list)); [done|]. by apply L0; [intros b; apply Nr|]. }
  destruct (decide (op ∈ cmps)) as [Ho|Ho].
  - destruct (is_ground (S n) st x) as [gx| |] eqn:Ex; [|done..]. cbn [bind] in E.
    destruct (if gx then is_ground (S n) st y else Ok false) as [gy| |] eqn:Ey; [|done..]. cbn [bind] in E.
    destruct (gx && gy) eqn:Eg.
    + destruct (deref (S n) st x) as [x'| |] eqn:Dx; [|done..]. cbn [bind] in E. destruct (deref (S n) st y) as [y'| |] eqn:Dy; [|done..]. cbn [bind] in E.
      destruct (cmpf op x' y') as [[]| |]; [|done..]. by eapply (Gone st).
    + apply L0; [clear E|exact E]. intros b [= <-] [(x' & y' & [= -> _ _])|(op' & x' & y' & [= <- <- <-] & _ & Hg)].
      * revert Ho. apply (bool_decide_unpack ("=" ∉ cmps)). by vm_compute.
      * unfold ground in Hg. cbn in Hg. rewrite app_nil_r in Hg. apply app_eq_nil in Hg as [H1 H2].
        rewrite (is_ground_true _ _ _ _ Ex H1) in Ey, Eg. rewrite (is_ground_true _ _ _ _ Ey H2) in Eg. done.
  - destruct (decide (op = "=")) as [->|He].
    + destruct (unify_f (S n) st x y) as [[st1 []]| |]; [|done..]. cbn [bind] in E. by eapply (Gone st1).
    + assert (Nr' : forall b, Goal (R := R) (Fn [Cst (CStr op); x; y]) = Goal b -> ~ ready b) by (intros b; by apply Nr).
      destruct (decide (op = "is")) as [->|Hi].
      * destruct (is_run (S n) st x y) as [[|st1 [|]]|e|]; try done; [by eapply (Gone st1)|]. destruct e; try done. by apply L0.
      * destruct (decide (op = "$not_matches")); [done|]. by apply L0.
Qed.
Local Close Scope string_scope.

Context (wt : const -> R) (negligible is_one : R -> bool) (al cv : nat -> nat) (Hal : forall i j, al i = al j -> i = j).
Lemma len_app (a b : list (factor R)) : len (a ++ b) = len a + len b.
Proof. unfold goals. rewrite omap_app. apply app_length. Qed.
Lemma split_count n st : forall (fs : list (factor R)) C xs C' xs', split_body wt n st fs C xs = Ok (C', xs') -> len xs' <= len xs + len fs.
Proof.
  induction fs as [|f0 fs IH]; intros C xs C' xs' E; cbn [split_body] in E; [injection E as _ <-; lia|].
  destruct (factor_const wt n st f0) as [[v|]| |]; [| |done..]; cbn [bind] in E; apply IH in E.
  - rewrite len_cons. lia.
  - rewrite len_app, len_cons in E. rewrite len_cons. cbn in E. lia.
Qed.
Lemma subgoals_app (a b : list (wrule R)) : subgoals (a ++ b) = subgoals a + subgoals b.
Proof. unfold subgoals. rewrite flat_map_app. apply app_length. Qed.
Lemma subgoals_one (r : wrule R) : subgoals [r] = len (wbody r).
Proof. unfold subgoals. cbn. by rewrite app_nil_r. Qed.
Lemma subgoals_insert (rs : list (wrule R)) i s s' : rs !! i = Some s -> len (wbody s') = 0 -> subgoals (<[i := s']> rs) <= subgoals rs.
Proof.
  intros Hi H0. rewrite insert_take_drop by (by eapply lookup_lt_Some). rewrite <- (take_drop_middle rs i s Hi) at 3.
  change (s' :: ?l) with ([s'] ++ l). change (s' :: drop (S i) rs) with ([s'] ++ drop (S i) rs). change (s :: drop (S i) rs) with ([s] ++ drop (S i) rs).
  rewrite !subgoals_app, !subgoals_one. lia.
Qed.
Lemma update_count n st θ r P P' : acyclic st -> resolution st θ -> update wt negligible is_one al cv n st r P = Ok P' ->
  subgoals (p_rules P') <= subgoals (p_rules P) + len (wbody r).
Proof.
  intros Hac Hθ. unfold update. destruct (constant_folding_rhs wt negligible is_one n st r) as [[r1|]| |] eqn:Ec; [|intros [= <-]; lia|discriminate..].
  cbn [bind]. set (m := match p_buckets P with Some _ => Ok P | None => _ end).
  destruct m as [P1| |] eqn:Em; [|discriminate..]. cbn [bind].
  assert (H1 : p_rules P1 = p_rules P).
  { unfold m in Em. destruct (p_buckets P); [by injection Em as <-|]. destruct (make_buckets wt cv n st 0 (p_rules P) ∅); [|discriminate..]. by injection Em as <-. }
  clear Em m. rewrite <- H1. clear H1.
  assert (H1 : len (wbody r1) <= len (wbody r)).
  { unfold constant_folding_rhs in Ec. destruct (split_body wt n st (wbody r) sone []) as [[C xs]| |] eqn:Es; [|done..]. cbn [bind] in Ec. apply split_count in Es. cbn in Es.
    destruct (negligible C); [done|]. by destruct (is_one C && _); injection Ec as <-. }
  assert (Add : forall r2 c0 c (Q P3 : pstate R) i, p_rules Q = p_rules P1 -> fresh_rule al n st c0 r1 = Ok (r2, c) -> add_rule n st r2 Q = Ok (P3, i) ->
    subgoals (p_rules P3) <= subgoals (p_rules P1) + len (wbody r)).
  { intros r2 c0 c Q P3 i HQ Ef Ea. apply (fresh_rule_ok al Hal st θ Hac Hθ) in Ef as (ρ & -> & _ & _ & _). apply add_rule_rules in Ea as [E1 _].
    rewrite E1, HQ, subgoals_app, subgoals_one. unfold rrename. cbn [rsub wbody]. rewrite !goals_fsub, !map_length. lia. }
  destruct (update_bucket wt al cv n st r1 P1) as [[P2 o]| |] eqn:Eu; [|discriminate..]. cbn [bind].
  unfold update_bucket in Eu. destruct (get_const_rhs wt n st r1) as [[C|]| |]; [| |discriminate..]; cbn [bind] in Eu.
  - destruct (canonicalize cv n st (whead r1)) as [h| |]; [|discriminate..]. cbn [bind] in Eu.
    destruct (p_buckets P1) as [bk|] eqn:Ebk; [|discriminate]. destruct (bk !! h) as [i|].
    + destruct (merge_at wt n st i C P1) as [P3| |] eqn:Em; [|discriminate..]. cbn [bind] in Eu. injection Eu as <- <-. intros [= <-].
      unfold merge_at in Em. destruct (p_rules P1 !! i) as [s|] eqn:Es; [|discriminate]. destruct (wbody s) as [|f [|? ?]] eqn:Ef; [discriminate| |discriminate].
      destruct (factor_const wt n st f) as [[v|]| |]; [|discriminate..]. injection Em as <-. cbn [p_rules].
      match goal with |- subgoals (<[i := ?s']> _) <= _ => pose proof (subgoals_insert (p_rules P1) i s s' Es eq_refl) end. lia.
    + destruct (fresh_rule al n st (p_c P1) r1) as [[r2 c]| |] eqn:Ef; [|discriminate..]. cbn [bind] in Eu.
      destruct (add_rule n st r2 _) as [[P3 i]| |] eqn:Ea; [|discriminate..]. cbn [bind] in Eu. injection Eu as <- <-. intros [= <-].
      eapply (Add r2 _ _ _ P3); [|exact Ef|exact Ea]. done.
  - injection Eu as <- <-. destruct (fresh_rule al n st (p_c P1) r1) as [[r2 c]| |] eqn:Ef; [|discriminate..]. cbn [bind].
    destruct (add_rule n st r2 _) as [[P3 i]| |] eqn:Ea; [|discriminate..]. cbn [bind]. intros [= <-].
    eapply (Add r2 _ _ _ P3); [|exact Ef|exact Ea]. done.
Qed.
End count.

(** * Programs *)
Section program.
Context {R : semiring} (Hcomm : forall x y : R, smul x y = smul y x).
Context (cmpf : String.string -> term -> term -> res bool)
  (is_run : nat -> store -> term -> term -> res (list store)) (is_true : term -> term -> bool).
Context (His : is_exact is_true is_run).
Context (wt : const -> R) (negligible is_one : R -> bool) (al cv : nat -> nat).
Context (Hal : forall i j, al i = al j -> i = j) (Hcv : forall i j, cv i = cv j -> i = j).
Context (Hneg : forall C, negligible C = true -> C = szero) (Hone : forall C, is_one C = true -> C = sone).
Notation T := (btrue cmpf is_true).
Notation upd := (update wt negligible is_one al cv).

(** ** which rules a program has after [append] *)
Lemma split_keeps n st θ : acyclic st -> resolution st θ -> forall (fs : list (factor R)) C xs C' xs', split_body wt n st fs C xs = Ok (C', xs') ->
  forall b, Goal b ∈ xs \/ Goal b ∈ fs -> Goal b ∈ xs' \/ exists k, sub θ b = Cst k.
Proof.
  intros Hac Hθ. induction fs as [|f0 fs IH]; intros C xs C' xs' E b Hb; cbn [split_body] in E.
  { injection E as _ <-. destruct Hb as [Hb|Hb]; [by left|by apply elem_of_nil in Hb]. }
  destruct (factor_const wt n st f0) as [o| |] eqn:Ef; [|done..]. cbn [bind] in E. apply (factor_const_ok wt st θ Hac Hθ) in Ef. destruct o as [v|].
  - destruct Hb as [Hb|Hb]; [apply (IH _ _ _ _ E); by left|]. apply elem_of_cons in Hb as [<-|Hb]; [|apply (IH _ _ _ _ E); by right].
    right. cbn in Ef. destruct (sub θ b) as [w|k|l]; try done. by exists k.
  - apply (IH _ _ _ _ E). rewrite elem_of_app, elem_of_list_singleton. destruct Hb as [Hb|Hb]; [tauto|]. apply elem_of_cons in Hb as [<-|Hb]; tauto.
Qed.
Definition folded (θ : nat -> term) (r r1 : wrule R) : Prop :=
  whead r1 = whead r /\ (forall b, Goal b ∈ wbody r1 -> Goal b ∈ wbody r) /\
  forall b, Goal b ∈ wbody r -> Goal b ∈ wbody r1 \/ exists k, sub θ b = Cst k.
Lemma folding_folded n st θ r r1 : acyclic st -> resolution st θ -> constant_folding_rhs wt negligible is_one n st r = Ok (Some r1) -> folded θ r r1.
Proof.
  intros Hac Hθ E. pose proof (folding_in wt negligible is_one n st r r1 E) as Hin. unfold constant_folding_rhs in E.
  destruct (split_body wt n st (wbody r) sone []) as [[C xs]| |] eqn:Es; [|done..]. cbn [bind] in E.
  pose proof (split_keeps n st θ Hac Hθ _ _ _ _ _ Es) as Hk.
  destruct (negligible C); [done|]. destruct (is_one C && _); injection E as <-; (split; [done|]); (split; [done|]); intros b Hb; (destruct (Hk b) as [H|H]; [by right|left|by right]); cbn [wbody]; [done|by right].
Qed.
Definition entry (st : store) (θ : nat -> term) (r : wrule R) (P : pstate R) (q : wrule R) : Prop :=
  (exists q0, q0 ∈ p_rules P /\ whead q = whead q0 /\ (q = q0 \/ goals (wbody q) = [])) \/
  (exists ρ r1, folded θ r r1 /\ q = rrename ρ (rsub θ r1)).
Lemma update_entries n st θ r P P' : acyclic st -> resolution st θ -> upd n st r P = Ok P' ->
  forall q, q ∈ p_rules P' -> entry st θ r P q.
Proof.
  intros Hac Hθ. assert (Old : forall q, q ∈ p_rules P -> entry st θ r P q) by (intros q Hq; left; exists q; auto).
  unfold update. destruct (constant_folding_rhs wt negligible is_one n st r) as [[r1|]| |] eqn:Ec; [|intros [= <-]; exact Old|discriminate..].
  cbn [bind]. set (m := match p_buckets P with Some _ => Ok P | None => _ end).
  destruct m as [P1| |] eqn:Em; [|discriminate..]. cbn [bind].
  assert (H1 : p_rules P1 = p_rules P).
  { unfold m in Em. destruct (p_buckets P); [by injection Em as <-|]. destruct (make_buckets wt cv n st 0 (p_rules P) ∅); [|discriminate..]. by injection Em as <-. }
  clear Em m. pose proof (folding_folded _ _ _ _ _ Hac Hθ Ec) as Hf.
  assert (Add : forall r2 c0 c (Q P3 : pstate R) i, p_rules Q = p_rules P -> fresh_rule al n st c0 r1 = Ok (r2, c) -> add_rule n st r2 Q = Ok (P3, i) ->
    forall q, q ∈ p_rules P3 -> entry st θ r P q).
  { intros r2 c0 c Q P3 i HQ Ef Ea q Hq. apply (fresh_rule_ok al Hal st θ Hac Hθ) in Ef as (ρ & -> & _ & _ & _). apply add_rule_rules in Ea as [E1 _].
    rewrite E1, HQ in Hq. apply elem_of_app in Hq as [Hq|Hq]; [by apply Old|]. apply elem_of_list_singleton in Hq as ->. right. by exists ρ, r1. }
  destruct (update_bucket wt al cv n st r1 P1) as [[P2 o]| |] eqn:Eu; [|discriminate..]. cbn [bind].
  unfold update_bucket in Eu. destruct (get_const_rhs wt n st r1) as [[C|]| |]; [| |discriminate..]; cbn [bind] in Eu.
  - destruct (canonicalize cv n st (whead r1)) as [h| |]; [|discriminate..]. cbn [bind] in Eu.
    destruct (p_buckets P1) as [bk|] eqn:Ebk; [|discriminate]. destruct (bk !! h) as [i|].
    + destruct (merge_at wt n st i C P1) as [P3| |] eqn:Em; [|discriminate..]. cbn [bind] in Eu. injection Eu as <- <-. intros [= <-] q Hq.
      unfold merge_at in Em. destruct (p_rules P1 !! i) as [s|] eqn:Es; [|discriminate]. destruct (wbody s) as [|f [|? ?]] eqn:Ef; [discriminate| |discriminate].
      destruct (factor_const wt n st f) as [[v|]| |]; [|discriminate..]. injection Em as <-. cbn [p_rules] in Hq.
      apply elem_of_list_lookup in Hq as [k Hk]. destruct (decide (k = i)) as [->|Hn].
      * rewrite list_lookup_insert in Hk by (by eapply lookup_lt_Some). injection Hk as <-. left. exists s. split; [rewrite <- H1; by eapply elem_of_list_lookup_2|]. split; [done|by right].
      * rewrite list_lookup_insert_ne in Hk by done. apply Old. rewrite <- H1. by eapply elem_of_list_lookup_2.
    + destruct (fresh_rule al n st (p_c P1) r1) as [[r2 c]| |] eqn:Ef; [|discriminate..]. cbn [bind] in Eu.
      destruct (add_rule n st r2 _) as [[P3 i]| |] eqn:Ea; [|discriminate..]. cbn [bind] in Eu. injection Eu as <- <-. intros [= <-] q Hq.
      eapply (Add r2 _ _ _ P3); [|exact Ef|exact Ea|exact Hq]. exact H1.
  - injection Eu as <- <-. destruct (fresh_rule al n st (p_c P1) r1) as [[r2 c]| |] eqn:Ef; [|discriminate..]. cbn [bind].
    destruct (add_rule n st r2 _) as [[P3 i]| |] eqn:Ea; [|discriminate..]. cbn [bind]. intros [= <-] q Hq.
    eapply (Add r2 _ _ _ P3); [|exact Ef|exact Ea|exact Hq]. exact H1.
Qed.

(** ** the conditions on a rule *)
Definition fit (r : wrule R) : Prop := item_head (whead r) /\ (forall b, Goal b ∈ wbody r -> plain_goal b) /\ cdet T r.
Lemma no_goals (q : wrule R) : goals (wbody q) = [] -> forall b, Goal b ∉ wbody q.
Proof. intros E b Hb. apply goals_in in Hb. by rewrite E in Hb. Qed.
Lemma rsub_goal θ (r : wrule R) b : Goal b ∈ wbody (rsub θ r) <-> exists b0, Goal b0 ∈ wbody r /\ b = sub θ b0.
Proof.
  cbn [rsub wbody]. rewrite elem_of_list_fmap. split.
  - intros ([v|b0] & E & H); [done|]. injection E as ->. by exists b0.
  - intros (b0 & H & ->). by exists (Goal b0).
Qed.
Lemma fit_folded θ r r1 : folded θ r r1 -> fit (rsub θ r) -> fit (rsub θ r1).
Proof.
  intros (Hh & H1 & H2) (F1 & F2 & F3). split; [cbn [rsub whead] in *; by rewrite Hh|]. split.
  { intros b Hb. apply F2. apply rsub_goal in Hb as (b0 & Hb & ->). apply rsub_goal. exists b0. split; [by apply H1|done]. }
  intros σ τ Hσ Hτ Hc Hhd Hn b Hb.
  assert (Cases : forall b, Goal b ∈ wbody (rsub θ r) -> Goal b ∈ wbody (rsub θ r1) \/ exists k, b = Cst k).
  { intros b' Hb'. apply rsub_goal in Hb' as (b0 & Hb0 & ->). destruct (H2 b0 Hb0) as [H|H]; [left; apply rsub_goal; by exists b0|by right]. }
  assert (Nc : forall k, ~ constraint (Cst k)) by (by intros k (op & x & y & E & _)).
  apply F3; try done.
  - intros b' Hb' Hcb. destruct (Cases b' Hb') as [H|[k ->]]; [by apply Hc|by apply Nc in Hcb].
  - cbn [rsub whead] in *. by rewrite Hh in Hhd.
  - intros b' Hb' Hcb. destruct (Cases b' Hb') as [H|[k ->]]; [by apply Hn|done].
  - apply rsub_goal in Hb as (b0 & Hb & ->). apply rsub_goal. exists b0. split; [by apply H1|done].
Qed.
Lemma fit_rename ρ r : fit r -> fit (rrename ρ r).
Proof.
  intros (F1 & F2 & F3). split; [by apply sub_item_head|]. split.
  { intros b Hb. apply rsub_goal in Hb as (b0 & Hb & ->). by apply plain_sub, F2. }
  intros σ τ Hσ Hτ Hc Hhd Hn b Hb. apply rsub_goal in Hb as (b0 & Hb & ->). rewrite !sub_sub. apply F3; try done.
  - intros v. apply Hσ.
  - intros v. apply Hτ.
  - intros b Hb' Hcb. rewrite <- (sub_sub σ (fun v => Var (ρ v))), <- (sub_sub τ (fun v => Var (ρ v))). apply Hc; [apply rsub_goal; by exists b|]. apply constraint_sub; [by apply F2|done].
  - cbn [rrename rsub whead] in Hhd. by rewrite !sub_sub in Hhd.
  - intros b Hb' Hcb. rewrite <- (sub_sub σ (fun v => Var (ρ v))), <- (sub_sub τ (fun v => Var (ρ v))). apply Hn; [apply rsub_goal; by exists b|].
    intros Hc'. apply Hcb. eapply constraint_sub; [by apply F2|done].
Qed.
Lemma fit_entry st θ r P q : (forall q0, q0 ∈ p_rules P -> fit q0) -> fit (rsub θ r) -> entry st θ r P q -> fit q.
Proof.
  intros HP Hr [(q0 & Hq0 & Hh & [->|Hg])|(ρ & r1 & Hf & ->)]; [by apply HP| |by eapply fit_rename, fit_folded].
  destruct (HP q0 Hq0) as (F1 & _ & _). pose proof (no_goals q Hg) as Hno. split; [by rewrite Hh|]. split; [intros b Hb; by apply Hno in Hb|].
  intros σ τ _ _ _ _ _ b Hb. by apply Hno in Hb.
Qed.

(** ** rounds *)
Definition new_from (c : nat) (r : wrule R) : Prop := forall v j, v ∈ wvars r -> c <= j -> v <> al j.
Definition round_inv (c : nat) (P : pstate R) : Prop :=
  c <= p_c P /\ (forall r v, r ∈ p_rules P -> v ∈ wvars r -> exists j, v = al j /\ c <= j < p_c P) /\
  (forall r, r ∈ p_rules P -> fit r) /\ inv wt cv P.
Definition exact (I : term -> R) : Prop := forall y, constraint y -> ground y -> I y = if T y then sone else szero.

Lemma round_rule n c r P P' : fit r -> new_from c r -> round_inv c P ->
  builtins_rule cmpf is_run al wt negligible is_one cv n r P = Ok P' ->
  round_inv c P' /\ forall I, respects wt I -> exact I -> forall x v, prog_value I (p_rules P') x v <-> prog_value I (p_rules P ++ [r]) x v.
Proof.
  intros (Hh & Hp & Hd) Hfr (Hm1 & Hm2 & Hm3 & HP) E. unfold builtins_rule in E.
  destruct (builtins_body cmpf is_run n ∅ (wbody r)) as [o| |] eqn:Es; [|done..]. cbn [bind] in E.
  set (V := list_to_set (wvars r) : gset nat).
  assert (Hemp : heap_over V ∅). { split; [apply acyclic_empty|]. split; [by rewrite dom_empty_L|]. intros v t Hv. by rewrite lookup_empty in Hv. }
  assert (HV : forall b, Goal b ∈ wbody r -> in_V V b).
  { intros b Hb v Hv. unfold V. apply elem_of_list_to_set, elem_of_app. right. apply elem_of_list_In, in_flat_map. exists b. split; [by apply goals_in|done]. }
  destruct (body_run cmpf is_run is_true His V n (wbody r) ∅ o Hemp Hp HV Es) as (ms & Ea & Hms & Ho). symmetry in Ea.
  assert (H0 : forall σ, solves σ (∅ : store)) by (intros σ v t Ev; by rewrite lookup_empty in Ev).
  destruct o as [[st ys]|].
  - destruct Ho as ((Hac & Hdom & Hcl) & -> & Hst). destruct (acyclic_resolution st Hac) as [θ Hθ].
    assert (Hst' : forall σ, (forall v, ground (σ v)) -> solves σ st <-> true_cs T σ ms) by (intros σ Hg; rewrite Hst by done; split; [tauto|done]).
    assert (Hu : unbound st (p_rules P)).
    { intros q v Hq Hv. destruct (Hm2 q v Hq Hv) as (j & -> & Hj). apply not_elem_of_dom. intros Hin. apply Hdom in Hin.
      apply elem_of_list_to_set in Hin. by apply (Hfr _ j Hin); [lia|]. }
    assert (Hfit : fit (rsub θ (WRule (whead r) (replaced ms)))).
    { split; [by apply sub_item_head|].
      assert (Hrk : forall b, Goal b ∈ wbody (rsub θ (WRule (whead r) (replaced ms))) <-> Goal b ∈ wbody (rsub θ (WRule (whead r) (kept ms)))).
      { intros b. rewrite <- !goals_in. cbn [rsub wbody]. by rewrite replaced_goals. }
      split.
      - intros b Hb. apply Hrk, rsub_goal in Hb as (b0 & Hb & ->). apply plain_sub. eapply kept_plain; [exact Ea|exact Hp|exact Hb].
      - pose proof (cdet2 T r ms st θ Ea Hms Hθ Hst' Hp Hd) as Hd2.
        intros σ τ Hσ Hτ Hc Hhd Hn b Hb. apply Hrk in Hb. revert b Hb. apply Hd2; try done; intros b Hb; apply Hrk in Hb; [by apply Hc|by apply Hn]. }
    split; [|].
    + destruct (update_grows wt negligible is_one al cv Hal n st θ _ P P' Hac Hθ E) as [G1 G2]. split; [lia|]. split; [|split].
      * intros q v Hq Hv. destruct (G2 q v Hq Hv) as [(q0 & Hq0 & Hv0)|(j & -> & Hj)]; [|exists j; split; [done|lia]].
        destruct (Hm2 q0 v Hq0 Hv0) as (j & -> & Hj). exists j. split; [done|lia].
      * intros q Hq. eapply fit_entry; [exact Hm3|exact Hfit|]. eapply update_entries; done.
      * assert (HI0 : respects wt (fun t => match t with Cst k => wt k | _ => szero end)) by done.
        eapply (update_ok Hcomm wt negligible is_one al cv Hal Hcv Hneg Hone _ HI0 n st θ _ P P' Hac Hθ Hu HP); [|done]. by apply sub_item_head.
    + intros I HI HT x v.
      destruct (update_ok Hcomm wt negligible is_one al cv Hal Hcv Hneg Hone I HI n st θ (WRule (whead r) (replaced ms)) P P' Hac Hθ Hu HP (sub_item_head θ _ Hh) E) as [_ H2].
      rewrite H2, !prog_value_app. setoid_rewrite prog_value_one. setoid_rewrite (replaced_value I (whead r) θ ms Hms).
      by setoid_rewrite (run_value I T HT r ms st θ Ea Hms Hac Hθ Hst' Hp Hd).
  - injection E as <-. split; [done|]. intros I HI HT x v. rewrite prog_value_app. setoid_rewrite prog_value_one.
    setoid_rewrite (run_failed I T HT r ms Ea Hms); [|intros σ Hg; by apply Ho]. split.
    + intros H. exists v, szero. split; [done|]. split; [done|]. by rewrite sadd_0_r.
    + intros (v1 & v2 & H1 & -> & ->). by rewrite sadd_0_r.
Qed.
Lemma round_rules n c : forall rs P P', (forall r, r ∈ rs -> fit r /\ new_from c r) -> round_inv c P ->
  foldM (builtins_rule cmpf is_run al wt negligible is_one cv n) rs P = Ok P' ->
  round_inv c P' /\ forall I, respects wt I -> exact I -> forall x v, prog_value I (p_rules P') x v <-> prog_value I (p_rules P ++ rs) x v.
Proof.
  induction rs as [|r rs IH]; intros P P' Hg HP E; cbn [foldM] in E; [injection E as <-; split; [done|]; intros; by rewrite app_nil_r|].
  destruct (builtins_rule cmpf is_run al wt negligible is_one cv n r P) as [P1| |] eqn:E1; [|done..]. cbn [bind] in E.
  destruct (Hg r (elem_of_list_here _ _)) as [Hf Hn]. destruct (round_rule n c r P P1 Hf Hn HP E1) as [HP1 Hv].
  destruct (IH P1 P' (fun q Hq => Hg q (elem_of_list_further _ _ _ Hq)) HP1 E) as [HP' Hv']. split; [done|]. intros I HI Heq x v.
  rewrite (Hv' I HI Heq x v). change (r :: rs) with ([r] ++ rs). rewrite app_assoc. rewrite (prog_value_app I (p_rules P1) rs), (prog_value_app I (p_rules P ++ [r]) rs).
  by setoid_rewrite (Hv I HI Heq).
Qed.
Lemma round_ok n c rs P : (forall r, r ∈ rs -> fit r /\ new_from c r) ->
  builtins_round cmpf is_run al wt negligible is_one cv n rs c = Ok P ->
  c <= p_c P /\ (forall r, r ∈ p_rules P -> fit r /\ new_from (p_c P) r) /\
  forall I, respects wt I -> exact I -> forall x v, prog_value I (p_rules P) x v <-> prog_value I rs x v.
Proof.
  intros Hg E. destruct (round_rules n c rs (p_new [] c) P Hg) as [(H1 & H2 & H3 & _) H4]; [|done|].
  { split; [done|]. split; [by intros r v ?%elem_of_nil|]. split; [by intros r ?%elem_of_nil|]. apply inv_new. by intros r ?%elem_of_nil. }
  split; [done|]. split; [|exact H4]. intros r Hr. split; [by apply H3|]. intros v j Hv Hj Ev. destruct (H2 r v Hr Hv) as (j' & E' & Hj'). rewrite E' in Ev. apply Hal in Ev. lia.
Qed.
Context (same : list (wrule R) -> list (wrule R) -> bool).
Lemma rounds_ok n : forall k rs c rs' c', (forall r, r ∈ rs -> fit r /\ new_from c r) ->
  run_rounds cmpf is_run al wt negligible is_one cv same k n rs c = Ok (rs', c') ->
  c <= c' /\ (forall r, r ∈ rs' -> fit r) /\ forall I, respects wt I -> exact I -> forall x v, prog_value I rs' x v <-> prog_value I rs x v.
Proof.
  induction k as [|k IH]; intros rs c rs' c' Hg E; [done|]. cbn [run_rounds] in E.
  destruct (builtins_round cmpf is_run al wt negligible is_one cv n rs c) as [P| |] eqn:Er; [|done..]. cbn [bind] in E.
  destruct (round_ok n c rs P Hg Er) as (H1 & H2 & H3). destruct (same rs (p_rules P)).
  - injection E as <- <-. split; [done|]. split; [intros r Hr; by apply Hg|done].
  - destruct (IH _ _ _ _ H2 E) as (H4 & H5 & H6). split; [lia|]. split; [done|]. intros I HI HT x v. rewrite (H6 I HI HT). by apply H3.
Qed.
Lemma run_ok k n : forall rs c rss c', (forall r, r ∈ rs -> fit r /\ new_from c r) ->
  mapSM (fun r0 c => run_rounds cmpf is_run al wt negligible is_one cv same k n [r0] c) rs c = Ok (rss, c') ->
  (forall r, r ∈ concat rss -> fit r) /\ forall I, respects wt I -> exact I -> forall x v, prog_value I (concat rss) x v <-> prog_value I rs x v.
Proof.
  induction rs as [|r rs IH]; intros c rss c' Hg E; cbn [mapSM] in E; [injection E as <- <-; split; [by intros r ?%elem_of_nil|done]|].
  destruct (run_rounds cmpf is_run al wt negligible is_one cv same k n [r] c) as [[rs1 c1]| |] eqn:Er; [|done..]. cbn [bind] in E.
  destruct (mapSM _ rs c1) as [[rss2 c2]| |] eqn:Em; [|done..]. cbn [bind] in E. injection E as <- <-.
  destruct (rounds_ok n k [r] c rs1 c1) as (H1 & H2 & H3); [intros q Hq; apply Hg; apply elem_of_list_singleton in Hq as ->; by left|done|].
  destruct (IH c1 rss2 c2) as [H4 H5]; [|done|].
  { intros q Hq. destruct (Hg q) as [Hf Hn]; [by right|]. split; [done|]. intros v j Hv Hj. apply Hn; [done|lia]. }
  split; [intros q Hq; cbn [concat] in Hq; apply elem_of_app in Hq as [Hq|Hq]; [by apply H2|by apply H4]|].
  intros I HI HT x v. cbn [concat]. change (r :: rs) with ([r] ++ rs). rewrite !prog_value_app. setoid_rewrite (H3 I HI HT). by setoid_rewrite (H5 I HI HT).
Qed.

(** ** what is left *)
Lemma rule_count n r (P P' : pstate R) : (forall b, Goal b ∈ wbody r -> plain_goal b) ->
  builtins_rule cmpf is_run al wt negligible is_one cv n r P = Ok P' ->
  subgoals (p_rules P') <= subgoals (p_rules P) + subgoals [r] /\ forall b, Goal b ∈ wbody r -> ready b -> subgoals (p_rules P') < subgoals (p_rules P) + subgoals [r].
Proof.
  intros Hp E. unfold builtins_rule in E. rewrite subgoals_one.
  destruct (builtins_body cmpf is_run n ∅ (wbody r)) as [o| |] eqn:Es; [|done..]. cbn [bind] in E.
  set (V := list_to_set (wvars r) : gset nat).
  assert (Hemp : heap_over V ∅). { split; [apply acyclic_empty|]. split; [by rewrite dom_empty_L|]. intros v t Hv. by rewrite lookup_empty in Hv. }
  assert (HV : forall b, Goal b ∈ wbody r -> in_V V b).
  { intros b Hb v Hv. unfold V. apply elem_of_list_to_set, elem_of_app. right. apply elem_of_list_In, in_flat_map. exists b. split; [by apply goals_in|done]. }
  destruct (body_run cmpf is_run is_true His V n (wbody r) ∅ o Hemp Hp HV Es) as (ms & Ea & Hms & Ho).
  destruct o as [[st ys]|].
  - destruct Ho as ((Hac & _ & _) & _ & _). destruct (acyclic_resolution st Hac) as [θ Hθ].
    pose proof (update_count wt negligible is_one al cv Hal n st θ _ P P' Hac Hθ E) as Hu. cbn [wbody] in Hu.
    destruct (body_count cmpf is_run n _ _ _ _ Hp Es) as [H1 H2]. split; [lia|]. intros b Hb Hr. specialize (H2 b Hb Hr). lia.
  - injection E as <-. split; [lia|]. intros b Hb _. apply goals_in in Hb. destruct (goals (wbody r)); [done|]. cbn. lia.
Qed.
Lemma fold_count n : forall rs (P P' : pstate R), (forall r b, r ∈ rs -> Goal b ∈ wbody r -> plain_goal b) ->
  foldM (builtins_rule cmpf is_run al wt negligible is_one cv n) rs P = Ok P' ->
  subgoals (p_rules P') <= subgoals (p_rules P) + subgoals rs /\
  forall r b, r ∈ rs -> Goal b ∈ wbody r -> ready b -> subgoals (p_rules P') < subgoals (p_rules P) + subgoals rs.
Proof.
  induction rs as [|r rs IH]; intros P P' Hp E; cbn [foldM] in E; [injection E as <-; split; [lia|]; by intros r b ?%elem_of_nil|].
  destruct (builtins_rule cmpf is_run al wt negligible is_one cv n r P) as [P1| |] eqn:E1; [|done..]. cbn [bind] in E.
  destruct (rule_count n r P P1 (fun b => Hp r b (elem_of_list_here _ _)) E1) as [H1 H2].
  destruct (IH P1 P' (fun q b Hq => Hp q b (elem_of_list_further _ _ _ Hq)) E) as [H3 H4].
  change (r :: rs) with ([r] ++ rs). rewrite subgoals_app. split; [lia|]. intros q b Hq Hb Hr.
  apply elem_of_app in Hq as [->%elem_of_list_singleton|Hq]; [specialize (H2 b Hb Hr)|specialize (H4 q b Hq Hb Hr)]; lia.
Qed.
Lemma rounds_done n : (forall a b, same a b = true -> subgoals a = subgoals b) -> forall k rs c rs' c', (forall r, r ∈ rs -> fit r /\ new_from c r) ->
  run_rounds cmpf is_run al wt negligible is_one cv same k n rs c = Ok (rs', c') ->
  c <= c' /\ forall r b, r ∈ rs' -> Goal b ∈ wbody r -> ~ ready b.
Proof.
  intros Hs. induction k as [|k IH]; intros rs c rs' c' Hg E; [done|]. cbn [run_rounds] in E.
  destruct (builtins_round cmpf is_run al wt negligible is_one cv n rs c) as [P| |] eqn:Er; [|done..]. cbn [bind] in E.
  destruct (round_ok n c rs P Hg Er) as (H1 & H2 & _). destruct (same rs (p_rules P)) eqn:Esame.
  - injection E as <- <-. split; [done|]. intros r b Hr Hb Hrd.
    assert (Hpl : forall r b, r ∈ rs -> Goal b ∈ wbody r -> plain_goal b) by (intros q b' Hq; by apply Hg).
    destruct (fold_count n rs (p_new [] c) P Hpl Er) as [_ H4].
    specialize (H4 r b Hr Hb Hrd). rewrite (Hs _ _ Esame) in H4. cbn in H4. lia.
  - destruct (IH _ _ _ _ H2 E) as (H4 & H5). split; [lia|done].
Qed.
Lemma run_done k n : (forall a b, same a b = true -> subgoals a = subgoals b) -> forall rs c rss c', (forall r, r ∈ rs -> fit r /\ new_from c r) ->
  mapSM (fun r0 c => run_rounds cmpf is_run al wt negligible is_one cv same k n [r0] c) rs c = Ok (rss, c') ->
  forall r b, r ∈ concat rss -> Goal b ∈ wbody r -> ~ ready b.
Proof.
  intros Hs. induction rs as [|r rs IH]; intros c rss c' Hg E; cbn [mapSM] in E; [injection E as <- <-; by intros r b ?%elem_of_nil|].
  destruct (run_rounds cmpf is_run al wt negligible is_one cv same k n [r] c) as [[rs1 c1]| |] eqn:Er; [|done..]. cbn [bind] in E.
  destruct (mapSM _ rs c1) as [[rss2 c2]| |] eqn:Em; [|done..]. cbn [bind] in E. injection E as <- <-.
  destruct (rounds_done n Hs k [r] c rs1 c1) as [H1 H2]; [intros q Hq; apply Hg; apply elem_of_list_singleton in Hq as ->; by left|done|].
  intros q b Hq. cbn [concat] in Hq. apply elem_of_app in Hq as [Hq|Hq]; [by apply H2|].
  revert Hq. apply (IH c1 rss2 c2); [|done]. intros p Hp. destruct (Hg p) as [Hf Hn]; [by right|]. split; [done|]. intros v j Hv Hj. apply Hn; [done|lia].
Qed.
End program.
