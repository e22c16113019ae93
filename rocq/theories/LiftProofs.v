(** Proofs about lifting into another semiring. *)
From Coq Require Import List Lia.
From stdpp Require Import gmap.
From Verif Require Import PyBase Semiring TermModel TermSpec SetsModel SolverSpec SolverProofs UpdateModel UpdateSpec UpdateProofs
  EvalModel EvalSpec EvalProofs LiftModel LiftSpec.
Import ListNotations.

Section hom.
Context {R S : semiring} (φ : R -> S) (Hφ : homomorphism φ).
Lemma hom_suml {A} (l : list A) (f : A -> R) : φ (suml l f) = suml l (fun a => φ (f a)).
Proof. induction l as [|a l IH]; [apply (hom_0 _ Hφ)|]. rewrite !suml_cons, (hom_add _ Hφ). by rewrite IH. Qed.
Lemma hom_prodl (l : list R) : φ (prodl l) = prodl (map φ l).
Proof. induction l as [|a l IH]; [apply (hom_1 _ Hφ)|].
  change (φ (smul a (prodl l)) = smul (φ a) (prodl (map φ l))). by rewrite (hom_mul _ Hφ), IH. Qed.
Lemma sum_over_hom {A B} (P : A -> Prop) (Q : B -> Prop) (f : A -> R) (g : B -> S) (h : A -> B) v :
  (forall a, P a -> Q (h a) /\ g (h a) = φ (f a)) -> (forall a a', P a -> P a' -> h a = h a' -> a = a') ->
  (forall b, Q b -> exists a, P a /\ h a = b) -> sum_over P f v -> sum_over Q g (φ v).
Proof.
  intros H1 H2 H3 (L & HN & HL & Hz & ->). exists (map h L). split; [|split; [|split]].
  - clear Hz. induction HN as [|a L Ha HN IH]; [constructor|]. simpl. constructor.
    + intros Hin. apply elem_of_list_fmap in Hin as (a' & E & Hin). apply Ha.
      rewrite (H2 a a'); [done|apply HL; by left|apply HL; by right|done].
    + apply IH. intros a' Ha'. apply HL. by right.
  - intros b Hb. apply elem_of_list_fmap in Hb as (a & -> & Ha). by apply H1, HL.
  - intros b Hb. destruct (H3 b Hb) as (a & Ha & <-). destruct (Hz a Ha) as [Hin|H0].
    + left. by apply elem_of_list_fmap_1.
    + right. destruct (H1 a Ha) as [_ ->]. rewrite H0. apply (hom_0 _ Hφ).
  - rewrite hom_suml, suml_map. apply suml_ext. intros a Ha. symmetry. apply H1, HL. by apply elem_of_list_In.
Qed.
End hom.

Section values.
Context {R S : semiring} (φ : R -> S) (Hφ : homomorphism φ) (wt : const -> R).
Notation lf := (lift_factor wt (fun v _ => φ v)).

(** one step of bottom-up evaluation *)
Context (wt' : const -> S) (test : term -> option bool).
Lemma lift_factor_val h (I : term -> R) f : factor_val wt' test (fun x => φ (I x)) (lf h f) = φ (factor_val wt test I f).
Proof.
  destruct f as [v|[w|k|l]]; try done; cbn [lift_factor factor_val]; (destruct (test _) as [[]|]; [by rewrite (hom_1 _ Hφ)|by rewrite (hom_0 _ Hφ)|done]).
Qed.
Lemma lift_rhs P (I : term -> R) x : rhs wt' test (lift_semiring wt (fun v _ => φ v) P) (fun x => φ (I x)) x = φ (rhs wt test P I x).
Proof.
  unfold rhs. rewrite (hom_suml φ Hφ). induction P as [|r P IH]; [done|]. cbn [lift_semiring map]. rewrite !filter_cons. cbn [lift_rule whead].
  destruct (decide _); [|exact IH]. rewrite !suml_cons. f_equal; [|exact IH]. rewrite (hom_prodl φ Hφ). cbn [lift_rule wbody]. rewrite !map_map.
  f_equal. apply map_ext. intros f. apply lift_factor_val.
Qed.
Lemma lift_iterate P k x : iterate wt' test (lift_semiring wt (fun v _ => φ v) P) k x = φ (iterate wt test P k x).
Proof.
  revert x. induction k as [|k IH]; intros x; [symmetry; apply (hom_0 _ Hφ)|]. cbn [iterate]. rewrite <- lift_rhs. apply rhs_ext. exact IH.
Qed.

(** rules with variables *)
Fixpoint drop_const (fs : list (factor R)) (ys : list term) : list term :=
  match fs, ys with
  | Val _ :: fs, ys => drop_const fs ys
  | Goal (Cst _) :: fs, _ :: ys => drop_const fs ys
  | Goal _ :: fs, y :: ys => y :: drop_const fs ys
  | _, _ => []
  end.
Lemma drop_const_inst h σ fs : drop_const fs (map (sub σ) (goals fs)) = map (sub σ) (goals (map (lf h) fs)).
Proof. induction fs as [|[v|[w|k|l]] fs IH]; [done|..]; cbn; first [exact IH|f_equal; exact IH]. Qed.
Lemma drop_const_inj σ τ fs : drop_const fs (map (sub σ) (goals fs)) = drop_const fs (map (sub τ) (goals fs)) ->
  map (sub σ) (goals fs) = map (sub τ) (goals fs).
Proof.
  induction fs as [|[v|[w|k|l]] fs IH]; [done|..]; cbn; intros E; [by apply IH|..].
  - injection E as E1 E2. f_equal; [done|by apply IH].
  - f_equal. by apply IH.
  - injection E as E1 E2. f_equal; [by rewrite E1|by apply IH].
Qed.
Context (I : term -> R) (I' : term -> S) (HI : respects wt I) (HI' : forall x, (forall k, x <> Cst k) -> I' x = φ (I x)).
Lemma lift_body_value h σ fs : (forall v, Goal (Var v) ∉ fs) ->
  body_value I' (map (lf h) fs) (map (sub σ) (goals (map (lf h) fs))) = φ (body_value I fs (map (sub σ) (goals fs))).
Proof.
  induction fs as [|[v|[w|k|l]] fs IH]; intros Hn; [symmetry; apply (hom_1 _ Hφ)|..];
    assert (Hn' : forall v, Goal (Var v) ∉ fs) by (intros u Hu; apply (Hn u); by right); specialize (IH Hn').
  - change (smul (φ v) (body_value I' (map (lf h) fs) (map (sub σ) (goals (map (lf h) fs)))) = φ (smul v (body_value I fs (map (sub σ) (goals fs))))).
    by rewrite (hom_mul _ Hφ), IH.
  - destruct (Hn w). by left.
  - change (smul (φ (wt k)) (body_value I' (map (lf h) fs) (map (sub σ) (goals (map (lf h) fs)))) = φ (smul (I (Cst k)) (body_value I fs (map (sub σ) (goals fs))))).
    by rewrite (hom_mul _ Hφ), IH, HI.
  - change (smul (I' (sub σ (Fn l))) (body_value I' (map (lf h) fs) (map (sub σ) (goals (map (lf h) fs)))) = φ (smul (I (sub σ (Fn l))) (body_value I fs (map (sub σ) (goals fs))))).
    rewrite (hom_mul _ Hφ), IH. by rewrite HI'.
Qed.
Lemma lift_rule_value r x v : (forall v, Goal (Var v) ∉ wbody r) -> rule_value I r x v -> rule_value I' (lift_rule wt (fun v _ => φ v) r) x (φ v).
Proof.
  intros Hn. unfold rule_value. apply (sum_over_hom φ Hφ) with (h := drop_const (wbody r)).
  - intros ys (σ & Hg & Hh & <-). rewrite (drop_const_inst (whead r)). split; [by exists σ|]. by apply lift_body_value.
  - intros ys ys' (σ & _ & _ & <-) (τ & _ & _ & <-). apply drop_const_inj.
  - intros ys (σ & Hg & Hh & <-). exists (map (sub σ) (goals (wbody r))). split; [by exists σ|]. apply drop_const_inst.
Qed.
Lemma lift_prog_value rs x v : no_variable_subgoal rs -> prog_value I rs x v -> prog_value I' (lift_semiring wt (fun v _ => φ v) rs) x (φ v).
Proof.
  intros Hn (vs & H & ->). exists (map φ vs). split.
  - unfold lift_semiring. induction H as [|r u rs vs Hr H IH]; [constructor|]. cbn [map]. constructor.
    + apply lift_rule_value; [|done]. intros w. apply Hn. by left.
    + apply IH. intros r' w Hr'. apply Hn. by right.
  - rewrite (hom_suml φ Hφ), suml_map. done.
Qed.
End values.

(** * Derivations *)
Section derivations.
Context {R S : semiring} (wt : const -> R) (wt' : const -> S) (lift : R -> term -> S) (test : term -> option bool) (P : list (wrule R)).
Notation P' := (lift_semiring wt lift P).

Scheme derives_mut' := Minimality for derives Sort Prop
  with derives_all_mut' := Minimality for derives_all Sort Prop.

Lemma lifted_lookup i r : P !! i = Some r -> P' !! i = Some (lift_rule wt lift r).
Proof. intros H. unfold lift_semiring. by rewrite list_lookup_fmap, H. Qed.
Lemma derives_lift_rule f d : derives wt test P f d -> forall h, exists d', derives wt' test P' (lift_factor wt lift h f) d' /\ shape d' = shape d.
Proof.
  revert f d. apply (derives_mut' R wt test P (fun f d => forall h, exists d', derives wt' test P' (lift_factor wt lift h f) d' /\ shape d' = shape d)
    (fun fs ds => forall h, exists ds', derives_all wt' test P' (map (lift_factor wt lift h) fs) ds' /\ map shape ds' = map shape ds)).
  - intros v h. eexists. split; [constructor|done].
  - intros k h. eexists. split; [constructor|done].
  - intros b Hb Ht h. exists (DLeaf sone). split; [|done]. destruct b as [w|k|l]; [|by destruct (Hb k)|]; by apply D_builtin.
  - intros i r ds Hi Ht Hc _ IH h. destruct (IH (whead r)) as (ds' & H1 & H2). exists (DNode i ds'). split; [|cbn; by rewrite H2].
    assert (E : lift_factor wt lift h (Goal (whead r)) = Goal (whead r)) by (destruct (whead r) as [w|k|l] eqn:E; try done; by destruct (Hc k)).
    rewrite E. apply (D_item wt' test P' i (lift_rule wt lift r) ds'); try done. by apply lifted_lookup.
  - intros h. exists []. by split; [constructor|].
  - intros f fs d ds _ IH1 _ IH2 h. destruct (IH1 h) as (d' & H1 & H2). destruct (IH2 h) as (ds' & H3 & H4). exists (d' :: ds'). split; [by constructor|]. cbn. by rewrite H2, H4.
Qed.
Lemma derives_unlift f' d' : derives wt' test P' f' d' -> forall h f, f' = lift_factor wt lift h f -> exists d, derives wt test P f d /\ shape d = shape d'.
Proof.
  revert f' d'. apply (derives_mut' S wt' test P' (fun f' d' => forall h f, f' = lift_factor wt lift h f -> exists d, derives wt test P f d /\ shape d = shape d')
    (fun fs' ds' => forall h fs, fs' = map (lift_factor wt lift h) fs -> exists ds, derives_all wt test P fs ds /\ map shape ds = map shape ds')).
  - intros v h f E. destruct f as [u|[w|k|l]]; try done; eexists; (split; [constructor|done]).
  - intros k h f E. by destruct f as [u|[w|k'|l]].
  - intros b Hb Ht h f E. exists (DLeaf sone). split; [|done]. destruct f as [u|[w|k|l]]; try done; injection E as <-; by apply D_builtin.
  - intros i r' ds' Hi Ht Hc _ IH h f E. unfold lift_semiring in Hi. rewrite list_lookup_fmap in Hi. destruct (P !! i) as [r|] eqn:Er; [|done]. injection Hi as <-.
    cbn [lift_rule whead wbody] in *. destruct (IH (whead r) (wbody r) eq_refl) as (ds & H1 & H2). exists (DNode i ds). split; [|cbn; by rewrite H2].
    assert (Ef : f = Goal (whead r)) by (destruct f as [u|[w|k|l]]; try done; by injection E as <-). rewrite Ef. by apply D_item.
  - intros h fs E. destruct fs; [|done]. exists []. by split; [constructor|].
  - intros f' fs' d' ds' _ IH1 _ IH2 h fs E. destruct fs as [|f fs]; [done|]. injection E as E1 E2.
    destruct (IH1 h f E1) as (d & H1 & H2). destruct (IH2 h fs E2) as (ds & H3 & H4). exists (d :: ds). split; [by constructor|]. cbn. by rewrite H2, H4.
Qed.

(** a derivation is determined by its shape *)
Lemma derives_shape f d : derives wt test P f d -> forall d', derives wt test P f d' -> shape d = shape d' -> d = d'.
Proof.
  revert f d. apply (derives_mut' R wt test P (fun f d => forall d', derives wt test P f d' -> shape d = shape d' -> d = d')
    (fun fs ds => forall ds', derives_all wt test P fs ds' -> map shape ds = map shape ds' -> ds = ds')).
  - intros v d' H _. by inversion H.
  - intros k d' H E. inversion H; subst; try done; congruence.
  - intros b Hb Ht d' H E. inversion H; subst; try done; congruence.
  - intros i r ds Hi Ht Hc _ IH d' H E. inversion H as [|k Ek|b ? Hb|j r' ds' Hj Ht' Hc' Hds' Eh]; subst; [congruence|done|].
    cbn in E. injection E as <- E. assert (r' = r) as -> by congruence. f_equal. by apply IH.
  - intros ds' H E. by inversion H.
  - intros f fs d ds _ IH1 _ IH2 ds' H E. inversion H; subst. injection E as E1 E2. f_equal; [by apply IH1|by apply IH2].
Qed.
End derivations.

Section dvalues.
Context {R S : semiring} (φ : R -> S) (Hφ : homomorphism φ) (wt : const -> R) (wt' : const -> S) (test : term -> option bool) (P : list (wrule R)).
Notation P' := (lift_semiring wt (fun v _ => φ v) P).
Lemma lifted_dvalue f d : derives wt test P f d ->
  forall h d', derives wt' test P' (lift_factor wt (fun v _ => φ v) h f) d' -> shape d' = shape d -> dvalue d' = φ (dvalue d).
Proof.
  revert f d. apply (derives_mut' R wt test P
    (fun f d => forall h d', derives wt' test P' (lift_factor wt (fun v _ => φ v) h f) d' -> shape d' = shape d -> dvalue d' = φ (dvalue d))
    (fun fs ds => forall h ds', derives_all wt' test P' (map (lift_factor wt (fun v _ => φ v) h) fs) ds' -> map shape ds' = map shape ds -> map dvalue ds' = map φ (map dvalue ds))).
  - intros v h d' H _. by inversion H.
  - intros k h d' H _. by inversion H.
  - intros b Hb Ht h d' H E. destruct d' as [w|]; [|done]. cbn. rewrite (hom_1 _ Hφ).
    destruct b as [u|k|l]; [|by destruct (Hb k)|]; inversion H; subst; done.
  - intros i r ds Hi Ht Hc _ IH h d' H E. destruct d' as [w|j ds']; [done|]. cbn in E. injection E as -> E.
    assert (El : lift_factor wt (fun v _ => φ v) h (Goal (whead r)) = Goal (whead r)) by (destruct (whead r) as [u|k|l] eqn:Er; try done; by destruct (Hc k)).
    rewrite El in H. inversion H as [| | |j r' ds0 Hj Ht' Hc' Hds' Eh E1]; subst. rewrite (lifted_lookup wt _ P i r Hi) in Hj. injection Hj as <-.
    cbn [dvalue]. rewrite (hom_prodl φ Hφ). f_equal. by apply (IH (whead r)).
  - intros h ds' H _. by inversion H.
  - intros f fs d ds _ IH1 _ IH2 h ds' H E. inversion H; subst. injection E as E1 E2. cbn. f_equal; [by apply (IH1 h)|by apply (IH2 h)].
Qed.
End dvalues.

Section lvalues.
Context {R S : semiring} (wt : const -> R) (wt' : const -> S) (lift : R -> term -> S) (test : term -> option bool) (P : list (wrule R)).
Notation P' := (lift_semiring wt lift P).
Lemma dvalue_lifted f d : derives wt test P f d ->
  forall h d', derives wt' test P' (lift_factor wt lift h f) d' -> shape d' = shape d -> dvalue d' = lifted_value wt lift P h f d.
Proof.
  revert f d. apply (derives_mut' R wt test P
    (fun f d => forall h d', derives wt' test P' (lift_factor wt lift h f) d' -> shape d' = shape d -> dvalue d' = lifted_value wt lift P h f d)
    (fun fs ds => forall h ds', derives_all wt' test P' (map (lift_factor wt lift h) fs) ds' -> map shape ds' = map shape ds ->
       map dvalue ds' = (fix go (fs : list (factor R)) (ds : list (dtree R)) {struct ds} : list S :=
                match fs, ds with f :: fs, d :: ds => lifted_value wt lift P h f d :: go fs ds | _, _ => [] end) fs ds)).
  - intros v h d' H _. by inversion H.
  - intros k h d' H _. by inversion H.
  - intros b Hb Ht h d' H E. destruct d' as [w|]; [|done]. 
    destruct b as [u|k|l]; [|by destruct (Hb k)|]; inversion H; subst; done.
  - intros i r ds Hi Ht Hc _ IH h d' H E. destruct d' as [w|j ds']; [done|]. cbn in E. injection E as -> E.
    assert (El : lift_factor wt lift h (Goal (whead r)) = Goal (whead r)) by (destruct (whead r) as [u|k|l] eqn:Er; try done; by destruct (Hc k)).
    rewrite El in H. inversion H as [| | |j r' ds0 Hj Ht' Hc' Hds' Eh E1]; subst. rewrite (lifted_lookup wt _ P i r Hi) in Hj. injection Hj as <-.
    specialize (IH (whead r) ds' Hds' E). cbn [dvalue]. rewrite IH. cbn [lifted_value]. rewrite Hi. change (whead (lift_rule wt lift r)) with (whead r).
    match goal with |- ?a = _ => generalize a; intros v end. clear -Hc. destruct (whead r) as [u|k|l]; [done|by destruct (Hc k)|done].
  - intros h ds' H _. by inversion H.
  - intros f fs d ds _ IH1 _ IH2 h ds' H E. inversion H; subst. injection E as E1 E2. cbn [map]. f_equal; [by apply (IH1 h)|by apply (IH2 h)].
Qed.
End lvalues.

Lemma dheight_shape {R S : semiring} (d : dtree R) : forall d' : dtree S, shape d = shape d' -> dheight d = dheight d'.
Proof.
  revert d. fix IH 1. intros [v|i ds] [v'|j ds'] E; try done. cbn in E. injection E as -> E. cbn [dheight]. f_equal. f_equal.
  revert ds' E. induction ds as [|d ds IHs]; intros [|d' ds'] E; try done. cbn in E |- *. injection E as E1 E2. f_equal; [by apply IH|by apply IHs].
Qed.

Section sums.
Context {R S : semiring} (wt : const -> R) (wt' : const -> S) (lift : R -> term -> S) (test : term -> option bool) (P : list (wrule R)).
Notation P' := (lift_semiring wt lift P).
Lemma lifted_sum x k v : (forall k, x <> Cst k) -> adds_up (fun d => derives wt' test P' (Goal x) d /\ dheight d <= k) v ->
  exists L, NoDup L /\ (forall d, d ∈ L <-> derives wt test P (Goal x) d /\ dheight d <= k) /\ v = suml L (lifted_value wt lift P x (Goal x)).
Proof.
  intros Hx (L' & HN & HL & ->).
  assert (El : lift_factor wt lift x (Goal x) = Goal x) by (destruct x as [u|c|l]; try done; by destruct (Hx c)).
  assert (HL1 : forall d', d' ∈ L' -> derives wt' test P' (Goal x) d') by (intros d' Hd; by apply HL).
  assert (Hex : exists L, Forall2 (fun d d' => derives wt test P (Goal x) d /\ shape d = shape d') L L').
  { clear HN HL. induction L' as [|d' L' IH]; [by exists []|]. destruct IH as [L HL]; [intros e He; apply HL1; by right|].
    destruct (derives_unlift wt wt' lift test P _ _ (HL1 d' (elem_of_list_here _ _)) x (Goal x) (eq_sym El)) as (d & H1 & H2). exists (d :: L). by constructor. }
  destruct Hex as [L H2]. exists L. split; [|split].
  - clear HL. induction H2 as [|d d' L L' [H3 H4] H2 IH]; [constructor|]. apply NoDup_cons in HN as [N1 N2]. constructor; [|apply IH; [done|intros e He; apply HL1; by right]].
    intros Hd. apply N1. apply elem_of_list_lookup in Hd as [i Hi]. destruct (Forall2_lookup_l _ _ _ _ _ H2 Hi) as (e' & He' & _ & H5).
    rewrite (derives_shape wt' test P' (Goal x) d' (HL1 d' (elem_of_list_here _ _)) e'); [by eapply elem_of_list_lookup_2| |by rewrite <- H4].
    apply HL1. right. by eapply elem_of_list_lookup_2.
  - intros d. split.
    + intros Hd. apply elem_of_list_lookup in Hd as [i Hi]. destruct (Forall2_lookup_l _ _ _ _ _ H2 Hi) as (e' & He' & H3 & H4). split; [done|].
      rewrite (dheight_shape d e' H4). apply HL. by eapply elem_of_list_lookup_2.
    + intros [Hd Hk]. destruct (derives_lift_rule wt wt' lift test P _ _ Hd x) as (d' & H3 & H4). rewrite El in H3.
      assert (Hin : d' ∈ L') by (apply HL; split; [done|]; by rewrite (dheight_shape d' d H4)).
      apply elem_of_list_lookup in Hin as [i Hi]. destruct (Forall2_lookup_r _ _ _ _ _ H2 Hi) as (e & He & H5 & H6).
      rewrite (derives_shape wt test P (Goal x) d Hd e H5); [by eapply elem_of_list_lookup_2|by rewrite H6].
  - clear HN HL. induction H2 as [|d d' L L' [H3 H4] H2 IH]; [done|]. rewrite !suml_cons. rewrite IH by (intros e He; apply HL1; by right). f_equal.
    apply (dvalue_lifted wt wt' lift test P _ _ H3); [|done]. rewrite El. apply HL1. by left.
Qed.
End sums.
