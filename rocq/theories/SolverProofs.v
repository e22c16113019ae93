(** Proofs about the forward-chaining solver. *)
From stdpp Require Import gmap.
From Coq Require Import Lia Permutation ZArith.
From Coq Require String Ascii.
From Verif Require Import PyBase Semiring TermModel TermSpec TermProofs UnifyProofs SetsModel SetsProofs FuelProofs
  PruneModel ProgSpec SolverModel ChartSpec ChartProofs SolverSpec.
Import String.StringSyntax Ascii.AsciiSyntax.

(** * Sums *)
Section sums.
  Context {R : semiring}.
  Implicit Types v w : R.

  Lemma suml_zero_in {A} (l : list A) (f : A -> R) : (forall a, a ∈ l -> f a = szero) -> suml l f = szero.
  Proof.
    intros H. rewrite (suml_ext l f (fun _ => szero)); [apply suml_zero|]. intros a Ha. by apply H, elem_of_list_In.
  Qed.

  Lemma suml_split {A} (p : A -> bool) (l : list A) (f : A -> R) :
    suml l f = sadd (suml (List.filter p l) f) (suml (List.filter (fun a => negb (p a)) l) f).
  Proof.
    induction l as [|a l IH]; simpl; [by rewrite sadd_0_l|]. rewrite suml_cons, IH.
    destruct (p a); simpl; rewrite suml_cons; [by rewrite sadd_assoc|apply sadd_swap].
  Qed.

  (** The elements of one list outside another may be ignored if they are zero. *)
  Lemma suml_restrict {A} `{EqDecision A} (L M : list A) (f : A -> R) :
    (forall a, a ∈ L -> a ∈ M \/ f a = szero) ->
    suml L f = suml (List.filter (fun a => bool_decide (a ∈ M)) L) f.
  Proof.
    intros H. rewrite (suml_split (fun a => bool_decide (a ∈ M)) L f).
    rewrite (suml_zero_in (List.filter (fun a => negb _) L)); [apply sadd_0_r|].
    intros a Ha. apply elem_of_list_In, filter_In in Ha as [Ha Hn]. apply negb_true_iff, bool_decide_eq_false in Hn.
    apply elem_of_list_In in Ha. by destruct (H a Ha).
  Qed.

  Lemma suml_agree {A} `{EqDecision A} (L M : list A) (f : A -> R) :
    NoDup L -> NoDup M -> (forall a, a ∈ L -> a ∈ M \/ f a = szero) -> (forall a, a ∈ M -> a ∈ L \/ f a = szero) ->
    suml L f = suml M f.
  Proof.
    intros HL HM H1 H2. rewrite (suml_restrict L M f H1), (suml_restrict M L f H2). apply suml_perm.
    apply list.NoDup_Permutation.
    - apply NoDup_ListNoDup, List.NoDup_filter. by apply NoDup_ListNoDup.
    - apply NoDup_ListNoDup, List.NoDup_filter. by apply NoDup_ListNoDup.
    - intros a. rewrite !elem_of_list_In, !filter_In, !bool_decide_eq_true, !elem_of_list_In. tauto.
  Qed.

  Lemma sum_over_unique {A} `{EqDecision A} (I : A -> Prop) f v w : sum_over I f v -> sum_over I f w -> v = w.
  Proof.
    intros (L & H1 & H2 & H3 & ->) (M & H4 & H5 & H6 & ->). apply suml_agree; auto.
  Qed.

  Lemma sum_over_ext {A} (I : A -> Prop) f g v : (forall a, I a -> f a = g a) -> sum_over I f v -> sum_over I g v.
  Proof.
    intros H (L & H1 & H2 & H3 & ->). exists L. split; [done|]. split; [done|]. split.
    - intros a Ha. rewrite <- (H a Ha). by apply H3.
    - apply suml_ext. intros a Ha. apply H, H2. by apply elem_of_list_In.
  Qed.

  Lemma sum_over_zero {A} (I : A -> Prop) : sum_over I (fun _ => szero) (szero : R).
  Proof.
    exists []. split; [constructor|]. split; [intros a Ha; by apply elem_of_nil in Ha|]. split; [by right|done].
  Qed.

  Lemma sum_over_add {A} `{EqDecision A} (I : A -> Prop) f g v w :
    sum_over I f v -> sum_over I g w -> sum_over I (fun a => sadd (f a) (g a)) (sadd v w).
  Proof.
    intros (L & HL1 & HL2 & HL3 & ->) (M & HM1 & HM2 & HM3 & ->).
    exists (L ++ List.filter (fun a => negb (bool_decide (a ∈ L))) M).
    assert (HN : NoDup (L ++ List.filter (fun a => negb (bool_decide (a ∈ L))) M)).
    { apply NoDup_app. split; [done|]. split.
      - intros a Ha Hb. apply elem_of_list_In, filter_In in Hb as [_ Hb]. apply negb_true_iff, bool_decide_eq_false in Hb. done.
      - apply NoDup_ListNoDup, List.NoDup_filter. by apply NoDup_ListNoDup. }
    assert (Hin : forall a, a ∈ L ++ List.filter (fun a => negb (bool_decide (a ∈ L))) M <-> a ∈ L \/ a ∈ M).
    { intros a. rewrite elem_of_app, (elem_of_list_In (List.filter _ _)), filter_In, negb_true_iff, bool_decide_eq_false, <- elem_of_list_In.
      destruct (decide (a ∈ L)); tauto. }
    split; [done|]. split; [intros a Ha; apply Hin in Ha as [?|?]; auto|]. split.
    { intros a Ha. rewrite Hin. destruct (HL3 a Ha) as [?|E1]; [auto|]. destruct (HM3 a Ha) as [?|E2]; [auto|].
      right. rewrite E1, E2. apply sadd_0_l. }
    rewrite suml_add. f_equal; apply suml_agree; try done; intros a Ha.
    - left. apply Hin. by left.
    - apply HL3. apply Hin in Ha as [?|?]; auto.
    - left. apply Hin. by right.
    - apply HM3. apply Hin in Ha as [?|?]; auto.
  Qed.

  Lemma sum_over_list {A B} `{EqDecision A} (I : A -> Prop) (g : B -> A -> R) ds vs :
    Forall2 (fun d v => sum_over I (g d) v) ds vs -> sum_over I (fun a => suml ds (fun d => g d a)) (suml vs id).
  Proof.
    induction 1 as [|d v ds vs H _ IH]; [apply sum_over_zero|]. rewrite suml_cons.
    eapply sum_over_ext; [|apply (sum_over_add I _ _ _ _ H IH)]. intros a _. by rewrite suml_cons.
  Qed.

  Lemma fold_left_prodl (l : list R) a : fold_left smul l a = smul a (prodl l).
  Proof. revert a. induction l as [|x l IH]; intros a; simpl; [by rewrite smul_1_r|]. by rewrite IH, smul_assoc. Qed.

  Lemma prodl_zero (l : list R) : szero ∈ l -> prodl l = szero.
  Proof.
    induction l as [|x l IH]; intros H; [by apply elem_of_nil in H|]. simpl. apply elem_of_cons in H as [<-|H].
    - apply smul_0_l.
    - rewrite IH by done. apply smul_0_r.
  Qed.
End sums.

(** * Ground solutions of heaps *)
Lemma solvesb_spec σ st : solvesb σ st = true <-> solves σ st.
Proof. unfold solvesb. rewrite bool_decide_eq_true. done. Qed.

Lemma heap_over_okst V st : heap_over V st <-> okst V st.
Proof. unfold heap_over, okst, closed_V, in_V. naive_solver. Qed.

Lemma solves_agree V σ τ st : okst V st -> (forall v, v ∈ V -> σ v = τ v) -> solves σ st -> solves τ st.
Proof.
  intros (_ & Hcl & Hdom) Hag Hs v t E. rewrite <- Hag.
  - rewrite (Hs v t E). apply sub_ext. intros u Hu. apply Hag. by eapply Hcl.
  - apply Hdom. by apply elem_of_dom.
Qed.

Lemma okst_solution V st : okst V st -> exists σ, groundsub σ /\ solves σ st.
Proof.
  intros (Hac & _). destruct (acyclic_resolution _ Hac) as [θ Hθ]. destruct (ground_solution st θ Hac Hθ) as [H1 H2]. eauto.
Qed.

Lemma snap_in_V V n st x y : closed_V V st -> in_V V x -> snap n st x = Ok y -> in_V V y.
Proof.
  intros Hcl. revert x. induction n as [|n IH]; intros x Hx E; [done|]. simpl in E.
  destruct x as [v|c|xs]; [|by injection E as <-..].
  destruct (st !! v) as [t|] eqn:Ev; [|by injection E as <-]. apply (IH t); [|done]. by eapply Hcl.
Qed.

Lemma snap_sub V n st x y σ : okst V st -> snap n st x = Ok y -> solves σ st -> sub σ y = sub σ x.
Proof.
  intros (Hac & _) E Hs. destruct (acyclic_resolution _ Hac) as [θ Hθ].
  apply (snap_ok st θ Hac Hθ) in E as (E & _).
  rewrite <- (resolution_most_general st θ σ Hac Hθ Hs x), <- (resolution_most_general st θ σ Hac Hθ Hs y). by rewrite E.
Qed.

Lemma deref_sub V n st x y σ : okst V st -> deref n st x = Ok y -> solves σ st -> sub σ y = sub σ x.
Proof.
  intros (Hac & _) E Hs. destruct (acyclic_resolution _ Hac) as [θ Hθ].
  apply (deref_ok st θ Hac Hθ) in E. rewrite E. by apply (resolution_most_general st θ σ Hac Hθ Hs x).
Qed.

(** The values that do not depend on the choice of a solution. *)
Lemma ground_sol V n st x σ : okst V st -> is_ground n st x = Ok true -> solves σ st -> ground (sub σ x) /\
  forall τ, solves τ st -> sub τ x = sub σ x.
Proof.
  intros (Hac & _) E Hs. destruct (acyclic_resolution _ Hac) as [θ Hθ].
  apply (is_ground_ok st θ Hac Hθ) in E. symmetry in E. apply bool_decide_eq_true in E.
  assert (H : forall τ, solves τ st -> sub τ x = sub θ x).
  { intros τ Hτ. rewrite <- (resolution_most_general st θ τ Hac Hθ Hτ x). by apply sub_ground. }
  rewrite (H σ Hs). split; [done|]. intros τ Hτ. by apply H.
Qed.

Lemma mapSM_inv {A B S} (Inv : S -> Prop) (Q : A -> B -> Prop) (f : A -> S -> res (B * S)) l s bs s' :
  (forall a s b s', a ∈ l -> Inv s -> f a s = Ok (b, s') -> Inv s' /\ Q a b) ->
  Inv s -> mapSM f l s = Ok (bs, s') -> Inv s' /\ Forall2 Q l bs.
Proof.
  revert s bs. induction l as [|a l IH]; intros s bs Hf Hs E; simpl in E; [by injection E as <- <-|].
  destruct (f a s) as [[b s1]| |] eqn:E1; try done. simpl in E.
  destruct (mapSM f l s1) as [[bs' s2]| |] eqn:E2; try done. injection E as <- <-.
  destruct (Hf a s b s1) as [Hs1 HQ]; [by left|done|done|].
  destruct (IH s1 bs') as [Hs2 HF]; [intros; eapply Hf; [by right|..]; done|done|done|]. split; [done|]. by constructor.
Qed.

(** * Enumerations *)
(** [L] enumerates the solutions of [st] at which [ok] has a value: every ground
    solution of an element of [L] has the value given there, and every solution in
    [T] is a solution of exactly one element (or none if it has no value). *)
Definition enum {A} (T : (nat -> term) -> Prop) (V : gset nat) (st : store) (L : list (store * A))
  (ok : (nat -> term) -> option A) : Prop :=
  (forall e, e ∈ L -> okst V (fst e) /\ st ⊆ fst e /\ forall σ, groundsub σ -> solves σ (fst e) -> ok σ = Some (snd e)) /\
  forall σ, groundsub σ -> T σ -> solves σ st ->
    length (List.filter (fun e => solvesb σ (fst e)) L) = match ok σ with Some _ => 1 | None => 0 end.

Notation solset := ((nat -> term) -> Prop).

Lemma enum_nil {A} (T : solset) V st (ok : (nat -> term) -> option A) :
  (forall σ, groundsub σ -> T σ -> solves σ st -> ok σ = None) -> enum T V st [] ok.
Proof. intros H. split; [intros e He; by apply elem_of_nil in He|]. intros σ H1 H2 H3. by rewrite H. Qed.

Lemma enum_ret {A} (T : solset) V st st' (a : A) ok :
  okst V st' -> st ⊆ st' -> (forall σ, groundsub σ -> solves σ st' -> ok σ = Some a) ->
  (forall σ, groundsub σ -> T σ -> solves σ st -> ~ solves σ st' -> ok σ = None) -> enum T V st [(st', a)] ok.
Proof.
  intros H1 H2 H3 H4. split.
  - intros e He. apply elem_of_list_singleton in He as ->. done.
  - intros σ Hg HT Hs. simpl. destruct (solvesb σ st') eqn:E; simpl.
    + apply solvesb_spec in E. by rewrite H3.
    + rewrite H4; [done|done|done|done|]. intros Hc. apply solvesb_spec in Hc. congruence.
Qed.

Lemma enum_ext {A} (T T' : (nat -> term) -> Prop) V st L (ok ok' : (nat -> term) -> option A) :
  (forall σ, groundsub σ -> T' σ -> T σ) -> (forall σ, groundsub σ -> solves σ st -> ok σ = ok' σ) ->
  enum T V st L ok -> enum T' V st L ok'.
Proof.
  intros HT Hok [H1 H2]. split.
  - intros e He. destruct (H1 e He) as (H3 & H4 & H5). split; [done|]. split; [done|]. intros σ Hg Hs.
    rewrite <- Hok; [by apply H5|done|]. by eapply solves_mono.
  - intros σ Hg HT' Hs. rewrite <- Hok by done. apply H2; [done|by apply HT|done].
Qed.

Lemma filter_nil {A} (p : A -> bool) l : (forall a, a ∈ l -> p a = false) -> List.filter p l = [].
Proof.
  induction l as [|a l IH]; intros H; [done|]. simpl. rewrite H by (by left). apply IH. intros b Hb. apply H. by right.
Qed.

Lemma enum_concat {A B} (T1 T2 T : solset) V st (L : list (store * A)) (Fs : list (list (store * B))) ok1 ok2 :
  (forall σ, T σ -> T1 σ /\ T2 σ) ->
  enum T1 V st L ok1 -> Forall2 (fun e F => enum T2 V (fst e) F (ok2 (snd e))) L Fs ->
  enum T V st (concat Fs) (fun σ => match ok1 σ with Some a => ok2 a σ | None => None end).
Proof.
  intros HT [H1 H2] HF. split.
  - intros e He. assert (Hex : exists e0 F, e0 ∈ L /\ enum T2 V (fst e0) F (ok2 (snd e0)) /\ e ∈ F).
    { clear -HF He. induction HF as [|e0 F L Fs H HF IH]; simpl in He; [by apply elem_of_nil in He|].
      apply elem_of_app in He as [He|He]; [exists e0, F; split; [by left|done]|].
      destruct (IH He) as (e1 & F1 & ? & ?). exists e1, F1. split; [by right|done]. }
    destruct Hex as (e0 & F & He0 & [HF1 _] & HeF). destruct (H1 e0 He0) as (_ & Hs0 & Hv0). destruct (HF1 e HeF) as (Ho & Hs & Hv).
    split; [done|]. split; [by etrans|]. intros σ Hg Hσ. rewrite Hv0; [by apply Hv|done|]. by eapply solves_mono.
  - intros σ Hg HTσ Hs. destruct (HT σ HTσ) as [HT1 HT2]. specialize (H2 σ Hg HT1 Hs).
    assert (Hlen : length (List.filter (fun e => solvesb σ (fst e)) (concat Fs)) =
      list_sum (map (fun e => match ok2 (snd e) σ with Some _ => 1 | None => 0 end) (List.filter (fun e => solvesb σ (fst e)) L))).
    { clear -HF Hg HT2. induction HF as [|e F L Fs [HF1 HF2] HF IH]; [done|]. simpl. rewrite List.filter_app, app_length, IH.
      destruct (solvesb σ (fst e)) eqn:E; simpl.
      - rewrite HF2; [done|done|done|by apply solvesb_spec].
      - rewrite filter_nil; [done|]. intros e' He'. destruct (HF1 e' He') as (_ & Hsub & _).
        destruct (solvesb σ (fst e')) eqn:E'; [|done]. apply solvesb_spec in E'. apply (solves_mono _ _ _ Hsub), solvesb_spec in E'. congruence. }
    rewrite Hlen. assert (Hin : forall e, e ∈ List.filter (fun e => solvesb σ (fst e)) L -> ok1 σ = Some (snd e)).
    { intros e He. apply elem_of_list_In, filter_In in He as [He Hse]. apply solvesb_spec in Hse.
      apply elem_of_list_In in He. destruct (H1 e He) as (_ & _ & Hv). by apply Hv. }
    destruct (List.filter (fun e => solvesb σ (fst e)) L) as [|e [|e' l]]; simpl in *.
    + by destruct (ok1 σ).
    + rewrite (Hin e) by (by left). lia.
    + by destruct (ok1 σ).
Qed.

Lemma enum_map {A B} (g : A -> B) (T : solset) V st (L : list (store * A)) ok :
  enum T V st L ok -> enum T V st (map (fun e => (fst e, g (snd e))) L) (fun σ => g <$> ok σ).
Proof.
  intros [H1 H2]. split.
  - intros e He. apply elem_of_list_fmap in He as (e0 & -> & He0). destruct (H1 e0 He0) as (Ho & Hs & Hv). simpl.
    split; [done|]. split; [done|]. intros σ Hg Hσ. by rewrite Hv.
  - intros σ Hg HT Hs. transitivity (length (List.filter (fun e => solvesb σ (fst e)) L)).
    + clear. induction L as [|e L IH]; [done|]. simpl. destruct (solvesb σ (fst e)); simpl; by rewrite IH.
    + rewrite H2 by done. by destruct (ok σ).
Qed.

(** * Lookups and joins *)
Local Open Scope string_scope.
Notation s_eq := ("=").
Notation s_is := ("is").
Local Close Scope string_scope.

Section solver.
Context {R : semiring} (wt : const -> R) (approx : R -> R -> bool) (ord : list term -> list term)
  (cmpf : String.string -> term -> term -> res bool)
  (is_run : nat -> store -> term -> term -> res (list store)) (is_true : term -> term -> bool).
Context (Hord : forall l, Permutation (ord l) l) (His : is_exact is_true is_run).

Notation look := (look wt cmpf is_true).
Notation val := (val wt cmpf is_true).

Definition chart_ok (ch : chart R) : Prop := index_ok ch /\ forall x, is_Some (c_dict ch !! x) -> ground x.

Definition Tq (q : term) (σ : nat -> term) : Prop := forall v, q = Var v -> exists k, σ v = Cst k.

Lemma matched_filter (d : gmap term R) st q σ xs (rs : list (store * R)) :
  NoDup xs -> Forall2 (matched d st q) xs rs -> solves σ st ->
  length (List.filter (fun e => solvesb σ (fst e)) rs) = if decide (sub σ q ∈ xs) then 1 else 0.
Proof.
  intros Hn HF Hs. revert Hn. induction HF as [|x e xs rs (Hx & Hac & Hiff) HF IH]; intros Hn; [done|]. simpl.
  apply NoDup_cons in Hn as [Hnx Hn]. specialize (IH Hn).
  destruct (solvesb σ (fst e)) eqn:E; simpl; rewrite IH.
  - apply solvesb_spec, Hiff in E as [_ ->]. rewrite decide_False by done. rewrite decide_True; [done|by left].
  - assert (Hne : sub σ q <> x). { intros He. assert (solves σ (fst e)) by (by apply Hiff). apply solvesb_spec in H. congruence. }
    destruct (decide (sub σ q ∈ xs)) as [Hi|Hi]; [rewrite decide_True; [done|by right]|].
    rewrite decide_False; [done|]. rewrite elem_of_cons. naive_solver.
Qed.

Lemma Forall2_elem_r {A B} (Q : A -> B -> Prop) l l' b : Forall2 Q l l' -> b ∈ l' -> exists a, a ∈ l /\ Q a b.
Proof.
  induction 1 as [|x y l l' H _ IH]; intros Hb; [by apply elem_of_nil in Hb|].
  apply elem_of_cons in Hb as [->|Hb]; [exists x; split; [by left|done]|]. destruct (IH Hb) as (a & ? & ?). exists a. split; [by right|done].
Qed.

Lemma chart_enum (T : solset) V n st q ch rs ch' f args f' :
  chart_ok ch -> okst V st -> in_V V q -> q = Fn (f :: args) -> snap n st f = Ok f' ->
  chart_get ord n st q ch = Ok (rs, ch') ->
  ((exists c, f' = Cst c /\ forall σ, solves σ st -> look (c_dict ch) (sub σ q) = c_dict ch !! sub σ q) \/
   ((forall c, f' <> Cst c) /\ forall σ, groundsub σ -> T σ -> solves σ st -> False)) ->
  chart_ok ch' /\ c_dict ch' = c_dict ch /\ enum T V st rs (fun σ => look (c_dict ch) (sub σ q)).
Proof.
  intros [Hok Hg] Hst HV Hq Es E Hcase. assert (Hac : acyclic st) by apply Hst.
  pose proof (chart_get_V ord Hord V n st q ch rs ch' Hok Hg Hst HV E) as HrV.
  destruct (chart_get_gen ord Hord n st q ch rs ch' f args Hok Hg Hac Hq E) as (f0 & Es' & Hok' & Hd & ys & Hn & HF & Hfn & Hex).
  assert (f0 = f') as -> by congruence. clear Es'.
  split; [split; [done|by rewrite Hd]|]. split; [done|]. split.
  - intros e He. destruct (HrV e He) as [H1 H2]. split; [done|]. split; [done|]. intros σ Hgσ Hσ.
    destruct (Forall2_elem_r _ _ _ _ HF He) as (x & Hx & Hdx & _ & Hiff).
    apply (proj1 (Hiff σ)) in Hσ. destruct Hσ as [Hσ Heq]. destruct Hcase as [(c & _ & Hlook)|[Hnc _]].
    + rewrite Hlook by done. by rewrite Heq.
    + rewrite Heq. destruct (Hfn x Hx) as (xargs & ->). destruct f' as [v|c|l]; [done|by destruct (Hnc c)|done].
  - intros σ Hgσ HT Hσ. destruct Hcase as [(c & Hc & Hlook)|[_ Hno]]; [|by destruct (Hno σ)].
    rewrite (matched_filter (c_dict ch) st q σ ys rs Hn HF Hσ), Hlook by done.
    destruct (decide (sub σ q ∈ ys)) as [Hi|Hi].
    + apply (Hex c Hc) in Hi as [[v ->] _]. done.
    + destruct (c_dict ch !! sub σ q) as [v|] eqn:Ev; [|done]. destruct Hi. apply (Hex c Hc). split; [by eexists|]. eauto.
Qed.

Lemma look_item d y : (forall op x z, y = Fn [Cst (CStr op); x; z] -> op <> s_eq /\ op ∉ cmps /\ op <> s_is) ->
  (forall k, y <> Cst k) -> look d y = d !! y.
Proof.
  intros H1 H2. destruct y as [v|k|l]; [done|by destruct (H2 k)|].
  destruct l as [|[v|[z|op]|l'] [|x [|z' [|? ?]]]]; try done.
  destruct (H1 op x z' eq_refl) as (Ha & Hb & Hc). simpl. rewrite decide_False, decide_False, decide_False by done. done.
Qed.

Definition goal_shape (q : term) : Prop := (exists v, q = Var v) \/ (exists k, q = Cst k) \/ exists c args, q = Fn (Cst c :: args).

Lemma lookup_ok V n st q ch rs ch' :
  chart_ok ch -> okst V st -> in_V V q -> goal_shape q ->
  lookup_vals wt ord cmpf is_run n st q ch = Ok (rs, ch') ->
  chart_ok ch' /\ c_dict ch' = c_dict ch /\ enum (Tq q) V st rs (fun σ => look (c_dict ch) (sub σ q)).
Proof.
  intros Hch Hst HV Hshape E. unfold lookup_vals in E.
  destruct (snap n st q) as [q'| |] eqn:Eq; try done. simpl in E.
  assert (Hac : acyclic st) by apply Hst.
  destruct (acyclic_resolution _ Hac) as [θ Hθ].
  assert (Hcl : closed_V V st) by apply Hst.
  pose proof (snap_in_V V n st q q' Hcl HV Eq) as HV'.
  assert (Hsub : forall σ, solves σ st -> sub σ q' = sub σ q) by (intros σ Hσ; by eapply snap_sub).
  assert (Hsh : (exists c args, q' = Fn (Cst c :: args)) \/ (forall σ, groundsub σ -> Tq q σ -> solves σ st -> exists k, sub σ q' = Cst k)).
  { destruct Hshape as [[v ->]|[[k ->]|(c & args & ->)]].
    - right. intros σ Hg HT Hσ. rewrite Hsub by done. by apply HT.
    - right. intros σ Hg HT Hσ. exists k. by rewrite Hsub.
    - left. apply (snap_ok st θ Hac Hθ) in Eq as (_ & _ & Eq). rewrite Eq by done. eauto. }
  enough (Henum : chart_ok ch' /\ c_dict ch' = c_dict ch /\ enum (Tq q) V st rs (fun σ => look (c_dict ch) (sub σ q'))).
  { destruct Henum as (H1 & H2 & H3). split; [done|]. split; [done|].
    eapply enum_ext; [|..|exact H3]; [done|]. intros σ Hg Hσ. simpl. by rewrite Hsub. }
  destruct q' as [v|k|[|f args]]; try done.
  { injection E as <- <-. split; [done|]. split; [done|]. apply enum_ret; [done|done|done|]. by intros. }
  destruct (snap n st f) as [f'| |] eqn:Ef; try done. simpl in E.
  assert (Hf : forall σ, solves σ st -> sub σ f' = sub σ f) by (intros σ Hσ; by eapply snap_sub).
  destruct (decide (f' = Cst (CStr "$not_matches"))) as [|Hnm]; [done|].
  destruct (decide (f' = Cst (CStr "="))) as [->|Heq].
  { destruct args as [|x [|y [|? ?]]]; try done.
    destruct (unify_f n st x y) as [[st' b]| |] eqn:Eu; try done. simpl in E. injection E as <- <-.
    split; [done|]. split; [done|].
    destruct (unify_V_ok V n st x y st' b Hst) as (Hst' & Hss & Hb); [|by intros v Hv; apply HV'; simpl; rewrite !in_app_iff; auto..|done|].
    { intros v Hv. apply HV'. simpl. rewrite !in_app_iff. auto. }
    assert (Hlk : forall σ, solves σ st -> look (c_dict ch) (sub σ (Fn [f; x; y])) = if decide (sub σ x = sub σ y) then Some sone else None).
    { intros σ Hσ. change (sub σ (Fn [f; x; y])) with (Fn [sub σ f; sub σ x; sub σ y]). rewrite <- Hf by done. done. }
    destruct b.
    - apply enum_ret; [done|done|..].
      + intros σ Hg Hσ. apply Hb in Hσ as [Hσ He]. rewrite Hlk by done. by rewrite decide_True.
      + intros σ Hg HT Hσ Hn. rewrite Hlk by done. rewrite decide_False; [done|]. intros He. apply Hn. by apply Hb.
    - apply enum_nil. intros σ Hg HT Hσ. rewrite Hlk by done. rewrite decide_False; [done|]. by apply Hb. }
  assert (Hget : chart_get ord n st (Fn (f :: args)) ch = Ok (rs, ch') ->
     (forall op x y, f' = Cst (CStr op) -> args = [x; y] -> op ∉ cmps /\ op <> s_is) ->
     chart_ok ch' /\ c_dict ch' = c_dict ch /\ enum (Tq q) V st rs (fun σ => look (c_dict ch) (sub σ (Fn (f :: args))))).
  { intros Eg Hno. eapply chart_enum; [done|done|done|reflexivity|exact Ef|done|].
    destruct f' as [u|c|l].
    - right. split; [done|]. intros σ Hg HT Hσ. destruct Hsh as [(c & args' & [= -> ->])|Hc].
      + apply (snap_ok st θ Hac Hθ) in Ef as (_ & _ & Ef). by specialize (Ef ltac:(done)).
      + by destruct (Hc σ Hg HT Hσ) as [k Hk].
    - left. exists c. split; [done|]. intros σ Hσ.
      change (sub σ (Fn (f :: args))) with (Fn (sub σ f :: map (sub σ) args)). rewrite <- Hf by done. simpl sub.
      apply look_item; [|done]. intros op x z [= -> Hm].
      destruct args as [|x0 [|y0 [|? ?]]]; try done. destruct (Hno op x0 y0 eq_refl eq_refl) as [H1 H2].
      split; [|done]. intros ->. done.
    - right. split; [done|]. intros σ Hg HT Hσ. destruct Hsh as [(c & args' & [= -> ->])|Hc].
      + apply (snap_ok st θ Hac Hθ) in Ef as (_ & _ & Ef). by specialize (Ef ltac:(done)).
      + by destruct (Hc σ Hg HT Hσ) as [k Hk]. }
  destruct f' as [u|[z|op]|l]; [apply Hget; [done|by intros]..| |apply Hget; [done|by intros]].
  destruct args as [|x [|y [|? ?]]].
  1,2,4: destruct (decide (op = s_is)); [done|]; apply Hget; [done|by intros].
  assert (HVx : in_V V x) by (intros v Hv; apply HV'; simpl; rewrite !in_app_iff; auto).
  assert (HVy : in_V V y) by (intros v Hv; apply HV'; simpl; rewrite !in_app_iff; auto).
  assert (Hne : op <> s_eq) by (intros ->; done).
  assert (Hlk : forall σ, solves σ st -> sub σ (Fn [f; x; y]) = Fn [Cst (CStr op); sub σ x; sub σ y]).
  { intros σ Hσ. change (sub σ (Fn [f; x; y])) with (Fn [sub σ f; sub σ x; sub σ y]). by rewrite <- Hf. }
  destruct (decide (op ∈ cmps)) as [Hcmp|Hcmp].
  - destruct (is_ground n st x) as [gx| |] eqn:Egx; try done. simpl in E.
    destruct (if gx then is_ground n st y else Ok false) as [gy| |] eqn:Egy; try done. simpl in E.
    destruct gx; [|done]. destruct gy; [|done]. simpl in E.
    destruct (deref n st x) as [x'| |] eqn:Edx; try done. simpl in E.
    destruct (deref n st y) as [y'| |] eqn:Edy; try done. simpl in E.
    destruct (cmpf op x' y') as [b| |] eqn:Ecmp; try done. simpl in E. injection E as <- <-.
    split; [done|]. split; [done|].
    assert (Hlk2 : forall σ, solves σ st -> look (c_dict ch) (sub σ (Fn [f; x; y])) = if b then Some sone else None).
    { intros σ Hσ. rewrite Hlk by done. simpl. rewrite decide_False, decide_True by done.
      assert (sub σ x = x') as ->.
      { rewrite <- (deref_sub V n st x x' σ Hst Edx Hσ). apply (deref_ok st θ Hac Hθ) in Edx.
        apply (is_ground_ok st θ Hac Hθ) in Egx. symmetry in Egx. apply bool_decide_eq_true in Egx. rewrite Edx. by apply sub_ground. }
      assert (sub σ y = y') as ->.
      { rewrite <- (deref_sub V n st y y' σ Hst Edy Hσ). apply (deref_ok st θ Hac Hθ) in Edy.
        apply (is_ground_ok st θ Hac Hθ) in Egy. symmetry in Egy. apply bool_decide_eq_true in Egy. rewrite Edy. by apply sub_ground. }
      rewrite Ecmp. by destruct b. }
    destruct b.
    + apply enum_ret; [done|done|..]; [intros σ Hg Hσ; by rewrite Hlk2|]. by intros.
    + apply enum_nil. intros σ Hg HT Hσ. by rewrite Hlk2.
  - destruct (decide (op = s_is)) as [->|Hnis].
    + destruct (is_run n st x y) as [sts| |] eqn:Eis; try done. simpl in E. injection E as <- <-.
      split; [done|]. split; [done|].
      destruct (His V n st x y sts) as [H1 H2]; [by apply heap_over_okst|intros w [Hw|Hw]; [by apply HVx|by apply HVy]|done|].
      assert (Hlk2 : forall σ, solves σ st -> look (c_dict ch) (sub σ (Fn [f; x; y])) = if is_true (sub σ x) (sub σ y) then Some sone else None).
      { intros σ Hσ. rewrite Hlk by done. reflexivity. }
      assert (Hlen : forall σ, length (List.filter (fun e : store * R => solvesb σ (fst e)) (map (fun st' => (st', sone)) sts)) = length (List.filter (solvesb σ) sts)).
      { intros σ. clear. induction sts as [|s sts IH]; [done|]. simpl. destruct (solvesb σ s); simpl; by rewrite IH. }
      split.
      * intros e He. apply elem_of_list_fmap in He as (st' & -> & Hst'). cbn [fst snd]. destruct (H1 st' Hst') as [H3 H4].
        split; [by apply heap_over_okst|]. split; [done|]. intros σ Hg Hσ.
        assert (Hσ0 : solves σ st) by (by eapply solves_mono). rewrite Hlk2 by done. specialize (H2 σ Hg Hσ0).
        destruct (is_true (sub σ x) (sub σ y)); [done|]. exfalso.
        assert (Hin : In st' (List.filter (solvesb σ) sts)).
        { apply filter_In. split; [by apply elem_of_list_In|by apply solvesb_spec]. }
        destruct (List.filter (solvesb σ) sts); done.
      * intros σ Hg HT Hσ. rewrite Hlen, H2, Hlk2 by done. by destruct (is_true _ _).
    + apply Hget; [done|]. intros op' x0 y0 [= <-] _. done.
Qed.

(** The values of a list of ground subgoals, if they all have one. *)
Fixpoint looks (d : gmap term R) (ys : list term) : option (list R) :=
  match ys with
  | [] => Some []
  | y :: ys => match look d y with Some v => match looks d ys with Some vs => Some (v :: vs) | None => None end | None => None end
  end.

Definition Ts (xs : list term) (σ : nat -> term) : Prop := forall v, Var v ∈ xs -> exists k, σ v = Cst k.

Lemma join_ok V n xs : forall st ch rs ch',
  chart_ok ch -> okst V st -> (forall x, x ∈ xs -> in_V V x /\ goal_shape x) ->
  join wt ord cmpf is_run n st xs ch = Ok (rs, ch') ->
  chart_ok ch' /\ c_dict ch' = c_dict ch /\ enum (Ts xs) V st rs (fun σ => looks (c_dict ch) (map (sub σ) xs)).
Proof.
  induction xs as [|x xs IH]; intros st ch rs ch' Hch Hst Hxs E; simpl in E.
  { injection E as <- <-. split; [done|]. split; [done|]. apply enum_ret; [done|done|done|by intros]. }
  destruct (lookup_vals wt ord cmpf is_run n st x ch) as [[r1 ch1]| |] eqn:E1; try done. simpl in E.
  destruct (Hxs x) as [HVx Hshx]; [by left|].
  destruct (lookup_ok V n st x ch r1 ch1 Hch Hst HVx Hshx E1) as (Hch1 & Hd1 & He1).
  destruct (mapSM _ r1 ch1) as [[rss ch2]| |] eqn:E2; try done. simpl in E. injection E as <- <-.
  edestruct (mapSM_inv (fun c => chart_ok c /\ c_dict c = c_dict ch)
    (fun e F => enum (Ts xs) V (fst e) F (fun σ => (cons (snd e)) <$> looks (c_dict ch) (map (sub σ) xs)))) as [[Hch2 Hd2] HF]; [| |exact E2|]; [|done|].
  { intros e c F c' He [Hc Hcd] EF. destruct (join wt ord cmpf is_run n (fst e) xs c) as [[r c1]| |] eqn:Ej; try done.
    simpl in EF. injection EF as <- <-. apply IH in Ej as (H1 & H2 & H3).
    - split; [split; [done|congruence]|]. rewrite Hcd in H3. by apply (enum_map (cons (snd e))).
    - done.
    - destruct He1 as [He1 _]. by apply He1.
    - intros y Hy. apply Hxs. by right. }
  split; [done|]. split; [done|].
  eapply enum_ext; [| |apply (enum_concat (Tq x) (Ts xs) (fun σ => Tq x σ /\ Ts xs σ) V st r1 rss _
     (fun v σ => (cons v) <$> looks (c_dict ch) (map (sub σ) xs)) (fun σ H => H) He1 HF)].
  - intros σ _ HT. split.
    + intros v ->. apply HT. by left.
    + intros v Hv. apply HT. by right.
  - intros σ Hg Hσ. simpl. destruct (look (c_dict ch) (sub σ x)) as [v|]; [|done].
    by destruct (looks (c_dict ch) (map (sub σ) xs)).
Qed.

(** * The state of the solver *)
Definition cval (s : sstate R) (x : term) : R := default szero (c_dict (s_chart s) !! x).
Definition chval (s : sstate R) (x : term) : R := default szero (s_change s !! x).

Context (Happrox : forall x y, approx x y = true -> x = y).
Section run.
Context (keep : term -> bool).
Definition state_ok (s : sstate R) : Prop :=
  chart_ok (s_chart s) /\ (forall x, is_Some (s_change s !! x) -> ground x /\ keep x = true) /\ s_agenda s = dom (s_change s) /\
  (forall x, is_Some (c_dict (s_chart s) !! x) -> keep x = true).

Lemma push_ok h c s : ground h -> state_ok s ->
  state_ok (update keep h c s) /\ s_chart (update keep h c s) = s_chart s /\ s_init (update keep h c s) = s_init s /\
  forall x, keep x = true -> chval (update keep h c s) x = sadd (chval s x) (if decide (h = x) then c else szero).
Proof.
  intros Hh Hs. unfold update. destruct (keep h) eqn:Hk.
  2:{ split; [done|]. split; [done|]. split; [done|]. intros x Hx. rewrite decide_False; [by rewrite sadd_0_r|]. intros ->. congruence. }
  destruct Hs as (H1 & H2 & H3 & H4). split; [|split; [done|split; [done|]]].
  - split; [done|]. split; [|split]; simpl.
    + intros x Hx. destruct (decide (h = x)) as [<-|Hne]; [done|]. rewrite lookup_insert_ne in Hx by done. by apply H2.
    + by rewrite dom_insert_L, H3.
    + done.
  - intros x _. unfold chval. simpl. destruct (decide (h = x)) as [<-|Hne].
    + rewrite lookup_insert. simpl. destruct (s_change s !! h); simpl; [done|by rewrite sadd_0_l].
    + rewrite lookup_insert_ne by done. by rewrite sadd_0_r.
Qed.

Definition rV (r : rule) : gset nat := list_to_set (vars (rhead r) ++ concat (map vars (rbody r))).

Lemma rV_head r : in_V (rV r) (rhead r).
Proof. intros v Hv. unfold rV. rewrite elem_of_list_to_set, elem_of_list_In, in_app_iff. by left. Qed.

Lemma rV_body r b : b ∈ rbody r -> in_V (rV r) b.
Proof.
  intros Hb v Hv. unfold rV. rewrite elem_of_list_to_set, elem_of_list_In, in_app_iff. right.
  apply in_concat. exists (vars b). split; [|done]. apply in_map_iff. exists b. split; [done|]. by apply elem_of_list_In.
Qed.

Lemma rV_agree r σ τ : sub σ (rhead r) = sub τ (rhead r) -> map (sub σ) (rbody r) = map (sub τ) (rbody r) ->
  forall v, v ∈ rV r -> σ v = τ v.
Proof.
  intros Hh Hb v Hv. unfold rV in Hv. rewrite elem_of_list_to_set, elem_of_list_In, in_app_iff in Hv. destruct Hv as [Hv|Hv].
  - by apply (sub_ext_inv σ τ (rhead r)).
  - apply in_concat in Hv as (l & Hl & Hv). apply in_map_iff in Hl as (b & <- & Hin).
    apply (sub_ext_inv σ τ b); [|done]. by eapply map_ext_in_iff in Hb.
Qed.

(** The instance of the rule at a heap in which it is ground. *)
Definition inst_at (r : rule) (st : store) (hy : term * list term) : Prop :=
  ground (fst hy) /\ forall σ, solves σ st -> sub σ (rhead r) = fst hy /\ map (sub σ) (rbody r) = snd hy.

Lemma update_head_ok V n st r (c : R) s s' : okst V st -> update_head keep n st r c s = Ok s' ->
  exists hy, inst_at r st hy /\ s' = update keep (fst hy) c s.
Proof.
  intros (Hac & _) E. unfold update_head in E. destruct (acyclic_resolution _ Hac) as [θ Hθ].
  destruct (deref n st (rhead r)) as [h| |] eqn:Ed; try done. simpl in E. apply (deref_ok st θ Hac Hθ) in Ed.
  destruct (is_ground n st h) as [g| |] eqn:Eg; try done. simpl in E. destruct g; [|done].
  destruct (forallM (is_ground n st) (rbody r)) as [gb| |] eqn:Eb; try done. simpl in E. destruct gb; [|done]. injection E as <-.
  apply (is_ground_ok st θ Hac Hθ) in Eg. symmetry in Eg. apply bool_decide_eq_true in Eg.
  apply (forallM_ground_ok st θ Hac Hθ) in Eb. destruct Eb as [Eb _]. specialize (Eb eq_refl).
  assert (Hh : sub θ h = h).
  { rewrite Ed. apply (resolution_most_general st θ θ Hac Hθ). apply Hθ. }
  rewrite Hh in Eg. exists (h, map (sub θ) (rbody r)). split; [|done]. split; [done|]. intros σ Hσ. simpl. split.
  - rewrite <- (resolution_most_general st θ σ Hac Hθ Hσ), <- Ed. by apply sub_ground.
  - apply map_ext_in. intros b Hb. rewrite <- (resolution_most_general st θ σ Hac Hθ Hσ). apply sub_ground. by apply Eb.
Qed.

Lemma emit_fold V n r F (G : list term -> R) (L : list (store * list R)) : forall s s',
  (forall e, e ∈ L -> okst V (fst e)) ->
  (forall e v hy, e ∈ L -> F e = Ok v -> inst_at r (fst e) hy -> v = G (snd hy)) ->
  state_ok s ->
  foldM (fun sw s => let* c := F sw in update_head keep n (fst sw) r c s) L s = Ok s' ->
  state_ok s' /\ s_chart s' = s_chart s /\ s_init s' = s_init s /\
  exists hs, Forall2 (fun e hy => inst_at r (fst e) hy) L hs /\
    forall x, keep x = true -> chval s' x = sadd (chval s x) (suml (List.filter (fun hy => bool_decide (fst hy = x)) hs) (fun hy => G (snd hy))).
Proof.
  induction L as [|e L IH]; intros s s' HV HF Hs E; simpl in E.
  { injection E as <-. split; [done|]. split; [done|]. split; [done|]. exists []. split; [constructor|].
    intros x _. simpl. by rewrite suml_nil, sadd_0_r. }
  destruct (F e) as [v| |] eqn:EF; try done. simpl in E.
  destruct (update_head keep n (fst e) r v s) as [s1| |] eqn:Eu; try done. simpl in E.
  destruct (update_head_ok V n (fst e) r v s s1) as (hy & Hhy & ->); [apply HV; by left|done|].
  destruct (push_ok (fst hy) v s) as (P1 & P2 & P3 & P4); [apply Hhy|done|].
  apply IH in E as (H1 & H2 & H3 & hs & H4 & H5); [|intros; apply HV; by right|intros; eapply HF; [by right|..]; done|done].
  split; [done|]. split; [congruence|]. split; [congruence|]. exists (hy :: hs). split; [by constructor|].
  intros x Hk. rewrite H5, P4 by done. simpl.
  assert (v = G (snd hy)) as -> by (eapply HF; [by left|done|done]).
  destruct (decide (fst hy = x)) as [Hx|Hx].
  - rewrite bool_decide_eq_true_2 by done. rewrite suml_cons. by rewrite sadd_assoc.
  - rewrite bool_decide_eq_false_2 by done. by rewrite sadd_0_r.
Qed.

Lemma insts_NoDup {A} r st0 (L : list (store * A)) hs :
  (forall e, e ∈ L -> okst (rV r) (fst e) /\ st0 ⊆ fst e /\ forall σ, groundsub σ -> solves σ (fst e) -> Ts (rbody r) σ) ->
  (forall σ, groundsub σ -> Ts (rbody r) σ -> solves σ st0 -> length (List.filter (fun e => solvesb σ (fst e)) L) <= 1) ->
  Forall2 (fun e hy => inst_at r (fst e) hy) L hs -> NoDup hs.
Proof.
  intros HL Hle HF. induction HF as [|e hy L hs Hhy HF IH]; [constructor|]. apply NoDup_cons. split.
  - intros Hin. destruct (HL e) as (Ho & Hsub & HT); [by left|].
    destruct (okst_solution _ _ Ho) as (σ & Hg & Hσ).
    assert (Hex : exists e', e' ∈ L /\ inst_at r (fst e') hy).
    { clear -Hin HF. induction HF as [|e1 hy1 L hs H _ IH]; [by apply elem_of_nil in Hin|].
      apply elem_of_cons in Hin as [->|Hin]; [exists e1; split; [by left|done]|].
      destruct (IH Hin) as (e' & ? & ?). exists e'. split; [by right|done]. }
    destruct Hex as (e' & He' & Hhy'). destruct (HL e') as (Ho' & _ & _); [by right|].
    destruct (okst_solution _ _ Ho') as (τ & Hg' & Hτ).
    destruct Hhy as [_ Hhy]. destruct Hhy' as [_ Hhy']. destruct (Hhy σ Hσ) as [E1 E2]. destruct (Hhy' τ Hτ) as [E3 E4].
    assert (Hσ' : solves σ (fst e')).
    { apply (solves_agree (rV r) τ σ _ Ho'); [|done]. apply rV_agree; congruence. }
    specialize (Hle σ Hg (HT σ Hg Hσ) (solves_mono _ _ _ Hsub Hσ)). simpl in Hle.
    apply solvesb_spec in Hσ, Hσ'. rewrite Hσ in Hle. simpl in Hle.
    assert (Hin' : In e' (List.filter (fun e => solvesb σ (fst e)) L)).
    { apply filter_In. split; [by apply elem_of_list_In|done]. }
    destruct (List.filter _ L); [done|]. simpl in Hle. lia.
  - apply IH.
    + intros e' He'. apply HL. by right.
    + intros σ H1 H2 H3. specialize (Hle σ H1 H2 H3). simpl in Hle. destruct (solvesb σ (fst e)); simpl in Hle; lia.
Qed.

Lemma emit n r st0 L F (G : list term -> R) d s s' :
  enum (Ts (rbody r)) (rV r) st0 L (fun σ => looks d (map (sub σ) (rbody r))) ->
  (forall σ, groundsub σ -> looks d (map (sub σ) (rbody r)) <> None -> Ts (rbody r) σ) ->
  (forall e v hy, e ∈ L -> F e = Ok v -> inst_at r (fst e) hy -> looks d (snd hy) = Some (snd e) -> v = G (snd hy)) ->
  (forall σ, groundsub σ -> ~ solves σ st0 \/ looks d (map (sub σ) (rbody r)) = None -> G (map (sub σ) (rbody r)) = szero) ->
  state_ok s ->
  foldM (fun sw s => let* c := F sw in update_head keep n (fst sw) r c s) L s = Ok s' ->
  state_ok s' /\ s_chart s' = s_chart s /\ s_init s' = s_init s /\
  exists v : term -> R, forall x, sum_over (ground_inst r x) G (v x) /\ (keep x = true -> chval s' x = sadd (chval s x) (v x)).
Proof.
  intros [He1 He2] Hsafe HF HG Hs E.
  destruct (emit_fold (rV r) n r F G L s s') as (H1 & H2 & H3 & hs & Hhs & Hch); [..|done|done|].
  { intros e He. by apply He1. }
  { intros e v hy He HFe Hhy. eapply HF; [done|done|done|]. destruct (He1 e He) as (Ho & _ & Hv).
    destruct (okst_solution _ _ Ho) as (σ & Hg & Hσ). rewrite <- (Hv σ Hg Hσ). destruct Hhy as [_ Hhy].
    destruct (Hhy σ Hσ) as [_ ->]. done. }
  split; [done|]. split; [done|]. split; [done|].
  exists (fun x => suml (List.filter (fun hy => bool_decide (fst hy = x)) hs) (fun hy => G (snd hy))).
  intros x. split; [|apply Hch].
  assert (Hnd : NoDup hs).
  { apply (insts_NoDup r st0 L hs); [..|done].
    - intros e He. destruct (He1 e He) as (Ho & Hsub & Hv). split; [done|]. split; [done|]. intros σ Hg Hσ.
      apply Hsafe; [done|]. by rewrite (Hv σ Hg Hσ).
    - intros σ Hg HT Hσ. rewrite He2 by done. destruct (looks _ _); lia. }
  set (hx := List.filter (fun hy => bool_decide (fst hy = x)) hs).
  assert (Hhx : forall hy, hy ∈ hx <-> hy ∈ hs /\ fst hy = x).
  { intros hy. unfold hx. by rewrite elem_of_list_In, filter_In, bool_decide_eq_true, <- elem_of_list_In. }
  exists (map snd hx). split; [|split; [|split]].
  - assert (NoDup hx) as Hnx.
    { unfold hx. apply NoDup_ListNoDup, List.NoDup_filter. by apply NoDup_ListNoDup. }
    assert (Hfst : forall hy, hy ∈ hx -> fst hy = x) by (intros hy Hy; by apply Hhx).
    clear -Hnx Hfst. induction hx as [|hy hx IH]; [constructor|]. apply NoDup_cons in Hnx as [Hn Hnx]. simpl. apply NoDup_cons. split.
    + intros Hin. apply elem_of_list_fmap in Hin as (hy' & E & Hin). apply Hn.
      replace hy with hy'; [done|]. apply injective_projections; [|done]. rewrite !Hfst; [done|by left|by right].
    + apply IH; [done|]. intros. apply Hfst. by right.
  - intros ys Hys. apply elem_of_list_fmap in Hys as (hy & -> & Hhy). apply Hhx in Hhy as [Hhy <-].
    destruct (Forall2_elem_r _ _ _ _ Hhs Hhy) as (e & He & _ & Hin). destruct (He1 e He) as (Ho & _).
    destruct (okst_solution _ _ Ho) as (σ & Hg & Hσ). exists σ. split; [done|]. by apply Hin.
  - intros ys (σ & Hg & Hx & Hy). destruct (solvesb σ st0) eqn:Es.
    2:{ right. rewrite <- Hy. apply HG; [done|]. left. intros Hc. apply solvesb_spec in Hc. congruence. }
    apply solvesb_spec in Es. destruct (looks d (map (sub σ) (rbody r))) as [vs|] eqn:El.
    2:{ right. rewrite <- Hy. apply HG; [done|]. by right. }
    left. assert (HT : Ts (rbody r) σ) by (apply Hsafe; [done|by rewrite El]).
    specialize (He2 σ Hg HT Es). rewrite El in He2.
    destruct (List.filter (fun e => solvesb σ (fst e)) L) as [|e l] eqn:Efil; [done|].
    assert (Hine : In e (List.filter (fun e => solvesb σ (fst e)) L)) by (rewrite Efil; by left).
    apply filter_In in Hine as [Hine Hse]. apply solvesb_spec in Hse. apply elem_of_list_In in Hine.
    assert (Hex : exists hy, hy ∈ hs /\ inst_at r (fst e) hy).
    { clear -Hine Hhs. induction Hhs as [|e1 hy1 L hs H _ IH]; [by apply elem_of_nil in Hine|].
      apply elem_of_cons in Hine as [->|Hin]; [exists hy1; split; [by left|done]|].
      destruct (IH Hin) as (e' & ? & ?). exists e'. split; [by right|done]. }
    destruct Hex as (hy & Hhy & _ & Hi). destruct (Hi σ Hse) as [E1 E2]. apply elem_of_list_fmap. exists hy.
    split; [congruence|]. apply Hhx. split; [done|]. congruence.
  - by rewrite suml_map.
Qed.

(** * Values of subgoals *)
Lemma looks_val d ys vs : looks d ys = Some vs -> vs = map (val d) ys.
Proof.
  revert vs. induction ys as [|y ys IH]; intros vs E; simpl in E; [by injection E as <-|].
  destruct (look d y) as [v|] eqn:El; [|done]. destruct (looks d ys) as [vs'|] eqn:Els; [|done]. injection E as <-.
  simpl. unfold SolverSpec.val at 1. rewrite El. simpl. f_equal. by apply IH.
Qed.

Lemma looks_none d ys : looks d ys = None <-> exists y, y ∈ ys /\ look d y = None.
Proof.
  induction ys as [|y ys IH]; simpl.
  { split; [done|]. intros (y & Hy & _). by apply elem_of_nil in Hy. }
  destruct (look d y) as [v|] eqn:El.
  - destruct (looks d ys) as [vs|].
    + split; [done|]. intros (y' & Hy & Hn). apply elem_of_cons in Hy as [->|Hy]; [congruence|]. destruct IH as [_ IH]. by discriminate IH; eauto.
    + split; [|done]. intros _. destruct IH as [IH _]. destruct (IH eq_refl) as (y' & ? & ?). exists y'. split; [by right|done].
  - split; [|done]. intros _. exists y. split; [by left|done].
Qed.

Lemma prod_none d ys : looks d ys = None -> prodl (map (val d) ys) = szero.
Proof.
  intros H. apply looks_none in H as (y & Hy & Hn). apply prodl_zero. apply elem_of_list_fmap. exists y. split; [|done].
  unfold SolverSpec.val. by rewrite Hn.
Qed.

Definition bi (y : term) : bool :=
  match y with
  | Fn [Cst (CStr op); x; z] => bool_decide (op = s_eq) || bool_decide (op ∈ cmps) || bool_decide (op = s_is)
  | _ => false
  end.

Lemma look_nbi d y : bi y = false -> (forall k, y <> Cst k) -> look d y = d !! y.
Proof.
  intros Hb Hk. apply look_item; [|done]. intros op x z ->. simpl in Hb.
  rewrite !orb_false_iff, !bool_decide_eq_false in Hb. tauto.
Qed.

Lemma look_bi d d' y : bi y = true -> look d y = look d' y.
Proof.
  destruct y as [v|k|l]; [done|done|]. destruct l as [|[v|[z|op]|l'] [|x [|z' [|? ?]]]]; try done. simpl.
  rewrite !orb_true_iff, !bool_decide_eq_true. intros H. destruct (decide (op = s_eq)); [done|].
  destruct (decide (op ∈ cmps)); [done|]. destruct (decide (op = s_is)); [done|]. tauto.
Qed.

Lemma look_insert_ne d y a w : y <> a -> look (<[a := w]> d) y = look d y.
Proof.
  intros Hne. destruct (bi y) eqn:Eb; [by apply look_bi|]. destruct y as [v|k|l]; [|done|].
  - rewrite !look_nbi by done. by rewrite lookup_insert_ne.
  - rewrite !look_nbi by done. by rewrite lookup_insert_ne.
Qed.

Lemma look_mono d d' y : (forall x, is_Some (d !! x) -> is_Some (d' !! x)) -> look d' y = None -> look d y = None.
Proof.
  intros Hd. destruct (bi y) eqn:Eb; [by rewrite (look_bi d d' y Eb)|]. destruct y as [v|k|l]; [|done|].
  - rewrite !look_nbi by done. intros Hn. apply eq_None_not_Some. intros Hs. apply Hd in Hs as [? ?]. congruence.
  - rewrite !look_nbi by done. intros Hn. apply eq_None_not_Some. intros Hs. apply Hd in Hs as [? ?]. congruence.
Qed.

Lemma safe_mono P (d d' : gmap term R) : (forall x, is_Some (d !! x) -> is_Some (d' !! x)) ->
  safe_values wt cmpf is_true P d' -> safe_values wt cmpf is_true P d.
Proof.
  intros Hd Hs r σ Hr Hg Hb. apply (Hs r σ Hr Hg). intros b Hin Hn. apply (Hb b Hin). by apply (look_mono d d').
Qed.

Lemma safe_Ts P (d : gmap term R) r σ : safe_values wt cmpf is_true P d -> r ∈ P -> groundsub σ ->
  looks d (map (sub σ) (rbody r)) <> None -> Ts (rbody r) σ.
Proof.
  intros Hs Hr Hg Hl v Hv. apply (Hs r σ Hr Hg); [|done]. intros b Hb Hn. apply Hl, looks_none.
  exists (sub σ b). split; [|done]. apply elem_of_list_fmap. eauto.
Qed.

(** * The effect of one item on a product *)
Section one_item.
  Context (d : gmap term R) (a : term) (Δ : R) (f0 : term) (args0 : list term) (Ha : a = Fn (f0 :: args0)) (Hbi : bi a = false).
  Let old := default szero (d !! a).
  Let d' := <[a := sadd old Δ]> d.

  Definition term_at (k : nat) (ys : list term) : R :=
    if decide (ys !! k = Some a) then smul (prodl (map (val d) (take k ys))) (smul Δ (prodl (map (val d') (drop (S k) ys)))) else szero.

  Lemma val_a_old : val d a = old.
  Proof. unfold SolverSpec.val. rewrite look_nbi; [done|done|]. intros k. by rewrite Ha. Qed.

  Lemma val_new y : val d' y = sadd (val d y) (if decide (y = a) then Δ else szero).
  Proof.
    destruct (decide (y = a)) as [->|Hne].
    - rewrite val_a_old. unfold SolverSpec.val. rewrite look_nbi; [|done|intros k; by rewrite Ha]. unfold d'. by rewrite lookup_insert.
    - unfold SolverSpec.val, d'. rewrite look_insert_ne by done. by rewrite sadd_0_r.
  Qed.

  Lemma telescope ys : prodl (map (val d') ys) = sadd (prodl (map (val d) ys)) (suml (seq 0 (length ys)) (fun k => term_at k ys)).
  Proof.
    induction ys as [|y ys IH]; simpl; [by rewrite suml_nil, sadd_0_r|].
    rewrite suml_cons, <- seq_shift, suml_map.
    rewrite (suml_ext _ _ (fun k => smul (val d y) (term_at k ys))).
    2:{ intros k _. unfold term_at. simpl. destruct (decide (ys !! k = Some a)) as [E|E].
        - symmetry. apply smul_assoc.
        - by rewrite smul_0_r. }
    rewrite <- suml_mul_l. rewrite (sadd_swap (smul (val d y) _)), <- smul_add_r, <- IH. rewrite val_new, smul_add_l.
    rewrite sadd_comm. f_equal. unfold term_at. simpl. destruct (decide (y = a)) as [->|Hne].
    - rewrite decide_True by done. by rewrite smul_1_l.
    - rewrite decide_False by congruence. apply smul_0_l.
  Qed.

  Lemma grows x : is_Some (d !! x) -> is_Some (d' !! x).
  Proof. intros H. unfold d'. destruct (decide (x = a)) as [->|Hne]; [rewrite lookup_insert; eauto|by rewrite lookup_insert_ne]. Qed.

  Lemma term_at_none k ys : looks d' ys = None -> term_at k ys = szero.
  Proof.
    intros H. unfold term_at. destruct (decide (ys !! k = Some a)) as [E|E]; [|done].
    apply looks_none in H as (y & Hy & Hn).
    assert (Hya : y <> a).
    { intros ->. rewrite look_nbi in Hn; [|done|intros j; by rewrite Ha]. unfold d' in Hn. by rewrite lookup_insert in Hn. }
    pose proof (look_mono d d' y grows Hn) as Hn0.
    rewrite <- (take_drop_middle ys k a E) in Hy. apply elem_of_app in Hy as [Hy|Hy]; [|apply elem_of_cons in Hy as [->|Hy]; [done|]].
    - rewrite (prodl_zero (map (val d) (take k ys))); [apply smul_0_l|]. apply elem_of_list_fmap. exists y. split; [|done].
      unfold SolverSpec.val. by rewrite Hn0.
    - rewrite (prodl_zero (map (val d') (drop (S k) ys))); [by rewrite smul_0_r, smul_0_r|]. apply elem_of_list_fmap. exists y. split; [|done].
      unfold SolverSpec.val. by rewrite Hn.
  Qed.

  (** Positions that do not match the item by its functor contribute nothing. *)
  Lemma term_at_nondriver r σ k b :
    groundsub σ -> Forall wf_goal (rbody r) -> (looks d' (map (sub σ) (rbody r)) <> None -> Ts (rbody r) σ) ->
    rbody r !! k = Some b -> driver_at (f0, length args0) b = false -> term_at k (map (sub σ) (rbody r)) = szero.
  Proof.
    intros Hg Hwf HT Hb Hdr. destruct (looks d' (map (sub σ) (rbody r))) as [vs|] eqn:El; [|by apply term_at_none].
    specialize (HT ltac:(done)). unfold term_at. destruct (decide _) as [E|E]; [|done]. exfalso.
    change (map (sub σ) (rbody r)) with (sub σ <$> rbody r) in E. rewrite list_lookup_fmap, Hb in E. simpl in E. injection E as E.
    rewrite Forall_forall in Hwf. specialize (Hwf b (elem_of_list_lookup_2 _ _ _ Hb)).
    destruct b as [v|c|l].
    - destruct (HT v) as [j Hj]; [by eapply elem_of_list_lookup_2|]. simpl in E. rewrite Hj, Ha in E. done.
    - rewrite Ha in E. done.
    - destruct l as [|[u|c|l'] bargs]; try done. simpl in E. rewrite Ha in E. injection E as E1 E2.
      simpl in Hdr. apply andb_false_iff in Hdr as [Hdr|Hdr].
      + apply negb_false_iff in Hdr. destruct c as [z|op]; [done|]. apply bool_decide_eq_true in Hdr.
        simpl in Hwf. destruct Hwf as (W1 & W2 & W3 & _). rewrite Ha, <- E1, <- E2 in Hbi.
        unfold builtin_sigs in Hdr. apply elem_of_app in Hdr as [Hdr|Hdr].
        * rewrite !elem_of_cons in Hdr.
          destruct Hdr as [[= -> Hl]|[[= -> Hl]|[[= ->]|[[= ->]|[[= ->]|Hdr]]]]]; [..|by apply elem_of_nil in Hdr]; try done;
            (destruct bargs as [|? [|? [|? ?]]]; try done).
        * apply elem_of_list_fmap in Hdr as (op' & [= <- Hl] & Hdr).
          destruct bargs as [|? [|? [|? ?]]]; try done. simpl in Hbi. rewrite (bool_decide_eq_true_2 (op ∈ cmps) Hdr) in Hbi.
          by rewrite orb_true_r in Hbi.
      + apply bool_decide_eq_false in Hdr. apply Hdr. rewrite <- E1, <- E2, map_length. done.
  Qed.

  (** The loop of solver.py 103-109 computes that contribution. *)
  Lemma delta_ok n st θ k zs : acyclic st -> resolution st θ -> ground a -> forall j vs c0 c,
    vs = map (val d') (map (sub θ) zs) -> delta n st a old Δ k j zs vs c0 = Ok c ->
    let ys := map (sub θ) zs in
    (k < j -> c = smul c0 (prodl (map (val d') ys))) /\
    (j <= k -> k - j < length zs ->
       c = smul c0 (smul (prodl (map (val d) (take (k - j) ys))) (smul Δ (prodl (map (val d') (drop (S (k - j)) ys)))))).
  Proof.
    intros Hac Hθ Hga. induction zs as [|z zs IH]; intros j vs c0 c Hvs E.
    { simpl in E. injection E as <-. simpl. split; [intros _; by rewrite smul_1_r|]. lia. }
    rewrite Hvs in E. simpl in E.
    destruct (if j <? k then py_eq n st z a else Ok false) as [e| |] eqn:Ee; try done. simpl in E.
    apply IH in E as [IH1 IH2]; [|done]. split.
    - intros Hlt. assert (Hj : (j <? k) = false) by (apply Nat.ltb_ge; lia). rewrite Hj in Ee. injection Ee as <-.
      assert (Hk : (k =? j) = false) by (apply Nat.eqb_neq; lia). rewrite Hk in IH1. rewrite IH1 by lia. simpl. by rewrite smul_assoc.
    - intros Hle Hlen. destruct (Nat.eq_dec j k) as [->|Hne].
      + rewrite Nat.ltb_irrefl in Ee. injection Ee as <-. rewrite Nat.eqb_refl in IH1. rewrite IH1 by lia.
        rewrite Nat.sub_diag. simpl. by rewrite smul_1_l, smul_assoc.
      + assert (Hj : (j <? k) = true) by (apply Nat.ltb_lt; lia). rewrite Hj in Ee.
        assert (Hk : (k =? j) = false) by (apply Nat.eqb_neq; lia). rewrite Hk in IH2.
        rewrite IH2; [|lia|simpl in Hlen; lia]. replace (k - j) with (S (k - S j)) by lia. simpl.
        rewrite <- (smul_assoc _ c0), <- (smul_assoc _ (val d (sub θ z))). do 2 f_equal.
        apply (py_eq_val st θ Hac Hθ) in Ee. rewrite (sub_ground θ a Hga) in Ee. destruct e.
        * symmetry in Ee. apply term_eqb_true in Ee. rewrite Ee. by rewrite val_a_old.
        * rewrite val_new, decide_False; [by rewrite sadd_0_r|]. intros He. rewrite He in Ee.
          assert (term_eqb a a = true) by (by apply term_eqb_true). congruence.
  Qed.
End one_item.

(** * Drivers *)
Lemma nth_error_lookup {A} (l : list A) i : nth_error l i = l !! i.
Proof. revert i. induction l as [|a l IH]; intros [|i]; simpl; [done..|]. apply IH. Qed.

Lemma drivers_in P fa : forall j i k, (i, k) ∈ drivers j P fa ->
  j <= i /\ exists r b, nth_error P (i - j) = Some r /\ nth_error (rbody r) k = Some b /\ driver_at fa b = true.
Proof.
  induction P as [|r P IH]; intros j i k H; simpl in H; [by apply elem_of_nil in H|].
  apply elem_of_app in H as [H|H].
  - apply elem_of_list_omap in H as ([k' b] & Hz & Hif). simpl in Hif. destruct (driver_at fa b) eqn:Ed; [|done].
    injection Hif as <- <-. split; [done|]. exists r, b. rewrite Nat.sub_diag. split; [done|]. split; [|done].
    apply elem_of_list_lookup in Hz as [m Hm]. apply lookup_zip_with_Some in Hm as (x & y & [= <- <-] & H1 & H2).
    apply lookup_seq in H1 as [-> _]. simpl. by rewrite <- nth_error_lookup in H2.
  - destruct (IH _ _ _ H) as [Hle (r' & b & H1 & H2)]. split; [lia|]. exists r', b.
    replace (i - j) with (S (i - S j)) by lia. done.
Qed.

Lemma suml_omap {A B} (f : A -> option B) (l : list A) (g : B -> R) :
  suml (omap f l) g = suml l (fun a => match f a with Some b => g b | None => szero end).
Proof.
  induction l as [|a l IH]; [done|]. simpl. rewrite suml_cons. destruct (f a); simpl.
  - rewrite suml_cons. f_equal. exact IH.
  - rewrite sadd_0_l. exact IH.
Qed.

Lemma drivers_sum P fa (g : nat -> R) i : forall j, j <= i ->
  suml (drivers j P fa) (fun dk => if decide (i = fst dk) then g (snd dk) else szero) =
  match nth_error P (i - j) with
  | Some r => suml (zip (seq 0 (length (rbody r))) (rbody r)) (fun kb => if driver_at fa (snd kb) then g (fst kb) else szero)
  | None => szero
  end.
Proof.
  induction P as [|r P IH]; intros j Hle; [by destruct (i - j)|]. simpl drivers. rewrite suml_app, suml_omap.
  destruct (decide (i = j)) as [->|Hne].
  - rewrite Nat.sub_diag. simpl nth_error. etransitivity; [|apply sadd_0_r].
    f_equal.
    + apply suml_ext. intros kb _. destruct (driver_at fa (snd kb)); [|done]. simpl. by rewrite decide_True.
    + apply suml_zero_in. intros [i' k'] Hin. apply drivers_in in Hin as [Hle' _]. simpl. rewrite decide_False; [done|lia].
  - rewrite IH by lia. replace (i - j) with (S (i - S j)) by lia. simpl nth_error.
    rewrite suml_zero_in; [by rewrite sadd_0_l|]. intros kb _. destruct (driver_at fa (snd kb)); [|done]. simpl. by rewrite decide_False.
Qed.

Lemma suml_zip_seq (l : list term) (p : term -> bool) (g : nat -> R) : forall j,
  (forall k b, l !! k = Some b -> p b = false -> g (j + k) = szero) ->
  suml (seq j (length l)) g = suml (zip (seq j (length l)) l) (fun kb => if p (snd kb) then g (fst kb) else szero).
Proof.
  induction l as [|b l IH]; intros j H; [done|]. simpl. rewrite !suml_cons. simpl. f_equal.
  - destruct (p b) eqn:Ep; [done|]. rewrite <- (Nat.add_0_r j). by apply (H 0 b).
  - apply IH. intros k b' Hb Hp. replace (S j + k) with (j + S k) by lia. by apply (H (S k) b').
Qed.

Lemma sum_over_lift P i r x (G : list term -> R) v : nth_error P i = Some r ->
  sum_over (ground_inst r x) G v ->
  sum_over (instances P x) (fun iy => if decide (fst iy = i) then G (snd iy) else szero) v.
Proof.
  intros Hr (L & H1 & H2 & H3 & ->). exists (map (pair i) L). split; [|split; [|split]].
  - apply NoDup_fmap_2; [|done]. intros y y' E. by injection E.
  - intros [i' y] Hy. apply elem_of_list_fmap in Hy as (y' & [= -> ->] & Hy). exists r. split; [done|]. by apply H2.
  - intros [i' y] (r' & Hr' & Hi). simpl in *. destruct (decide (i' = i)) as [->|Hne]; [|by right].
    assert (r' = r) as -> by congruence. destruct (H3 y Hi) as [Hy|Hy]; [left|by right]. apply elem_of_list_fmap. eauto.
  - rewrite suml_map. apply suml_ext. intros y _. simpl. by rewrite decide_True.
Qed.

Lemma goal_shape_wf b : wf_goal b -> goal_shape b.
Proof.
  destruct b as [v|k|l]; intros H; [left; eauto|right; left; eauto|right; right].
  destruct l as [|[v|c|l] args]; try done. eauto.
Qed.

Notation safe := (safe_values wt cmpf is_true).
Notation join := (join wt ord cmpf is_run).

Lemma rule_join r n st ch rs ch' : Forall wf_goal (rbody r) -> chart_ok ch -> okst (rV r) st ->
  join n st (rbody r) ch = Ok (rs, ch') ->
  chart_ok ch' /\ c_dict ch' = c_dict ch /\ enum (Ts (rbody r)) (rV r) st rs (fun σ => looks (c_dict ch) (map (sub σ) (rbody r))).
Proof.
  intros Hwf Hch Hst E. apply (join_ok (rV r) n (rbody r) st ch rs ch' Hch Hst); [|done].
  intros x Hx. split; [by apply rV_body|]. rewrite Forall_forall in Hwf. by apply goal_shape_wf, Hwf.
Qed.

(** The sum of the contributions of the initialised rules. *)
Definition total (P : list rule) (s : sstate R) (iy : nat * list term) : R :=
  if decide (fst iy ∈ s_init s) then prodl (map (val (c_dict (s_chart s))) (snd iy)) else szero.

Definition inv (P : list rule) (data : term -> R) (s : sstate R) : Prop :=
  forall x, keep x = true -> exists v, sum_over (instances P x) (total P s) v /\ sadd v (data x) = sadd (cval s x) (chval s x).

Lemma set_chart_ok s ch : state_ok s -> chart_ok ch -> (forall x, is_Some (c_dict ch !! x) -> keep x = true) -> state_ok (set_chart s ch).
Proof. intros (H1 & H2 & H3 & H4) H H'. done. Qed.

Lemma init_rule_ok P n i r s s' :
  wf_rules P -> nth_error P i = Some r -> state_ok s -> init_rule wt ord cmpf is_run keep n i r s = Ok s' ->
  state_ok s' /\ c_dict (s_chart s') = c_dict (s_chart s) /\ s_init s' = {[i]} ∪ s_init s /\
  (safe P (c_dict (s_chart s)) -> forall data, inv P data s -> inv P data s').
Proof.
  intros Hwf Hr Hs E. unfold init_rule in E. destruct (decide (i ∈ s_init s)) as [Hi|Hi].
  { injection E as <-. split; [done|]. split; [done|]. split; [set_solver|done]. }
  assert (Hrin : r ∈ P) by (apply elem_of_list_In; by eapply nth_error_In).
  assert (Hwr : Forall wf_goal (rbody r)) by (by apply (proj1 (Forall_forall _ _) Hwf)).
  destruct (join n ∅ (rbody r) (s_chart s)) as [[rs ch]| |] eqn:Ej; try done. simpl in E.
  destruct (rule_join r n ∅ (s_chart s) rs ch Hwr) as (Hch & Hd & Hen); [apply Hs|apply okst_empty|done|].
  set (s1 := SState ch (s_change s) (s_agenda s) ({[i]} ∪ s_init s)) in *.
  assert (Hs1 : state_ok s1) by (split; [done|]; destruct Hs as (_ & ? & ? & ?); split; [done|]; split; [done|]; cbn; by rewrite Hd).
  set (F := fun sw : store * list R => Ok (smul (fold_left smul (snd sw) sone) sone)).
  change (foldM (fun sw s => let* c := F sw in update_head keep n (fst sw) r c s) rs s1 = Ok s') in E.
  set (d := c_dict (s_chart s)) in *.
  set (G := fun ys => match looks d ys with Some vs => prodl vs | None => szero end).
  assert (HF : forall e v hy, e ∈ rs -> F e = Ok v -> inst_at r (fst e) hy -> looks d (snd hy) = Some (snd e) -> v = G (snd hy)).
  { intros e v hy _ [= <-] _ Hl. unfold G. rewrite Hl, fold_left_prodl, smul_1_l, smul_1_r. done. }
  destruct (emit_fold (rV r) n r F G rs s1 s') as (F1 & F2 & F3 & _); [..|done|done|].
  { intros e He. by apply Hen. }
  { intros e v hy He HFe Hhy. eapply HF; [done|done|done|]. destruct Hen as [He1 _]. destruct (He1 e He) as (Ho & _ & Hv).
    destruct (okst_solution _ _ Ho) as (σ & Hg & Hσ). rewrite <- (Hv σ Hg Hσ). destruct Hhy as [_ Hhy].
    destruct (Hhy σ Hσ) as [_ ->]. done. }
  split; [done|]. split; [by rewrite F2|]. split; [by rewrite F3|].
  intros Hsafe data Hinv.
  destruct (emit n r ∅ rs F G d s1 s') as (_ & _ & _ & v & Hv); [done| |done| |done|done|].
  { intros σ Hg Hl. by eapply safe_Ts. }
  { intros σ Hg [Hn|Hn]; [|unfold G; by rewrite Hn]. destruct Hn. intros u t Hu. by rewrite lookup_empty in Hu. }
  intros x Hk. destruct (Hinv x Hk) as (w & Hw & Heq). destruct (Hv x) as [Hsum Hcv].
  exists (sadd w (v x)). split.
  - eapply sum_over_ext; [|apply (sum_over_add _ _ _ _ _ Hw (sum_over_lift P i r x G (v x) Hr Hsum))].
    intros [i' ys] _. unfold total. simpl. rewrite F2, F3. simpl. rewrite Hd. fold d.
    destruct (decide (i' = i)) as [->|Hne].
    + rewrite decide_False, decide_True by set_solver. rewrite sadd_0_l. unfold G.
      destruct (looks d ys) as [vs|] eqn:El; [by rewrite (looks_val d ys vs El)|]. by rewrite prod_none.
    + rewrite sadd_0_r. destruct (decide (i' ∈ s_init s)) as [Hi'|Hi'].
      * rewrite decide_True by set_solver. done.
      * rewrite decide_False by set_solver. done.
  - rewrite (Hcv Hk). unfold cval, chval in *. rewrite F2. simpl. rewrite Hd. fold d.
    rewrite <- (sadd_assoc _ w), (sadd_comm _ (v x)), sadd_assoc, Heq, sadd_assoc. done.
Qed.

Lemma init_rules_ok P n Q : forall i s s',
  (forall k r, nth_error Q k = Some r -> nth_error P (i + k) = Some r) ->
  wf_rules P -> state_ok s -> init_rules wt ord cmpf is_run keep n i Q s = Ok s' ->
  state_ok s' /\ c_dict (s_chart s') = c_dict (s_chart s) /\ s_init s ⊆ s_init s' /\ (forall k, k < length Q -> i + k ∈ s_init s') /\
  (safe P (c_dict (s_chart s)) -> forall data, inv P data s -> inv P data s').
Proof.
  induction Q as [|r Q IH]; intros i s s' HQ Hwf Hs E; simpl in E.
  { injection E as <-. split; [done|]. split; [done|]. split; [done|]. split; [simpl; lia|done]. }
  destruct (init_rule wt ord cmpf is_run keep n i r s) as [s1| |] eqn:E1; try done. simpl in E.
  destruct (init_rule_ok P n i r s s1 Hwf) as (H1 & H2 & H3 & H4); [|done|done|].
  { rewrite <- (Nat.add_0_r i). by apply HQ. }
  destruct (IH (S i) s1 s') as (H5 & H6 & H7 & H8 & H9); [|done|done|done|].
  { intros k r' Hr. replace (S i + k) with (i + S k) by lia. by apply HQ. }
  split; [done|]. split; [congruence|]. split; [clear -H3 H7; set_solver|]. split.
  - intros [|k] Hk; [rewrite Nat.add_0_r; clear -H3 H7; set_solver|]. replace (i + S k) with (S i + k) by lia. apply H8. simpl in Hk. lia.
  - intros Hsafe data Hinv. apply H9; [by rewrite H2|]. by apply H4.
Qed.

Lemma unify_seed n r b a st u : b ∈ rbody r -> ground a -> unify_f n ∅ a b = Ok (st, u) ->
  okst (rV r) st /\ if u then forall σ, solves σ st <-> sub σ b = a else forall σ, sub σ b <> a.
Proof.
  intros Hb Ha E. destruct (unify_V_ok (rV r) n ∅ a b st u) as (H1 & _ & H2);
    [apply okst_empty|by apply ground_in_V|by apply rV_body|done|]. split; [done|].
  assert (He : forall σ, solves σ ∅) by (intros σ v t Hv; by rewrite lookup_empty in Hv).
  destruct u.
  - intros σ. rewrite H2, (sub_ground σ a Ha). naive_solver.
  - intros σ Hc. apply (H2 σ (He σ)). by rewrite (sub_ground σ a Ha).
Qed.

(** One driver: the contribution of the item at one subgoal of one rule. *)
Lemma drive_ok P n d a Δ i k s s' f0 args0 :
  wf_rules P -> a = Fn (f0 :: args0) -> ground a -> (i, k) ∈ drivers 0 P (f0, length args0) ->
  let old := default szero (d !! a) in
  c_dict (s_chart s) = <[a := sadd old Δ]> d -> state_ok s ->
  drive wt ord cmpf is_run keep P n a old Δ (i, k) s = Ok s' ->
  state_ok s' /\ c_dict (s_chart s') = c_dict (s_chart s) /\ s_init s' = s_init s /\
  (safe P (c_dict (s_chart s)) -> bi a = false -> exists v : term -> R, forall x,
     sum_over (instances P x) (fun iy => if decide (fst iy = i) then term_at d a Δ k (snd iy) else szero) (v x) /\
     (keep x = true -> chval s' x = sadd (chval s x) (v x))).
Proof.
  intros Hwf Ha Hga Hdr old Hd Hs E. apply drivers_in in Hdr as (_ & r & b & Hr & Hb & Hdr).
  rewrite Nat.sub_0_r in Hr. unfold drive in E. rewrite Hr, Hb in E.
  assert (Hrin : r ∈ P) by (apply elem_of_list_In; by eapply nth_error_In).
  assert (Hwr : Forall wf_goal (rbody r)) by (by apply (proj1 (Forall_forall _ _) Hwf)).
  assert (Hbin : b ∈ rbody r) by (apply elem_of_list_In; by eapply nth_error_In).
  rewrite nth_error_lookup in Hb.
  destruct (unify_f n ∅ a b) as [[st u]| |] eqn:Eu; try done. simpl in E.
  destruct (unify_seed n r b a st u Hbin Hga Eu) as [Hst Hu].
  assert (Hys : forall σ, map (sub σ) (rbody r) !! k = Some (sub σ b)).
  { intros σ. change (map (sub σ) (rbody r)) with (sub σ <$> rbody r). by rewrite list_lookup_fmap, Hb. }
  destruct u.
  2:{ injection E as <-. split; [done|]. split; [done|]. split; [done|]. intros _ _. exists (fun _ => szero). intros x.
      split; [|intros _; by rewrite sadd_0_r]. eapply sum_over_ext; [|apply sum_over_zero]. intros [i' ys] (r' & Hr' & σ & _ & _ & <-). simpl in *.
      destruct (decide (i' = i)) as [->|]; [|done]. assert (r' = r) as -> by congruence. unfold term_at.
      rewrite decide_False; [done|]. rewrite Hys. intros [= Hc]. by apply (Hu σ). }
  destruct (join n st (rbody r) (s_chart s)) as [[rs ch]| |] eqn:Ej; try done. simpl in E.
  destruct (rule_join r n st (s_chart s) rs ch Hwr) as (Hch & Hdc & Hen); [apply Hs|done|done|].
  set (s1 := set_chart s ch) in *.
  assert (Hs1 : state_ok s1) by (apply set_chart_ok; [done|done|]; rewrite Hdc; apply Hs).
  set (d' := c_dict (s_chart s)) in *.
  set (F := fun sw : store * list R => delta n (fst sw) a old Δ k 0 (rbody r) (snd sw) sone) in *.
  change (foldM (fun sw s => let* c := F sw in update_head keep n (fst sw) r c s) rs s1 = Ok s') in E.
  destruct (bi a) eqn:Hbi.
  { exfalso. destruct b as [v|c|l]; try done. destruct l as [|f bargs]; [done|]. unfold driver_at in Hdr.
    apply andb_true_iff in Hdr as [Hd1 Hd2]. apply bool_decide_eq_true in Hd2. injection Hd2 as -> Hlen.
    rewrite Ha in Hbi. unfold bi in Hbi. destruct f0 as [|[|op]|]; try done. destruct args0 as [|x [|z [|? ?]]]; try done.
    simpl in Hlen. unfold is_builtin in Hd1. apply negb_true_iff, bool_decide_eq_false in Hd1. apply Hd1. rewrite Hlen.
    rewrite !orb_true_iff, !bool_decide_eq_true in Hbi. unfold builtin_sigs. apply elem_of_app.
    destruct Hbi as [[->|Hc]| ->].
    - left. rewrite !elem_of_cons. auto.
    - right. apply elem_of_list_fmap. eauto.
    - left. rewrite !elem_of_cons. auto. }
  assert (HF : forall e v hy, e ∈ rs -> F e = Ok v -> inst_at r (fst e) hy -> looks d' (snd hy) = Some (snd e) -> v = term_at d a Δ k (snd hy)).
  { intros e v hy He HFe Hhy Hl. destruct Hen as [He1 _]. destruct (He1 e He) as ((Hac & _) & Hsub & _).
    destruct (acyclic_resolution _ Hac) as [θ Hθ]. destruct Hhy as [_ Hhy]. destruct (Hhy θ) as [_ Hy]; [apply Hθ|].
    unfold F in HFe. destruct (delta_ok d a Δ f0 args0 Ha Hbi n (fst e) θ k (rbody r) Hac Hθ Hga 0 (snd e) sone v) as [_ Hdel]; [|exact HFe|].
    - rewrite (looks_val d' _ _ Hl), <- Hy, Hd. done.
    - rewrite Hdel; [|lia|rewrite Nat.sub_0_r; by eapply lookup_lt_Some]. rewrite Nat.sub_0_r, smul_1_l, Hy.
      unfold term_at. rewrite decide_True; [done|]. rewrite <- Hy, Hys. f_equal. apply Hu. eapply solves_mono; [done|]. apply Hθ. }
  destruct (emit_fold (rV r) n r F (term_at d a Δ k) rs s1 s') as (F1 & F2 & F3 & _); [..|done|done|].
  { intros e He. by apply Hen. }
  { intros e v hy He HFe Hhy. eapply HF; [done|done|done|]. destruct Hen as [He1 _]. destruct (He1 e He) as (Ho & _ & Hv).
    destruct (okst_solution _ _ Ho) as (σ & Hg & Hσ). rewrite <- (Hv σ Hg Hσ). destruct Hhy as [_ Hhy].
    destruct (Hhy σ Hσ) as [_ ->]. done. }
  split; [done|]. split; [by rewrite F2|]. split; [by rewrite F3|].
  intros Hsafe _.
  destruct (emit n r st rs F (term_at d a Δ k) d' s1 s') as (_ & _ & _ & v & Hv); [done| |done| |done|done|].
  { intros σ Hg Hl. by eapply safe_Ts. }
  { intros σ Hg [Hn|Hn].
    - unfold term_at. rewrite decide_False; [done|]. rewrite Hys. intros [= Hc]. apply Hn. by apply Hu.
    - apply (term_at_none d a Δ f0 args0 Ha Hbi). unfold old in Hd. by rewrite <- Hd. }
  exists v. intros x. destruct (Hv x) as [Hsum Hcv]. split; [|done]. by apply (sum_over_lift P i r x).
Qed.

Lemma drive_all P n d a Δ f0 args0 ds : forall s s',
  wf_rules P -> a = Fn (f0 :: args0) -> ground a -> (forall ik, ik ∈ ds -> ik ∈ drivers 0 P (f0, length args0)) ->
  let old := default szero (d !! a) in
  c_dict (s_chart s) = <[a := sadd old Δ]> d -> state_ok s ->
  foldM (drive wt ord cmpf is_run keep P n a old Δ) ds s = Ok s' ->
  state_ok s' /\ c_dict (s_chart s') = c_dict (s_chart s) /\ s_init s' = s_init s /\
  (safe P (c_dict (s_chart s)) -> bi a = false -> forall x, exists vs,
     Forall2 (fun ik v => sum_over (instances P x) (fun iy => if decide (fst iy = fst ik) then term_at d a Δ (snd ik) (snd iy) else szero) v) ds vs /\
     (keep x = true -> chval s' x = sadd (chval s x) (suml vs id))).
Proof.
  induction ds as [|[i k] ds IH]; intros s s' Hwf Ha Hga Hds old Hd Hs E; cbn [foldM] in E.
  { injection E as <-. split; [done|]. split; [done|]. split; [done|]. intros _ _ x. exists []. split; [constructor|]. intros _. by rewrite suml_nil, sadd_0_r. }
  destruct (drive wt ord cmpf is_run keep P n a old Δ (i, k) s) as [s1| |] eqn:E1; try done. simpl in E.
  destruct (drive_ok P n d a Δ i k s s1 f0 args0 Hwf Ha Hga) as (H1 & H2 & H3 & H4); [apply Hds; by left|exact Hd|exact Hs|exact E1|].
  destruct (IH s1 s') as (H5 & H6 & H7 & H8); [done|done|done|intros; apply Hds; by right|by rewrite H2|exact H1|exact E|].
  split; [done|]. split; [congruence|]. split; [congruence|]. intros Hsafe Hbi x.
  destruct (H4 Hsafe Hbi) as (v & Hv). destruct (Hv x) as [Hv1 Hv2]. destruct H8 with (x := x) as (vs & Hvs1 & Hvs2); [by rewrite H2|done|].
  exists (v x :: vs). split; [by constructor|]. intros Hk. rewrite Hvs2, Hv2, suml_cons by done. symmetry. apply sadd_assoc.
Qed.


Lemma bi_val (d : gmap term R) a w y : bi a = true -> val (<[a := w]> d) y = val d y.
Proof.
  intros Hb. unfold SolverSpec.val. f_equal. destruct (decide (y = a)) as [->|Hne]; [by apply look_bi|by apply look_insert_ne].
Qed.

Lemma fc_loop_ok pick P n p : forall k s s',
  wf_rules P -> (forall i, i < length P -> i ∈ s_init s) -> state_ok s ->
  fc_loop wt approx ord cmpf is_run keep pick P n p k s = Ok s' ->
  state_ok s' /\ s_agenda s' = ∅ /\ s_init s' = s_init s /\
  (forall x, is_Some (c_dict (s_chart s) !! x) -> is_Some (c_dict (s_chart s') !! x)) /\
  (safe P (c_dict (s_chart s')) -> forall data, inv P data s -> inv P data s').
Proof.
  induction p as [|p IH]; intros k s s' Hwf Hin Hs E; [done|]. simpl in E.
  destruct (decide (s_agenda s = ∅)) as [Hag|Hag]; [by injection E as <-|].
  set (a := pick k (s_agenda s)) in *. destruct (s_change s !! a) as [Δ|] eqn:Ea; [|done].
  set (s1 := SState (s_chart s) (delete a (s_change s)) (s_agenda s ∖ {[a]}) (s_init s)) in *.
  set (d := c_dict (s_chart s)) in *. set (old := default szero (d !! a)) in *.
  assert (Hga : ground a /\ keep a = true) by (apply Hs; by eexists). destruct Hga as [Hga Hka].
  assert (Hs1 : state_ok s1).
  { destruct Hs as (H1 & H2 & H3 & H4). split; [done|]. split; [|split]; simpl.
    - intros x [v Hx]. apply lookup_delete_Some in Hx as [_ Hx]. apply H2. by eexists.
    - rewrite dom_delete_L. by rewrite H3.
    - done. }
  assert (Hch1 : forall x, chval s x = sadd (chval s1 x) (if decide (x = a) then Δ else szero)).
  { intros x. unfold chval. simpl. destruct (decide (x = a)) as [->|Hne].
    - rewrite lookup_delete, Ea. simpl. by rewrite sadd_0_l.
    - rewrite lookup_delete_ne by done. by rewrite sadd_0_r. }
  destruct (approx (sadd old Δ) old) eqn:Eap.
  { apply IH in E as (H1 & H2 & H3 & H4 & H5); [|done|done|done]. split; [done|]. split; [done|]. split; [done|]. split; [done|].
    intros Hsafe data Hinv. apply H5; [done|]. intros x Hk. destruct (Hinv x Hk) as (v & Hv & Heq). exists v. split; [done|].
    rewrite Heq, Hch1. destruct (decide (x = a)) as [->|]; [|by rewrite sadd_0_r].
    apply Happrox in Eap. change (cval s1 a) with old. change (cval s a) with old.
    rewrite (sadd_comm _ _ Δ), sadd_assoc, Eap. done. }
  destruct (chart_set a (sadd old Δ) (s_chart s)) as [ch| |] eqn:Ec; try done. simpl in E.
  destruct (chart_set_ok a (sadd old Δ) (s_chart s) ch) as (Hix & Hd' & _); [apply Hs|done|].
  destruct (fn_args a) as [[f0 args0]| |] eqn:Efn; try done. simpl in E.
  assert (Ha : a = Fn (f0 :: args0)).
  { destruct a as [|c|[|f l]]; try done. by injection Efn as -> ->. }
  destruct (foldM _ _ _) as [s2| |] eqn:Ef; try done. simpl in E.
  assert (Hs1' : state_ok (set_chart s1 ch)).
  { apply set_chart_ok; [done|split; [done|]|]; rewrite Hd'; intros x Hx; (destruct (decide (x = a)) as [->|Hne]; [done|]);
      rewrite lookup_insert_ne in Hx by done; destruct Hs as ([_ Hgr] & _ & _ & Hkc); [by apply Hgr|by apply Hkc]. }
  destruct (drive_all P n d a Δ f0 args0 (drivers 0 P (f0, length args0)) (set_chart s1 ch) s2) as (D1 & D2 & D3 & D4);
    [done|done|done|done|done|done|done|].
  simpl in D2, D3. change (c_dict (s_chart s)) with d in Hd'.
  destruct (IH (S k) s2 s') as (H1 & H2 & H3 & H4 & H5); [done|by rewrite D3|done|done|].
  split; [done|]. split; [done|]. split; [by rewrite H3, D3|]. split.
  { intros x Hx. apply H4. rewrite D2, Hd'. by apply (grows d a Δ). }
  intros Hsafe data Hinv. apply H5; [done|].
  assert (Hsafe' : safe P (c_dict ch)).
  { rewrite <- D2. by eapply safe_mono. }
  intros x Hk. destruct (Hinv x Hk) as (v & Hv & Heq). destruct (bi a) eqn:Hbi.
  - (* an item that no subgoal looks up *)
    assert (Hnil : drivers 0 P (f0, length args0) = []).
    { destruct (drivers 0 P (f0, length args0)) as [|[i j] l] eqn:Edr; [done|]. exfalso.
      assert (Hij : (i, j) ∈ drivers 0 P (f0, length args0)) by (rewrite Edr; by left).
      apply drivers_in in Hij as (_ & r & b & _ & _ & Hdr).
      destruct b as [u|c|l']; try done. destruct l' as [|f bargs]; [done|]. unfold driver_at in Hdr.
      apply andb_true_iff in Hdr as [Hd1 Hd2]. apply bool_decide_eq_true in Hd2. injection Hd2 as -> Hlen.
      rewrite Ha in Hbi. unfold bi in Hbi. destruct f0 as [|[|op]|]; try done. destruct args0 as [|y [|z [|? ?]]]; try done.
      simpl in Hlen. unfold is_builtin in Hd1. apply negb_true_iff, bool_decide_eq_false in Hd1. apply Hd1. rewrite Hlen.
      rewrite !orb_true_iff, !bool_decide_eq_true in Hbi. unfold builtin_sigs. apply elem_of_app.
      destruct Hbi as [[->|Hc]| ->].
      - left. rewrite !elem_of_cons. auto.
      - right. apply elem_of_list_fmap. eauto.
      - left. rewrite !elem_of_cons. auto. }
    rewrite Hnil in Ef. simpl in Ef. injection Ef as <-. exists v. split.
    + eapply sum_over_ext; [|exact Hv]. intros [i ys] _. unfold total. simpl. fold d. rewrite Hd'.
      destruct (decide (i ∈ s_init s)); [|done]. f_equal. apply map_ext. intros y. symmetry. by apply bi_val.
    + rewrite Heq, Hch1. unfold cval. simpl. fold d. rewrite Hd'. unfold chval at 2. simpl.
      destruct (decide (x = a)) as [->|Hne].
      * rewrite lookup_insert. simpl. fold old. fold (chval s1 a). by rewrite (sadd_comm _ (chval s1 a)), sadd_assoc.
      * rewrite lookup_insert_ne by done. by rewrite sadd_0_r.
  - destruct (D4 Hsafe' eq_refl x) as (vs & Hvs & Hcv). exists (sadd v (suml vs id)). split.
    + pose proof (sum_over_add _ _ _ _ _ Hv (sum_over_list _ _ _ _ Hvs)) as Hsum. eapply sum_over_ext; [|exact Hsum].
      intros [i ys] (r & Hr & σ & Hg & Hh & Hy). simpl in Hr, Hy. unfold total. simpl. rewrite D3. fold d. rewrite D2.
      assert (Hi : i ∈ s_init s) by (apply Hin; apply nth_error_Some; congruence).
      rewrite !decide_True by done. rewrite Hd'.
      unfold old. rewrite (telescope d a Δ f0 args0 Ha Hbi ys). f_equal.
      rewrite (drivers_sum P (f0, length args0) (fun k => term_at d a Δ k ys) i 0 ltac:(lia)), Nat.sub_0_r, Hr.
      rewrite <- Hy, map_length. symmetry. apply (suml_zip_seq (rbody r) (driver_at (f0, length args0)) (fun k => term_at d a Δ k _) 0).
      assert (Hrin : r ∈ P) by (apply elem_of_list_In; by eapply nth_error_In).
      intros j b Hb Hdr. simpl. eapply term_at_nondriver; [done|done|done|by apply (proj1 (Forall_forall _ _) Hwf)| |done|done].
      intros Hl. apply (safe_Ts P (c_dict ch)); [done|done|done|]. by rewrite Hd'.
    + rewrite (Hcv Hk). rewrite <- (sadd_assoc _ v), (sadd_comm _ (suml vs id)), sadd_assoc, Heq, Hch1.
      rewrite !sadd_assoc. f_equal. unfold cval. rewrite D2, Hd'. fold d. change (chval (set_chart s1 ch) x) with (chval s1 x).
      destruct (decide (x = a)) as [->|Hne].
      * rewrite lookup_insert. simpl. fold old. by rewrite <- !sadd_assoc, (sadd_comm _ (chval s1 a)).
      * rewrite lookup_insert_ne by done. by rewrite sadd_0_r.
Qed.

(** * Runs *)
Lemma inv_empty P : inv P (fun _ => szero) s_empty.
Proof.
  intros x _. exists szero. split.
  - eapply sum_over_ext; [|apply sum_over_zero]. intros [i ys] _. done.
  - done.
Qed.

Lemma state_ok_empty : state_ok s_empty.
Proof.
  split; [split; [apply index_ok_empty|]|split; [|split; [simpl; by rewrite dom_empty_L|]]]; intros x [? Hx]; simpl in Hx; by rewrite lookup_empty in Hx.
Qed.

Lemma forward_chaining_ok pick P n p s s' :
  wf_rules P -> state_ok s -> forward_chaining wt approx ord cmpf is_run keep pick P n p s = Ok s' ->
  state_ok s' /\ s_agenda s' = ∅ /\
  (forall x, is_Some (c_dict (s_chart s) !! x) -> is_Some (c_dict (s_chart s') !! x)) /\
  forall data, safe P (c_dict (s_chart s')) -> inv P data s ->
    inv P data s' /\ forall x, keep x = true -> solution_at wt cmpf is_true P data (c_dict (s_chart s')) x.
Proof.
  intros Hwf Hs E. unfold forward_chaining in E.
  destruct (init_rules wt ord cmpf is_run keep n 0 P s) as [s1| |] eqn:E1; try done. simpl in E.
  destruct (init_rules_ok P n P 0 s s1) as (H1 & H2 & H3 & H4 & H5); [done|done|done|done|].
  destruct (fc_loop_ok pick P n p 0 s1 s' Hwf H4 H1 E) as (L1 & L2 & L3 & L4 & L5).
  rewrite H2 in L4. split; [done|]. split; [done|]. split; [done|].
  intros data Hsafe Hinv.
  assert (Hinv' : inv P data s').
  { apply L5; [done|]. apply H5; [|done]. by eapply safe_mono. }
  split; [done|]. intros x Hk. destruct (Hinv' x Hk) as (v & Hv & Heq). exists v. split.
  - eapply sum_over_ext; [|exact Hv]. intros [i ys] (r & Hr & _). unfold total. simpl in *. rewrite decide_True; [done|].
    rewrite L3. apply H4. apply nth_error_Some. congruence.
  - rewrite Heq. destruct L1 as (_ & _ & Hdom & _). rewrite L2 in Hdom. symmetry in Hdom. apply dom_empty_inv_L in Hdom.
    unfold chval. rewrite Hdom, lookup_empty. simpl. by rewrite sadd_0_r.
Qed.

Lemma pushes_ok (l : list (term * R)) : forall s, (forall kv, kv ∈ l -> ground (fst kv)) -> state_ok s ->
  let s' := fold_left (fun s kv => update keep (fst kv) (snd kv) s) l s in
  state_ok s' /\ s_chart s' = s_chart s /\ s_init s' = s_init s /\
  forall x, keep x = true -> chval s' x = sadd (chval s x) (suml l (fun kv => if decide (fst kv = x) then snd kv else szero)).
Proof.
  induction l as [|[h v] l IH]; intros s Hl Hs; simpl.
  { split; [done|]. split; [done|]. split; [done|]. intros x _. by rewrite suml_nil, sadd_0_r. }
  destruct (push_ok h v s) as (P1 & P2 & P3 & P4); [by apply (Hl (h, v)); left|done|].
  destruct (IH (update keep h v s)) as (H1 & H2 & H3 & H4); [intros; apply Hl; by right|done|].
  split; [done|]. split; [by rewrite H2|]. split; [by rewrite H3|]. intros x Hk. rewrite H4, P4, suml_cons by done. symmetry. apply sadd_assoc.
Qed.
End run.

Lemma safe_grow P (d d' : gmap term R) : (forall x, is_Some (d !! x) -> is_Some (d' !! x)) ->
  safe_values wt cmpf is_true P d' -> safe_values wt cmpf is_true P d.
Proof. exact (safe_mono all_kept P d d'). Qed.

Lemma suml_map_to_list (d : gmap term R) x :
  suml (map_to_list d) (fun kv => if decide (fst kv = x) then snd kv else szero) = default szero (d !! x).
Proof.
  destruct (d !! x) as [v|] eqn:E.
  - assert (Hin : (x, v) ∈ map_to_list d) by (by apply elem_of_map_to_list).
    pose proof (NoDup_fst_map_to_list d) as Hnd. revert Hin Hnd. clear E. induction (map_to_list d) as [|[y w] l IH]; intros Hin Hnd; [by apply elem_of_nil in Hin|].
    simpl in Hnd. apply NoDup_cons in Hnd as [Hny Hnd]. rewrite suml_cons. simpl. apply elem_of_cons in Hin as [[= <- <-]|Hin].
    + rewrite decide_True by done. rewrite suml_zero_in; [by rewrite sadd_0_r|]. intros [y w] Hy. simpl.
      rewrite decide_False; [done|]. intros ->. apply Hny. apply elem_of_list_fmap. by exists (x, w).
    + rewrite decide_False.
      * rewrite sadd_0_l. by apply IH.
      * intros ->. apply Hny. apply elem_of_list_fmap. by exists (x, v).
  - apply suml_zero_in. intros [y w] Hy. simpl. apply elem_of_map_to_list in Hy. rewrite decide_False; [done|]. intros ->. congruence.
Qed.

Lemma load_data_ok keep pick P D n p s s' :
  wf_rules D -> state_ok keep s -> load_data wt approx ord cmpf is_run keep pick D n p s = Ok s' ->
  state_ok keep s' /\ s_chart s' = s_chart s /\
  exists d, (safe_values wt cmpf is_true D d -> solution wt cmpf is_true D (fun _ => szero) d) /\
    forall data, inv keep P data s -> inv keep P (fun x => sadd (data x) (default szero (d !! x))) s'.
Proof.
  intros Hwf Hs E. unfold load_data in E.
  destruct (forward_chaining wt approx ord cmpf is_run all_kept pick D n p s_empty) as [sd| |] eqn:Ed; try done. simpl in E. injection E as <-.
  destruct (forward_chaining_ok all_kept pick D n p s_empty sd Hwf (state_ok_empty _) Ed) as (H1 & _ & _ & H2).
  set (d := c_dict (s_chart sd)) in *.
  destruct (pushes_ok keep (map_to_list d) s) as (P1 & P2 & P3 & P4); [|done|].
  { intros [y w] Hy. apply elem_of_map_to_list in Hy. simpl. destruct H1 as [[_ Hgr] _]. apply Hgr. by eexists. }
  split; [done|]. split; [done|]. exists d. split.
  { intros Hsafe x. destruct (H2 (fun _ => szero) Hsafe (inv_empty _ D)) as [_ H2']. by apply H2'. }
  intros data Hinv x Hk. destruct (Hinv x Hk) as (v & Hv & Heq). exists v. split.
  - eapply sum_over_ext; [|exact Hv]. intros [i ys] _. unfold total. by rewrite P2, P3.
  - rewrite P4, suml_map_to_list by done. unfold cval. rewrite P2. fold (cval s x). by rewrite !sadd_assoc, Heq.
Qed.

End solver.
