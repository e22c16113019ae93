(** Proofs about the solver for items with variables. *)
From Coq Require Import List Lia ZArith.
From stdpp Require Import gmap.
From Coq Require String Ascii.
From Verif Require Import PyBase Semiring TermModel TermSpec TermProofs UnifyProofs SetsModel SetsProofs FuelProofs
  CoverProofs PruneModel ProgSpec ChartProofs SolverSpec SolverProofs UpdateProofs UnfoldProofs Solver2Model Solver2Spec.
Import String.StringSyntax Ascii.AsciiSyntax.

Local Open Scope string_scope.
Notation s_eq := ("=").
Notation s_is := ("is").
Local Close Scope string_scope.

(** * Sums over some of the results *)
Section tot.
Context {R : semiring} {X : Type}.
Notation tot := (tot (R := R) (X := X)).

Lemma tot_ext (T U : X -> Prop) l v : (forall e, e ∈ l -> T (fst e) <-> U (fst e)) -> tot T l v -> tot U l v.
Proof.
  intros H Ht. induction Ht as [|e w l v He Ht IH|e w l v He Ht IH]; [constructor|apply tot_yes|apply tot_no].
  - apply (H (e, w)); [by left|done].
  - apply IH. intros e' He'. apply H. by right.
  - intros Hu. apply He, (H (e, w)); [by left|done].
  - apply IH. intros e' He'. apply H. by right.
Qed.

Lemma tot_app (T : X -> Prop) l l' v v' : tot T l v -> tot T l' v' -> tot T (l ++ l') (sadd v v').
Proof.
  intros Ht Ht'. induction Ht as [|e w l v He Ht IH|e w l v He Ht IH]; cbn [app].
  - by rewrite sadd_0_l.
  - rewrite <- sadd_assoc. by apply tot_yes.
  - by apply tot_no.
Qed.

Lemma tot_none (T : X -> Prop) l : (forall e, e ∈ l -> ~ T (fst e)) -> tot T l szero.
Proof.
  induction l as [|[e w] l IH]; intros H; [constructor|]. apply tot_no; [apply (H (e, w)); by left|].
  apply IH. intros e' He'. apply H. by right.
Qed.

Lemma tot_one (T : X -> Prop) e w : T e -> tot T [(e, w)] w.
Proof. intros H. rewrite <- (sadd_0_r w) at 2. apply tot_yes; [done|constructor]. Qed.

(** A sum that is not zero has a summand that is not zero. *)
Lemma tot_some (T : X -> Prop) l v : (forall w : R, w = szero \/ w <> szero) -> tot T l v -> v <> szero ->
  exists e w, (e, w) ∈ l /\ T e /\ w <> szero.
Proof.
  intros Hdec Ht Hv. induction Ht as [|e w l v He Ht IH|e w l v He Ht IH]; [done|..].
  - destruct (Hdec w) as [->|Hw].
    + rewrite sadd_0_l in Hv. destruct (IH Hv) as (e' & w & H1 & H2). exists e', w. split; [by right|done].
    + exists e, w. split; [by left|done].
  - destruct (IH Hv) as (e' & w' & H1 & H2). exists e', w'. split; [by right|done].
Qed.
End tot.

(** * The two kinds of sums *)
Section finite_integral.
Context {R : semiring} (minf : R) {A : Type} `{!EqDecision A}.

Lemma suml_take (L : list A) (F : A -> R) a v w : NoDup L -> a ∈ L -> F a = sadd w v ->
  suml L F = sadd w (suml L (fun b => if decide (b = a) then v else F b)).
Proof.
  intros Hnd Ha HF. induction L as [|b L IH]; [by apply elem_of_nil in Ha|]. apply NoDup_cons in Hnd as [Hb Hnd]. rewrite !suml_cons.
  apply elem_of_cons in Ha as [->|Ha].
  - rewrite decide_True by done. rewrite HF, <- sadd_assoc. f_equal. f_equal. apply suml_ext. intros c Hc. rewrite decide_False; [done|]. intros ->. by apply Hb, elem_of_list_In.
  - rewrite decide_False by (by intros ->). rewrite (IH Hnd Ha), !sadd_assoc. f_equal. apply sadd_comm.
Qed.

(** Over a finite set, the sum for infinite sets is the usual sum. *)
Lemma integral_finite (I : A -> Prop) (L : list A) F v : NoDup L -> (forall a, a ∈ L <-> I a) -> integral minf I F v -> v = suml L F.
Proof.
  intros Hnd HL (fam & ns & H1 & H2 & H3 & ->). assert (H2' : forall a, a ∈ L -> tot (fun c => c a) fam (F a)) by (intros a Ha; by apply H2, HL). clear H2.
  revert F H2'. induction H3 as [|[c w] n fam ns Hc HF IH]; intros F HT; cbn [zip zip_with].
  { rewrite suml_nil. symmetry. etrans; [|apply (suml_zero L)]. apply suml_ext. intros a Ha. specialize (HT a (proj2 (elem_of_list_In _ _) Ha)). by inversion HT. }
  rewrite suml_cons. cbn [fst snd] in *. specialize (IH (fun cw a H => H1 cw a (elem_of_list_further _ _ _ H))).
  assert (Hin : forall a, c a -> a ∈ L) by (intros a Ha; apply HL, (H1 (c, w)); [by left|done]).
  destruct Hc as [Hc|a Ha Hc|f Hf Hinj].
  - rewrite smul_0_r, sadd_0_l. apply IH. intros a Ha. specialize (HT a Ha). inversion HT; subst; [by exfalso; eapply Hc|done].
  - pose proof (HT a (Hin a Ha)) as Hta. inversion Hta as [|c' w' l v Hca Hv Eq1 Eq2|]; subst; [|done].
    rewrite smul_1_r, (suml_take L F a v w Hnd (Hin a Ha)) by done. f_equal. apply IH. intros b Hb. destruct (decide (b = a)) as [->|Hne]; [done|].
    specialize (HT b Hb). inversion HT; subst; [|done]. exfalso. by apply Hne, Hc.
  - exfalso. assert (Hlen : length (map f (seq 0 (S (length L)))) <= length L).
    { apply submseteq_length, NoDup_submseteq.
      - apply NoDup_fmap_2_strong; [|apply NoDup_seq]. intros x y _ _. apply Hinj.
      - intros a Ha. apply elem_of_list_fmap in Ha as (k & -> & _). by apply Hin. }
    rewrite map_length, seq_length in Hlen. lia.
Qed.

End finite_integral.

Lemma suml_filter_dec {S : semiring} {A} (p : A -> Prop) `{forall a, Decision (p a)} l (f : A -> S) :
  suml (filter p l) f = suml l (fun a => if decide (p a) then f a else szero).
Proof.
  induction l as [|a l IH]; [done|]. rewrite filter_cons, suml_cons. case_decide; [by rewrite suml_cons, IH|by rewrite IH, sadd_0_l].
Qed.

Lemma groundsub_ground σ t : groundsub σ -> ground (sub σ t).
Proof.
  intros Hg. unfold ground. destruct (vars (sub σ t)) as [|v l] eqn:E; [done|]. exfalso.
  assert (Hv : In v (vars (sub σ t))) by (rewrite E; by left). apply vars_sub in Hv as (w & _ & Hw). by rewrite Hg in Hw.
Qed.

Lemma ground_sub_vars σ t v : ground (sub σ t) -> In v (vars t) -> ground (σ v).
Proof.
  intros Hg Hv. unfold ground in *. destruct (vars (σ v)) as [|u l] eqn:E; [done|]. exfalso.
  assert (Hu : In u (vars (sub σ t))) by (apply vars_sub; exists v; split; [done|rewrite E; by left]). by rewrite Hg in Hu.
Qed.

Lemma variant_stands a b x : variant a b -> stands_for a x <-> stands_for b x.
Proof.
  intros H. split; intros [Hg Hi]; (split; [done|]).
  - apply instance_of_trans with a; [|done]. by apply variant_instance, variant_sym.
  - apply instance_of_trans with b; [|done]. by apply variant_instance.
Qed.

Section solver2.
Context {R : semiring} (wt : const -> R) (approx : R -> R -> bool) (minf : R)
  (cmpf : String.string -> term -> term -> res bool)
  (is_run : nat -> store -> term -> term -> res (list store)) (is_true : term -> term -> bool) (al cv : nat -> nat).
Context (His : is_exact is_true is_run) (Hal : forall i j, al i = al j -> i = j) (Hcv : forall i j, cv i = cv j -> i = j)
  (Hac : forall i j, al i <> cv j).

Notation gval := (goal_val wt cmpf is_true).
Notation gholds := (goal_holds wt cmpf is_true).

(** * Heaps and their solutions *)
(** [V] has no canonical variable, and no variable that is still to be allocated. *)
Definition frame (c : nat) (V : gset nat) : Prop := (forall j, c <= j -> al j ∉ V) /\ forall i, cv i ∉ V.

Definition admits (V : gset nat) (σ : nat -> term) (st : store) : Prop :=
  exists τ, groundsub τ /\ (forall v, v ∈ V -> τ v = σ v) /\ solves τ st.

(** [e] extends [st] with bindings for new variables, whose values are determined
    by those of [V]. *)
Definition ext (V : gset nat) (st : store) (c : nat) (e : store) : Prop :=
  exists V', V ⊆ V' /\ okst V' e /\ st ⊆ e /\ frame c V' /\
    forall σ τ, groundsub σ -> groundsub τ -> solves σ e -> solves τ e -> (forall v, v ∈ V -> σ v = τ v) -> forall v, v ∈ V' -> σ v = τ v.

Lemma frame_le c c' V : c <= c' -> frame c V -> frame c' V.
Proof. intros Hc [H1 H2]. split; [|done]. intros j Hj. apply H1. lia. Qed.

Lemma ext_le V st c c' e : c <= c' -> ext V st c e -> ext V st c' e.
Proof.
  intros Hc (V' & H1 & H2 & H3 & H4 & H5). exists V'. split; [done|]. split; [done|]. split; [done|]. split; [|done].
  by eapply frame_le.
Qed.

Lemma ext_self V st c e : okst V e -> st ⊆ e -> frame c V -> ext V st c e.
Proof. intros H1 H2 H3. exists V. split; [done|]. split; [done|]. split; [done|]. split; [done|]. auto. Qed.

Lemma admits_self V σ st : okst V st -> groundsub σ -> admits V σ st <-> solves σ st.
Proof.
  intros Hst Hg. split.
  - intros (τ & _ & Hag & Hs). by apply (solves_agree V τ σ).
  - intros Hs. by exists σ.
Qed.

Lemma admits_down V σ st e : st ⊆ e -> admits V σ e -> admits V σ st.
Proof. intros Hs (τ & H1 & H2 & H3). exists τ. split; [done|]. split; [done|]. by eapply solves_mono. Qed.

Lemma okst_weaken V V' st : V ⊆ V' -> okst V st -> okst V' st.
Proof.
  intros HV (H1 & H2 & H3). split; [done|]. split; [|set_solver]. intros v t E w Hw. apply HV. by eapply H2.
Qed.

Definition key_ok (k : term) : Prop := (forall v, In v (vars k) -> exists i, v = cv i) /\ item_term k.

(** * Lookups *)
(** One item of the chart against a query. *)
Lemma match_key V st q c k x c1 n st' u :
  okst V st -> frame c V -> in_V V q -> key_ok k ->
  fresh al n st c k = Ok (x, c1) -> unify_f n st x q = Ok (st', u) ->
  c <= c1 /\
  (u = true -> ext V st c1 st' /\ forall σ, groundsub σ -> solves σ st' -> stands_for k (sub σ q)) /\
  forall σ, groundsub σ -> solves σ st -> (u = true /\ admits V σ st' <-> stands_for k (sub σ q)).
Proof.
  intros Hst [Hf1 Hf2] HV [Hk _] Ef Eu. assert (Hacy : acyclic st) by apply Hst. destruct (acyclic_resolution _ Hacy) as [θ Hθ].
  apply (fresh_ok st θ Hacy Hθ al Hal) in Ef as (ρ & Hx & Hc & Hρ & Hρv).
  assert (Hkθ : sub θ k = k).
  { apply (unbound_sub st θ Hθ). intros v Hv. destruct (Hk v Hv) as [i ->]. destruct (st !! cv i) eqn:E; [|done].
    exfalso. apply (Hf2 i). destruct Hst as (_ & _ & Hd). apply Hd. by apply elem_of_dom. }
  rewrite Hkθ in Hx, Hρ, Hρv. assert (Hvar : variant k x) by (by exists ρ).
  assert (Hxv : forall v, In v (vars x) -> exists j, v = al j /\ c <= j < c1).
  { intros v Hv. rewrite Hx, vars_rename in Hv. apply in_map_iff in Hv as (w & <- & Hw). by apply Hρv. }
  assert (Hnew : forall v, In v (vars x) -> v ∉ V).
  { intros v Hv. destruct (Hxv v Hv) as (j & -> & Hj). apply Hf1. lia. }
  set (V1 := V ∪ list_to_set (vars x)).
  assert (HVV1 : V ⊆ V1) by (unfold V1; set_solver).
  assert (Hin : forall v, v ∈ V1 <-> v ∈ V \/ In v (vars x)) by (intros v; unfold V1; rewrite elem_of_union, elem_of_list_to_set, elem_of_list_In; done).
  destruct (unify_V_ok V1 n st x q st' u) as (Hst' & Hsub & Hu); [by eapply okst_weaken| | |done|].
  { intros v Hv. apply Hin. by right. }
  { intros v Hv. apply Hin. left. by apply HV. }
  split; [done|]. split.
  - intros ->. split.
    + exists V1. split; [done|]. split; [done|]. split; [done|]. split.
      * split.
        -- intros j Hj Hv. apply Hin in Hv as [Hv|Hv]; [apply (Hf1 j); [lia|done]|]. destruct (Hxv _ Hv) as (j' & E & Hj'). apply Hal in E. lia.
        -- intros i Hv. apply Hin in Hv as [Hv|Hv]; [by apply (Hf2 i)|]. destruct (Hxv _ Hv) as (j' & E & Hj'). by apply (Hac j' i).
      * intros σ τ Hg Hg' Hs Ht Hag v Hv. apply Hin in Hv as [Hv|Hv]; [by apply Hag|].
        apply Hu in Hs as [_ Hs]. apply Hu in Ht as [_ Ht]. apply (sub_ext_inv σ τ x); [|done]. rewrite Hs, Ht.
        apply sub_ext. intros w Hw. apply Hag. by apply HV.
    + intros σ Hg Hs. apply Hu in Hs as [_ Hs]. apply (variant_stands k x _ Hvar). split; [by apply groundsub_ground|]. by exists σ.
  - intros σ Hg Hs. split.
    + intros [-> (τ & Hgt & Hag & Ht)]. apply Hu in Ht as [_ Ht]. apply (variant_stands k x _ Hvar). split; [by apply groundsub_ground|].
      exists τ. rewrite Ht. apply sub_ext. intros v Hv. apply Hag. by apply HV.
    + intros Hst0. apply (variant_stands k x _ Hvar) in Hst0 as [Hgq [π Hπ]].
      set (τ := fun v => if decide (In v (vars x)) then π v else σ v).
      assert (Hτx : sub τ x = sub σ q).
      { rewrite <- Hπ. apply sub_ext. intros v Hv. unfold τ. by rewrite decide_True. }
      assert (HτV : forall v, v ∈ V -> τ v = σ v).
      { intros v Hv. unfold τ. rewrite decide_False; [done|]. intros Hv'. by apply (Hnew v). }
      assert (Hτq : sub τ q = sub σ q) by (apply sub_ext; intros v Hv; by apply HτV, HV).
      assert (Hτs : solves τ st) by (apply (solves_agree V σ τ); [done|intros v Hv; symmetry; by apply HτV|done]).
      assert (Hgτ : groundsub τ).
      { intros v. unfold τ. case_decide as Hd; [|apply Hg]. apply (ground_sub_vars π x); [by rewrite Hπ|done]. }
      destruct u.
      * split; [done|]. exists τ. split; [done|]. split; [done|]. apply Hu. split; [done|]. by rewrite Hτx, Hτq.
      * exfalso. apply (Hu τ Hτs). by rewrite Hτx, Hτq.
Qed.

Lemma item_val_cons k v c x : item_val ((k, v) :: c) x = (if decide (stands_for k x) then sadd v (item_val c x) else item_val c x) :> R.
Proof. unfold item_val. rewrite filter_cons. cbn [fst]. by destruct (decide (stands_for k x)). Qed.

Definition found (ch : list (term * R)) (q : term) (e : store * R) : Prop :=
  exists kv, kv ∈ ch /\ snd e = snd kv /\ forall σ, groundsub σ -> solves σ (fst e) -> stands_for (fst kv) (sub σ q).

Lemma scan_ok V n st q : forall ch c rs c',
  okst V st -> frame c V -> in_V V q -> Forall (fun kv => key_ok (fst kv)) ch ->
  scan al n st q c ch = Ok (rs, c') ->
  c <= c' /\ (forall e, e ∈ rs -> ext V st c' (fst e) /\ found ch q e) /\
  forall σ, groundsub σ -> solves σ st -> tot (admits V σ) rs (item_val ch (sub σ q)).
Proof.
  induction ch as [|[k v] ch IH]; intros c rs c' Hst Hf HV Hk E; cbn [scan] in E.
  { injection E as <- <-. split; [done|]. split; [by intros e He%elem_of_nil|]. intros σ _ _. constructor. }
  destruct (fresh al n st c k) as [[x c1]| |] eqn:Ef; [|done..]. cbn [bind] in E.
  destruct (unify_f n st x q) as [[st' u]| |] eqn:Eu; [|done..]. cbn [bind] in E.
  destruct (scan al n st q c1 ch) as [[rest c2]| |] eqn:Er; [|done..]. cbn [bind] in E. injection E as <- <-.
  apply Forall_cons in Hk as [Hk Hks].
  destruct (match_key V st q c k x c1 n st' u Hst Hf HV Hk Ef Eu) as (Hc1 & Hyes & Hiff).
  destruct (IH c1 rest c2 Hst (frame_le _ _ _ Hc1 Hf) HV Hks Er) as (Hc2 & Hrest & Htot).
  assert (Hrest' : forall e, e ∈ rest -> ext V st c2 (fst e) /\ found ((k, v) :: ch) q e).
  { intros e He. destruct (Hrest e He) as [H1 (kv & H2 & H3)]. split; [done|]. exists kv. split; [by right|done]. }
  split; [lia|]. split.
  - intros e He. destruct u; [|by apply Hrest']. apply elem_of_cons in He as [->|He]; [|by apply Hrest'].
    destruct (Hyes eq_refl) as [H1 H2]. split; [by eapply ext_le|]. exists (k, v). split; [by left|]. split; [done|]. done.
  - intros σ Hg Hs. rewrite item_val_cons. specialize (Htot σ Hg Hs). specialize (Hiff σ Hg Hs).
    destruct (decide (stands_for k (sub σ q))) as [Hd|Hd].
    + destruct (proj2 Hiff Hd) as [-> Ha]. by apply tot_yes.
    + destruct u; [|done]. apply tot_no; [|done]. intros Ha. by apply Hd, Hiff.
Qed.

Lemma goal_val_item (f : term -> R) c l : 
  (forall op, c = CStr op -> length l = 2 -> op <> s_eq /\ op ∉ cmps /\ op <> s_is) -> gval f (Fn (Cst c :: l)) = f (Fn (Cst c :: l)).
Proof.
  intros H. destruct c as [z|op]; [done|]. destruct l as [|x [|y [|? ?]]]; try done.
  destruct (H op eq_refl eq_refl) as (H1 & H2 & H3). cbn. by rewrite !decide_False.
Qed.

Lemma goal_holds_item (I : term -> Prop) c l : 
  (forall op, c = CStr op -> length l = 2 -> op <> s_eq /\ op ∉ cmps /\ op <> s_is) -> I (Fn (Cst c :: l)) -> gholds I (Fn (Cst c :: l)).
Proof.
  intros H HI. destruct c as [z|op]; [done|]. destruct l as [|x [|y [|? ?]]]; try done.
  destruct (H op eq_refl eq_refl) as (H1 & H2 & H3). cbn. by rewrite !decide_False.
Qed.

Lemma lookup2_ok V n st q ch c rs c' :
  okst V st -> frame c V -> in_V V q -> Forall (fun kv => key_ok (fst kv)) ch ->
  lookup2 wt cmpf is_run al n st q ch c = Ok (rs, c') ->
  c <= c' /\ (forall e, e ∈ rs -> ext V st c' (fst e) /\
     forall σ, groundsub σ -> solves σ (fst e) -> snd e <> szero -> gholds (covered ch) (sub σ q)) /\
  forall σ, groundsub σ -> solves σ st -> tot (admits V σ) rs (gval (item_val ch) (sub σ q)).
Proof.
  intros Hst Hf HV Hk E. unfold lookup2 in E.
  destruct (snap n st q) as [q'| |] eqn:Eq; [|done..]. cbn [bind] in E.
  assert (Hacy : acyclic st) by apply Hst. destruct (acyclic_resolution _ Hacy) as [θ Hθ].
  assert (Hcl : closed_V V st) by apply Hst.
  pose proof (snap_in_V V n st q q' Hcl HV Eq) as HV'.
  assert (Hsub : forall σ, solves σ st -> sub σ q' = sub σ q) by (intros σ Hσ; by eapply snap_sub).
  enough (Hen : c <= c' /\ (forall e, e ∈ rs -> ext V st c' (fst e) /\
     forall σ, groundsub σ -> solves σ (fst e) -> snd e <> szero -> gholds (covered ch) (sub σ q')) /\
    forall σ, groundsub σ -> solves σ st -> tot (admits V σ) rs (gval (item_val ch) (sub σ q'))).
  { destruct Hen as (H1 & H2 & H3). split; [done|]. split.
    - intros e He. destruct (H2 e He) as [H4 H5]. split; [done|]. intros σ Hg Hs Hn. rewrite <- Hsub; [by apply H5|].
      destruct H4 as (V' & _ & _ & H4 & _). by eapply solves_mono.
    - intros σ Hg Hs. rewrite <- Hsub by done. by apply H3. }
  clear Hsub Eq HV. destruct q' as [v|k|[|f args]]; try done.
  { injection E as <- <-. split; [done|]. split.
    - intros e He. apply elem_of_list_singleton in He as ->. split; [by apply ext_self|]. by intros σ _ _ Hn.
    - intros σ Hg Hs. cbn. apply tot_one. by apply admits_self. }
  destruct (snap n st f) as [f'| |] eqn:Ef; [|done..]. cbn [bind] in E.
  assert (Hf' : forall σ, solves σ st -> sub σ f' = sub σ f) by (intros σ Hσ; by eapply snap_sub).
  assert (Hscan : forall c0, f' = Cst c0 -> (forall op, c0 = CStr op -> length args = 2 -> op <> s_eq /\ op ∉ cmps /\ op <> s_is) ->
    scan al n st (Fn (f :: args)) c ch = Ok (rs, c') ->
    c <= c' /\ (forall e, e ∈ rs -> ext V st c' (fst e) /\
     forall σ, groundsub σ -> solves σ (fst e) -> snd e <> szero -> gholds (covered ch) (sub σ (Fn (f :: args)))) /\
    forall σ, groundsub σ -> solves σ st -> tot (admits V σ) rs (gval (item_val ch) (sub σ (Fn (f :: args))))).
  { intros c0 -> Hc0 Es. destruct (scan_ok V n st _ ch c rs c' Hst Hf HV' Hk Es) as (H1 & H2 & H3). split; [done|]. split.
    - intros e He. destruct (H2 e He) as [H4 (kv & H5 & H6 & H7)]. split; [done|]. intros σ Hg Hs Hn.
      specialize (H7 σ Hg Hs). assert (Hs0 : solves σ st) by (destruct H4 as (V' & _ & _ & H4 & _); by eapply solves_mono).
      change (sub σ (Fn (f :: args))) with (Fn (sub σ f :: map (sub σ) args)) in *. rewrite <- Hf' in * by done.
      cbn [sub] in *. apply goal_holds_item; [by rewrite map_length|]. by exists kv.
    - intros σ Hg Hs. specialize (H3 σ Hg Hs). change (sub σ (Fn (f :: args))) with (Fn (sub σ f :: map (sub σ) args)) in *.
      rewrite <- Hf' in * by done. cbn [sub] in *. rewrite goal_val_item; [done|]. by rewrite map_length. }
  destruct f' as [u|[z|op]|l]; [done|by apply (Hscan (CInt z))| |done].
  case_decide as Hfree; [done|]. clear Hfree.
  case_decide as Heq.
  { subst op. destruct args as [|x [|y [|? ?]]]; try done.
    destruct (unify_f n st x y) as [[st' b]| |] eqn:Eu; [|done..]. cbn [bind] in E. injection E as <- <-.
    destruct (unify_V_ok V n st x y st' b Hst) as (Hst' & Hss & Hb); [|by intros v Hv; apply HV'; simpl; rewrite !in_app_iff; auto..|done|].
    { intros v Hv. apply HV'. simpl. rewrite !in_app_iff. auto. }
    assert (Hlk : forall σ, solves σ st -> sub σ (Fn [f; x; y]) = Fn [Cst (CStr s_eq); sub σ x; sub σ y]).
    { intros σ Hσ. change (sub σ (Fn [f; x; y])) with (Fn [sub σ f; sub σ x; sub σ y]). by rewrite <- Hf'. }
    split; [done|]. split.
    - intros e He. destruct b; [|by apply elem_of_nil in He]. apply elem_of_list_singleton in He as ->. cbn [fst].
      split; [by apply ext_self|]. intros σ Hg Hs _. apply Hb in Hs as [Hs Hxy]. rewrite Hlk by done. by cbn.
    - intros σ Hg Hs. rewrite Hlk by done. cbn [goal_val]. rewrite decide_True by done. destruct b.
      + case_decide as Hd.
        * apply tot_one. apply admits_self; [done|done|]. by apply Hb.
        * apply tot_none. intros e He. apply elem_of_list_singleton in He as ->. cbn [fst]. rewrite admits_self by done.
          intros Hs'. by apply Hb in Hs' as [_ ?].
      + rewrite decide_False by (by apply Hb). constructor. }
  destruct args as [|x [|y [|? ?]]].
  1,2,4: (case_decide; [done|]; by apply (Hscan (CStr op)); [..|done]).
  assert (HVx : in_V V x) by (intros v Hv; apply HV'; simpl; rewrite !in_app_iff; auto).
  assert (HVy : in_V V y) by (intros v Hv; apply HV'; simpl; rewrite !in_app_iff; auto).
  assert (Hlk : forall σ, solves σ st -> sub σ (Fn [f; x; y]) = Fn [Cst (CStr op); sub σ x; sub σ y]).
  { intros σ Hσ. change (sub σ (Fn [f; x; y])) with (Fn [sub σ f; sub σ x; sub σ y]). by rewrite <- Hf'. }
  case_decide as Hcmp.
  - destruct (is_ground n st x) as [gx| |] eqn:Egx; [|done..]. cbn [bind] in E.
    destruct (if gx then is_ground n st y else Ok false) as [gy| |] eqn:Egy; [|done..]. cbn [bind] in E.
    destruct gx; [|done]. destruct gy; [|done]. cbn [andb] in E.
    destruct (deref n st x) as [x'| |] eqn:Edx; [|done..]. cbn [bind] in E.
    destruct (deref n st y) as [y'| |] eqn:Edy; [|done..]. cbn [bind] in E.
    destruct (cmpf op x' y') as [b| |] eqn:Ecmp; [|done..]. cbn [bind] in E. injection E as <- <-.
    assert (Hsx : forall σ, solves σ st -> sub σ x = x').
    { intros σ Hσ. rewrite <- (deref_sub V n st x x' σ Hst Edx Hσ). apply (deref_ok st θ Hacy Hθ) in Edx.
      apply (is_ground_ok st θ Hacy Hθ) in Egx. symmetry in Egx. apply bool_decide_eq_true in Egx. rewrite Edx. by apply sub_ground. }
    assert (Hsy : forall σ, solves σ st -> sub σ y = y').
    { intros σ Hσ. rewrite <- (deref_sub V n st y y' σ Hst Edy Hσ). apply (deref_ok st θ Hacy Hθ) in Edy.
      apply (is_ground_ok st θ Hacy Hθ) in Egy. symmetry in Egy. apply bool_decide_eq_true in Egy. rewrite Edy. by apply sub_ground. }
    split; [done|]. split.
    + intros e He. destruct b; [|by apply elem_of_nil in He]. apply elem_of_list_singleton in He as ->. cbn [fst].
      split; [by apply ext_self|]. intros σ Hg Hs _. rewrite Hlk, Hsx, Hsy by done. cbn. by rewrite decide_False, decide_True.
    + intros σ Hg Hs. rewrite Hlk, Hsx, Hsy by done. cbn. rewrite decide_False, decide_True, Ecmp by done.
      destruct b; [|constructor]. apply tot_one. by apply admits_self.
  - case_decide as Hisop; [subst op|by apply (Hscan (CStr op)); [done|intros op' [= <-]|done]].
    destruct (is_run n st x y) as [sts| |] eqn:Eis; [|done..]. cbn [bind] in E. injection E as <- <-.
    destruct (His V n st x y sts) as [H1 H2]; [by apply heap_over_okst|intros w [Hw|Hw]; [by apply HVx|by apply HVy]|done|].
    split; [done|]. split.
    + intros e He. apply elem_of_list_fmap in He as (st' & -> & He). cbn [fst]. destruct (H1 st' He) as [H3 H4].
      split; [by apply ext_self; [apply heap_over_okst|..]|]. intros σ Hg Hs _.
      assert (Hs0 : solves σ st) by (by eapply solves_mono). rewrite Hlk by done. cbn.
      specialize (H2 σ Hg Hs0). destruct (is_true (sub σ x) (sub σ y)); [done|]. exfalso.
      assert (Hin : In st' (List.filter (solvesb σ) sts)).
      { apply filter_In. split; [by apply elem_of_list_In|by apply solvesb_spec]. }
      by destruct (List.filter (solvesb σ) sts).
    + intros σ Hg Hs. rewrite Hlk by done. cbn. specialize (H2 σ Hg Hs).
      assert (Htot : forall sts, (forall st', st' ∈ sts -> heap_over V st') -> length (List.filter (solvesb σ) sts) <= 1 ->
         tot (admits V σ) (map (fun st' => (st', sone)) sts) (if decide (length (List.filter (solvesb σ) sts) = 1) then sone else szero : R)).
      { clear -Hg. induction sts as [|s sts IH]; intros Hov Hle; [constructor|]. cbn [map List.filter] in *.
        assert (Hs : admits V σ s <-> solves σ s) by (apply admits_self; [apply heap_over_okst, Hov; by left|done]).
        rewrite <- solvesb_spec in Hs. destruct (solvesb σ s) eqn:Es.
        - cbn [length] in *. assert (El : length (List.filter (solvesb σ) sts) = 0) by lia. rewrite El in *. cbn.
          rewrite decide_True by done. refine (eq_ind _ (tot _ _) (tot_yes _ s sone _ szero (proj2 Hs eq_refl) _) _ (sadd_0_r _)). apply IH; [|lia]. intros st' Hst'. apply Hov. by right.
        - apply tot_no; [intros Ha; by apply Hs in Ha|]. apply IH; [|done]. intros st' Hst'. apply Hov. by right. }
      specialize (Htot sts). destruct (is_true (sub σ x) (sub σ y)); rewrite H2 in Htot; (apply Htot; [intros st' Hst'; by apply H1|lia]).
Qed.

(** * Joins *)
Definition fval (ch : list (term * R)) (σ : nat -> term) (x : R + term) : R :=
  match x with inl v => v | inr b => gval (item_val ch) (sub σ b) end.
Definition fholds (ch : list (term * R)) (σ : nat -> term) (x : R + term) : Prop :=
  match x with inl _ => True | inr b => gholds (covered ch) (sub σ b) end.
Definition f_in (V : gset nat) (x : R + term) : Prop := match x with inl _ => True | inr b => in_V V b end.

Lemma fval_agree V ch σ τ x : f_in V x -> (forall v, v ∈ V -> σ v = τ v) -> fval ch σ x = fval ch τ x.
Proof. destruct x as [v|b]; [done|]. intros HV Hag. cbn. f_equal. apply sub_ext. intros v Hv. by apply Hag, HV. Qed.

Lemma ext_trans V V1 st st1 c e :
  V ⊆ V1 -> st ⊆ st1 ->
  (forall σ τ, groundsub σ -> groundsub τ -> solves σ st1 -> solves τ st1 -> (forall v, v ∈ V -> σ v = τ v) -> forall v, v ∈ V1 -> σ v = τ v) ->
  ext V1 st1 c e -> ext V st c e.
Proof.
  intros HV Hs Hdet (V2 & H1 & H2 & H3 & H4 & H5). exists V2. split; [by etrans|]. split; [done|]. split; [by etrans|]. split; [done|].
  intros σ τ Hg Hg' Hσ Hτ Hag. apply H5; try done. apply Hdet; try done; by eapply solves_mono.
Qed.

Lemma ext_sub V st c e : ext V st c e -> st ⊆ e.
Proof. by intros (V' & _ & _ & H & _). Qed.

Lemma smul_nonzero_l (x y : R) : smul x y <> szero -> x <> szero.
Proof. intros H ->. by rewrite smul_0_l in H. Qed.
Lemma smul_nonzero_r (x y : R) : smul x y <> szero -> y <> szero.
Proof. intros H ->. by rewrite smul_0_r in H. Qed.

Lemma join2_ok n ch : Forall (fun kv => key_ok (fst kv)) ch -> forall xs V st value c rs c',
  okst V st -> frame c V -> Forall (f_in V) xs ->
  join2 wt cmpf is_run al n st xs value ch c = Ok (rs, c') ->
  c <= c' /\ (forall e, e ∈ rs -> ext V st c' (fst e) /\
     forall σ, groundsub σ -> solves σ (fst e) -> snd e <> szero -> value <> szero /\ Forall (fholds ch σ) xs) /\
  forall σ, groundsub σ -> solves σ st -> tot (admits V σ) rs (smul value (prodl (map (fval ch σ) xs))).
Proof.
  intros Hk. induction xs as [|x xs IH]; intros V st value c rs c' Hst Hf HV E; cbn [join2] in E.
  { injection E as <- <-. split; [done|]. split.
    - intros e He. apply elem_of_list_singleton in He as ->. split; [by apply ext_self|]. intros σ _ _ Hn. split; [done|constructor].
    - intros σ Hg Hs. cbn. rewrite smul_1_r. apply tot_one. by apply admits_self. }
  apply Forall_cons in HV as [HVx HV].
  destruct (match x with inl v => Ok ([(st, v)], c) | inr b => lookup2 wt cmpf is_run al n st b ch c end) as [[r1 c1]| |] eqn:E1; [|done..].
  cbn [bind] in E.
  assert (H1 : c <= c1 /\ (forall e, e ∈ r1 -> ext V st c1 (fst e) /\
     forall σ, groundsub σ -> solves σ (fst e) -> snd e <> szero -> fholds ch σ x) /\
    forall σ, groundsub σ -> solves σ st -> tot (admits V σ) r1 (fval ch σ x)).
  { destruct x as [v|b].
    - injection E1 as <- <-. split; [done|]. split.
      + intros e He. apply elem_of_list_singleton in He as ->. split; [by apply ext_self|done].
      + intros σ Hg Hs. apply tot_one. by apply admits_self.
    - exact (lookup2_ok V n st b ch c r1 c1 Hst Hf HVx Hk E1). }
  clear E1. destruct H1 as (Hc1 & Hr1 & Ht1).
  destruct (mapSM _ r1 c1) as [[rss c2]| |] eqn:E2; [|done..]. cbn [bind] in E. injection E as <- <-.
  enough (Hen : c1 <= c2 /\ (forall e, e ∈ concat rss -> ext V st c2 (fst e) /\
     forall σ, groundsub σ -> solves σ (fst e) -> snd e <> szero -> value <> szero /\ Forall (fholds ch σ) (x :: xs)) /\
    forall σ v, groundsub σ -> solves σ st -> tot (admits V σ) r1 v -> tot (admits V σ) (concat rss) (smul value (smul v (prodl (map (fval ch σ) xs))))).
  { destruct Hen as (H1 & H2 & H3). split; [lia|]. split; [done|]. intros σ Hg Hs. cbn. apply H3; [done|done|]. by apply Ht1. }
  clear Ht1. assert (Hfr : forall V', frame c1 V' -> forall c0, c1 <= c0 -> frame c0 V') by (intros V' Hfr c0 Hc0; by eapply frame_le).
  revert c1 Hc1 Hfr Hr1 rss c2 E2. induction r1 as [|[st1 v1] r1 IHr]; intros c1 Hc1 Hfr Hr1 rss c2 E2; cbn [mapSM] in E2.
  { injection E2 as <- <-. split; [done|]. split; [by intros e He%elem_of_nil|]. intros σ v Hg Hs Ht. inversion Ht; subst. cbn.
    rewrite smul_0_l, smul_0_r. constructor. }
  destruct (join2 _ _ _ _ _ _ xs _ ch c1) as [[r c3]| |] eqn:Ej; [|done..]. cbn [bind fst snd] in *.
  destruct (mapSM _ r1 c3) as [[rss' c4]| |] eqn:Em; [|done..]. injection E2 as <- <-.
  destruct (Hr1 (st1, v1)) as [(V1 & HV1 & Hok1 & Hsub1 & Hf1 & Hdet1) Hh1]; [by left|]. cbn [fst snd] in *.
  destruct (IH V1 st1 (smul value v1) c1 r c3 Hok1 Hf1) as (Hc3 & Hr & Htr); [|exact Ej|].
  { eapply Forall_impl; [exact HV|]. intros [v|b]; [done|]. intros Hb v Hv. by apply HV1, Hb. }
  destruct (IHr c3) with (rss := rss') (c2 := c4) as (Hc4 & Hr' & Htr'); [lia|intros V' HV' c0 Hc0; by eapply frame_le| |exact Em|].
  { intros e He. destruct (Hr1 e) as [H1 H2]; [by right|]. split; [by eapply ext_le|done]. }
  split; [lia|]. split.
  - cbn [concat]. intros e He. apply elem_of_app in He as [He|He]; [|by apply Hr'].
    destruct (Hr e He) as [He1 He2]. split.
    + eapply ext_le; [exact Hc4|]. by eapply ext_trans.
    + intros σ Hg Hs Hn. destruct (He2 σ Hg Hs Hn) as [Hv Hall]. split; [by eapply smul_nonzero_l|]. constructor; [|done].
      apply Hh1; [done| |by eapply smul_nonzero_r]. eapply solves_mono; [|exact Hs]. by eapply ext_sub.
  - intros σ v Hg Hs Ht. cbn [concat].
    assert (Hyes : admits V σ st1 -> tot (admits V σ) r (smul (smul value v1) (prodl (map (fval ch σ) xs)))).
    { intros (τ & Hgτ & Hag & Hτ). replace (map (fval ch σ) xs) with (map (fval ch τ) xs).
      2:{ apply map_ext_in. intros y Hy. apply (fval_agree V); [|done]. rewrite Forall_forall in HV. apply HV. by apply elem_of_list_In. }
      eapply tot_ext; [|by apply Htr]. intros e He. destruct (Hr e He) as [(V2 & _ & _ & Hsub2 & _) _]. split.
      - intros (τ' & Hg' & Hag' & Hs'). exists τ'. split; [done|]. split; [|done]. intros w Hw. rewrite Hag' by (by apply HV1). by apply Hag.
      - intros (τ' & Hg' & Hag' & Hs'). exists τ'. split; [done|]. split; [|done]. intros w Hw.
        apply (Hdet1 τ' τ); try done; [by eapply solves_mono|]. intros u Hu. by rewrite Hag', Hag. }
    assert (Hno : ~ admits V σ st1 -> tot (admits V σ) r szero).
    { intros Hn. apply tot_none. intros e He Ha. apply Hn. destruct (Hr e He) as [He1 _]. eapply admits_down; [|exact Ha]. by eapply ext_sub. }
    inversion Ht as [|? ? ? v' Ha Ht' E3 E4|? ? ? v' Ha Ht' E3 E4]; subst.
    + rewrite smul_add_l, smul_add_r, smul_assoc. apply tot_app; [by apply Hyes|by apply Htr'].
    + rewrite <- (sadd_0_l _ (smul value _)). apply tot_app; [by apply Hno|by apply Htr'].
Qed.

(** * Updates *)
Lemma item_term_sub σ t : item_term t -> item_term (sub σ t).
Proof.
  intros (f & args & -> & H). exists f, (map (sub σ) args). split; [done|]. by rewrite map_length.
Qed.

(** Values of the unbound variables give a solution of the heap. *)
Lemma free_solution st θ (π : nat -> term) : acyclic st -> resolution st θ -> groundsub π ->
  let σ := fun v => sub π (θ v) in groundsub σ /\ solves σ st /\ forall t, sub σ t = sub π (sub θ t).
Proof.
  intros Hacy Hθ Hg σ. split; [intros v; by apply groundsub_ground|]. split.
  - intros v t E. unfold σ. rewrite (proj1 Hθ v t E). by rewrite sub_sub.
  - intros t. unfold σ. by rewrite sub_sub.
Qed.

Definition gdefault (l : list nat) (π : nat -> term) (v : nat) : term := if decide (v ∈ l) then π v else Cst (CInt 0).

Lemma gdefault_ground π t : ground (sub π t) -> groundsub (gdefault (vars t) π) /\ sub (gdefault (vars t) π) t = sub π t.
Proof.
  intros Hg. split.
  - intros v. unfold gdefault. case_decide as Hd; [|done]. apply (ground_sub_vars π t); [done|]. by apply elem_of_list_In.
  - apply sub_ext. intros v Hv. unfold gdefault. rewrite decide_True; [done|]. by apply elem_of_list_In.
Qed.

Lemma heap_stands st θ h x : acyclic st -> resolution st θ ->
  stands_for (sub θ h) x <-> exists σ, groundsub σ /\ solves σ st /\ sub σ h = x.
Proof.
  intros Hacy Hθ. split.
  - intros [Hg [π Hπ]]. destruct (gdefault_ground π (sub θ h)) as [H1 H2]; [by rewrite Hπ|].
    destruct (free_solution st θ _ Hacy Hθ H1) as (H3 & H4 & H5). eexists. split; [exact H3|]. split; [exact H4|].
    by rewrite H5, H2.
  - intros (σ & Hg & Hs & <-). split; [by apply groundsub_ground|]. exists σ. by apply (resolution_most_general st θ σ Hacy Hθ Hs).
Qed.

Section keep.
Context (keep : term -> bool).

(** What the keys of the two dictionaries look like. *)
Definition key (k : term) : Prop := key_ok k /\ canonical cv k = k /\ keep k = true.

Lemma canonical_vars t v : In v (vars (canonical cv t)) -> exists i, v = cv i.
Proof. unfold canonical. rewrite vars_rename. intros Hv. apply in_map_iff in Hv as (w & <- & _). eauto. Qed.

Lemma update2_ok V n st c h (w : R) s s' :
  okst V st -> frame c V -> update2 al cv keep n st c h w s = Ok s' ->
  exists k, s' = push2 keep k w s /\ (item_term h -> key_ok k /\ canonical cv k = k) /\
    forall x, stands_for k x <-> exists σ, groundsub σ /\ solves σ st /\ sub σ h = x.
Proof.
  intros Hst [Hf1 Hf2] E. unfold update2 in E. assert (Hacy : acyclic st) by apply Hst. destruct (acyclic_resolution _ Hacy) as [θ Hθ].
  destruct (fresh al n st c h) as [[y c1]| |] eqn:Ef; [|done..]. cbn [bind] in E.
  apply (fresh_ok st θ Hacy Hθ al Hal) in Ef as (ρ & -> & Hc & Hρ & Hρv).
  destruct (canonicalize cv n st (rename ρ (sub θ h))) as [k| |] eqn:Ec; [|done..]. cbn [bind] in E. injection E as <-.
  apply (canonicalize_ok st θ Hacy Hθ) in Ec.
  assert (Hun : sub θ (rename ρ (sub θ h)) = rename ρ (sub θ h)).
  { apply (unbound_sub st θ Hθ). intros v Hv. rewrite vars_rename in Hv. apply in_map_iff in Hv as (u & <- & Hu).
    destruct (Hρv u Hu) as (j & -> & Hj). destruct (st !! al j) eqn:E; [|done]. exfalso. apply (Hf1 j); [lia|].
    destruct Hst as (_ & _ & Hd). apply Hd. by apply elem_of_dom. }
  rewrite Hun in Ec. assert (Hvar : variant (sub θ h) k).
  { apply variant_trans with (rename ρ (sub θ h)); [by exists ρ|]. subst k. by apply canonical_variant. }
  exists k. split; [done|]. split.
  - intros Hh. split; [split|].
    + intros v Hv. subst k. by eapply canonical_vars.
    + subst k. unfold canonical, rename. by apply item_term_sub, item_term_sub, item_term_sub.
    + subst k. by apply canonical_idemp.
  - intros x. rewrite <- (variant_stands _ _ x Hvar). by apply heap_stands.
Qed.

(** Either all variables of the body are determined by the head, or the head has
    infinitely many instances of the body. *)
Definition determined (r : rule) (st : store) : Prop :=
  forall σ τ, groundsub σ -> groundsub τ -> solves σ st -> solves τ st -> sub σ (rhead r) = sub τ (rhead r) ->
    map (sub σ) (rbody r) = map (sub τ) (rbody r).
Definition infinite (r : rule) (st : store) : Prop :=
  forall x, (exists σ, groundsub σ /\ solves σ st /\ sub σ (rhead r) = x) ->
    exists F : nat -> nat -> term, (forall j, groundsub (F j) /\ solves (F j) st /\ sub (F j) (rhead r) = x) /\
      forall i j, map (sub (F i)) (rbody r) = map (sub (F j)) (rbody r) -> i = j.

Lemma multiple_ok V n st r m : okst V st -> multiple minf n st r = Ok m ->
  (m = sone /\ determined r st) \/ (m = minf /\ infinite r st).
Proof.
  intros Hst E. unfold multiple in E. assert (Hacy : acyclic st) by apply Hst. destruct (acyclic_resolution _ Hacy) as [θ Hθ].
  destruct (term_vars n st (Fn (rbody r)) []) as [vb| |] eqn:E1; [|done..]. cbn [bind] in E.
  destruct (term_vars n st (rhead r) []) as [vh| |] eqn:E2; [|done..]. cbn [bind] in E.
  apply (term_vars_ok st θ) in E1; [|done..]. apply (term_vars_ok st θ) in E2; [|done..].
  assert (Hvb : forall v, v ∈ vb <-> In v (vars (sub θ (Fn (rbody r))))).
  { intros v. rewrite E1, elem_of_list_In, collect_In. split; [intros [[]|H]; exact H|by right]. }
  assert (Hvh : forall v, v ∈ vh <-> In v (vars (sub θ (rhead r)))).
  { intros v. rewrite E2, elem_of_list_In, collect_In. split; [intros [[]|H]; exact H|by right]. }
  assert (Hbody : forall σ τ, sub σ (Fn (rbody r)) = sub τ (Fn (rbody r)) <-> map (sub σ) (rbody r) = map (sub τ) (rbody r)).
  { intros σ τ. cbn. split; [by intros [= H]|by intros ->]. }
  destruct (existsb _ vb) eqn:Eb; injection E as <-.
  - right. split; [done|]. apply existsb_exists in Eb as (u & Hu & Hn). apply negb_true_iff, bool_decide_eq_false in Hn.
    apply elem_of_list_In, Hvb in Hu. rewrite Hvh in Hn.
    intros x (σ & Hg & Hs & Hx). set (π := fun j v => if decide (v = u) then Cst (CInt (Z.of_nat j)) else σ v).
    assert (Hπ : forall j, groundsub (π j)) by (intros j v; unfold π; case_decide; [done|apply Hg]).
    exists (fun j v => sub (π j) (θ v)). split.
    + intros j. destruct (free_solution st θ (π j) Hacy Hθ (Hπ j)) as (H1 & H2 & H3). split; [done|]. split; [done|].
      rewrite H3, <- Hx, <- (resolution_most_general st θ σ Hacy Hθ Hs). apply sub_ext. intros v Hv. unfold π.
      rewrite decide_False; [done|]. by intros ->.
    + intros i j Hij. apply Hbody in Hij.
      destruct (free_solution st θ (π i) Hacy Hθ (Hπ i)) as (_ & _ & H3). rewrite H3 in Hij.
      destruct (free_solution st θ (π j) Hacy Hθ (Hπ j)) as (_ & _ & H4). rewrite H4 in Hij.
      pose proof (sub_ext_inv _ _ _ Hij u Hu) as Hpi. unfold π in Hpi. rewrite !decide_True in Hpi by done. injection Hpi as Hpi. lia.
  - left. split; [done|]. intros σ τ Hg Hg' Hs Ht Hh. apply Hbody.
    rewrite <- (resolution_most_general st θ σ Hacy Hθ Hs), <- (resolution_most_general st θ τ Hacy Hθ Ht (Fn (rbody r))).
    apply sub_ext. intros v Hv.
    assert (Hin : v ∈ vh).
    { destruct (decide (v ∈ vh)) as [|Hn]; [done|]. exfalso. apply not_true_iff_false in Eb. apply Eb. apply existsb_exists.
      exists v. split; [by apply elem_of_list_In, Hvb|]. by apply negb_true_iff, bool_decide_eq_false. }
    apply Hvh in Hin. apply (sub_ext_inv σ τ (sub θ (rhead r))); [|done].
    by rewrite (resolution_most_general st θ σ Hacy Hθ Hs), (resolution_most_general st θ τ Hacy Hθ Ht).
Qed.

(** What a result adds to the state. *)
Definition emitted (r : rule) (e : store * R) (kw : term * R) : Prop :=
  (item_term (rhead r) -> key_ok (fst kw) /\ canonical cv (fst kw) = fst kw) /\
  (forall x, stands_for (fst kw) x <-> exists σ, groundsub σ /\ solves σ (fst e) /\ sub σ (rhead r) = x) /\
  exists m, snd kw = smul (snd e) m /\ ((m = sone /\ determined r (fst e)) \/ (m = minf /\ infinite r (fst e))).

Definition pushes (ks : list (term * R)) (s : state2 R) : state2 R := fold_left (fun s kw => push2 keep (fst kw) (snd kw) s) ks s.

Lemma emit_ok n c r rs : forall s s',
  (forall e, e ∈ rs -> exists V, okst V (fst e) /\ frame c V) ->
  emit minf al cv keep n c r rs s = Ok s' ->
  exists ks, Forall2 (emitted r) rs ks /\ s' = pushes ks s.
Proof.
  induction rs as [|e rs IH]; intros s s' HV E; cbn [emit foldM] in E.
  { injection E as <-. exists []. split; [constructor|done]. }
  unfold emit in E. cbn [foldM] in E. destruct (multiple minf n (fst e) r) as [m| |] eqn:Em; [|done..]. cbn [bind] in E.
  destruct (update2 al cv keep n (fst e) c (rhead r) (smul (snd e) m) s) as [s1| |] eqn:Eu; [|done..]. cbn [bind] in E.
  destruct (HV e) as (V & Hok & Hfr); [by left|].
  destruct (update2_ok V n (fst e) c (rhead r) _ s s1 Hok Hfr Eu) as (k & -> & H1 & H2).
  destruct (IH _ s' (fun e' He' => HV e' (elem_of_list_further _ _ _ He')) E) as (ks & HF & ->).
  exists ((k, smul (snd e) m) :: ks). split; [|done]. constructor; [|done]. split; [done|]. split; [done|].
  exists m. split; [done|]. by eapply multiple_ok.
Qed.

(** * Dictionaries *)
Lemma dget_in {A} k (d : list (term * A)) v : dget k d = Some v -> (k, v) ∈ d.
Proof.
  induction d as [|[k' v'] d IH]; [done|]. cbn. case_decide as Hk.
  - intros [= ->]. subst. by left.
  - intros H. right. by apply IH.
Qed.
Lemma dget_none {A} k (d : list (term * A)) : dget k d = None <-> k ∉ map fst d.
Proof.
  induction d as [|[k' v'] d IH]; cbn; [split; [intros _ H; by apply elem_of_nil in H|done]|].
  rewrite elem_of_cons. case_decide as Hk; [|tauto]. split; [done|]. tauto.
Qed.
Lemma dset_keys {A} k (v : A) d x : x ∈ map fst (dset k v d) <-> x = k \/ x ∈ map fst d.
Proof.
  induction d as [|[k' v'] d IH]; cbn; [by rewrite elem_of_list_singleton, elem_of_nil; tauto|].
  case_decide as Hk; cbn; rewrite !elem_of_cons.
  - subst. tauto.
  - rewrite IH. tauto.
Qed.
Lemma dset_NoDup {A} k (v : A) d : NoDup (map fst d) -> NoDup (map fst (dset k v d)).
Proof.
  induction d as [|[k' v'] d IH]; cbn; intros H; [apply NoDup_singleton|].
  apply NoDup_cons in H as [Hn Hd]. case_decide as Hk; cbn; [by apply NoDup_cons|].
  apply NoDup_cons. split; [|by apply IH]. rewrite dset_keys. naive_solver.
Qed.
Lemma dset_in {A} k (v : A) d kv : kv ∈ dset k v d -> kv = (k, v) \/ kv ∈ d.
Proof.
  induction d as [|[k' v'] d IH]; cbn; [by rewrite elem_of_list_singleton; left|].
  case_decide as Hk; rewrite !elem_of_cons; [subst; tauto|]. intros [->|H]; [by right; left|]. destruct (IH H); tauto.
Qed.
Lemma ddel_keys {A} k (d : list (term * A)) x : NoDup (map fst d) -> x ∈ map fst (ddel k d) <-> x <> k /\ x ∈ map fst d.
Proof.
  induction d as [|[k' v'] d IH]; cbn; intros H; [by rewrite elem_of_nil; tauto|].
  apply NoDup_cons in H as [Hn Hd]. case_decide as Hk; cbn; rewrite !elem_of_cons.
  - subst k'. split; [|naive_solver]. intros Hx. split; [|by right]. intros ->. done.
  - rewrite (IH Hd). naive_solver.
Qed.
Lemma ddel_NoDup {A} k (d : list (term * A)) : NoDup (map fst d) -> NoDup (map fst (ddel k d)).
Proof.
  induction d as [|[k' v'] d IH]; cbn; intros H; [done|]. apply NoDup_cons in H as [Hn Hd]. case_decide as Hk; cbn; [done|].
  apply NoDup_cons. split; [|by apply IH]. rewrite ddel_keys by done. naive_solver.
Qed.
Lemma ddel_in {A} k (d : list (term * A)) kv : kv ∈ ddel k d -> kv ∈ d.
Proof.
  induction d as [|[k' v'] d IH]; cbn; [done|]. case_decide as Hk; rewrite !elem_of_cons; [by right|]. intros [->|H]; auto.
Qed.

(** Adding to an entry, and removing an entry. *)
Definition added (k : term) (w : R) (d : list (term * R)) : R := match dget k d with None => w | Some v => sadd v w end.

Lemma item_val_add k w d x : NoDup (map fst d) ->
  item_val (dset k (added k w d) d) x = sadd (item_val d x) (if decide (stands_for k x) then w else szero) :> R.
Proof.
  unfold added. induction d as [|[k' v'] d IH]; cbn [dset dget map fst]; intros H.
  { rewrite item_val_cons. unfold item_val. cbn. rewrite sadd_0_l. case_decide; [apply sadd_0_r|done]. }
  apply NoDup_cons in H as [Hn Hd]. destruct (decide (k = k')) as [->|Hk].
  - rewrite !item_val_cons. case_decide; [|by rewrite sadd_0_r]. by rewrite <- !sadd_assoc, (sadd_comm _ w).
  - rewrite !item_val_cons, (IH Hd). destruct (decide (stands_for k' x)); [by rewrite sadd_assoc|done].
Qed.
Lemma item_val_del k d v x : NoDup (map fst d) -> dget k d = Some v ->
  item_val d x = sadd (if decide (stands_for k x) then v else szero) (item_val (ddel k d) x) :> R.
Proof.
  induction d as [|[k' v'] d IH]; cbn [ddel dget map fst]; intros H E; [done|].
  apply NoDup_cons in H as [Hn Hd]. destruct (decide (k = k')) as [->|Hk].
  - injection E as ->. rewrite item_val_cons. case_decide; [done|by rewrite sadd_0_l].
  - rewrite !item_val_cons, (IH Hd E). destruct (decide (stands_for k' x)); [by rewrite sadd_swap|done].
Qed.

(** * The results of a rule *)
(** The values of the results that agree with a ground instance of [r] add up to
    [G] of its subgoals, and the subgoals of results that are not zero hold. *)
Definition results (r : rule) (ch : list (term * R)) (c : nat) (rs : list (store * R)) (G : list term -> R) : Prop :=
  (forall e, e ∈ rs -> exists V, okst V (fst e) /\ frame c V) /\
  (forall e σ, e ∈ rs -> groundsub σ -> solves σ (fst e) -> snd e <> szero -> Forall (gholds (covered ch)) (map (sub σ) (rbody r))) /\
  forall σ, groundsub σ -> tot (admits (rV r) σ) rs (G (map (sub σ) (rbody r))).

Definition all_val (ch : list (term * R)) (ys : list term) : R := prodl (map (gval (item_val ch)) ys).
Definition one_val (ch : list (term * R)) (a : term) (Δ : R) (k : nat) (ys : list term) : R :=
  match ys !! k with
  | Some y => if decide (stands_for a y) then prodl (<[k := Δ]> (map (gval (item_val ch)) ys)) else szero
  | None => szero
  end.

Definition rule_apart (r : rule) : Prop :=
  forall v, In v (vars (rhead r)) \/ (exists b, b ∈ rbody r /\ In v (vars b)) -> (forall i, v <> al i) /\ forall i, v <> cv i.

Lemma rV_frame r : rule_apart r -> frame 0 (rV r).
Proof.
  intros H. assert (Hv : forall v, v ∈ rV r -> (forall i, v <> al i) /\ forall i, v <> cv i).
  { intros v Hv. apply H. unfold rV in Hv. rewrite elem_of_list_to_set, elem_of_list_In, in_app_iff in Hv. destruct Hv as [Hv|Hv]; [by left|right].
    apply in_concat in Hv as (l & Hl & Hv). apply in_map_iff in Hl as (b & <- & Hb). exists b. split; [by apply elem_of_list_In|done]. }
  split.
  - intros j _ Hj. by apply (proj1 (Hv _ Hj) j).
  - intros i Hi. by apply (proj2 (Hv _ Hi) i).
Qed.

Lemma okst_empty V : okst V ∅.
Proof.
  split; [|split].
  - exists (fun _ => 0). intros v t E. by rewrite lookup_empty in E.
  - intros v t E. by rewrite lookup_empty in E.
  - rewrite dom_empty_L. set_solver.
Qed.

Lemma solves_empty σ : solves σ ∅.
Proof. intros v t E. by rewrite lookup_empty in E. Qed.

Lemma init_results n r ch rs c : rule_apart r -> Forall (fun kv => key_ok (fst kv)) ch ->
  join2 wt cmpf is_run al n ∅ (map inr (rbody r)) sone ch 0 = Ok (rs, c) -> results r ch c rs (all_val ch).
Proof.
  intros Hr Hk E. destruct (join2_ok n ch Hk (map inr (rbody r)) (rV r) ∅ sone 0 rs c (okst_empty _) (rV_frame r Hr)) as (_ & H1 & H2); [|exact E|].
  { rewrite Forall_forall. intros x Hx. apply elem_of_list_fmap in Hx as (b & -> & Hb). by apply rV_body. }
  split; [|split].
  - intros e He. destruct (H1 e He) as [(V' & _ & H3 & _ & H4 & _) _]. eauto.
  - intros e σ He Hg Hs Hn. destruct (H1 e He) as [_ H3]. destruct (H3 σ Hg Hs Hn) as [_ H4].
    rewrite Forall_forall in H4. apply Forall_forall. intros y Hy. apply elem_of_list_fmap in Hy as (b & -> & Hb).
    apply (H4 (inr b)). apply elem_of_list_fmap. eauto.
  - intros σ Hg. specialize (H2 σ Hg (solves_empty σ)). rewrite smul_1_l in H2. unfold all_val. rewrite !map_map in *. done.
Qed.

Lemma stands_item a y : item_term a -> stands_for a y -> item_term y.
Proof. intros Ha [_ [σ <-]]. by apply item_term_sub. Qed.

Lemma gholds_item (I : term -> Prop) y : item_term y -> I y -> gholds I y.
Proof. intros (f & args & -> & H) HI. by apply goal_holds_item. Qed.
Lemma gval_item (f : term -> R) y : item_term y -> gval f y = f y.
Proof. intros (g & args & -> & H). by apply goal_val_item. Qed.

Lemma drive_results n a Δ r k b ch x c st u : rule_apart r -> Forall (fun kv => key_ok (fst kv)) ch -> key_ok a -> (exists v, (a, v) ∈ ch) ->
  rbody r !! k = Some b -> fresh al n ∅ 0 a = Ok (x, c) -> unify_f n ∅ x b = Ok (st, u) ->
  (u = false -> results r ch c [] (one_val ch a Δ k)) /\
  forall rs c', u = true -> join2 wt cmpf is_run al n st (<[k := inl Δ]> (map inr (rbody r))) sone ch c = Ok (rs, c') ->
    results r ch c' rs (one_val ch a Δ k).
Proof.
  intros Hr Hk Ha [va Hva] Hb Ef Eu.
  assert (HbV : in_V (rV r) b) by (apply rV_body; by eapply elem_of_list_lookup_2).
  destruct (match_key (rV r) ∅ b 0 a x c n st u (okst_empty _) (rV_frame r Hr) HbV Ha Ef Eu) as (_ & Hyes & Hiff).
  assert (Hone : forall σ, one_val ch a Δ k (map (sub σ) (rbody r)) =
     if decide (stands_for a (sub σ b)) then prodl (map (fval ch σ) (<[k := inl Δ]> (map inr (rbody r)))) else szero).
  { intros σ. unfold one_val. change (map (sub σ) (rbody r)) with (sub σ <$> rbody r). rewrite list_lookup_fmap, Hb. cbn [fmap option_fmap option_map].
    case_decide; [|done]. change (map (fval ch σ)) with (fmap (M:=list) (fval ch σ)). rewrite list_fmap_insert. cbn [fval]. f_equal. f_equal.
    change (map ?f ?l) with (f <$> l). by rewrite <- !list_fmap_compose. }
  split.
  - intros ->. split; [by intros e He%elem_of_nil|]. split; [by intros e σ He%elem_of_nil|].
    intros σ Hg. rewrite Hone, decide_False; [constructor|]. intros Hst. by apply (Hiff σ Hg (solves_empty σ)) in Hst as [? _].
  - intros rs c' -> E. destruct (Hyes eq_refl) as [(V1 & HV1 & Hok1 & _ & Hf1 & Hdet1) Hsnd].
    destruct (join2_ok n ch Hk (<[k := inl Δ]> (map inr (rbody r))) V1 st sone c rs c' Hok1 Hf1) as (_ & H1 & H2); [|exact E|].
    { rewrite Forall_forall. intros y Hy. apply elem_of_list_lookup in Hy as (j & Hj).
      destruct (decide (j = k)) as [->|Hjk].
      - rewrite list_lookup_insert in Hj; [by injection Hj as <-|]. rewrite map_length. by eapply lookup_lt_Some.
      - rewrite list_lookup_insert_ne in Hj by done. change (map ?f ?l) with (f <$> l) in Hj. rewrite list_lookup_fmap in Hj.
        destruct (rbody r !! j) as [b'|] eqn:Eb; [|done]. injection Hj as <-. intros v Hv. apply HV1. apply (rV_body r b'); [|done].
        by eapply elem_of_list_lookup_2. }
    split; [|split].
    + intros e He. destruct (H1 e He) as [(V' & _ & H3 & _ & H4 & _) _]. eauto.
    + intros e σ He Hg Hs Hn. destruct (H1 e He) as [Hext H3]. destruct (H3 σ Hg Hs Hn) as [_ H4].
      rewrite Forall_forall in H4. apply Forall_forall. intros y Hy. apply elem_of_list_fmap in Hy as (b' & -> & Hb').
      apply elem_of_list_lookup in Hb' as (j & Hj). destruct (decide (j = k)) as [->|Hjk].
      * rewrite Hb in Hj. injection Hj as <-.
        assert (Hst : stands_for a (sub σ b)) by (apply Hsnd; [done|]; eapply solves_mono; [|exact Hs]; by eapply ext_sub).
        apply gholds_item; [eapply stands_item; [apply Ha|done]|]. by exists (a, va).
      * apply (H4 (inr b')). apply elem_of_list_lookup. exists j. rewrite list_lookup_insert_ne by done.
        change (map ?f ?l) with (f <$> l). by rewrite list_lookup_fmap, Hj.
    + intros σ Hg. rewrite Hone. specialize (Hiff σ Hg (solves_empty σ)). case_decide as Hd.
      * apply Hiff in Hd as [_ (τ & Hgτ & Hag & Hτ)]. specialize (H2 τ Hgτ Hτ). rewrite smul_1_l in H2.
        replace (map (fval ch σ) (<[k:=inl Δ]> (map inr (rbody r)))) with (map (fval ch τ) (<[k:=inl Δ]> (map inr (rbody r)))).
        2:{ apply map_ext_in. intros y Hy. apply (fval_agree (rV r)); [|done]. apply elem_of_list_In, elem_of_list_lookup in Hy as (j & Hj).
            destruct (decide (j = k)) as [->|Hjk].
            - rewrite list_lookup_insert in Hj; [by injection Hj as <-|]. rewrite map_length. by eapply lookup_lt_Some.
            - rewrite list_lookup_insert_ne in Hj by done. change (map ?f ?l) with (f <$> l) in Hj. rewrite list_lookup_fmap in Hj.
              destruct (rbody r !! j) as [b'|] eqn:Eb; [|done]. injection Hj as <-. apply rV_body. by eapply elem_of_list_lookup_2. }
        eapply tot_ext; [|exact H2]. intros e He. destruct (H1 e He) as [(V2 & _ & _ & Hsub2 & _) _]. split.
        -- intros (τ' & Hg' & Hag' & Hs'). exists τ'. split; [done|]. split; [|done]. intros w Hw. rewrite Hag' by (by apply HV1). by apply Hag.
        -- intros (τ' & Hg' & Hag' & Hs'). exists τ'. split; [done|]. split; [|done]. intros w Hw.
           apply (Hdet1 τ' τ); try done; [by eapply solves_mono|]. intros u Hu. by rewrite Hag', Hag.
      * apply tot_none. intros e He (τ & H3 & H4 & H5). apply Hd, Hiff. split; [done|]. exists τ. split; [done|]. split; [done|].
        eapply solves_mono; [|exact H5]. destruct (H1 e He) as [Hext _]. by eapply ext_sub.
Qed.

(** * What the results add to the value of an item *)
Definition contrib (ks : list (term * R)) (x : term) : R := suml (filter (fun kw => stands_for (fst kw) x) ks) snd.

Lemma contrib_cons k w ks x : contrib ((k, w) :: ks) x = sadd (if decide (stands_for k x) then w else szero) (contrib ks x).
Proof. unfold contrib. rewrite filter_cons. cbn [fst]. case_decide; [done|by rewrite sadd_0_l]. Qed.

Lemma suml_single {A} `{EqDecision A} (L : list A) (a : A) (w : R) : NoDup L -> a ∈ L -> suml L (fun b => if decide (b = a) then w else szero) = w.
Proof.
  intros Hnd Ha. induction L as [|b L IH]; [by apply elem_of_nil in Ha|]. apply NoDup_cons in Hnd as [Hn Hnd]. rewrite suml_cons.
  destruct (decide (b = a)) as [->|Hb].
  - replace (suml L _) with (szero : R); [apply sadd_0_r|]. symmetry. etrans; [|apply (suml_zero L)]. apply suml_ext. intros c Hc.
    rewrite decide_False; [done|]. intros ->. apply Hn. by apply elem_of_list_In.
  - rewrite sadd_0_l. apply IH; [done|]. by apply elem_of_cons in Ha as [<-|Ha].
Qed.

Lemma exchange (Hdec : forall w : R, w = szero \/ w <> szero) r ch c rs G ks x (Ly : list (list term)) :
  results r ch c rs G -> Forall2 (emitted r) rs ks ->
  NoDup Ly -> (forall ys, ys ∈ Ly -> ground_inst r x ys) ->
  (forall ys, ground_inst r x ys -> Forall (gholds (covered ch)) ys -> ys ∈ Ly) ->
  contrib ks x = suml Ly G.
Proof.
  intros (Hok & Hsnd & Htot) HF Hnd Hin Hcomp.
  set (T := fun ys (e : store) => exists σ, groundsub σ /\ solves σ e /\ sub σ (rhead r) = x /\ map (sub σ) (rbody r) = ys).
  assert (HT : forall ys, ys ∈ Ly -> tot (T ys) rs (G ys)).
  { intros ys Hys. destruct (Hin ys Hys) as (σ & Hg & Hx & Hb). specialize (Htot σ Hg). rewrite Hb in Htot.
    eapply tot_ext; [|exact Htot]. intros e _. split.
    - intros (τ & Hgτ & Hag & Hs). exists τ. split; [done|]. split; [done|]. split.
      + rewrite <- Hx. apply sub_ext. intros v Hv. apply Hag. by apply (rV_head r).
      + rewrite <- Hb. apply map_ext_in. intros b Hb'. apply sub_ext. intros v Hv. apply Hag. apply (rV_body r b); [by apply elem_of_list_In|done].
    - intros (τ & Hgτ & Hs & Hx' & Hb'). exists τ. split; [done|]. split; [|done]. apply rV_agree; congruence. }
  clear Htot. enough (exists F : list term -> R, (forall ys v, tot (T ys) rs v -> v = F ys) /\ contrib ks x = suml Ly F) as (F & HF1 & ->).
  { apply suml_ext. intros ys Hys. symmetry. apply HF1, HT. by apply elem_of_list_In. }
  clear HT. induction HF as [|[e w] [k wk] rs ks (_ & Hst & m & Hw & Hm) HF IH].
  { exists (fun _ => szero). split; [by intros ys v Ht; inversion Ht|]. unfold contrib. cbn. by rewrite suml_zero. }
  destruct IH as (F & HF1 & HF2).
  { intros e' He'. apply Hok. by right. }
  { intros e' σ He'. apply Hsnd. by right. }
  cbn [fst snd] in *. destruct (Hok (e, w)) as (V & HokV & _); [by left|]. cbn [fst] in HokV. assert (Hacy : acyclic e) by apply HokV.
  destruct (acyclic_resolution _ Hacy) as [θ Hθ].
  assert (HD : forall ys, stands_for (sub θ (Fn (rhead r :: rbody r))) (Fn (x :: ys)) <-> T ys e).
  { intros ys. rewrite (heap_stands e θ (Fn (rhead r :: rbody r)) _ Hacy Hθ). unfold T. split; intros (σ & H1 & H2 & H3); exists σ; (split; [done|]); (split; [done|]).
    - cbn in H3. by injection H3.
    - cbn. destruct H3 as [-> ->]. done. }
  exists (fun ys => sadd (if decide (stands_for (sub θ (Fn (rhead r :: rbody r))) (Fn (x :: ys))) then w else szero) (F ys)). split.
  { intros ys v Ht. inversion Ht as [|? ? ? v' Ha Ht' E3 E4|? ? ? v' Ha Ht' E3 E4]; subst.
    - rewrite decide_True by (by apply HD). f_equal. by apply HF1.
    - rewrite decide_False by (by rewrite HD). rewrite sadd_0_l. by apply HF1. }
  rewrite contrib_cons, suml_add, HF2. f_equal. clear HF1 HF2 HF.
  destruct (decide (stands_for k x)) as [Hk|Hk].
  - apply Hst in Hk as (σ & Hg & Hs & Hx). destruct (Hdec w) as [->|Hwn].
    { rewrite Hw, smul_0_l. symmetry. etrans; [|apply (suml_zero Ly)]. apply suml_ext. intros ys _. by destruct (decide _). }
    assert (Hall : forall τ, groundsub τ -> solves τ e -> sub τ (rhead r) = x -> map (sub τ) (rbody r) ∈ Ly).
    { intros τ Hgτ Hτ Hxτ. apply Hcomp; [by exists τ|]. apply (Hsnd (e, w)); [by left|done..]. }
    destruct Hm as [[-> Hdet]|[-> Hinf]].
    + rewrite Hw, smul_1_r. etrans; [symmetry; apply (suml_single Ly (map (sub σ) (rbody r)) w Hnd (Hall σ Hg Hs Hx))|]. apply suml_ext. intros ys Hys.
      destruct (decide (ys = map (sub σ) (rbody r))) as [->|Hne].
      * rewrite decide_True; [done|]. apply HD. by exists σ.
      * rewrite decide_False; [done|]. rewrite HD. intros (τ & Hgτ & Hτ & Hxτ & Hb). apply Hne. rewrite <- Hb.
        apply Hdet; try done. congruence.
    + exfalso. destruct (Hinf x) as (f & Hf & Hinj); [by exists σ|].
      assert (Hlen : length (map (fun j => map (sub (f j)) (rbody r)) (seq 0 (S (length Ly)))) <= length Ly).
      { apply NoDup_incl_length.
        - apply FinFun.Injective_map_NoDup; [intros i j; apply Hinj|apply seq_NoDup].
        - intros ys Hys. apply in_map_iff in Hys as (j & <- & _). destruct (Hf j) as (H1 & H2 & H3). by apply elem_of_list_In, Hall. }
      rewrite map_length, seq_length in Hlen. lia.
  - symmetry. etrans; [|apply (suml_zero Ly)]. apply suml_ext. intros ys Hys. rewrite decide_False; [done|]. rewrite HD. intros (σ & H1 & H2 & H3 & _).
    apply Hk, Hst. by exists σ.
Qed.

(** * The state *)
Record inv (s : state2 R) : Prop := {
  inv_chart : NoDup (map fst (t_chart s)) /\ Forall (fun kv => key (fst kv)) (t_chart s);
  inv_change : NoDup (map fst (t_change s)) /\ Forall (fun kv => key (fst kv)) (t_change s);
  inv_agenda : forall a, a ∈ t_agenda s <-> a ∈ map fst (t_change s) }.

(** All items that stand for [x] are kept. *)
Definition kept (x : term) : Prop := forall a, instance_of a x -> keep a = true.

Lemma inv_keys s : inv s -> Forall (fun kv => key_ok (fst kv)) (t_chart s).
Proof. intros H. eapply Forall_impl; [apply (inv_chart s H)|]. by intros kv [Hk _]. Qed.

Lemma push2_ok k w s : inv s -> key_ok k -> canonical cv k = k ->
  inv (push2 keep k w s) /\ t_chart (push2 keep k w s) = t_chart s /\ t_init (push2 keep k w s) = t_init s /\
  forall x, kept x -> item_val (t_change (push2 keep k w s)) x = sadd (item_val (t_change s) x) (if decide (stands_for k x) then w else szero).
Proof.
  intros Hinv Hk Hc. unfold push2. destruct (keep k) eqn:Ek.
  - cbn. change (match dget k (t_change s) with Some v => sadd v w | None => w end) with (added k w (t_change s)).
    destruct (inv_change s Hinv) as [Hnd Hf]. split; [|split; [done|split; [done|]]].
    + split; cbn; [apply Hinv|split|].
      * by apply dset_NoDup.
      * rewrite Forall_forall in Hf. apply Forall_forall. intros kv Hkv. apply dset_in in Hkv as [->|Hkv]; [by split|by apply Hf].
      * intros a. rewrite elem_of_union, elem_of_singleton, dset_keys, (inv_agenda s Hinv). done.
    + intros x _. by apply item_val_add.
  - split; [done|]. split; [done|]. split; [done|]. intros x Hx. rewrite decide_False; [by rewrite sadd_0_r|].
    intros [_ Hi]. by rewrite (Hx k Hi) in Ek.
Qed.

Lemma pushes_ok ks : forall s, inv s -> Forall (fun kw => key_ok (fst kw) /\ canonical cv (fst kw) = fst kw) ks ->
  inv (pushes ks s) /\ t_chart (pushes ks s) = t_chart s /\ t_init (pushes ks s) = t_init s /\
  forall x, kept x -> item_val (t_change (pushes ks s)) x = sadd (item_val (t_change s) x) (contrib ks x).
Proof.
  induction ks as [|[k w] ks IH]; intros s Hinv Hf; cbn [pushes fold_left].
  { split; [done|]. split; [done|]. split; [done|]. intros x _. symmetry. apply sadd_0_r. }
  apply Forall_cons in Hf as [[Hk Hc] Hf]. cbn [fst snd] in *. destruct (push2_ok k w s Hinv Hk Hc) as (H1 & H2 & H3 & H4).
  destruct (IH _ H1 Hf) as (H5 & H6 & H7 & H8). split; [done|]. split; [by rewrite <- H2|]. split; [by rewrite <- H3|].
  intros x Hx. unfold pushes in H8. rewrite H8, H4, contrib_cons, sadd_assoc by done. done.
Qed.

Lemma emitted_keys r rs ks : item_term (rhead r) -> Forall2 (emitted r) rs ks -> Forall (fun kw => key_ok (fst kw) /\ canonical cv (fst kw) = fst kw) ks.
Proof. intros Hh HF. induction HF as [|e kw rs ks (H & _) HF IH]; constructor; auto. Qed.


(** * Steps *)
Section program.
Context (P : list rule) (HP : forall r, r ∈ P -> rule_apart r /\ item_term (rhead r)).

(** One rule, or one driver of a rule, with the values [G]. *)
Definition step (ch : list (term * R)) (iG : nat * (list term -> R)) (s s' : state2 R) : Prop :=
  exists r c rs ks, nth_error P (fst iG) = Some r /\ results r ch c rs (snd iG) /\ Forall2 (emitted r) rs ks /\ s' = pushes ks s.

Inductive steps (ch : list (term * R)) : list (nat * (list term -> R)) -> state2 R -> state2 R -> Prop :=
| steps_nil s : steps ch [] s s
| steps_cons iG l s s1 s2 : step ch iG s s1 -> steps ch l s1 s2 -> steps ch (iG :: l) s s2.

Lemma steps_app ch l l' s s1 s2 : steps ch l s s1 -> steps ch l' s1 s2 -> steps ch (l ++ l') s s2.
Proof. intros H H'. induction H as [|iG l s s1 s3 Hs H IH]; [done|]. econstructor; eauto. Qed.

Lemma rule_of i r : nth_error P i = Some r -> rule_apart r /\ item_term (rhead r).
Proof. intros E. apply HP. apply elem_of_list_In. by eapply nth_error_In. Qed.

Lemma step_inv ch iG s s' : inv s -> step ch iG s s' -> inv s' /\ t_chart s' = t_chart s /\ t_init s' = t_init s.
Proof.
  intros Hinv (r & c & rs & ks & Er & Hres & HF & ->). destruct (rule_of _ _ Er) as [_ Hh].
  destruct (pushes_ok ks s Hinv (emitted_keys r rs ks Hh HF)) as (H1 & H2 & H3 & _). done.
Qed.

Lemma steps_inv ch l s s' : inv s -> steps ch l s s' -> inv s' /\ t_chart s' = t_chart s /\ t_init s' = t_init s.
Proof.
  intros Hinv H. induction H as [|iG l s s1 s2 Hs H IH]; [done|]. destruct (step_inv ch iG s s1 Hinv Hs) as (H1 & H2 & H3).
  destruct (IH H1) as (H4 & -> & ->). done.
Qed.

Lemma init_rule2_ok n i r s s' : inv s -> nth_error P i = Some r ->
  init_rule2 wt minf cmpf is_run al cv keep n i r s = Ok s' ->
  (i ∈ t_init s /\ s' = s) \/
  (i ∉ t_init s /\ step (t_chart s) (i, all_val (t_chart s)) (State2 (t_chart s) (t_change s) (t_agenda s) ({[i]} ∪ t_init s)) s').
Proof.
  intros Hinv Er E. unfold init_rule2 in E. case_decide as Hi; [left; split; [done|congruence]|]. right. split; [done|].
  destruct (join2 _ _ _ _ _ _ _ _ _ _) as [[rs c]| |] eqn:Ej; [|done..]. cbn [bind] in E.
  destruct (rule_of _ _ Er) as [Hr Hh].
  pose proof (init_results n r (t_chart s) rs c Hr (inv_keys s Hinv) Ej) as Hres.
  destruct (emit_ok n c r rs _ s' (proj1 Hres) E) as (ks & HF & ->). exists r, c, rs, ks. done.
Qed.

Lemma drive2_ok n a Δ i r k b s s' : inv s -> nth_error P i = Some r -> key_ok a -> (exists v, (a, v) ∈ t_chart s) -> rbody r !! k = Some b ->
  drive2 wt minf cmpf is_run al cv keep n a Δ r (k, b) s = Ok s' -> step (t_chart s) (i, one_val (t_chart s) a Δ k) s s'.
Proof.
  intros Hinv Er Ha Hin Hb E. unfold drive2 in E. destruct (rule_of _ _ Er) as [Hr Hh].
  destruct (fresh al n ∅ 0 a) as [[x c]| |] eqn:Ef; [|done..]. cbn [bind] in E. cbn [fst snd] in E.
  destruct (unify_f n ∅ x b) as [[st u]| |] eqn:Eu; [|done..]. cbn [bind] in E.
  destruct (drive_results n a Δ r k b (t_chart s) x c st u Hr (inv_keys s Hinv) Ha Hin Hb Ef Eu) as [H1 H2].
  destruct u.
  - destruct (join2 _ _ _ _ _ _ _ _ _ _) as [[rs c']| |] eqn:Ej; [|done..]. cbn [bind] in E.
    specialize (H2 rs c' eq_refl eq_refl). destruct (emit_ok n c' r rs s s' (proj1 H2) E) as (ks & HF & ->). exists r, c', rs, ks. done.
  - injection E as <-. exists r, c, [], []. split; [done|]. split; [by apply H1|]. split; [constructor|done].
Qed.

Fixpoint jobs (ch : list (term * R)) (a : term) (Δ : R) (i : nat) (P' : list rule) : list (nat * (list term -> R)) :=
  match P' with
  | [] => []
  | r :: P' => map (fun k => (i, one_val ch a Δ k)) (seq 0 (length (rbody r))) ++ jobs ch a Δ (S i) P'
  end.

Lemma drive_rule2_ok n a Δ i r s s' : inv s -> nth_error P i = Some r -> key_ok a -> (exists v, (a, v) ∈ t_chart s) ->
  drive_rule2 wt minf cmpf is_run al cv keep n a Δ r s = Ok s' ->
  steps (t_chart s) (map (fun k => (i, one_val (t_chart s) a Δ k)) (seq 0 (length (rbody r)))) s s'.
Proof.
  intros Hinv Er Ha Hin E. unfold drive_rule2 in E.
  enough (Hen : forall bs j, (forall k b, bs !! k = Some b -> rbody r !! (j + k) = Some b) -> forall s0, inv s0 -> t_chart s0 = t_chart s ->
    foldM (drive2 wt minf cmpf is_run al cv keep n a Δ r) (zip (seq j (length bs)) bs) s0 = Ok s' ->
    steps (t_chart s) (map (fun k => (i, one_val (t_chart s) a Δ k)) (seq j (length bs))) s0 s').
  { apply (Hen (rbody r) 0); auto. }
  clear E. induction bs as [|b bs IH]; intros j Hj s0 Hinv0 Hch E; cbn [length seq zip zip_with foldM map] in *.
  { injection E as <-. constructor. }
  destruct (drive2 _ _ _ _ _ _ _ _ _ _ _ _ s0) as [s1| |] eqn:E1; [|done..]. cbn [bind] in E.
  apply (drive2_ok n a Δ i r j b s0 s1) in E1; [|done|done|done|by rewrite Hch|rewrite <- (Nat.add_0_r j); by apply Hj].
  rewrite Hch in E1. destruct (step_inv _ _ _ _ Hinv0 E1) as (H1 & H2 & H3). econstructor; [exact E1|]. apply (IH (S j)); [|done|congruence|done].
  intros k b' Hk. rewrite <- (Hj (S k) b' Hk). f_equal. lia.
Qed.

Lemma drives_ok n a Δ : key_ok a -> forall P' i s s', inv s -> (exists v, (a, v) ∈ t_chart s) ->
  (forall j r, nth_error P' j = Some r -> nth_error P (i + j) = Some r) ->
  foldM (drive_rule2 wt minf cmpf is_run al cv keep n a Δ) P' s = Ok s' ->
  steps (t_chart s) (jobs (t_chart s) a Δ i P') s s'.
Proof.
  intros Ha. induction P' as [|r P' IH]; intros i s s' Hinv Hin Hj E; cbn [foldM jobs] in *.
  { injection E as <-. constructor. }
  destruct (drive_rule2 _ _ _ _ _ _ _ _ _ _ r s) as [s1| |] eqn:E1; [|done..]. cbn [bind] in E.
  apply (drive_rule2_ok n a Δ i) in E1; [|done|rewrite <- (Nat.add_0_r i); by apply (Hj 0)|done|done].
  destruct (steps_inv _ _ _ _ Hinv E1) as (H1 & H2 & H3). eapply steps_app; [exact E1|]. rewrite <- H2.
  apply IH; [done|by rewrite H2| |done]. intros j r' Hr'. rewrite <- (Hj (S j) r' Hr'). f_equal. lia.
Qed.

(** One round of the loop. *)
Lemma canonical_again n a a' : canonical cv a = a -> canonicalize cv n ∅ a = Ok a' -> a' = a.
Proof.
  intros Hc E. assert (Hacy : acyclic ∅) by apply (okst_empty ∅). destruct (acyclic_resolution _ Hacy) as [θ Hθ].
  apply (canonicalize_ok ∅ θ Hacy Hθ) in E. rewrite (unbound_sub ∅ θ Hθ) in E; [congruence|]. intros v _. apply lookup_empty.
Qed.

Definition popped (a : term) (s : state2 R) : state2 R := State2 (t_chart s) (ddel a (t_change s)) (t_agenda s ∖ {[a]}) (t_init s).
Definition updated (a : term) (Δ : R) (s : state2 R) : state2 R :=
  State2 (dset a (sadd (default szero (dget a (t_chart s))) Δ) (t_chart s)) (ddel a (t_change s)) (t_agenda s ∖ {[a]}) (t_init s).

(** A round that changes nothing in the chart, or a round with its steps. *)
Inductive round (s s' : state2 R) : Prop :=
| round_same a Δ : dget a (t_change s) = Some Δ -> approx (sadd (default szero (dget a (t_chart s))) Δ) (default szero (dget a (t_chart s))) = true ->
    s' = popped a s -> round s s'
| round_drive a Δ : dget a (t_change s) = Some Δ -> approx (sadd (default szero (dget a (t_chart s))) Δ) (default szero (dget a (t_chart s))) = false ->
    steps (t_chart (updated a Δ s)) (jobs (t_chart (updated a Δ s)) a Δ 0 P) (updated a Δ s) s' -> round s s'.

Inductive rounds : state2 R -> state2 R -> Prop :=
| rounds_nil s : t_agenda s = ∅ -> rounds s s
| rounds_cons s s1 s2 : inv s -> round s s1 -> inv s1 -> rounds s1 s2 -> rounds s s2.

Lemma in_map_fst {A} (k : term) (v : A) d : (k, v) ∈ d -> k ∈ map fst d.
Proof. intros H. apply elem_of_list_fmap. by exists (k, v). Qed.

Lemma popped_inv a s : inv s -> inv (popped a s).
Proof.
  intros Hinv. destruct (inv_change s Hinv) as [Hnd Hf]. split; cbn; [apply Hinv|split|].
  - by apply ddel_NoDup.
  - rewrite Forall_forall in Hf. apply Forall_forall. intros kv Hkv. apply Hf. by eapply ddel_in.
  - intros b. rewrite elem_of_difference, elem_of_singleton, ddel_keys, (inv_agenda s Hinv) by done. tauto.
Qed.

Lemma updated_inv a Δ s : inv s -> dget a (t_change s) = Some Δ -> inv (updated a Δ s).
Proof.
  intros Hinv Ea. destruct (popped_inv a s Hinv) as [_ H2 H3]. split; [|exact H2|exact H3]. cbn. destruct (inv_chart s Hinv) as [Hnd Hf]. split.
  - by apply dset_NoDup.
  - rewrite Forall_forall in Hf. apply Forall_forall. intros kv Hkv. apply dset_in in Hkv as [->|Hkv]; [|by apply Hf].
    destruct (inv_change s Hinv) as [_ Hf']. rewrite Forall_forall in Hf'. apply (Hf' (a, Δ)). by apply dget_in.
Qed.

Lemma dset_new {A} k (v : A) d : (k, v) ∈ dset k v d.
Proof. induction d as [|[k' v'] d IH]; cbn; [by left|]. case_decide; [subst; by left|by right]. Qed.

Lemma loop2_ok pick n : forall p k s s', inv s -> loop2 wt approx minf cmpf is_run al cv keep pick P n p k s = Ok s' -> inv s' /\ rounds s s'.
Proof.
  induction p as [|p IH]; intros k s s' Hinv E; cbn [loop2] in E; [done|].
  case_decide as Hag; [injection E as <-; split; [done|by constructor]|].
  destruct (dget (pick k (t_agenda s)) (t_change s)) as [Δ|] eqn:Ea; [|done]. set (a := pick k (t_agenda s)) in *.
  cbn [t_chart t_change t_agenda t_init] in E.
  destruct (approx _ _) eqn:Eap.
  - destruct (IH _ _ _ (popped_inv a s Hinv) E) as [H1 H2]. split; [done|]. apply (rounds_cons s (popped a s) s' Hinv); [|by apply popped_inv|exact H2].
    by apply (round_same _ _ a Δ).
  - destruct (canonicalize cv n ∅ a) as [a'| |] eqn:Ec; [|done..]. cbn [bind] in E.
    assert (Hka : key a).
    { destruct (inv_change s Hinv) as [_ Hf]. rewrite Forall_forall in Hf. apply (Hf (a, Δ)). by apply dget_in. }
    apply canonical_again in Ec; [subst a'|apply Hka].
    fold (updated a Δ s) in E. destruct (foldM _ P (updated a Δ s)) as [s1| |] eqn:E1; [|done..]. cbn [bind] in E.
    pose proof (updated_inv a Δ s Hinv Ea) as Hinv1.
    apply (drives_ok n a Δ (proj1 Hka) P 0 (updated a Δ s) s1 Hinv1) in E1; [|eexists; apply dset_new|done].
    destruct (steps_inv _ _ _ _ Hinv1 E1) as (H1 & H2 & H3). destruct (IH _ _ _ H1 E) as [H4 H5]. split; [done|].
    apply (rounds_cons s s1 s' Hinv); [|exact H1|exact H5]. by apply (round_drive _ _ a Δ).
Qed.

(** The initialization of the rules. *)
Inductive inits : nat -> state2 R -> state2 R -> Prop :=
| inits_nil i s : length P <= i -> inits i s s
| inits_skip i s s2 : i ∈ t_init s -> inits (S i) s s2 -> inits i s s2
| inits_step i s s1 s2 : i ∉ t_init s ->
    step (t_chart s) (i, all_val (t_chart s)) (State2 (t_chart s) (t_change s) (t_agenda s) ({[i]} ∪ t_init s)) s1 ->
    inits (S i) s1 s2 -> inits i s s2.

Lemma init_inv i s : inv s -> inv (State2 (t_chart s) (t_change s) (t_agenda s) ({[i]} ∪ t_init s)).
Proof. intros [H1 H2 H3]. by split. Qed.

Lemma inits_inv i s s' : inv s -> inits i s s' -> inv s' /\ t_chart s' = t_chart s /\ t_init s ⊆ t_init s' /\ forall j, i <= j < length P -> j ∈ t_init s'.
Proof.
  intros Hinv H. induction H as [i s Hi|i s s2 Hi H IH|i s s1 s2 Hi Hs H IH].
  - split; [done|]. split; [done|]. split; [done|]. intros j Hj. lia.
  - destruct (IH Hinv) as (H1 & H2 & H3 & H4). split; [done|]. split; [done|]. split; [done|]. intros j Hj.
    destruct (decide (j = i)) as [->|]; [by apply H3|]. apply H4. lia.
  - destruct (step_inv _ _ _ _ (init_inv i s Hinv) Hs) as (H1 & H2 & H3). cbn in H2, H3. destruct (IH H1) as (H4 & H5 & H6 & H7).
    split; [done|]. split; [congruence|]. rewrite H3 in H6. split; [set_solver|]. intros j Hj.
    destruct (decide (j = i)) as [->|]; [apply H6; set_solver|]. apply H7. lia.
Qed.

Lemma init_rules2_ok n : forall P' i s s', inv s -> (forall j r, nth_error P' j = Some r -> nth_error P (i + j) = Some r) -> length P = i + length P' ->
  init_rules2 wt minf cmpf is_run al cv keep n i P' s = Ok s' -> inits i s s'.
Proof.
  induction P' as [|r P' IH]; intros i s s' Hinv Hj Hlen E; cbn [init_rules2 length] in *.
  { injection E as <-. constructor. lia. }
  destruct (init_rule2 _ _ _ _ _ _ _ _ i r s) as [s1| |] eqn:E1; [|done..]. cbn [bind] in E.
  assert (Hj' : forall j r', nth_error P' j = Some r' -> nth_error P (S i + j) = Some r').
  { intros j r' Hr'. rewrite <- (Hj (S j) r' Hr'). f_equal. lia. }
  apply init_rule2_ok in E1 as [[Hi ->]|[Hi Hs]]; [..|done|rewrite <- (Nat.add_0_r i); by apply (Hj 0)].
  - apply inits_skip; [done|]. apply IH; [done|done|lia|done].
  - eapply inits_step; [done|exact Hs|]. apply IH; [by apply (step_inv _ _ _ _ (init_inv i s Hinv) Hs)|done|lia|done].
Qed.

Lemma run2_ok pick n p s s' : inv s -> run2 wt approx minf cmpf is_run al cv keep pick P n p s = Ok s' ->
  exists s1, inits 0 s s1 /\ inv s1 /\ rounds s1 s' /\ inv s'.
Proof.
  intros Hinv E. unfold run2 in E. destruct (init_rules2 _ _ _ _ _ _ _ _ _ _ s) as [s1| |] eqn:E1; [|done..]. cbn [bind] in E.
  apply init_rules2_ok in E1; [|done|done|done]. exists s1. destruct (inits_inv _ _ _ Hinv E1) as [H1 _]. split; [done|]. split; [done|].
  apply loop2_ok in E as [H2 H3]; done.
Qed.


(** * Values *)
Lemma goal_holds_mono (I J : term -> Prop) y : (forall z, I z -> J z) -> gholds I y -> gholds J y.
Proof.
  intros H. destruct y as [v|k|[|[v|[z|op]|l0] [|x [|z' [|? ?]]]]]; cbn; auto. repeat case_decide; auto.
Qed.
Lemma goal_val_ext (f g : term -> R) y : f y = g y -> gval f y = gval g y.
Proof.
  intros H. destruct y as [v|k|[|[v|[z|op]|l0] [|x [|z' [|? ?]]]]]; cbn; auto. repeat case_decide; auto.
Qed.

Section value.
Context (Hap : forall x y : R, approx x y = true <-> x = y).

Lemma zero_dec (w : R) : w = szero \/ w <> szero.
Proof using Hap.
  destruct (approx w szero) eqn:E; [left; by apply Hap|right]. intros ->. assert (approx szero szero = true) by by apply Hap. congruence.
Qed.

Context (x : term) (L : list (nat * list term)) (chF : list (term * R)).
Context (Hkx : kept x) (HLnd : NoDup L) (HLi : forall iy, iy ∈ L -> instances P x iy)
  (HLc : forall iy, instances P x iy -> Forall (gholds (covered chF)) (snd iy) -> iy ∈ L)
  (Hdrv : one_driver P chF).

Definition lat (i : nat) : list (list term) := map snd (filter (fun iy => fst iy = i) L).

Lemma lat_in i ys : ys ∈ lat i <-> (i, ys) ∈ L.
Proof.
  unfold lat. rewrite elem_of_list_fmap. split.
  - intros ([i' ys'] & -> & H). apply elem_of_list_filter in H as [H1 H2]. cbn in H1. by subst.
  - intros H. exists (i, ys). split; [done|]. by apply elem_of_list_filter.
Qed.
Lemma lat_NoDup i : NoDup (lat i).
Proof using HLnd.
  unfold lat. clear -HLnd. induction L as [|[i' ys] l IH]; [constructor|]. apply NoDup_cons in HLnd as [Hn Hnd].
  rewrite filter_cons. cbn [fst]. case_decide as Hi; [|by apply IH]. subst i'. cbn [map snd]. apply NoDup_cons. split; [|by apply IH].
  intros H. apply Hn. apply elem_of_list_fmap in H as ([i' ys'] & -> & H). apply elem_of_list_filter in H as [H1 H2]. cbn in H1. by subst.
Qed.

Definition keys_in (ch ch' : list (term * R)) : Prop := forall k, k ∈ map fst ch -> k ∈ map fst ch'.

Lemma keys_covered ch ch' y : keys_in ch ch' -> covered ch y -> covered ch' y.
Proof.
  intros H ([k v] & Hin & Hst). apply in_map_fst, H in Hin. apply elem_of_list_fmap in Hin as ([k' v'] & E & Hin). cbn in E. subst k'.
  by exists (k, v').
Qed.

Lemma step_val ch i G s s' : inv s -> keys_in ch chF -> step ch (i, G) s s' ->
  item_val (t_change s') x = sadd (item_val (t_change s) x) (suml (lat i) G).
Proof.
  intros Hinv Hcov (r & c & rs & ks & Er & Hres & HF & ->). cbn [fst snd] in *. destruct (rule_of _ _ Er) as [_ Hh].
  destruct (pushes_ok ks s Hinv (emitted_keys r rs ks Hh HF)) as (_ & _ & _ & H4). rewrite (H4 x Hkx). f_equal.
  apply (exchange zero_dec r ch c rs G ks x); [done|done|apply lat_NoDup|..].
  - intros ys Hys. apply lat_in, HLi in Hys as (r' & Er' & Hg). cbn in *. congruence.
  - intros ys Hg Hall. apply lat_in. apply HLc; [by exists r|]. eapply Forall_impl; [exact Hall|]. intros y. apply goal_holds_mono.
    intros z. by apply keys_covered.
Qed.

Lemma steps_val ch l s s' : inv s -> keys_in ch chF -> steps ch l s s' ->
  item_val (t_change s') x = sadd (item_val (t_change s) x) (suml l (fun iG => suml (lat (fst iG)) (snd iG))).
Proof.
  intros Hinv Hcov H. induction H as [s|[i G] l s s1 s2 Hs H IH]; [by rewrite suml_nil, sadd_0_r|].
  destruct (step_inv ch (i, G) s s1 Hinv Hs) as (H1 & _). rewrite (IH H1), (step_val ch i G s s1) by done.
  by rewrite suml_cons, sadd_assoc.
Qed.

(** The change in the value of a rule instance. *)
Fixpoint dsum (ch : list (term * R)) (a : term) (Δ : R) (ys : list term) : R :=
  match ys with
  | [] => szero
  | y :: ys => sadd (if decide (stands_for a y) then smul Δ (all_val ch ys) else szero) (smul (gval (item_val ch) y) (dsum ch a Δ ys))
  end.

Lemma one_val_sum ch a Δ ys : suml (seq 0 (length ys)) (fun k => one_val ch a Δ k ys) = dsum ch a Δ ys.
Proof.
  induction ys as [|y ys IH]; [done|]. cbn [length seq dsum]. rewrite suml_cons. apply f_equal2; [done|].
  rewrite <- seq_shift, suml_map, <- IH, suml_mul_l. apply suml_ext. intros k _. unfold one_val. cbn [lookup list_lookup].
  change (list_lookup k ys) with (ys !! k). destruct (ys !! k) as [z|]; [|by rewrite smul_0_r]. case_decide; [done|by rewrite smul_0_r].
Qed.

Lemma jobs_sum ch a Δ : forall P' i, (forall j r, nth_error P' j = Some r -> nth_error P (i + j) = Some r) -> length P = i + length P' ->
  suml (jobs ch a Δ i P') (fun iG => suml (lat (fst iG)) (snd iG)) = suml (filter (fun iy => i <= fst iy) L) (fun iy => dsum ch a Δ (snd iy)).
Proof.
  induction P' as [|r P' IH]; intros i Hj Hlen; cbn [jobs].
  - rewrite suml_filter_dec. symmetry. etrans; [|apply (suml_zero L)]. apply suml_ext. intros iy Hiy. rewrite decide_False; [done|].
    intros Hle. apply elem_of_list_In, HLi in Hiy as (r & Er & _). assert (nth_error P (fst iy) <> None) by congruence.
    apply nth_error_Some in H. cbn in Hlen. lia.
  - rewrite suml_app, (IH (S i)); [| |cbn in Hlen; lia].
    2:{ intros j r' Hr'. rewrite <- (Hj (S j) r' Hr'). f_equal. lia. }
    assert (Er : nth_error P i = Some r) by (rewrite <- (Nat.add_0_r i); by apply (Hj 0)).
    rewrite suml_map. cbn [fst snd]. rewrite suml_swap.
    etrans; [apply (f_equal (fun v => sadd v _))|].
    { instantiate (1 := suml (lat i) (dsum ch a Δ)). apply suml_ext. intros ys Hys. apply elem_of_list_In, lat_in, HLi in Hys as (r' & Er' & (σ & _ & _ & Hys)).
      cbn in Er', Hys. subst ys. assert (r' = r) as -> by congruence. rewrite <- one_val_sum, map_length. done. }
    unfold lat. rewrite suml_map, !suml_filter_dec, <- suml_add. apply suml_ext. intros [i' ys] _. cbn [fst snd].
    destruct (decide (i' = i)) as [->|Hne].
    + rewrite (decide_False (P := S i <= i)) by lia. rewrite (decide_True (P := i <= i)) by lia. apply sadd_0_r.
    + rewrite sadd_0_l. destruct (decide (S i <= i')); [rewrite decide_True by lia; done|rewrite decide_False by lia; done].
Qed.

(** With one driver at most, the values of the rule instances change by what the
    drivers add. *)
Lemma goal_val_add a Δ ch ch' y : item_term a ->
  item_val ch' y = sadd (item_val ch y) (if decide (stands_for a y) then Δ else szero) ->
  gval (item_val ch') y = sadd (gval (item_val ch) y) (if decide (stands_for a y) then Δ else szero).
Proof.
  intros Ha H. destruct (decide (stands_for a y)) as [Hd|Hd].
  - rewrite !gval_item by (by eapply stands_item). done.
  - rewrite sadd_0_r in *. by apply goal_val_ext.
Qed.

Lemma all_val_cons ch y ys : all_val ch (y :: ys) = smul (gval (item_val ch) y) (all_val ch ys).
Proof. done. Qed.

Lemma all_val_add a Δ ch ch' ys : item_term a ->
  (forall y, item_val ch' y = sadd (item_val ch y) (if decide (stands_for a y) then Δ else szero)) ->
  (forall i j y z, nth_error ys i = Some y -> nth_error ys j = Some z -> stands_for a y -> stands_for a z -> i = j) ->
  all_val ch' ys = sadd (all_val ch ys) (dsum ch' a Δ ys).
Proof.
  intros Ha Hadd. induction ys as [|y ys IH]; intros Hone; [symmetry; apply sadd_0_r|].
  rewrite !all_val_cons. cbn [dsum].
  specialize (IH (fun i j u v Hi Hj Hu Hv => Nat.succ_inj i j (Hone (S i) (S j) u v Hi Hj Hu Hv))).
  pose proof (goal_val_add a Δ ch ch' y Ha (Hadd y)) as Hy. destruct (decide (stands_for a y)) as [Hd|Hd].
  - assert (Hno : forall z, z ∈ ys -> ~ stands_for a z).
    { intros z Hz Hs. apply elem_of_list_lookup in Hz as (j & Hj). rewrite <- nth_error_lookup in Hj.
      by pose proof (Hone 0 (S j) y z eq_refl Hj Hd Hs). }
    assert (Hds : dsum ch' a Δ ys = szero).
    { clear -Hno. induction ys as [|z ys IH]; [done|]. cbn [dsum]. rewrite decide_False by (apply Hno; by left). rewrite IH; [by rewrite smul_0_r, sadd_0_l|].
      intros w Hw. apply Hno. by right. }
    rewrite Hds, sadd_0_r in IH. rewrite Hds, smul_0_r, sadd_0_r, IH, Hy. by rewrite smul_add_l.
  - rewrite sadd_0_r in Hy. by rewrite Hy, IH, sadd_0_l, smul_add_r.
Qed.

(** * The equation for [x] *)
Definition veq (extra : R) (s : state2 R) : Prop :=
  sadd (item_val (t_chart s) x) (item_val (t_change s) x) =
  sadd extra (suml (filter (fun iy => fst iy ∈ t_init s) L) (fun iy => all_val (t_chart s) (snd iy))).

Lemma rounds_keys s s' : rounds s s' -> keys_in (t_chart s) (t_chart s').
Proof.
  intros H. induction H as [s Hs|s s1 s2 Hinv Hr Hinv1 H IH]; [by intros k|]. intros k Hk. apply IH.
  destruct Hr as [a Δ Ea Eap ->|a Δ Ea Eap Hst]; [done|].
  destruct (steps_inv _ _ _ _ (updated_inv a Δ s Hinv Ea) Hst) as (_ & -> & _). cbn. apply dset_keys. by right.
Qed.

Lemma item_val_del_in a Δ (d : list (term * R)) : NoDup (map fst d) -> dget a d = Some Δ ->
  item_val d x = sadd (item_val (ddel a d) x) (if decide (stands_for a x) then Δ else szero).
Proof. intros H E. rewrite (item_val_del a d Δ x H E). apply sadd_comm. Qed.

Lemma item_val_set a Δ (d : list (term * R)) y : NoDup (map fst d) ->
  item_val (dset a (sadd (default szero (dget a d)) Δ) d) y = sadd (item_val d y) (if decide (stands_for a y) then Δ else szero).
Proof.
  intros H. rewrite <- item_val_add by done. unfold added. destruct (dget a d); [done|]. cbn. by rewrite sadd_0_l.
Qed.

Lemma one_driver_keys ch ch' : keys_in ch ch' -> one_driver P ch' -> one_driver P ch.
Proof.
  intros Hk H r x0 ys i j y z [k v] Hr Hg Hin. apply in_map_fst, Hk in Hin. apply elem_of_list_fmap in Hin as ([k' v'] & E & Hin). cbn in E. subst k'.
  exact (H r x0 ys i j y z (k, v') Hr Hg Hin).
Qed.

Lemma round_veq extra s s' : inv s -> round s s' -> keys_in (t_chart s') chF -> (forall j, j < length P -> j ∈ t_init s) ->
  veq extra s -> veq extra s'.
Proof.
  intros Hinv Hr Hk Hin Hv. destruct (inv_chart s Hinv) as [Hnd Hf]. destruct (inv_change s Hinv) as [Hnd' Hf'].
  destruct Hr as [a Δ Ea Eap ->|a Δ Ea Eap Hst].
  - unfold veq in *. cbn. rewrite <- Hv, (item_val_del_in a Δ (t_change s) Hnd' Ea). apply Hap in Eap.
    destruct (decide (stands_for a x)) as [Hd|Hd]; [|by rewrite sadd_0_r].
    rewrite (sadd_comm _ (item_val (ddel a (t_change s)) x) Δ), sadd_assoc. f_equal.
    destruct (dget a (t_chart s)) as [v|] eqn:Ev; cbn in Eap.
    + rewrite (item_val_del a (t_chart s) v x Hnd Ev), decide_True by done. rewrite <- sadd_assoc, (sadd_comm _ _ Δ), sadd_assoc, Eap. done.
    + rewrite sadd_0_l in Eap. by rewrite Eap, sadd_0_r.
  - pose proof (updated_inv a Δ s Hinv Ea) as Hinv1. destruct (steps_inv _ _ _ _ Hinv1 Hst) as (Hinv' & Hch & Hini).
    assert (Hka : key a) by (rewrite Forall_forall in Hf'; apply (Hf' (a, Δ)); by apply dget_in).
    rewrite Hch in Hk. pose proof (steps_val _ _ _ _ Hinv1 Hk Hst) as Hval.
    rewrite jobs_sum in Hval; [|done|done]. unfold veq in *. rewrite Hval, Hch, Hini. cbn [t_chart t_change t_init updated].
    change (dset a _ (t_chart s)) with (t_chart (updated a Δ s)). set (ch' := t_chart (updated a Δ s)) in *.
    assert (Hadd : forall y, item_val ch' y = sadd (item_val (t_chart s) y) (if decide (stands_for a y) then Δ else szero)) by (intros y; by apply item_val_set).
    rewrite Hadd. rewrite (item_val_del_in a Δ (t_change s) Hnd' Ea) in Hv.
    assert (Hall : forall iy, iy ∈ L -> all_val ch' (snd iy) = sadd (all_val (t_chart s) (snd iy)) (dsum ch' a Δ (snd iy))).
    { intros iy Hiy. apply all_val_add; [apply Hka|done|]. intros i j y z Hi Hj Hy Hz. destruct (HLi iy Hiy) as (r & Er & Hg).
      apply (one_driver_keys ch' chF Hk Hdrv r x (snd iy) i j y z (a, sadd (default szero (dget a (t_chart s))) Δ)); try done.
      - apply elem_of_list_In. by eapply nth_error_In.
      - apply dset_new. }
    assert (HF1 : suml (filter (fun iy => fst iy ∈ t_init s) L) (fun iy => all_val ch' (snd iy)) =
      sadd (suml (filter (fun iy => fst iy ∈ t_init s) L) (fun iy => all_val (t_chart s) (snd iy))) (suml (filter (fun iy => 0 <= fst iy) L) (fun iy => dsum ch' a Δ (snd iy)))).
    { rewrite !suml_filter_dec, <- suml_add. apply suml_ext. intros iy Hiy. apply elem_of_list_In in Hiy.
      rewrite (decide_True (P := 0 <= fst iy)) by lia. rewrite !decide_True; [by apply Hall|..];
        (apply Hin; destruct (HLi iy Hiy) as (r & Er & _); apply nth_error_Some; congruence). }
    rewrite HF1. rewrite (sadd_assoc _ extra), <- Hv.
    set (A := item_val (t_chart s) x). set (B := item_val (ddel a (t_change s)) x).
    set (C := suml (filter _ L) _). set (D := if decide _ then Δ else szero).
    change (item_val (t_change (updated a Δ s)) x) with B. rewrite <- !sadd_assoc. f_equal. rewrite sadd_assoc, (sadd_comm _ D B), <- sadd_assoc. done.
Qed.

Lemma rounds_init s s' : rounds s s' -> t_init s' = t_init s.
Proof.
  intros H. induction H as [s Hs|s s1 s2 Hinv Hr Hinv1 H IH]; [done|]. rewrite IH.
  destruct Hr as [a Δ Ea Eap ->|a Δ Ea Eap Hst]; [done|].
  destruct (steps_inv _ _ _ _ (updated_inv a Δ s Hinv Ea) Hst) as (_ & _ & ->). done.
Qed.
Lemma round_init s s' : inv s -> round s s' -> t_init s' = t_init s.
Proof.
  intros Hinv [a Δ Ea Eap ->|a Δ Ea Eap Hst]; [done|].
  destruct (steps_inv _ _ _ _ (updated_inv a Δ s Hinv Ea) Hst) as (_ & _ & ->). done.
Qed.

Lemma rounds_veq extra s s' : rounds s s' -> keys_in (t_chart s') chF -> (forall j, j < length P -> j ∈ t_init s) -> veq extra s -> veq extra s'.
Proof.
  intros H. induction H as [s Hs|s s1 s2 Hinv Hr Hinv1 H IH]; intros Hk Hin Hv; [done|]. apply IH; [done|by rewrite (round_init s s1 Hinv Hr)|].
  apply (round_veq extra s s1 Hinv Hr); [|done|done]. intros k Hk'. apply Hk. by apply (rounds_keys s1 s2).
Qed.

Lemma inits_veq extra i s s' : inv s -> inits i s s' -> keys_in (t_chart s') chF -> veq extra s -> veq extra s'.
Proof.
  intros Hinv H. revert Hinv. induction H as [i s Hi|i s s2 Hi H IH|i s s1 s2 Hi Hs H IH]; intros Hinv Hk Hv; [done|by apply IH|].
  destruct (step_inv _ _ _ _ (init_inv i s Hinv) Hs) as (H1 & H2 & H3). cbn in H2, H3.
  destruct (inits_inv _ _ _ H1 H) as (_ & H4 & _).
  apply IH; [done|done|]. apply (step_val _ _ _ _ _ (init_inv i s Hinv)) in Hs; [|by rewrite <- H2, <- H4].
  unfold veq in *. rewrite Hs, H2, H3. cbn [t_change]. rewrite sadd_assoc, Hv, <- sadd_assoc. f_equal.
  unfold lat. rewrite suml_map, !suml_filter_dec, <- suml_add. apply suml_ext. intros [i' ys] _. cbn [fst snd].
  destruct (decide (i' = i)) as [->|Hne].
  - rewrite (decide_False (P := i ∈ t_init s)) by done. rewrite (decide_True (P := i ∈ _)) by set_solver. apply sadd_0_l.
  - rewrite sadd_0_r. destruct (decide (i' ∈ t_init s)); [rewrite decide_True by set_solver; done|rewrite decide_False by set_solver; done].
Qed.

Lemma run2_veq extra pick n p s s' : inv s -> run2 wt approx minf cmpf is_run al cv keep pick P n p s = Ok s' -> keys_in (t_chart s') chF ->
  veq extra s -> veq extra s'.
Proof.
  intros Hinv E Hk Hv. destruct (run2_ok pick n p s s' Hinv E) as (s1 & H1 & Hinv1 & H2 & Hinv').
  apply (rounds_veq extra s1 s' H2 Hk).
  - intros j Hj. apply (inits_inv _ _ _ Hinv H1). lia.
  - apply (inits_veq extra 0 s s1 Hinv H1); [|done]. intros k Hk'. apply Hk. by apply (rounds_keys s1 s').
Qed.

End value.

(** * Sums over infinitely many instances *)
Section infinite.
Context (Hap : forall x y : R, approx x y = true <-> x = y).
Context (x : term) (chF : list (term * R)) (Hkx : kept x) (Hdrv : one_driver P chF).
Notation inst := (instances P x).

Lemma integral_ext (F G : nat * list term -> R) v : (forall iy, inst iy -> F iy = G iy) -> integral minf inst F v -> integral minf inst G v.
Proof.
  intros H (fam & ns & H1 & H2 & H3). exists fam, ns. split; [done|]. split; [|done]. intros iy Hi. rewrite <- (H iy Hi). by apply H2.
Qed.
Lemma integral_zero : integral minf inst (fun _ => szero) szero.
Proof. exists [], []. split; [by intros cw a Hin%elem_of_nil|]. split; [intros; constructor|]. split; [constructor|done]. Qed.
Lemma integral_add (F G : nat * list term -> R) v u : integral minf inst F v -> integral minf inst G u ->
  integral minf inst (fun iy => sadd (F iy) (G iy)) (sadd v u).
Proof.
  intros (fam & ns & H1 & H2 & H3 & ->) (fam' & ns' & H1' & H2' & H3' & ->). exists (fam ++ fam'), (ns ++ ns'). split; [|split; [|split]].
  - intros cw a Hin. apply elem_of_app in Hin as [Hin|Hin]; [by apply H1|by apply H1'].
  - intros iy Hi. apply tot_app; auto.
  - by apply Forall2_app.
  - rewrite zip_with_app by (by eapply Forall2_length). by rewrite suml_app.
Qed.

Definition only (i : nat) (G : list term -> R) (iy : nat * list term) : R := if decide (fst iy = i) then G (snd iy) else szero.

Lemma exchange_inf r ch c rs G ks i : nth_error P i = Some r -> results r ch c rs G -> Forall2 (emitted r) rs ks ->
  integral minf inst (only i G) (contrib ks x).
Proof.
  intros Er (Hok & _ & Htot) HF.
  set (T := fun (e : store) (iy : nat * list term) => fst iy = i /\ exists σ, groundsub σ /\ solves σ e /\ sub σ (rhead r) = x /\ map (sub σ) (rbody r) = snd iy).
  assert (HT : forall iy, inst iy -> tot (fun e => T e iy) rs (only i G iy)).
  { intros [j ys] (r' & Er' & (σ & Hg & Hx & Hb)). cbn [fst snd] in *. unfold only. cbn [fst snd]. case_decide as Hj.
    - subst j. assert (r' = r) as -> by congruence. specialize (Htot σ Hg). rewrite Hb in Htot.
      eapply tot_ext; [|exact Htot]. intros e _. unfold T. cbn [fst snd]. split.
      + intros (τ & Hgτ & Hag & Hs). split; [done|]. exists τ. split; [done|]. split; [done|]. split.
        * rewrite <- Hx. apply sub_ext. intros v Hv. apply Hag. by apply (rV_head r).
        * rewrite <- Hb. apply map_ext_in. intros b Hb'. apply sub_ext. intros v Hv. apply Hag. apply (rV_body r b); [by apply elem_of_list_In|done].
      + intros [_ (τ & Hgτ & Hs & Hx' & Hb')]. exists τ. split; [done|]. split; [|done]. apply rV_agree; congruence.
    - apply tot_none. intros e _ [? _]. done. }
  assert (Hns : exists ns, Forall2 (fun (ew : store * R) n => counts minf (T (fst ew)) n) rs ns /\
    contrib ks x = suml (zip rs ns) (fun en => smul (snd (fst en)) (snd en))).
  { clear Htot HT. induction HF as [|[e w] [k wk] rs ks Hem HF IH]; [by exists []|]. destruct IH as (ns & H1 & H2).
    { intros e' He'. apply Hok. by right. }
    destruct Hem as (_ & Hst & m & Hw & Hm). cbn [fst snd] in *. rewrite contrib_cons, H2. destruct (decide (stands_for k x)) as [Hk|Hk].
    - apply Hst in Hk. exists (m :: ns). split.
      + constructor; [|done]. cbn [fst]. destruct Hm as [[-> Hdet]|[-> Hinf]].
        * destruct Hk as (σ & Hg & Hs & Hx). apply (counts_one _ _ (i, map (sub σ) (rbody r))).
          -- split; [done|]. by exists σ.
          -- intros [j ys] [Hj (τ & Hgτ & Hτ & Hxτ & Hb)]. cbn [fst snd] in *. subst. f_equal. apply Hdet; try done.
        * destruct (Hinf x Hk) as (f & Hf & Hinj). apply (counts_many _ _ (fun j => (i, map (sub (f j)) (rbody r)))).
          -- intros j. split; [done|]. exists (f j). destruct (Hf j) as (? & ? & ?). done.
          -- intros j j' [= Hj]. by apply Hinj.
      + cbn [zip zip_with]. rewrite suml_cons. cbn [fst snd]. by rewrite Hw.
    - exists (szero :: ns). split.
      + constructor; [|done]. apply counts_none. intros [j ys] [_ (σ & H3 & H4 & H5 & _)]. apply Hk, Hst. by exists σ.
      + cbn [zip zip_with]. rewrite suml_cons. cbn [fst snd]. by rewrite smul_0_r. }
  destruct Hns as (ns & Hns & Hc). exists (map (fun ew => (T (fst ew), snd ew)) rs), ns. split; [|split; [|split]].
  - intros cw iy Hin Hcw. apply elem_of_list_fmap in Hin as (ew & -> & _). cbn [fst] in Hcw. destruct Hcw as [Hi (σ & H1 & H2 & H3 & H4)].
    exists r. rewrite Hi. split; [done|]. by exists σ.
  - intros iy Hi. specialize (HT iy Hi). clear -HT. induction HT as [|e w l v He Ht IH|e w l v He Ht IH]; [constructor|by apply tot_yes|by apply tot_no].
  - clear -Hns. induction Hns as [|ew n rs ns H HF IH]; constructor; done.
  - rewrite Hc. clear -Hns. induction Hns as [|ew n rs ns H HF IH]; [done|]. cbn [map zip zip_with]. rewrite !suml_cons. f_equal. apply IH.
Qed.

Lemma step_inf ch i G s s' : inv s -> step ch (i, G) s s' ->
  exists u, integral minf inst (only i G) u /\ item_val (t_change s') x = sadd (item_val (t_change s) x) u.
Proof.
  intros Hinv (r & c & rs & ks & Er & Hres & HF & ->). cbn [fst snd] in *. destruct (rule_of _ _ Er) as [_ Hh].
  destruct (pushes_ok ks s Hinv (emitted_keys r rs ks Hh HF)) as (_ & _ & _ & H4). exists (contrib ks x). split; [by eapply exchange_inf|by apply H4].
Qed.

Lemma steps_inf ch l s s' : inv s -> steps ch l s s' ->
  exists u, integral minf inst (fun iy => suml l (fun iG => only (fst iG) (snd iG) iy)) u /\ item_val (t_change s') x = sadd (item_val (t_change s) x) u.
Proof.
  intros Hinv H. revert Hinv. induction H as [s|[i G] l s s1 s2 Hs H IH]; intros Hinv.
  { exists szero. split; [apply integral_zero|symmetry; apply sadd_0_r]. }
  destruct (step_inv ch (i, G) s s1 Hinv Hs) as (H1 & _). destruct (step_inf ch i G s s1 Hinv Hs) as (u & Hu & E1).
  destruct (IH H1) as (u' & Hu' & E2). exists (sadd u u'). split; [|by rewrite E2, E1, sadd_assoc].
  refine (integral_ext _ _ _ _ (integral_add _ _ _ _ Hu Hu')). by intros iy _.
Qed.

Lemma jobs_at ch a Δ iy : forall P' i, (forall j r, nth_error P' j = Some r -> nth_error P (i + j) = Some r) -> length P = i + length P' -> inst iy ->
  suml (jobs ch a Δ i P') (fun iG => only (fst iG) (snd iG) iy) = if decide (i <= fst iy) then dsum ch a Δ (snd iy) else szero.
Proof.
  intros P' i Hj Hlen (r0 & E0 & (σ & _ & _ & Hb)). revert i Hj Hlen. induction P' as [|r P' IH]; intros i Hj Hlen; cbn [jobs].
  - rewrite decide_False; [done|]. intros Hle. assert (Hs : nth_error P (fst iy) <> None) by congruence. apply nth_error_Some in Hs. cbn in Hlen. lia.
  - rewrite suml_app, (IH (S i)); [| |cbn in Hlen; lia].
    2:{ intros j r' Hr'. rewrite <- (Hj (S j) r' Hr'). f_equal. lia. }
    assert (Er : nth_error P i = Some r) by (rewrite <- (Nat.add_0_r i); by apply (Hj 0)).
    rewrite suml_map. cbn [fst snd]. destruct (decide (fst iy = i)) as [Hi|Hi].
    + rewrite (decide_False (P := S i <= fst iy)) by lia. rewrite (decide_True (P := i <= fst iy)) by lia. rewrite sadd_0_r.
      assert (r = r0) as -> by congruence. rewrite <- one_val_sum, <- Hb, map_length. apply suml_ext. intros k _. unfold only. by rewrite decide_True, Hb.
    + replace (suml (seq 0 (length (rbody r))) _) with (szero : R).
      2:{ symmetry. etrans; [|apply (suml_zero (seq 0 (length (rbody r))))]. apply suml_ext. intros k _. unfold only. by rewrite decide_False. }
      rewrite sadd_0_l. destruct (decide (S i <= fst iy)); [rewrite decide_True by lia; done|rewrite decide_False by lia; done].
Qed.

Definition ieq (extra : R) (s : state2 R) : Prop :=
  exists v, integral minf inst (fun iy => if decide (fst iy ∈ t_init s) then all_val (t_chart s) (snd iy) else szero) v /\
    sadd (item_val (t_chart s) x) (item_val (t_change s) x) = sadd extra v.

Lemma round_ieq extra s s' : inv s -> round s s' -> keys_in (t_chart s') chF -> (forall j, j < length P -> j ∈ t_init s) ->
  ieq extra s -> ieq extra s'.
Proof.
  intros Hinv Hr Hk Hin (v & Hi & Hv). destruct (inv_chart s Hinv) as [Hnd Hf]. destruct (inv_change s Hinv) as [Hnd' Hf'].
  destruct Hr as [a Δ Ea Eap ->|a Δ Ea Eap Hst].
  - exists v. split; [done|]. cbn. rewrite <- Hv, (item_val_del_in x a Δ (t_change s) Hnd' Ea). apply Hap in Eap.
    destruct (decide (stands_for a x)) as [Hd|Hd]; [|by rewrite sadd_0_r].
    rewrite (sadd_comm _ (item_val (ddel a (t_change s)) x) Δ), sadd_assoc. f_equal.
    destruct (dget a (t_chart s)) as [v0|] eqn:Ev; cbn in Eap.
    + rewrite (item_val_del a (t_chart s) v0 x Hnd Ev), decide_True by done. rewrite <- sadd_assoc, (sadd_comm _ _ Δ), sadd_assoc, Eap. done.
    + rewrite sadd_0_l in Eap. by rewrite Eap, sadd_0_r.
  - pose proof (updated_inv a Δ s Hinv Ea) as Hinv1. destruct (steps_inv _ _ _ _ Hinv1 Hst) as (Hinv' & Hch & Hini).
    assert (Hka : key a) by (rewrite Forall_forall in Hf'; apply (Hf' (a, Δ)); by apply dget_in).
    rewrite Hch in Hk. destruct (steps_inf _ _ _ _ Hinv1 Hst) as (u & Hu & Hval).
    exists (sadd v u). rewrite Hval, Hch, Hini. cbn [t_change t_init updated].
    set (ch' := t_chart (updated a Δ s)) in *.
    assert (Hadd : forall y, item_val ch' y = sadd (item_val (t_chart s) y) (if decide (stands_for a y) then Δ else szero)) by (intros y; by apply item_val_set).
    split.
    + refine (integral_ext _ _ _ _ (integral_add _ _ _ _ Hi Hu)). intros iy Hiy. rewrite (jobs_at ch' a Δ iy P 0); [|done|done|done].
      rewrite (decide_True (P := 0 <= fst iy)) by lia. destruct Hiy as (r & Er & Hg).
      rewrite !decide_True by (apply Hin, nth_error_Some; congruence). symmetry.
      apply all_val_add; [apply Hka|done|]. intros i j y z Hi' Hj Hy Hz.
      apply (one_driver_keys ch' chF Hk Hdrv r x (snd iy) i j y z (a, sadd (default szero (dget a (t_chart s))) Δ)); try done.
      * apply elem_of_list_In. by eapply nth_error_In.
      * apply dset_new.
    + rewrite Hadd. rewrite (item_val_del_in x a Δ (t_change s) Hnd' Ea) in Hv. rewrite (sadd_assoc _ extra), <- Hv.
      set (A := item_val (t_chart s) x). set (B := item_val (ddel a (t_change s)) x). set (D := if decide _ then Δ else szero).
      rewrite <- !sadd_assoc. f_equal. rewrite sadd_assoc, (sadd_comm _ D B), <- sadd_assoc. done.
Qed.

Lemma rounds_ieq extra s s' : rounds s s' -> keys_in (t_chart s') chF -> (forall j, j < length P -> j ∈ t_init s) -> ieq extra s -> ieq extra s'.
Proof.
  intros H. induction H as [s Hs|s s1 s2 Hinv Hr Hinv1 H IH]; intros Hk Hin Hv; [done|]. apply IH; [done|by rewrite (round_init s s1 Hinv Hr)|].
  apply (round_ieq extra s s1 Hinv Hr); [|done|done]. intros k Hk'. apply Hk. by apply (rounds_keys s1 s2).
Qed.

Lemma inits_ieq extra i s s' : inv s -> inits i s s' -> ieq extra s -> ieq extra s'.
Proof.
  intros Hinv H. revert Hinv. induction H as [i s Hi|i s s2 Hi H IH|i s s1 s2 Hi Hs H IH]; intros Hinv Hv; [done|by apply IH|].
  destruct (step_inv _ _ _ _ (init_inv i s Hinv) Hs) as (H1 & H2 & H3). cbn in H2, H3.
  apply IH; [done|]. apply (step_inf _ _ _ _ _ (init_inv i s Hinv)) in Hs as (u & Hu & Hval).
  destruct Hv as (v & Hi' & Hv). exists (sadd v u). rewrite Hval, H2, H3. cbn [t_change]. split; [|by rewrite sadd_assoc, Hv, <- sadd_assoc].
  refine (integral_ext _ _ _ _ (integral_add _ _ _ _ Hi' Hu)). intros [j ys] _. unfold only. cbn [fst snd].
  destruct (decide (j = i)) as [->|Hne].
  - rewrite (decide_False (P := i ∈ t_init s)) by done. rewrite (decide_True (P := i ∈ _)) by set_solver. apply sadd_0_l.
  - rewrite sadd_0_r. destruct (decide (j ∈ t_init s)); [rewrite decide_True by set_solver; done|rewrite decide_False by set_solver; done].
Qed.

Lemma run2_ieq extra pick n p s s' : inv s -> run2 wt approx minf cmpf is_run al cv keep pick P n p s = Ok s' -> keys_in (t_chart s') chF ->
  ieq extra s -> ieq extra s'.
Proof.
  intros Hinv E Hk Hv. destruct (run2_ok pick n p s s' Hinv E) as (s1 & H1 & Hinv1 & H2 & Hinv').
  apply (rounds_ieq extra s1 s' H2 Hk).
  - intros j Hj. apply (inits_inv _ _ _ Hinv H1). lia.
  - by apply (inits_ieq extra 0 s s1 Hinv H1).
Qed.
End infinite.

(** * Which items are in the chart *)
Section support.
Context (Hap : forall x y : R, approx x y = true <-> x = y).

(** Every instance of an item in the chart, and of an update that is not zero,
    has the property [Q]. *)
Definition csound (Q : term -> Prop) (s : state2 R) : Prop :=
  (forall a v x, (a, v) ∈ t_chart s -> stands_for a x -> Q x) /\
  forall a v x, (a, v) ∈ t_change s -> v <> szero -> stands_for a x -> Q x.

Lemma push2_sound (Q : term -> Prop) k w s : (w <> szero -> forall x, stands_for k x -> Q x) -> csound Q s -> csound Q (push2 keep k w s).
Proof.
  intros Hw [H1 H2]. unfold push2. destruct (keep k); [|done]. split; [done|]. cbn. intros a v x Hin Hv Hst. apply dset_in in Hin as [[= -> ->]|Hin]; [|by eapply H2].
  destruct (dget k (t_change s)) as [v0|] eqn:E; [|by apply Hw].
  destruct (zero_dec Hap w) as [->|Hwn]; [|by apply Hw]. rewrite sadd_0_r in Hv. apply (H2 k v0); [by apply dget_in|done|done].
Qed.

Lemma pushes_sound (Q : term -> Prop) ks : forall s, (forall k w x, (k, w) ∈ ks -> w <> szero -> stands_for k x -> Q x) -> csound Q s -> csound Q (pushes ks s).
Proof.
  induction ks as [|[k w] ks IH]; intros s Hks Hs; [done|]. cbn [pushes fold_left]. apply IH.
  - intros k' w' x Hin. apply Hks. by right.
  - apply push2_sound; [|done]. intros Hw x Hst. apply (Hks k w); [by left|done|done].
Qed.

(** [Q] is closed under the rules. *)
Definition closed_under (Q : term -> Prop) : Prop :=
  forall r x ys, r ∈ P -> ground_inst r x ys -> Forall (gholds Q) ys -> Q x.

Lemma step_sound (Q : term -> Prop) ch iG s s' : closed_under Q -> (forall x, covered ch x -> Q x) -> step ch iG s s' -> csound Q s -> csound Q s'.
Proof.
  intros HQ Hch (r & c & rs & ks & Er & (_ & Hsnd & _) & HF & ->) Hs. apply pushes_sound; [|done].
  intros k w x Hin Hw Hst. apply elem_of_list_lookup in Hin as (j & Hj). destruct (Forall2_lookup_r _ _ _ _ _ HF Hj) as (e & He & Hem). destruct Hem as (_ & H1 & m & H2 & _).
  cbn [fst snd] in *. apply H1 in Hst. destruct Hst as (σ & Hg & Hs' & Hx). subst x. apply (HQ r _ (map (sub σ) (rbody r))).
  - apply elem_of_list_In. by eapply nth_error_In.
  - by exists σ.
  - eapply Forall_impl; [apply (Hsnd e σ); [by eapply elem_of_list_lookup_2|done|done|]|].
    + rewrite H2 in Hw. by eapply smul_nonzero_l.
    + intros y. apply goal_holds_mono. exact Hch.
Qed.

Lemma csound_covered (Q : term -> Prop) s x : csound Q s -> covered (t_chart s) x -> Q x.
Proof. intros [H _] ([a v] & Hin & Hst). by apply (H a v). Qed.

Lemma steps_sound (Q : term -> Prop) ch l s s' : closed_under Q -> (forall x, covered ch x -> Q x) -> steps ch l s s' -> csound Q s -> csound Q s'.
Proof. intros HQ Hch H. induction H as [|iG l s s1 s2 Hs H IH]; intros Hc; [done|]. apply IH. by eapply step_sound. Qed.

Lemma round_sound (Q : term -> Prop) s s' : inv s -> closed_under Q -> round s s' -> csound Q s -> csound Q s'.
Proof.
  intros Hinv HQ Hr Hs. destruct Hr as [a Δ Ea Eap ->|a Δ Ea Eap Hst].
  - destruct Hs as [H1 H2]. split; [done|]. cbn. intros b v x Hin. apply (H2 b v x). by eapply ddel_in.
  - assert (Hu : csound Q (updated a Δ s)).
    { destruct Hs as [H1 H2]. split; cbn.
      - intros b v x Hin Hst'. apply dset_in in Hin as [[= -> ->]|Hin]; [|by eapply H1].
        apply (H2 a Δ x); [by apply dget_in| |done]. intros ->. rewrite sadd_0_r in Eap.
        assert (Et : approx (default szero (dget a (t_chart s))) (default szero (dget a (t_chart s))) = true) by by apply Hap. congruence.
      - intros b v x Hin. apply (H2 b v x). by eapply ddel_in. }
    eapply steps_sound; [done| |exact Hst|done]. intros x. by apply csound_covered.
Qed.

Lemma rounds_sound (Q : term -> Prop) s s' : closed_under Q -> rounds s s' -> csound Q s -> csound Q s'.
Proof. intros HQ H. induction H as [s Hs|s s1 s2 Hinv Hr Hinv1 H IH]; intros Hc; [done|]. apply IH. exact (round_sound Q s s1 Hinv HQ Hr Hc). Qed.

Lemma inits_sound (Q : term -> Prop) i s s' : closed_under Q -> inits i s s' -> csound Q s -> csound Q s'.
Proof.
  intros HQ H. induction H as [i s Hi|i s s2 Hi H IH|i s s1 s2 Hi Hs H IH]; intros Hc; [done|by apply IH|]. apply IH.
  eapply step_sound; [done| |exact Hs|exact Hc]. intros x. by apply csound_covered.
Qed.

Lemma run2_sound (Q : term -> Prop) pick n p s s' : inv s -> closed_under Q -> run2 wt approx minf cmpf is_run al cv keep pick P n p s = Ok s' -> csound Q s -> csound Q s'.
Proof.
  intros Hinv HQ E Hs. destruct (run2_ok pick n p s s' Hinv E) as (s1 & H1 & _ & H2 & _). eapply rounds_sound; [done|exact H2|].
  by eapply inits_sound.
Qed.

(** ** Completeness *)
Context (Hpos : @positive R) (Hinf : minf <> szero) (Hkeep : forall a, keep a = true).

Definition ccov (s : state2 R) (x : term) : Prop := exists a v, (a, v) ∈ t_change s /\ v <> szero /\ stands_for a x.

Lemma add_nonzero_l (v w : R) : v <> szero -> sadd v w <> szero.
Proof. intros H E. by apply Hpos in E. Qed.
Lemma add_nonzero_r (v w : R) : w <> szero -> sadd v w <> szero.
Proof. intros H E. rewrite sadd_comm in E. by apply Hpos in E. Qed.

Lemma dset_old {A} k (v : A) d k' v' : (k', v') ∈ d -> k' <> k -> (k', v') ∈ dset k v d.
Proof.
  induction d as [|[k0 v0] d IH]; [by intros H%elem_of_nil|]. rewrite elem_of_cons. intros Hin Hne. cbn. case_decide as Hd; rewrite elem_of_cons.
  - subst k0. destruct Hin as [[= -> ->]|Hin]; [done|by right].
  - destruct Hin as [[= -> ->]|Hin]; [by left|right; by apply IH].
Qed.
Lemma dget_NoDup {A} k (v : A) d : NoDup (map fst d) -> (k, v) ∈ d -> dget k d = Some v.
Proof.
  induction d as [|[k0 v0] d IH]; intros Hnd Hin; [by apply elem_of_nil in Hin|]. apply NoDup_cons in Hnd as [Hn Hnd]. cbn in *.
  apply elem_of_cons in Hin as [[= -> ->]|Hin]; [by rewrite decide_True|]. rewrite decide_False; [by apply IH|].
  intros ->. apply Hn. by eapply in_map_fst.
Qed.

Lemma push2_ccov k w s x : inv s -> ccov s x \/ (w <> szero /\ stands_for k x) -> ccov (push2 keep k w s) x.
Proof.
  intros Hinv H. unfold push2. rewrite Hkeep. unfold ccov. cbn. destruct H as [(a & v & Hin & Hv & Hst)|[Hw Hst]].
  - destruct (decide (a = k)) as [->|Hne].
    + eexists k, _. split; [apply dset_new|]. split; [|done]. apply (dget_NoDup k v) in Hin; [|apply Hinv]. rewrite Hin. by apply add_nonzero_l.
    + exists a, v. split; [by apply dset_old|done].
  - eexists k, _. split; [apply dset_new|]. split; [|done]. destruct (dget k (t_change s)); [by apply add_nonzero_r|done].
Qed.

Lemma pushes_ccov ks : forall s x, inv s -> Forall (fun kw => key_ok (fst kw) /\ canonical cv (fst kw) = fst kw) ks ->
  ccov s x \/ (exists k w, (k, w) ∈ ks /\ w <> szero /\ stands_for k x) -> ccov (pushes ks s) x.
Proof.
  induction ks as [|[k w] ks IH]; intros s x Hinv Hf H; cbn [pushes fold_left].
  { destruct H as [H|(k & w & Hin & _)]; [done|by apply elem_of_nil in Hin]. }
  apply Forall_cons in Hf as [[Hk Hc] Hf]. cbn [fst snd] in *. destruct (push2_ok k w s Hinv Hk Hc) as (H1 & _).
  apply IH; [done|done|]. destruct H as [H|(k' & w' & Hin & Hw & Hst)]; [left; by apply push2_ccov; [|left]|].
  apply elem_of_cons in Hin as [[= -> ->]|Hin]; [left; by apply push2_ccov; [|right]|right; eauto].
Qed.

Lemma step_mono ch iG s s' x : inv s -> step ch iG s s' -> ccov s x -> ccov s' x.
Proof.
  intros Hinv (r & c & rs & ks & Er & _ & HF & ->) H. apply pushes_ccov; [done| |by left]. eapply emitted_keys; [|exact HF]. by eapply rule_of.
Qed.

Lemma step_ccov ch i G s s' r x ys : inv s -> step ch (i, G) s s' -> nth_error P i = Some r -> ground_inst r x ys -> G ys <> szero -> ccov s' x.
Proof.
  intros Hinv (r' & c & rs & ks & Er & (_ & _ & Htot) & HF & ->) Er' (σ & Hg & <- & <-) Hn. cbn [fst snd] in *. rewrite Er' in Er. injection Er as <-.
  apply pushes_ccov; [done|eapply emitted_keys; [|exact HF]; by eapply rule_of|]. right.
  destruct (tot_some _ _ _ (zero_dec Hap) (Htot σ Hg) Hn) as (e & w & Hin & (τ & Hgτ & Hag & Hτ) & Hw).
  apply elem_of_list_lookup in Hin as (j & Hj). destruct (Forall2_lookup_l _ _ _ _ _ HF Hj) as ([k wk] & Hk & Hem). destruct Hem as (_ & H1 & m & H2 & H3).
  cbn [fst snd] in *. exists k, wk. split; [by eapply elem_of_list_lookup_2|]. split.
  - rewrite H2. intros E. apply Hpos in E as [E|E]; [done|]. destruct H3 as [[-> _]|[-> _]]; [by apply Hpos in E|done].
  - apply H1. exists τ. split; [done|]. split; [done|]. apply sub_ext. intros v Hv. apply Hag. by apply (rV_head r).
Qed.

Lemma steps_mono ch l s s' x : inv s -> steps ch l s s' -> ccov s x -> ccov s' x.
Proof.
  intros Hinv H. revert Hinv. induction H as [|iG l s s1 s2 Hs H IH]; intros Hinv Hc; [done|]. destruct (step_inv ch iG s s1 Hinv Hs) as (H1 & _).
  apply IH; [done|]. exact (step_mono ch iG s s1 x Hinv Hs Hc).
Qed.

Lemma steps_ccov ch l s s' i G r x ys : inv s -> steps ch l s s' -> (i, G) ∈ l -> nth_error P i = Some r -> ground_inst r x ys -> G ys <> szero -> ccov s' x.
Proof.
  intros Hinv H. revert Hinv. induction H as [|iG l s s1 s2 Hs H IH]; intros Hinv Hin Er Hg Hn; [by apply elem_of_nil in Hin|].
  destruct (step_inv ch iG s s1 Hinv Hs) as (H1 & _). apply elem_of_cons in Hin as [Heq|Hin]; [|by apply IH]. subst iG.
  eapply steps_mono; [exact H1|exact H|]. exact (step_ccov ch i G s s1 r x ys Hinv Hs Er Hg Hn).
Qed.

Lemma jobs_in ch a Δ : forall P' i j r k, nth_error P' j = Some r -> k < length (rbody r) -> (i + j, one_val ch a Δ k) ∈ jobs ch a Δ i P'.
Proof.
  induction P' as [|r' P' IH]; intros i [|j] r k Er Hk; try done; cbn [jobs]; apply elem_of_app.
  - left. injection Er as ->. apply elem_of_list_fmap. exists k. rewrite Nat.add_0_r. split; [done|]. apply elem_of_seq. lia.
  - right. rewrite <- Nat.add_succ_comm. by apply (IH (S i) j r k).
Qed.

(** The state covers [B] and is closed under the initialized rules. *)
Record cinv (B : term -> Prop) (s : state2 R) : Prop := {
  cinv_chart : forall a v, (a, v) ∈ t_chart s -> v <> szero;
  cinv_base : forall x, B x -> covered (t_chart s) x \/ ccov s x;
  cinv_rules : forall i r x ys, i ∈ t_init s -> nth_error P i = Some r -> ground_inst r x ys -> Forall (gholds (covered (t_chart s))) ys ->
    covered (t_chart s) x \/ ccov s x }.

Lemma item_val_nonzero (ch : list (term * R)) y : (forall a v, (a, v) ∈ ch -> v <> szero) -> covered ch y -> item_val ch y <> szero.
Proof.
  intros H ([a v] & Hin & Hst). induction ch as [|[a' v'] ch IH]; [by apply elem_of_nil in Hin|]. rewrite item_val_cons.
  apply elem_of_cons in Hin as [[= <- <-]|Hin].
  - rewrite decide_True by done. apply add_nonzero_l. apply (H a v). by left.
  - assert (Hi : item_val ch y <> szero) by (apply IH; [|done]; intros b w Hb; apply (H b w); by right).
    case_decide; [by apply add_nonzero_r|done].
Qed.

Lemma goal_val_nonzero (ch : list (term * R)) y : (forall a v, (a, v) ∈ ch -> v <> szero) -> gholds (covered ch) y -> gval (item_val ch) y <> szero.
Proof.
  intros H. assert (Hone : sone <> (szero : R)) by apply Hpos.
  destruct y as [v|k|[|[v|[z|op]|l0] [|x [|z' [|? ?]]]]]; cbn; auto; try by apply item_val_nonzero.
  case_decide; [intros ->; by rewrite decide_True|]. case_decide; [by intros ->|]. case_decide; [by intros ->|]. by apply item_val_nonzero.
Qed.

Lemma prodl_nonzero (l : list R) : (forall v, v ∈ l -> v <> szero) -> prodl l <> szero.
Proof.
  induction l as [|v l IH]; intros H E; [by apply Hpos in E|]. apply Hpos in E as [E|E].
  - by apply (H v); [left|].
  - apply IH; [|done]. intros w Hw. apply H. by right.
Qed.

Lemma step_cinv_keep (B : term -> Prop) ch iG s s' : inv s -> step ch iG s s' -> cinv B s -> cinv B s'.
Proof.
  intros Hinv Hs [H1 H2 H3]. destruct (step_inv ch iG s s' Hinv Hs) as (_ & E1 & E2). split; rewrite E1, ?E2.
  - done.
  - intros x Hx. destruct (H2 x Hx) as [|Hc]; [by left|right]. exact (step_mono ch iG s s' x Hinv Hs Hc).
  - intros i r x ys Hi Er Hg Hall. destruct (H3 i r x ys Hi Er Hg Hall) as [|Hc]; [by left|right]. exact (step_mono ch iG s s' x Hinv Hs Hc).
Qed.

Lemma inits_cinv (B : term -> Prop) i s s' : inv s -> inits i s s' -> cinv B s -> cinv B s'.
Proof.
  intros Hinv H. revert Hinv. induction H as [i s Hi|i s s2 Hi H IH|i s s1 s2 Hi Hs H IH]; intros Hinv Hc; [done|by apply IH|].
  pose proof (init_inv i s Hinv) as Hinv0. destruct (step_inv _ _ _ _ Hinv0 Hs) as (H1 & E1 & E2). cbn in E1, E2. apply IH; [done|].
  destruct Hc as [C1 C2 C3]. split; rewrite E1, ?E2.
  - done.
  - intros x Hx. destruct (C2 x Hx) as [|Hc]; [by left|right]. exact (step_mono _ _ _ s1 x Hinv0 Hs Hc).
  - intros j r x ys Hj Er Hg Hall. destruct (decide (j = i)) as [->|Hne].
    + right. eapply step_ccov; [exact Hinv0|exact Hs|done|done|]. apply prodl_nonzero. intros v Hv.
      apply elem_of_list_fmap in Hv as (y & -> & Hy). rewrite Forall_forall in Hall. by apply goal_val_nonzero, Hall.
    + destruct (C3 j r x ys) as [Hl|Hr]; [set_solver|done|done|done|by left|right]. exact (step_mono _ _ _ s1 x Hinv0 Hs Hr).
Qed.

Lemma ccov_popped a Δ s x : inv s -> dget a (t_change s) = Some Δ -> ccov s x -> (Δ <> szero /\ stands_for a x) \/ ccov (popped a s) x.
Proof.
  intros Hinv Ea (b & v & Hin & Hv & Hst). destruct (decide (b = a)) as [->|Hne].
  - left. apply (dget_NoDup a v) in Hin; [|apply Hinv]. rewrite Ea in Hin. by injection Hin as ->.
  - right. exists b, v. split; [|done]. cbn. clear -Hin Hne. induction (t_change s) as [|[k0 v0] d IH]; [done|]. cbn.
    apply elem_of_cons in Hin as [[= <- <-]|Hin]; [rewrite decide_False by done; by left|]. case_decide; [done|right; by apply IH].
Qed.

Lemma round_cinv (B : term -> Prop) s s' : inv s -> round s s' -> cinv B s -> cinv B s'.
Proof.
  intros Hinv Hr [C1 C2 C3]. destruct Hr as [a Δ Ea Eap ->|a Δ Ea Eap Hst].
  - assert (Hc : forall x, covered (t_chart s) x \/ ccov s x -> covered (t_chart s) x \/ ccov (popped a s) x).
    { intros x [H|H]; [by left|]. destruct (ccov_popped a Δ s x Hinv Ea H) as [[Hn Hs]|]; [left|by right].
      apply Hap in Eap. destruct (dget a (t_chart s)) as [v|] eqn:Ev; [by exists (a, v); split; [apply dget_in|]|].
      cbn in Eap. by rewrite sadd_0_l in Eap. }
    split; cbn; [done|auto|]. intros i r x ys Hi Er Hg Hall. apply Hc. by eapply C3.
  - pose proof (updated_inv a Δ s Hinv Ea) as Hinv1. destruct (steps_inv _ _ _ _ Hinv1 Hst) as (_ & E1 & E2).
    set (new := sadd (default szero (dget a (t_chart s))) Δ) in *.
    assert (HΔ : Δ <> szero).
    { intros ->. unfold new in Eap. rewrite sadd_0_r in Eap.
      assert (Et : approx (default szero (dget a (t_chart s))) (default szero (dget a (t_chart s))) = true) by by apply Hap. congruence. }
    assert (Hnz : forall b v, (b, v) ∈ t_chart (updated a Δ s) -> v <> szero).
    { cbn. intros b v Hin. apply dset_in in Hin as [[= -> ->]|Hin]; [by apply add_nonzero_r|by eapply C1]. }
    assert (Hcov : forall y, covered (t_chart (updated a Δ s)) y -> stands_for a y \/ covered (t_chart s) y).
    { intros y ([b v] & Hin & Hs). apply dset_in in Hin as [[= -> ->]|Hin]; [by left|right]. by exists (b, v). }
    assert (Hup : forall y, covered (t_chart s) y -> covered (t_chart (updated a Δ s)) y).
    { intros y. apply keys_covered. intros k Hk. cbn. apply dset_keys. by right. }
    assert (Ha : forall y, stands_for a y -> covered (t_chart (updated a Δ s)) y) by (intros y Hy; exists (a, new); split; [apply dset_new|done]).
    assert (Hc : forall x, covered (t_chart s) x \/ ccov s x -> covered (t_chart (updated a Δ s)) x \/ ccov s' x).
    { intros x [H|H]; [left; by apply Hup|]. destruct (ccov_popped a Δ s x Hinv Ea H) as [[_ Hs]|H']; [left; by apply Ha|].
      right. eapply steps_mono; [exact Hinv1|exact Hst|]. exact H'. }
    split; rewrite E1, ?E2; [done|auto|]. cbn [t_init updated]. intros i r x ys Hi Er Hg Hall.
    destruct (decide (Exists (fun y => stands_for a y) ys)) as [Hex|Hex].
    + right. apply Exists_exists in Hex as (y & Hy & Hs). apply elem_of_list_lookup in Hy as (k & Hk).
      eapply (steps_ccov _ _ _ _ i (one_val (t_chart (updated a Δ s)) a Δ k)); [exact Hinv1|exact Hst| |done|done|].
      * apply (jobs_in _ a Δ P 0 i r k Er). destruct Hg as (σ & _ & _ & <-). apply lookup_lt_Some in Hk. by rewrite map_length in Hk.
      * unfold one_val. rewrite Hk, decide_True by done. apply prodl_nonzero. intros v Hv. apply elem_of_list_lookup in Hv as (j & Hj).
        destruct (decide (j = k)) as [->|Hne].
        -- rewrite list_lookup_insert in Hj; [by injection Hj as <-|]. rewrite map_length. by eapply lookup_lt_Some.
        -- rewrite list_lookup_insert_ne in Hj by done. apply elem_of_list_lookup_2, elem_of_list_fmap in Hj as (z & -> & Hz).
           rewrite Forall_forall in Hall. by apply goal_val_nonzero, Hall.
    + apply Hc. apply (C3 i r x ys Hi Er Hg). rewrite Forall_forall in Hall. apply Forall_forall. intros y Hy.
      assert (Hn : ~ stands_for a y) by (intros Hs; apply Hex, Exists_exists; eauto).
      specialize (Hall y Hy). destruct y as [v|k|[|[v|[z|op]|l0] [|x0 [|z' [|? ?]]]]]; cbn in *; auto; try (by destruct (Hcov _ Hall)).
      case_decide; [done|]. case_decide; [done|]. case_decide; [done|]. by destruct (Hcov _ Hall).
Qed.

Lemma rounds_cinv (B : term -> Prop) s s' : rounds s s' -> cinv B s -> cinv B s' /\ t_agenda s' = ∅.
Proof.
  intros H. induction H as [s Hs|s s1 s2 Hinv Hr Hinv1 H IH]; intros Hc; [done|]. apply IH. exact (round_cinv B s s1 Hinv Hr Hc).
Qed.

Lemma run2_cinv (B : term -> Prop) pick n p s s' : inv s -> run2 wt approx minf cmpf is_run al cv keep pick P n p s = Ok s' -> cinv B s ->
  cinv B s' /\ t_agenda s' = ∅ /\ forall j, j < length P -> j ∈ t_init s'.
Proof.
  intros Hinv E Hc. destruct (run2_ok pick n p s s' Hinv E) as (s1 & H1 & _ & H2 & _).
  destruct (rounds_cinv B s1 s' H2) as [H3 H4]; [by eapply inits_cinv|]. split; [done|]. split; [done|].
  rewrite (rounds_init s1 s' H2). intros j Hj. apply (inits_inv _ _ _ Hinv H1). lia.
Qed.

End support.

Lemma rounds_end s s' : rounds s s' -> inv s' -> t_change s' = [].
Proof.
  intros H. induction H as [s Hs|s s1 s2 Hinv Hr Hinv1 H IH]; intros Hinv'; [|by apply IH].
  destruct (t_change s) as [|[k v] d] eqn:E; [done|]. exfalso. assert (Hin : k ∈ t_agenda s).
  { apply (inv_agenda s Hinv'). rewrite E. by left. }
  rewrite Hs in Hin. set_solver.
Qed.

End program.
End keep.

Definition wf_rules (P : list rule) : Prop := forall r, r ∈ P -> rule_apart r /\ item_term (rhead r).

Lemma inv_empty keep : inv keep (t_empty (R:=R)).
Proof. clear. split; cbn; [split; constructor..|]. intros a. rewrite elem_of_nil. set_solver. Qed.

(** * Loading data *)
(** The items of another chart, added one by one. *)
Lemma load_ok keep n (d : list (term * R)) : Forall (fun kv => key_ok (fst kv)) d -> forall s s',
  foldM (fun kv s => update2 al cv keep n ∅ 0 (fst kv) (snd kv) s) d s = Ok s' ->
  exists ks, s' = pushes keep ks s /\
    Forall2 (fun kv kw => snd kw = snd kv /\ (key_ok (fst kw) /\ canonical cv (fst kw) = fst kw) /\ forall x, stands_for (fst kw) x <-> stands_for (fst kv) x) d ks.
Proof.
  induction d as [|[a v] d IH]; intros Hk s s' E; cbn [foldM] in E.
  { injection E as <-. exists []. split; [done|constructor]. }
  apply Forall_cons in Hk as [Ha Hk]. cbn [fst snd] in *.
  destruct (update2 al cv keep n ∅ 0 a v s) as [s1| |] eqn:E1; [|done..]. cbn [bind] in E.
  assert (Hfr : frame 0 ∅) by (split; intros; set_solver).
  destruct (update2_ok keep ∅ n ∅ 0 a v s s1 (okst_empty ∅) Hfr E1) as (k & -> & H1 & H2).
  destruct (IH Hk _ _ E) as (ks & -> & HF). exists ((k, v) :: ks). split; [done|]. constructor; [|done]. cbn.
  split; [done|]. split; [apply H1, Ha|]. intros x. rewrite H2.
  assert (Hacy : acyclic ∅) by apply (okst_empty ∅). destruct (acyclic_resolution _ Hacy) as [θ Hθ].
  rewrite <- (heap_stands ∅ θ a x Hacy Hθ), (unbound_sub ∅ θ Hθ); [done|]. intros w _. apply lookup_empty.
Qed.

Lemma load_contrib (d ks : list (term * R)) (x : term) :
  Forall2 (fun kv kw => snd kw = snd kv /\ (key_ok (fst kw) /\ canonical cv (fst kw) = fst kw) /\ forall x, stands_for (fst kw) x <-> stands_for (fst kv) x) d ks ->
  contrib ks x = item_val d x.
Proof.
  intros HF. induction HF as [|[a v] [k w] d ks (H1 & _ & H2) HF IH]; [done|]. cbn [fst snd] in *. subst w.
  rewrite contrib_cons, item_val_cons, IH. specialize (H2 x). destruct (decide (stands_for k x)) as [Hd|Hd].
  - rewrite decide_True by (by apply H2). done.
  - rewrite decide_False by (by rewrite <- H2). apply sadd_0_l.
Qed.

Notation loaded := (Forall2 (fun (kv kw : term * R) => snd kw = snd kv /\ (key_ok (fst kw) /\ canonical cv (fst kw) = fst kw) /\ forall x, stands_for (fst kw) x <-> stands_for (fst kv) x)).

Lemma loaded_keys d ks : loaded d ks -> Forall (fun kw => key_ok (fst kw) /\ canonical cv (fst kw) = fst kw) ks.
Proof. intros HF. induction HF as [|kv kw d ks (_ & H & _) HF IH]; constructor; auto. Qed.

Lemma load2_ok keep pick D n p s s' : wf_rules D -> inv keep s ->
  load2 wt approx minf cmpf is_run al cv keep pick D n p s = Ok s' ->
  exists d ks, run2 wt approx minf cmpf is_run al cv (fun _ => true) pick D n p t_empty = Ok d /\ inv (fun _ => true) d /\
    s' = pushes keep ks s /\ loaded (t_chart d) ks.
Proof.
  intros HD Hinv E. unfold load2 in E. destruct (run2 _ _ _ _ _ _ _ _ _ D n p _) as [d| |] eqn:Er; [|done..]. cbn [bind] in E.
  destruct (run2_ok (fun _ => true) D HD pick n p _ d (inv_empty _) Er) as (s1 & _ & _ & _ & Hd).
  apply load_ok in E as (ks & -> & HF); [|by eapply inv_keys]. eauto 10.
Qed.

(** * Histories *)
Notation run := (run2 wt approx minf cmpf is_run al cv).
Notation op := (do_op2 wt approx minf cmpf is_run al cv).

(** The value that an operation adds to [x] from outside, and the items. *)
Definition op_val (x : term) (o : op2) : R :=
  match o with
  | Load2 pick n p D => match run (fun _ => true) pick D n p t_empty with Ok d => item_val (t_chart d) x | _ => szero end
  | Run2 _ _ _ => szero
  end.
Definition op_items (o : op2) (x : term) : Prop :=
  match o with
  | Load2 pick n p D => exists d, run (fun _ => true) pick D n p t_empty = Ok d /\ covered (t_chart d) x
  | Run2 _ _ _ => False
  end.
Definition wf_op (o : op2) : Prop := match o with Load2 _ _ _ D => wf_rules D | Run2 _ _ _ => True end.

Section history.
Context (keep : term -> bool) (P : list rule) (HP : wf_rules P) (Hap : forall x y : R, approx x y = true <-> x = y).

Lemma op_inv o s s' : wf_op o -> inv keep s -> op keep P o s = Ok s' -> inv keep s' /\ keys_in (t_chart s) (t_chart s').
Proof.
  intros Ho Hinv E. destruct o as [pick n p D|pick n p]; cbn in *.
  - destruct (load2_ok keep pick D n p s s' Ho Hinv E) as (d & ks & _ & _ & -> & HF).
    destruct (pushes_ok keep ks s Hinv (loaded_keys _ _ HF)) as (H1 & H2 & _). split; [done|]. rewrite H2. by intros k.
  - destruct (run2_ok keep P HP pick n p s s' Hinv E) as (s1 & H1 & _ & H2 & H3). split; [done|].
    destruct (inits_inv keep P HP _ _ _ Hinv H1) as (_ & H4 & _). rewrite <- H4. by apply (rounds_keys keep P HP).
Qed.

Lemma ops_inv ops : forall s s', Forall wf_op ops -> inv keep s -> foldM (op keep P) ops s = Ok s' -> inv keep s' /\ keys_in (t_chart s) (t_chart s').
Proof.
  induction ops as [|o ops IH]; intros s s' Ho Hinv E; cbn [foldM] in E.
  { injection E as <-. split; [done|]. by intros k. }
  apply Forall_cons in Ho as [Ho Hos]. destruct (op keep P o s) as [s1| |] eqn:E1; [|done..]. cbn [bind] in E.
  destruct (op_inv o s s1 Ho Hinv E1) as [H1 H2]. destruct (IH s1 s' Hos H1 E) as [H3 H4]. split; [done|]. intros k Hk. auto.
Qed.

Lemma ops_veq x L chF : kept keep x -> NoDup L -> (forall iy, iy ∈ L -> instances P x iy) ->
  (forall iy, instances P x iy -> Forall (gholds (covered chF)) (snd iy) -> iy ∈ L) -> one_driver P chF ->
  forall ops s s' extra, Forall wf_op ops -> inv keep s -> foldM (op keep P) ops s = Ok s' -> keys_in (t_chart s') chF ->
  veq x L extra s -> veq x L (sadd extra (suml ops (op_val x))) s'.
Proof.
  intros Hkx HL1 HL2 HL3 Hdrv. induction ops as [|o ops IH]; intros s s' extra Ho Hinv E Hk Hv; cbn [foldM] in E.
  { injection E as <-. by rewrite suml_nil, sadd_0_r. }
  apply Forall_cons in Ho as [Ho Hos]. destruct (op keep P o s) as [s1| |] eqn:E1; [|done..]. cbn [bind] in E.
  destruct (op_inv o s s1 Ho Hinv E1) as [Hinv1 _]. rewrite suml_cons, sadd_assoc. apply (IH s1 s'); [done|done|done|done|].
  destruct (ops_inv ops s1 s' Hos Hinv1 E) as [_ Hk1].
  destruct o as [pick n p D|pick n p]; cbn [do_op2 op_val wf_op] in *.
  - destruct (load2_ok keep pick D n p s s1 Ho Hinv E1) as (d & ks & -> & _ & -> & HF).
    destruct (pushes_ok keep ks s Hinv (loaded_keys _ _ HF)) as (_ & H2 & H3 & H4). unfold veq in *.
    rewrite H4, H2, H3, (load_contrib _ _ _ HF), sadd_assoc, Hv by done. rewrite <- !sadd_assoc. f_equal. apply sadd_comm.
  - rewrite sadd_0_r. apply (run2_veq keep P HP Hap x L chF Hkx HL1 HL2 HL3 Hdrv extra pick n p s s1 Hinv E1); [|done]. intros k Hk'. auto.
Qed.

Lemma foldM_snoc {A S} (f : A -> S -> res S) l a s s' : foldM f (l ++ [a]) s = Ok s' -> exists s1, foldM f l s = Ok s1 /\ f a s1 = Ok s'.
Proof.
  revert s. induction l as [|b l IH]; intros s E; cbn [app foldM] in *.
  - destruct (f a s) as [s1| |] eqn:E1; [|done..]. cbn [bind] in E. injection E as <-. eauto.
  - destruct (f b s) as [s1| |] eqn:E1; [|done..]. cbn [bind] in E. by apply IH.
Qed.

Lemma history_solution ops pick n p s x : Forall wf_op ops -> foldM (op keep P) (ops ++ [Run2 pick n p]) t_empty = Ok s ->
  kept keep x -> finite_at wt cmpf is_true P (t_chart s) x -> one_driver P (t_chart s) ->
  solution2_at wt cmpf is_true P (fun x => suml ops (op_val x)) (t_chart s) x.
Proof.
  intros Ho E Hkx (L & HLnd & HL) Hdrv.
  assert (Hos : Forall wf_op (ops ++ [Run2 pick n p])) by (apply Forall_app; split; [done|by repeat constructor]).
  pose proof (ops_veq x L (t_chart s) Hkx HLnd (fun iy H => proj1 (proj1 (HL iy) H)) (fun iy H1 H2 => proj2 (HL iy) (conj H1 H2)) Hdrv
    _ t_empty s szero Hos (inv_empty keep) E (fun k H => H)) as Hv.
  assert (Hv0 : veq x L szero t_empty).
  { unfold veq, item_val. cbn. rewrite suml_filter_dec. replace (suml L _) with (szero : R); [done|]. symmetry.
    etrans; [|apply (suml_zero L)]. apply suml_ext. intros iy _. by rewrite decide_False by set_solver. }
  specialize (Hv Hv0). rewrite sadd_0_l, suml_app, suml_cons, suml_nil in Hv. cbn [op_val] in Hv. rewrite !sadd_0_r in Hv.
  apply foldM_snoc in E as (s0 & E0 & E1). cbn [do_op2] in E1.
  destruct (ops_inv ops _ s0 Ho (inv_empty keep) E0) as [Hinv0 _].
  destruct (run2_ok keep P HP pick n p s0 s Hinv0 E1) as (s1 & H1 & Hinv1 & H2 & Hinv).
  unfold veq in Hv. rewrite (rounds_end keep P HP s1 s H2 Hinv) in Hv.
  replace (sadd (item_val (t_chart s) x) (item_val [] x)) with (item_val (t_chart s) x) in Hv by (symmetry; apply sadd_0_r).
  exists (suml L (fun iy => all_val (t_chart s) (snd iy))). split.
  - exists L. split; [done|]. split; [intros iy H; exact (proj1 (proj1 (HL iy) H))|]. split; [|done]. intros iy Hiy.
    destruct (decide (iy ∈ L)) as [|Hn]; [by left|right].
    assert (Hex : forall ys, Forall (gholds (covered (t_chart s))) ys \/ exists y, y ∈ ys /\ gval (item_val (t_chart s)) y = szero).
    { induction ys as [|y ys [IH|(z & Hz & Hz0)]]; [left; constructor| |right; exists z; split; [by right|done]].
      destruct (zero_dec Hap (gval (item_val (t_chart s)) y)) as [Hy|Hy]; [right; exists y; split; [by left|done]|left; constructor; [|done]].
      assert (Hic : forall z, item_val (t_chart s) z <> szero -> covered (t_chart s) z).
      { clear. intros z. induction (t_chart s) as [|[k v] ch IH]; [by intros H; destruct (H eq_refl)|]. rewrite item_val_cons. case_decide as Hd.
        - intros _. exists (k, v). split; [by left|done].
        - intros H. destruct (IH H) as (kv & H1 & H2). exists kv. split; [by right|done]. }
      destruct y as [v|k|[|[v|[z|o]|l0] [|x0 [|z' [|? ?]]]]]; cbn in *; auto.
      case_decide; [by case_decide|]. case_decide; [by destruct (cmpf o x0 z') as [[]| |]|]. case_decide; [by destruct (is_true x0 z')|]. by apply Hic. }
    destruct (Hex (snd iy)) as [Hall|(y & Hy & Hy0)].
    + exfalso. by apply Hn, HL.
    + apply elem_of_list_split in Hy as (l1 & l2 & ->). rewrite map_app, prodl_app. cbn [map].
      change (prodl (?a :: ?l)) with (smul a (prodl l)). by rewrite Hy0, smul_0_l, smul_0_r.
  - rewrite Hv, sadd_comm. f_equal. rewrite suml_filter_dec. apply suml_ext. intros iy Hiy. rewrite decide_True; [done|].
    rewrite (rounds_init keep P HP s1 s H2). apply (inits_inv keep P HP _ _ _ Hinv0 H1).
    apply elem_of_list_In, HL in Hiy as [(r & Er & _) _]. split; [lia|]. apply nth_error_Some. congruence.
Qed.

Lemma ops_ieq x chF : kept keep x -> one_driver P chF ->
  forall ops s s' extra, Forall wf_op ops -> inv keep s -> foldM (op keep P) ops s = Ok s' -> keys_in (t_chart s') chF ->
  ieq P x extra s -> ieq P x (sadd extra (suml ops (op_val x))) s'.
Proof.
  intros Hkx Hdrv. induction ops as [|o ops IH]; intros s s' extra Ho Hinv E Hk Hv; cbn [foldM] in E.
  { injection E as <-. by rewrite suml_nil, sadd_0_r. }
  apply Forall_cons in Ho as [Ho Hos]. destruct (op keep P o s) as [s1| |] eqn:E1; [|done..]. cbn [bind] in E.
  destruct (op_inv o s s1 Ho Hinv E1) as [Hinv1 _]. rewrite suml_cons, sadd_assoc. apply (IH s1 s'); [done|done|done|done|].
  destruct (ops_inv ops s1 s' Hos Hinv1 E) as [_ Hk1].
  destruct o as [pick n p D|pick n p]; cbn [do_op2 op_val wf_op] in *.
  - destruct (load2_ok keep pick D n p s s1 Ho Hinv E1) as (d & ks & -> & _ & -> & HF).
    destruct (pushes_ok keep ks s Hinv (loaded_keys _ _ HF)) as (_ & H2 & H3 & H4). destruct Hv as (v & Hi & Hv). exists v. rewrite H2, H3. split; [done|].
    rewrite H4, (load_contrib _ _ _ HF), sadd_assoc, Hv by done. rewrite <- !sadd_assoc. f_equal. apply sadd_comm.
  - rewrite sadd_0_r. apply (run2_ieq keep P HP Hap x chF Hkx Hdrv extra pick n p s s1 Hinv E1); [|done]. intros k Hk'. auto.
Qed.

Lemma history_solution_inf ops pick n p s x : Forall wf_op ops -> foldM (op keep P) (ops ++ [Run2 pick n p]) t_empty = Ok s ->
  kept keep x -> one_driver P (t_chart s) ->
  solution2_inf_at wt cmpf is_true minf P (fun x => suml ops (op_val x)) (t_chart s) x.
Proof.
  intros Ho E Hkx Hdrv.
  assert (Hos : Forall wf_op (ops ++ [Run2 pick n p])) by (apply Forall_app; split; [done|by repeat constructor]).
  assert (Hv0 : ieq P x szero t_empty).
  { exists szero. split; [|done]. refine (integral_ext P x _ _ _ _ (integral_zero P x)). intros iy _. cbn. by rewrite decide_False by set_solver. }
  destruct (ops_ieq x (t_chart s) Hkx Hdrv _ t_empty s szero Hos (inv_empty keep) E (fun k H => H) Hv0) as (v & Hi & Hv).
  rewrite sadd_0_l, suml_app, suml_cons, suml_nil in Hv. cbn [op_val] in Hv. rewrite !sadd_0_r in Hv.
  apply foldM_snoc in E as (s0 & E0 & E1). cbn [do_op2] in E1.
  destruct (ops_inv ops _ s0 Ho (inv_empty keep) E0) as [Hinv0 _].
  destruct (run2_ok keep P HP pick n p s0 s Hinv0 E1) as (s1 & H1 & Hinv1 & H2 & Hinv).
  rewrite (rounds_end keep P HP s1 s H2 Hinv) in Hv.
  replace (sadd (item_val (t_chart s) x) (item_val [] x)) with (item_val (t_chart s) x) in Hv by (symmetry; apply sadd_0_r).
  exists v. split; [|by rewrite Hv, sadd_comm]. refine (integral_ext P x _ _ _ _ Hi). intros iy (r & Er & _). rewrite decide_True; [done|].
  rewrite (rounds_init keep P HP s1 s H2). apply (inits_inv keep P HP _ _ _ Hinv0 H1). split; [lia|]. apply nth_error_Some. congruence.
Qed.

Lemma ops_sound Q ops : (forall r x ys, r ∈ P -> ground_inst r x ys -> Forall (gholds Q) ys -> Q x) ->
  (forall o x, o ∈ ops -> op_items o x -> Q x) -> forall s s',
  Forall wf_op ops -> inv keep s -> csound Q s -> foldM (op keep P) ops s = Ok s' -> csound Q s'.
Proof.
  intros HQ. induction ops as [|o ops IH]; intros Hops s s' Ho Hinv Hs E; cbn [foldM] in E; [by injection E as <-|].
  apply Forall_cons in Ho as [Ho Hos]. destruct (op keep P o s) as [s1| |] eqn:E1; [|done..]. cbn [bind] in E.
  destruct (op_inv o s s1 Ho Hinv E1) as [Hinv1 _]. refine (IH _ s1 s' Hos Hinv1 _ E); [intros o' x Ho'; apply Hops; by right|].
  destruct o as [pick n p D|pick n p]; cbn [do_op2 wf_op] in *.
  - destruct (load2_ok keep pick D n p s s1 Ho Hinv E1) as (d & ks & Ed & _ & -> & HF). apply (pushes_sound keep Hap); [|done].
    intros k w x Hin _ Hst. apply (Hops (Load2 pick n p D)); [by left|]. exists d. split; [done|].
    apply elem_of_list_lookup in Hin as (j & Hj). destruct (Forall2_lookup_r _ _ _ _ _ HF Hj) as ([a v] & Ha & Hem).
    destruct Hem as (_ & _ & Hem). exists (a, v). split; [by eapply elem_of_list_lookup_2|]. by apply Hem.
  - by apply (run2_sound keep P HP Hap Q pick n p s s1 Hinv).
Qed.

Context (Hpos : @positive R) (Hinf : minf <> szero) (Hkeep : forall a, keep a = true).

Lemma run_nonzero pick D n p d : wf_rules D -> run (fun _ => true) pick D n p t_empty = Ok d -> forall a v, (a, v) ∈ t_chart d -> v <> szero.
Proof.
  intros HD E. destruct (run2_cinv (fun _ => true) D HD Hap Hpos Hinf (fun _ => eq_refl) (fun _ => False) pick n p t_empty d) as [[H _ _] _]; [apply inv_empty|done| |exact H].
  split; cbn; [by intros a v Hin%elem_of_nil|done|]. intros i r x ys Hi. set_solver.
Qed.

Lemma ops_cinv ops : forall B s s', Forall wf_op ops -> inv keep s -> cinv P B s -> foldM (op keep P) ops s = Ok s' ->
  cinv P (fun x => B x \/ exists o, o ∈ ops /\ op_items o x) s'.
Proof.
  induction ops as [|o ops IH]; intros B s s' Ho Hinv Hc E; cbn [foldM] in E.
  { injection E as <-. destruct Hc as [C1 C2 C3]. split; [done| |done]. intros x [Hx|(o & Hin & _)]; [by apply C2|by apply elem_of_nil in Hin]. }
  apply Forall_cons in Ho as [Ho Hos]. destruct (op keep P o s) as [s1| |] eqn:E1; [|done..]. cbn [bind] in E.
  destruct (op_inv o s s1 Ho Hinv E1) as [Hinv1 _].
  assert (Hc1 : cinv P (fun x => B x \/ op_items o x) s1).
  { destruct o as [pick n p D|pick n p]; cbn [do_op2 wf_op op_items] in *.
    - destruct (load2_ok keep pick D n p s s1 Ho Hinv E1) as (d & ks & Ed & _ & -> & HF).
      destruct (pushes_ok keep ks s Hinv (loaded_keys _ _ HF)) as (_ & H2 & H3 & _). destruct Hc as [C1 C2 C3].
      assert (Hm : forall x, ccov s x \/ (exists k w, (k, w) ∈ ks /\ w <> szero /\ stands_for k x) -> ccov (pushes keep ks s) x).
      { intros x. by apply (pushes_ccov keep Hpos Hkeep); [|eapply loaded_keys]. }
      split; rewrite ?H2, ?H3; [done|..].
      + intros x [Hx|(d' & Ed' & ([a v] & Hin & Hst))].
        * destruct (C2 x Hx); [by left|right; by apply Hm; left].
        * right. apply Hm. right. rewrite Ed in Ed'. injection Ed' as <-. pose proof (run_nonzero pick D n p d Ho Ed a v Hin) as Hv.
          apply elem_of_list_lookup in Hin as (j & Hj). destruct (Forall2_lookup_l _ _ _ _ _ HF Hj) as ([k w] & Hk & Hem).
          destruct Hem as (Hw & _ & Hem). cbn in *. exists k, w. split; [by eapply elem_of_list_lookup_2|]. subst w. split; [done|]. by apply Hem.
      + intros i r x ys Hi Er Hg Hall. destruct (C3 i r x ys Hi Er Hg Hall); [by left|right; by apply Hm; left].
    - destruct (run2_cinv keep P HP Hap Hpos Hinf Hkeep B pick n p s s1 Hinv E1 Hc) as [[C1 C2 C3] _]. split; [done| |done]. intros x [Hx|[]]. by apply C2. }
  destruct (IH _ s1 s' Hos Hinv1 Hc1 E) as [C1 C2 C3]. split; [done| |done]. intros x Hx. apply C2.
  destruct Hx as [Hx|(o' & Hin & Hx)]; [by left; left|]. apply elem_of_cons in Hin as [->|Hin]; [by left; right|right; eauto].
Qed.

End history.
End solver2.
