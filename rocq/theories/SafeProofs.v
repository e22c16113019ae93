(** Proofs about fold/unfold sequences: what [is_safe] says is true. *)
From Coq Require Import List Permutation ZArith Lia.
From stdpp Require Import gmap.
From Verif Require Import PyBase Semiring TermModel TermSpec TermProofs UnifyProofs SetsModel SetsProofs SolverProofs RuleSpec RuleProofs PruneModel UpdateModel UpdateSpec UpdateProofs TransModel TransSpec TransProofs LinearProofs
  UnfoldProofs FoldProofs IntervalModel IntervalProps SafeCore SafeModel SafeSpec.
Import ListNotations.

(** * Variants *)
Section variants.
  Context {R : semiring}.

  Lemma wvars_variant (r s : wrule R) ρ : whead s = sub (fun v => Var (ρ v)) (whead r) -> wbody s ≡ₚ map (fsub (fun v => Var (ρ v))) (wbody r) ->
    forall v, v ∈ wvars s <-> exists w, w ∈ wvars r /\ v = ρ w.
  Proof.
    intros Hh Hb v. rewrite wvars_iff. unfold fvars. rewrite Hh, vars_sub, in_flat_map.
    assert (Hg : goals (wbody s) ≡ₚ map (sub (fun v => Var (ρ v))) (goals (wbody r))).
    { rewrite <- goals_fsub. unfold goals. by rewrite Hb. }
    split.
    - intros [(w & Hw & [<-|[]])|(g & Hg' & Hv)]; [exists w; rewrite wvars_iff; eauto|].
      apply elem_of_list_In in Hg'. rewrite Hg in Hg'. apply elem_of_list_In, in_map_iff in Hg' as (g0 & <- & Hg0). apply vars_sub in Hv as (w & Hw & [<-|[]]).
      exists w. split; [|done]. apply wvars_iff. right. apply in_flat_map. eauto.
    - intros (w & Hw & ->). apply wvars_iff in Hw as [Hw|Hw]; [left; exists w; split; [done|by left]|].
      apply in_flat_map in Hw as (g & Hg' & Hv). right. exists (sub (fun v => Var (ρ v)) g). split.
      + apply elem_of_list_In. rewrite Hg. apply elem_of_list_In, in_map_iff. eauto.
      + apply vars_sub. exists w. split; [done|by left].
  Qed.

  Lemma renaming_inverse ρ (vs : list nat) : (forall v w, v ∈ vs -> w ∈ vs -> ρ v = ρ w -> v = w) -> exists ρ' : nat -> nat, forall v, v ∈ vs -> ρ' (ρ v) = v.
  Proof.
    intros H. exists (fun u => default 0 (list_find (fun v => ρ v = u) vs ≫= fun p => Some (snd p))). intros v Hv.
    destruct (list_find (fun w => ρ w = ρ v) vs) as [[i w]|] eqn:E.
    - apply list_find_Some in E as (E & Ew & _). cbn. apply H; [by eapply elem_of_list_lookup_2|done|done].
    - apply list_find_None in E. rewrite Forall_forall in E. by destruct (E v Hv).
  Qed.

  Lemma wvariant_sym (r s : wrule R) : wvariant r s -> wvariant s r.
  Proof.
    intros (ρ & Hρ & Hh & Hb). destruct (renaming_inverse ρ _ Hρ) as [ρ' Hi]. exists ρ'. split; [|split].
    - intros v w Hv Hw E. apply (wvars_variant r s ρ Hh Hb) in Hv as (v0 & Hv & ->), Hw as (w0 & Hw & ->). rewrite !Hi in E by done. by subst.
    - rewrite Hh, sub_sub. symmetry. etransitivity; [|apply sub_Var]. apply sub_ext. intros v Hv. cbn. f_equal. apply Hi. apply wvars_iff. by left.
    - assert (Hb' : map (fsub (fun v => Var (ρ' v))) (wbody s) ≡ₚ map (fsub (fun v => Var (ρ' v))) (map (fsub (fun v => Var (ρ v))) (wbody r))) by (by apply Permutation_map).
      rewrite Hb', fsub_fsub. rewrite <- (fsub_Var (wbody r)) at 1. erewrite UnfoldProofs.fsub_ext; [reflexivity|].
      intros v Hv. cbn. f_equal. symmetry. apply Hi. apply wvars_iff. right. by apply elem_of_list_In.
  Qed.
  Lemma wvariant_trans (r s t : wrule R) : wvariant r s -> wvariant s t -> wvariant r t.
  Proof.
    intros (ρ & Hρ & Hh & Hb) (τ & Hτ & Hh' & Hb'). exists (fun v => τ (ρ v)). split; [|split].
    - intros v w Hv Hw E. apply Hρ; [done|done|]. apply Hτ; [apply (wvars_variant r s ρ Hh Hb); eauto..|done].
    - by rewrite Hh', Hh, sub_sub.
    - rewrite Hb'. rewrite (Permutation_map _ Hb), fsub_fsub. done.
  Qed.
  Lemma wvariant_length (r s : wrule R) : wvariant r s -> length (wbody s) = length (wbody r).
  Proof. intros (ρ & _ & _ & Hb). apply Permutation_length in Hb. by rewrite map_length in Hb. Qed.

  Lemma distinct_eq (rs : list (wrule R)) i j r : distinct rs -> rs !! i = Some r -> rs !! j = Some r -> i = j.
  Proof. intros H Hi Hj. eapply H; [exact Hi|exact Hj|apply wvariant_refl]. Qed.

  Lemma aligned_length (A B : list (wrule R)) : RuleSpec.aligned wvariant A B -> length A = length B.
  Proof. intros (B' & Hp & HF). apply Forall2_length in HF. by rewrite HF, Hp. Qed.
  Lemma distinct_aligned (A B : list (wrule R)) : RuleSpec.aligned wvariant A B -> distinct A -> distinct B.
  Proof.
    intros (B' & Hp & HF) HA. apply Permutation_inj in Hp as (Hl & f & Hf & Hp). intros i j r s Hi Hj Hv.
    rewrite Hp in Hi, Hj. apply Hf. destruct (Forall2_lookup_r _ _ _ _ _ HF Hi) as (r0 & Hr0 & V1). destruct (Forall2_lookup_r _ _ _ _ _ HF Hj) as (s0 & Hs0 & V2).
    eapply HA; [exact Hr0|exact Hs0|]. eapply wvariant_trans; [exact V1|]. eapply wvariant_trans; [exact Hv|]. by apply wvariant_sym.
  Qed.
End variants.

(** * Reordering *)
Section reorder.
  Context {R : semiring} (only : Prop) (base : term -> Prop) (Hc : forall x y : R, smul x y = smul y x).
  Notation mrule := (wrule R * (Z -> Prop))%type.

  (** the rule is a variant, the bound weaker *)
  Definition weaker (p q : mrule) : Prop := wvariant (fst p) (fst q) /\ forall z, snd p z -> snd q z.
  Lemma weaker_refl p : weaker p p.
  Proof. split; [apply wvariant_refl|done]. Qed.

  Lemma moved_perm (ps qs ps' : list mrule) : ps ≡ₚ qs -> Forall2 weaker qs ps' -> exists p1 p2, moved ps ps' p1 p2.
  Proof.
    intros Hp HF. symmetry in Hp. pose proof (Permutation_length Hp) as Hlen. pose proof (Forall2_length _ _ _ HF) as Hlen'. apply Permutation_inj in Hp as (Hl & f & Hf & Hp).
    assert (Hlt : forall i, i < length qs <-> f i < length ps).
    { intros i. rewrite <- !lookup_lt_is_Some, Hp. done. }
    set (ks := map f (seq 0 (length qs))).
    assert (Hnd : NoDup ks) by (apply NoDup_fmap_2; [done|apply NoDup_seq]).
    assert (Hall : ks ≡ₚ seq 0 (length ps)).
    { apply submseteq_Permutation_length_le; [unfold ks; rewrite map_length, !seq_length; lia|].
      apply NoDup_submseteq; [done|]. intros k Hk. apply elem_of_list_fmap in Hk as (i & -> & Hi). apply elem_of_seq in Hi. apply elem_of_seq. split; [lia|]. cbn. apply Hlt. lia. }
    assert (Hks : forall i, i < length qs -> ks !! i = Some (f i)).
    { intros i Hi. unfold ks. rewrite list_lookup_fmap, lookup_seq_lt by done. done. }
    exists (fun k => pos k ks), f. split.
    - intros k r P Hk. assert (Hin : k ∈ ks). { rewrite Hall. apply elem_of_seq. apply lookup_lt_Some in Hk. lia. }
      apply pos_spec in Hin. assert (Hlt' : pos k ks < length qs). { apply lookup_lt_Some in Hin. unfold ks in Hin at 2. rewrite map_length, seq_length in Hin. done. }
      rewrite Hks in Hin by done. injection Hin as Hin. assert (Hq : qs !! pos k ks = Some (r, P)) by (rewrite Hp, Hin; done).
      destruct (Forall2_lookup_l _ _ _ _ _ HF Hq) as ([s Q] & Hs & V & W). exists s, Q. done.
    - intros k s Q Hk. destruct (Forall2_lookup_r _ _ _ _ _ HF Hk) as ([r P] & Hr & _). exists r, P. split; [by rewrite <- Hp|].
      apply pos_lookup; [done|]. apply Hks. by apply lookup_lt_Some in Hr.
  Qed.

  Lemma represents_perm F (ps qs ps' : list mrule) : represents only base F ps -> ps ≡ₚ qs -> Forall2 weaker qs ps' -> represents only base F ps'.
  Proof.
    intros (f & g & Hi & Hs) Hp HF. destruct (moved_perm ps qs ps' Hp HF) as (p1 & p2 & Hm).
    eapply represents_step; [exact Hi|]. by eapply moved_steps.
  Qed.

  (** a program [B], each rule of which has a variant in [A] *)
  Lemma matched (A : list mrule) (B : list (wrule R)) (φ : list nat) : length A = length B -> distinct B -> length φ = length B ->
    (forall i k s, φ !! i = Some k -> B !! i = Some s -> exists r P, A !! k = Some (r, P) /\ wvariant r s) ->
    A ≡ₚ map (fun k => (from_option fst (WRule (Fn []) []) (A !! k), from_option snd (fun _ => True) (A !! k))) φ.
  Proof.
    intros Hlen Hd Hl H.
    assert (Hnd : NoDup φ).
    { apply NoDup_alt. intros i j k Hi Hj. assert (Hi' : i < length B) by (apply lookup_lt_Some in Hi; lia). assert (Hj' : j < length B) by (apply lookup_lt_Some in Hj; lia).
      apply lookup_lt_is_Some_2 in Hi' as [s Hs], Hj' as [t Ht]. destruct (H _ _ _ Hi Hs) as (r & P & Hr & V1). destruct (H _ _ _ Hj Ht) as (r' & P' & Hr' & V2).
      rewrite Hr in Hr'. injection Hr' as <- <-. eapply Hd; [exact Hs|exact Ht|]. eapply wvariant_trans; [|exact V2]. by apply wvariant_sym. }
    assert (Hperm : φ ≡ₚ seq 0 (length A)).
    { apply submseteq_Permutation_length_le; [rewrite seq_length; lia|]. apply NoDup_submseteq; [done|]. intros k Hk. apply elem_of_list_lookup in Hk as [i Hi].
      assert (Hi' : i < length B) by (apply lookup_lt_Some in Hi; lia). apply lookup_lt_is_Some_2 in Hi' as [s Hs]. destruct (H _ _ _ Hi Hs) as (r & P & Hr & _).
      apply lookup_lt_Some in Hr. apply elem_of_seq. lia. }
    rewrite Hperm. clear. induction A as [|[r P] A IH]; [done|]. cbn [length seq map lookup list_lookup]. apply Permutation_skip.
    rewrite <- seq_shift, map_map. cbn. exact IH.
  Qed.
End reorder.

(** * Unfolding makes usable rules *)
Section usable.
  Context {R : semiring} (al : nat -> nat) (Hal : forall i j, al i = al j -> i = j) (minf : R) (is_one : R -> bool).
  Context (ord : list term -> list term) (is_input : term -> bool) (eqr : wrule R -> wrule R -> bool) (Heq : forall r s, eqr r s = true <-> r = s).

  Lemma inline_all_usable n (r : wrule R) j os : item_head (whead r) -> Forall (fun o => acyclic (snd o) /\ wbody (snd (fst o)) <> []) os ->
    forall c us c', inline_all al minf is_one n r j os c = Ok (us, c') ->
    c <= c' /\ Forall (fun u => good_rule (snd u) /\ forall v, v ∈ wvars (snd u) -> exists k, v = al k /\ k < c') us.
  Proof.
    intros Hh. induction 1 as [|[[k s] st] os [Hac Hs] _ IH]; intros c us c' E; cbn [inline_all] in E; [by injection E as <- <-|]. cbn [fst snd] in Hac, Hs.
    destruct (inline al minf is_one n r j s st c) as [[t c1]| |] eqn:Ei; [|done..]. cbn [bind] in E.
    destruct (inline_all al minf is_one n r j os c1) as [[us1 c2]| |] eqn:Ea; [|done..]. cbn [bind] in E. injection E as <- <-.
    apply IH in Ea as [Hc Hus]. unfold inline in Ei.
    destruct (term_vars _ _ _ _) as [vs| |]; [|done..]. cbn [bind] in Ei. destruct (term_vars _ _ _ _) as [vt| |]; [|done..]. cbn [bind] in Ei.
    destruct (acyclic_resolution _ Hac) as [θ Hθ].
    match type of Ei with fresh_rule al n st c ?t0 = _ => assert (Ht0 : whead t0 = whead r /\ wbody t0 <> []) end.
    { assert (Hne : take j (wbody r) ++ wbody s ++ drop (S j) (wbody r) <> []) by (by destruct (take j (wbody r)), (wbody s)).
      destruct (forallb _ vs); [done|]. destruct (is_one minf); [done|]. cbn [whead wbody]. split; [done|]. by destruct (take j (wbody r) ++ wbody s ++ drop (S j) (wbody r)). }
    match type of Ei with fresh_rule al n st c ?t0 = _ => revert Ht0 Ei; generalize t0; intros t1 Ht0 Ei end.
    apply (fresh_rule_ok al Hal st θ Hac Hθ) in Ei as (ρ & -> & _ & Hc' & Hv). split; [lia|]. constructor; [|done]. cbn [snd]. split.
    - split; cbn [rrename rsub wbody whead].
      + destruct Ht0 as [_ Hne]. intros E. apply map_eq_nil, map_eq_nil in E. done.
      + destruct Ht0 as [-> _]. destruct Hh as (f & args & ->). cbn. by eexists _, _.
    - intros v Hv'. destruct (Hv v Hv') as (k' & -> & Hk). exists k'. split; [done|lia].
  Qed.

  Lemma unfold_by_usable n i j (defs rs : list (wrule R)) c r b rs' ix c' :
    (forall s, s ∈ defs -> good_rule s) -> rs !! i = Some r -> wbody r !! j = Some (Goal b) -> item_query b ->
    (forall v k, v ∈ wvars r -> c <= k -> v <> al k) -> item_head (whead r) ->
    unfold_by al ord is_input minf is_one eqr n i j defs rs c = Ok (rs', ix, c') ->
    c <= c' /\ forall t, t ∈ rs' -> t ∈ rs \/ good_rule t /\ forall v k, v ∈ wvars t -> c' <= k -> v <> al k.
  Proof.
    intros Hg Hr Hb Hq Hf Hh E. unfold unfold_by in E. rewrite Hr in E.
    destruct (remove_rule eqr r rs) as [new| |] eqn:Er; [|discriminate..]. cbn [bind] in E. rewrite Hb in E.
    destruct (negb (safe_inline is_input (Goal b))); [discriminate|].
    destruct (lookup al ord n ∅ b (p_new defs c)) as [[os P']| |] eqn:El; [|discriminate..]. cbn [bind] in E.
    destruct (inline_all al minf is_one n r j os (p_c P')) as [[us c4]| |] eqn:Ea; [|discriminate..]. cbn [bind] in E. injection E as <- <- <-.
    apply (remove_rule_ok eqr Heq) in Er as (i' & Hi' & ->).
    pose proof (b_vars r j b Hb) as Hbv. pose proof (lookup_c al Hal ord _ _ _ _ _ El) as Hc. cbn [p_new p_c] in Hc.
    apply (lookup_ok (fun _ => szero) al al Hal ord n ∅ Var b) in El.
    2: { by apply inv_new. }
    2: { by apply acyclic_empty. }
    2: { by apply resolution_empty. }
    2: { intros ? ? ? ?. apply lookup_empty. }
    2: { intros k Hck. split; [|split].
         - intros Hv. by apply (Hf _ k (Hbv _ Hv) Hck).
         - apply lookup_empty.
         - intros w t Hw. by rewrite lookup_empty in Hw. }
    2: { by rewrite sub_Var. }
    cbn [p_rules p_new p_c] in El. destruct El as (_ & _ & Hans & _).
    apply inline_all_usable in Ea as [Hc' Hus]; [|done|].
    - split; [lia|]. intros t Ht. apply elem_of_app in Ht as [Ht|Ht].
      + left. apply elem_of_list_lookup in Ht as [p Hp]. destruct (decide (p < i')) as [Hl|Hl].
        * rewrite lookup_delete_lt in Hp by done. by eapply elem_of_list_lookup_2.
        * rewrite lookup_delete_ge in Hp by lia. by eapply elem_of_list_lookup_2.
      + right. apply elem_of_list_fmap in Ht as (u & -> & Hu). rewrite Forall_forall in Hus. destruct (Hus u Hu) as [H1 H2]. split; [done|].
        intros v k Hv Hk ->. destruct (H2 _ Hv) as (k' & Ek & Hk'). apply Hal in Ek. lia.
    - eapply Forall_impl; [exact Hans|]. intros [[k s] st] (s0 & ρ & Hs0 & _ & -> & ? & _). cbn [fst snd]. split; [done|].
      cbn [rrename rsub wbody]. intros E0. apply map_eq_nil in E0. destruct (Hg s0); [by eapply elem_of_list_lookup_2|done].
  Qed.
End usable.

(** * The programs of a session *)
Section sessions.
  Context {R : semiring} (al : nat -> nat) (Hal : forall i j, al i = al j -> i = j) (minf : R) (is_one : R -> bool).
  Context (ord : list term -> list term) (is_input : term -> bool) (eqr : wrule R -> wrule R -> bool) (Heq : forall r s, eqr r s = true <-> r = s).
  Notation stage := (stage (R := R)).
  Notation unfold_by := (unfold_by al ord is_input minf is_one eqr).

  Definition came (se : list stage) (k : nat) (s : stage) : Prop :=
    match s_how s with
    | HRoot => k = 0
    | HDefine a nd => k <> 0 /\ a < k /\ exists ds, s_rules s = rules_of se a ++ ds /\ nd = length ds
    | HUnfold a i j d ix => k <> 0 /\ a < k /\ d < k /\ exists n c1 c2, unfold_by n i j (rules_of se d) (rules_of se a) c1 = Ok (s_rules s, ix, c2) /\
        usable al c1 (rules_of se a) /\ forall r b, rules_of se a !! i = Some r -> wbody r !! j = Some (Goal b) -> item_query b
    | HFold a j d => k <> 0 /\ a < k /\ d < k /\ exists r rest, s_rules s = r :: rest /\ forall b, wbody r !! j = Some (Goal b) -> item_query b
    end.
  Definition coherent (se : list stage) (c : nat) : Prop :=
    (exists rs, se !! 0 = Some (Stage rs HRoot)) /\ forall k s, se !! k = Some s -> usable al c (s_rules s) /\ came se k s.

  Lemma usable_mono c c' (rs : list (wrule R)) : usable al c rs -> c <= c' -> usable al c' rs.
  Proof. intros [H1 H2] Hc. split; [done|]. intros r v k Hr Hv Hk. eapply H2; [exact Hr|done|lia]. Qed.
  Lemma usable_app c (rs ds : list (wrule R)) : usable al c rs -> usable al c ds -> usable al c (rs ++ ds).
  Proof. intros [H1 H2] [H3 H4]. split; [intros r Hr|intros r v k Hr]; apply elem_of_app in Hr as [Hr|Hr]; eauto. Qed.
  Lemma rules_of_lookup (se : list stage) k s : se !! k = Some s -> rules_of se k = s_rules s.
  Proof. unfold rules_of. by intros ->. Qed.
  Lemma rules_of_app (se ss : list stage) k : k < length se -> rules_of (se ++ ss) k = rules_of se k.
  Proof. intros H. unfold rules_of. rewrite lookup_app_l by done. done. Qed.

  Lemma came_app (se ss : list stage) k s : k < length se -> came se k s -> came (se ++ ss) k s.
  Proof.
    intros Hk. unfold came. destruct (s_how s) as [|a nd|a i j d ix|a j d].
    - done.
    - intros (H0 & Ha & H). rewrite rules_of_app by lia. done.
    - intros (H0 & Ha & Hd & H). rewrite !rules_of_app by lia. done.
    - done.
  Qed.

  Lemma session_coherent se c : session al ord is_input minf is_one eqr se c -> coherent se c.
  Proof.
    induction 1 as [rs c Hu|n x se c se' c' _ IH Hin E|se c c' _ IH Hc].
    - split; [by exists rs|]. intros k s Hk. destruct k as [|k]; [|done]. injection Hk as <-. done.
    - destruct IH as [[rs0 H0] IH].
      assert (Hstep : forall s, se' = se ++ [s] -> c <= c' -> usable al c' (s_rules s) -> came se (length se) s -> coherent se' c').
      { intros s -> Hc Hu Hcame. split; [exists rs0; rewrite lookup_app_l; [done|by apply lookup_lt_Some in H0]|].
        intros k s' Hk. apply lookup_app_Some in Hk as [Hk|[Hk1 Hk2]].
        - destruct (IH k s' Hk) as [Hu' Hcm]. split; [by eapply usable_mono|]. apply came_app; [by apply lookup_lt_Some in Hk|done].
        - apply list_lookup_singleton_Some in Hk2 as [Hk2 <-]. split; [done|]. replace k with (length se) by lia.
          revert Hcame. unfold came. destruct (s_how s) as [|a nd|a i j d ix|a j d].
          + done.
          + intros (Ha & Hb & H). rewrite rules_of_app by lia. done.
          + intros (Ha & Hb & Hd & H). rewrite !rules_of_app by lia. done.
          + done. }
      assert (Hlen : length se <> 0) by (destruct se; [done|done]).
      destruct x as [a ds|a i j d|a d j r vs]; cbn [act] in E.
      + destruct (se !! a) as [p|] eqn:Ea; [|done]. injection E as <- <-. cbn [input_ok] in Hin.
        eapply Hstep; [done|done|cbn [s_rules]; apply usable_app; [by apply (IH a)|done]|].
        split; [done|]. split; [by apply lookup_lt_Some in Ea|]. exists ds. rewrite (rules_of_lookup _ _ _ Ea). done.
      + destruct (se !! a) as [p|] eqn:Ea; [|done]. destruct (se !! d) as [q|] eqn:Ed; [|done].
        destruct (unfold_by n i j (s_rules q) (s_rules p) c) as [[[rs ix] c2]| |] eqn:Eu; [|done..]. cbn [bind] in E. injection E as <- <-.
        destruct (IH a p Ea) as [Hup _]. destruct (IH d q Ed) as [Huq _]. cbn [input_ok] in Hin. rewrite (rules_of_lookup _ _ _ Ea) in Hin.
        assert (Hr : exists r b, s_rules p !! i = Some r /\ wbody r !! j = Some (Goal b)).
        { revert Eu. unfold TransModel.unfold_by. destruct (s_rules p !! i) as [r|]; [|done]. destruct (remove_rule eqr r (s_rules p)); [|done..]. cbn [bind].
          destruct (wbody r !! j) as [f|] eqn:Ef; [|done]. destruct (negb (safe_inline is_input f)); [done|]. destruct f as [v|b]; [done|]. eauto. }
        destruct Hr as (r & b & Hr & Hb). pose proof (elem_of_list_lookup_2 _ _ _ Hr) as Hr'.
        destruct (unfold_by_usable al Hal minf is_one ord is_input eqr Heq n i j (s_rules q) (s_rules p) c r b rs ix c2) as [Hc Hnew]; try done.
        * intros s Hs. by apply Huq.
        * by eapply Hin.
        * intros v k Hv. by apply (proj2 Hup r).
        * by apply (proj1 Hup r).
        * eapply Hstep; [done|done| |].
          -- cbn [s_rules]. split.
             ++ intros t Ht. destruct (Hnew t Ht) as [Ht'|[Ht' _]]; [by apply Hup|done].
             ++ intros t v k Ht Hv Hk. destruct (Hnew t Ht) as [Ht'|[_ Ht']]; [eapply (proj2 Hup); [exact Ht'|done|lia]|by apply Ht'].
          -- cbn [came s_how s_rules]. split; [done|]. split; [by apply lookup_lt_Some in Ea|]. split; [by apply lookup_lt_Some in Ed|].
             exists n, c, c2. rewrite (rules_of_lookup _ _ _ Ea), (rules_of_lookup _ _ _ Ed). done.
      + destruct (se !! a) as [p|] eqn:Ea; [|done]. destruct (se !! d) as [q|] eqn:Ed; [|done]. destruct Hin as [Hur Hq].
        unfold TransModel.fold, minus in E. destruct (forallb _ vs); [|done]. cbn [bind] in E. injection E as <- <-.
        destruct (IH a p Ea) as [Hup _]. eapply Hstep; [done|done| |].
        * cbn [s_rules]. apply (usable_app c [r]); [done|]. split.
          -- intros t Ht. apply Hup. by eapply without_elem.
          -- intros t v k Ht. apply (proj2 Hup). by eapply without_elem.
        * cbn [came s_how s_rules]. split; [done|]. split; [by apply lookup_lt_Some in Ea|]. split; [by apply lookup_lt_Some in Ed|]. eauto.
    - destruct IH as [H0 IH]. split; [done|]. intros k s Hk. destruct (IH k s Hk) as [Hu Hcm]. split; [by eapply usable_mono|done].
  Qed.

  (** * Lineages *)
  Context (se : list stage) (c : nat) (Hco : coherent se c).
  Notation lineage := (lineage se).

  Lemma parent_lt k s a : se !! k = Some s -> parent (s_how s) = Some a -> a < k.
  Proof.
    intros Hk. destruct Hco as [_ H]. destruct (H k s Hk) as [_ Hcm]. revert Hcm. unfold came, parent.
    destruct (s_how s) as [|a' nd|a' i j d ix|a' j d]; [done|..]; intros (H0 & Ha & _) [= <-]; done.
  Qed.
  Lemma lineage_fuel f f' k : k < f -> k < f' -> lineage_go f se k = lineage_go f' se k.
  Proof.
    revert f' k. induction f as [|f IH]; intros f' k H H'; [lia|]. destruct f' as [|f']; [lia|]. cbn [lineage_go]. f_equal.
    destruct (se !! k) as [s|] eqn:Es; [|done]. destruct (parent (s_how s)) as [a|] eqn:Ea; [|done]. apply (parent_lt k) in Ea; [|done]. apply IH; lia.
  Qed.
  Lemma lineage_step k s a : se !! k = Some s -> parent (s_how s) = Some a -> lineage k = k :: lineage a.
  Proof.
    intros Hk Ha. unfold SafeModel.lineage. change (lineage_go (S k) se k) with (k :: match se !! k with Some s => match parent (s_how s) with Some a => lineage_go k se a | None => [] end | None => [] end).
    rewrite Hk, Ha. f_equal. apply lineage_fuel; [|lia]. by eapply parent_lt.
  Qed.
  Lemma lineage_0 : lineage 0 = [0].
  Proof. destruct Hco as [[rs H] _]. unfold SafeModel.lineage. cbn [lineage_go]. by rewrite H. Qed.
  Lemma lineage_le f k x : x ∈ lineage_go f se k -> x <= k.
  Proof.
    revert k. induction f as [|f IH]; intros k; cbn [lineage_go]; [by intros ?%elem_of_nil|]. intros [->|H]%elem_of_cons; [done|].
    destruct (se !! k) as [s|] eqn:Es; [|by apply elem_of_nil in H]. destruct (parent (s_how s)) as [a|] eqn:Ea; [|by apply elem_of_nil in H].
    apply (parent_lt k) in Ea; [|done]. apply IH in H. lia.
  Qed.
  Lemma lineage_root k : k < length se -> 0 ∈ lineage k.
  Proof.
    induction k as [k IH] using lt_wf_ind. intros Hk. destruct (lookup_lt_is_Some_2 _ _ Hk) as [s Hs].
    destruct (parent (s_how s)) as [a|] eqn:Ea.
    - rewrite (lineage_step k s a Hs Ea). pose proof (parent_lt k s a Hs Ea). right. apply IH; lia.
    - destruct Hco as [_ H]. destruct (H k s Hs) as [_ Hcm]. revert Hcm. unfold came. destruct (s_how s); try done. intros ->. rewrite lineage_0. by left.
  Qed.

  Lemma defined_define k rs a nd : se !! k = Some (Stage rs (HDefine a nd)) -> rs = rules_of se a ++ defined se k /\ length (defined se k) = nd.
  Proof.
    intros Hk. destruct Hco as [_ H]. destruct (H _ _ Hk) as [_ Hcm]. cbn in Hcm. destruct Hcm as (_ & _ & ds & -> & ->). unfold defined. rewrite Hk.
    by rewrite drop_app.
  Qed.
  Lemma defined_other k s : se !! k = Some s -> (forall a nd, s_how s <> HDefine a nd) -> defined se k = [].
  Proof. intros Hk Hs. unfold defined. rewrite Hk. destruct s as [rs [|a nd| |]]; try done. by destruct (Hs a nd). Qed.
End sessions.

(** * Completed programs *)
Lemma combine_fst {A B} (l : list A) (l' : list B) : length l <= length l' -> map fst (combine l l') = l.
Proof. revert l'. induction l as [|a l IH]; intros [|b l'] H; cbn in *; [done|done|lia|]. f_equal. apply IH. lia. Qed.
Lemma combine_app' {A B} (l1 l2 : list A) (k1 k2 : list B) : length l1 = length k1 -> combine (l1 ++ l2) (k1 ++ k2) = combine l1 k1 ++ combine l2 k2.
Proof. revert k1. induction l1 as [|a l1 IH]; intros [|b k1] H; cbn in *; [done|done|done|]. f_equal. apply IH. lia. Qed.
Lemma map_flat_map {A B C} (g : B -> C) (f : A -> list B) l : map g (flat_map f l) = flat_map (fun x => map g (f x)) l.
Proof. induction l as [|x l IH]; [done|]. cbn [flat_map]. by rewrite map_app, IH. Qed.
Lemma flat_map_ext_elem {A B} (f g : A -> list B) l : (forall x, x ∈ l -> f x = g x) -> flat_map f l = flat_map g l.
Proof. induction l as [|x l IH]; intros H; [done|]. cbn [flat_map]. rewrite (H x) by (by left). f_equal. apply IH. intros y Hy. apply H. by right. Qed.
Lemma flat_map_filter {A} (f : nat -> list A) (P : nat -> Prop) `{forall x, Decision (P x)} l :
  flat_map f (base.filter P l) = flat_map (fun x => if decide (P x) then f x else []) l.
Proof. induction l as [|x l IH]; [done|]. rewrite filter_cons. cbn [flat_map]. destruct (decide (P x)); cbn [flat_map]; by rewrite IH. Qed.
Lemma flat_map_take {A} (f g : nat -> list A) k n : k < n -> g k = [] -> (forall x, x <> k -> f x = g x) ->
  flat_map f (seq 0 n) ≡ₚ f k ++ flat_map g (seq 0 n).
Proof.
  intros Hk Hg Hfg. replace n with (k + S (n - S k)) by lia. rewrite seq_app, !flat_map_app. cbn [seq flat_map plus]. rewrite Hg. cbn [app].
  rewrite (flat_map_ext_elem f g (seq 0 k)), (flat_map_ext_elem f g (seq (S k) (n - S k))).
  - rewrite !(Permutation_app_swap_app _ (f k)). done.
  - intros x Hx. apply elem_of_seq in Hx. apply Hfg. lia.
  - intros x Hx. apply elem_of_seq in Hx. apply Hfg. lia.
Qed.

Section completed.
  Context {R : semiring} (al : nat -> nat) (minf : R) (is_one : R -> bool).
  Context (ord : list term -> list term) (is_input : term -> bool) (eqr : wrule R -> wrule R -> bool).
  Notation stage := (stage (R := R)).
  Notation mrule := (wrule R * (Z -> Prop))%type.
  Context (se : list stage) (c : nat) (Hco : coherent al minf is_one ord is_input eqr se c).
  Notation lineage := (lineage se).

  (** the rules that the stage [l] brings in *)
  Definition brought (l : nat) : list (wrule R) := match se !! l with Some (Stage rs HRoot) => rs | _ => defined se l end.
  Lemma brought_0 : brought 0 = rules_of se 0.
  Proof using Hco. destruct Hco as [[rs H] _]. unfold brought, rules_of. by rewrite H. Qed.
  Lemma defined_0 : defined se 0 = [].
  Proof using Hco. destruct Hco as [[rs H] _]. unfold defined. by rewrite H. Qed.
  Lemma brought_S l : l <> 0 -> brought l = defined se l.
  Proof using Hco.
    intros Hl. unfold brought. destruct (se !! l) as [[rs h]|] eqn:E; [|done]. destruct h; [|done..]. destruct Hco as [_ H]. destruct (H _ _ E) as [_ Hcm]. done.
  Qed.
  Lemma brought_other k s : se !! k = Some s -> k <> 0 -> (forall a nd, s_how s <> HDefine a nd) -> brought k = [].
  Proof using Hco. intros Hk H0 Hs. rewrite brought_S by done. by eapply defined_other. Qed.

  Context (V : nat -> nat -> Z).
  Definition reference : list (wrule R * Z) := flat_map (fun l => combine (brought l) (map (V l) (seq 0 (length (brought l))))) (seq 0 (length se)).
  Definition exact (l : nat) : list mrule := combine (brought l) (map (fun p => eq (V l p)) (seq 0 (length (brought l)))).
  Definition rest (k : nat) : list mrule := flat_map exact (base.filter (fun l => l ∉ lineage k) (seq 0 (length se))).
  Definition completed (ρ : nat -> Z) (k : nat) (ms : list interval) : list mrule := combine (rules_of se k) (map (inside ρ) ms) ++ rest k.

  Lemma exact_fst l : map fst (exact l) = brought l.
  Proof using. apply combine_fst. by rewrite map_length, seq_length. Qed.
  Lemma reference_fst : map fst reference = rules_of se 0 ++ definitions se.
  Proof using Hco.
    unfold reference, definitions. rewrite map_flat_map.
    assert (Hl : exists n, length se = S n). { destruct Hco as [[rs H] _]. apply lookup_lt_Some in H. exists (length se - 1). lia. }
    destruct Hl as [n ->]. cbn [seq flat_map]. rewrite defined_0, <- brought_0. cbn [app]. f_equal.
    - apply combine_fst. by rewrite map_length, seq_length.
    - apply flat_map_ext_elem. intros x Hx. apply elem_of_seq in Hx. rewrite combine_fst by (by rewrite map_length, seq_length). apply brought_S. lia.
  Qed.
  Lemma reference_exact : map (fun f => (fst f, eq (snd f))) reference = flat_map exact (seq 0 (length se)).
  Proof using.
    unfold reference. rewrite map_flat_map. apply flat_map_ext. intros l. unfold exact. generalize (seq 0 (length (brought l))). generalize (brought l). clear.
    intros rs. induction rs as [|r rs IH]; intros [|p ps]; [done..|]. cbn. f_equal. apply IH.
  Qed.
  Lemma reference_pos : (forall l p, 0 < V l p)%Z -> Forall (fun f => 0 < snd f)%Z reference.
  Proof using.
    intros HV. apply Forall_forall. intros [r z] H. unfold reference in H. apply elem_of_list_In, in_flat_map in H as (l & _ & H).
    apply in_combine_r, in_map_iff in H as (p & <- & _). apply HV.
  Qed.
  Lemma rest_fst k : k < length se -> map fst (rest k) = missing se k.
  Proof using Hco.
    intros Hk. unfold rest, missing. rewrite map_flat_map. apply flat_map_ext_elem. intros x Hx. apply elem_of_list_filter in Hx as [Hx _]. rewrite exact_fst.
    apply brought_S. intros ->. apply Hx. by eapply lineage_root.
  Qed.
  Lemma completed_fst ρ k ms : k < length se -> length ms = length (rules_of se k) -> map fst (completed ρ k ms) = rules_of se k ++ missing se k.
  Proof using Hco. intros Hk Hl. unfold completed. rewrite map_app, rest_fst by done. rewrite combine_fst; [done|]. rewrite map_length. lia. Qed.

  (** the rest depends only on the definitions in the lineage *)
  Lemma rest_same k l : k < length se -> l < length se -> (forall x, defined se x <> [] -> x ∈ lineage l <-> x ∈ lineage k) -> rest l = rest k.
  Proof using Hco.
    intros Hk Hl H. unfold rest. rewrite !flat_map_filter. apply flat_map_ext_elem. intros x Hx.
    destruct (decide (x = 0)) as [->|H0].
    { rewrite !decide_False; [done|..]; intros Hn; apply Hn; by eapply lineage_root. }
    destruct (defined se x) eqn:E.
    - assert (He : exact x = []) by (unfold exact; rewrite brought_S, E by done; done). rewrite He. by destruct (decide _), (decide _).
    - assert (Hi : x ∈ lineage l <-> x ∈ lineage k) by (apply H; by rewrite E). destruct (decide (x ∉ lineage l)), (decide (x ∉ lineage k)); tauto.
  Qed.
  Lemma rest_step k s a : se !! k = Some s -> parent (s_how s) = Some a -> (forall a nd, s_how s <> HDefine a nd) -> rest k = rest a.
  Proof using Hco.
    intros Hk Ha Hs. pose proof (parent_lt _ _ _ _ _ _ _ _ Hco k s a Hk Ha). apply lookup_lt_Some in Hk as Hlt. apply rest_same; [lia|done|]. intros x Hx.
    rewrite (lineage_step _ _ _ _ _ _ _ _ Hco k s a Hk Ha), elem_of_cons. split; [|by right]. intros [->|]; [|done].
    destruct Hx. by eapply defined_other.
  Qed.
  Lemma rest_define k rs a nd : se !! k = Some (Stage rs (HDefine a nd)) -> rest a ≡ₚ exact k ++ rest k.
  Proof using Hco.
    intros Hk. pose proof (parent_lt _ _ _ _ _ _ _ _ Hco k _ a Hk eq_refl) as Hlt. pose proof (lineage_step _ _ _ _ _ _ _ _ Hco k _ a Hk eq_refl) as Hl.
    apply lookup_lt_Some in Hk. unfold rest. rewrite !flat_map_filter.
    assert (Hka : k ∉ lineage a). { intros H. eapply lineage_le in H; [|done]. lia. }
    etransitivity; [apply (flat_map_take _ (fun x => if decide (x ∉ lineage k) then exact x else []) k); [done|..]|cbn beta; by rewrite decide_True].
    - rewrite decide_False; [done|]. intros H. apply H. rewrite Hl. by left.
    - intros x Hx. rewrite Hl. destruct (decide (x ∉ lineage a)) as [H1|H1], (decide (x ∉ k :: lineage a)) as [H2|H2]; try done.
      + destruct H2. rewrite elem_of_cons. by intros [].
      + destruct H1. intros H. apply H2. by right.
  Qed.
End completed.

(** * Lists of results *)
Lemma mapM_ok {A B} (f : A -> res B) l bs : mapM f l = Ok bs -> length bs = length l /\ forall p a, l !! p = Some a -> exists b, bs !! p = Some b /\ f a = Ok b.
Proof.
  revert bs. induction l as [|a l IH]; intros bs E; cbn [mapM] in E; [injection E as <-; done|].
  destruct (f a) as [b| |] eqn:Eb; [|done..]. cbn [bind] in E. destruct (mapM f l) as [bs'| |]; [|done..]. cbn [bind] in E. injection E as <-.
  destruct (IH _ eq_refl) as [Hl H]. split; [cbn; by rewrite Hl|]. intros [|p] a' Ha; cbn in Ha |- *; [injection Ha as <-; eauto|by apply H].
Qed.
Lemma imapM_ok {A B} (f : nat -> A -> res B) i l bs : imapM f i l = Ok bs -> length bs = length l /\ forall p a, l !! p = Some a -> exists b, bs !! p = Some b /\ f (i + p) a = Ok b.
Proof.
  revert i bs. induction l as [|a l IH]; intros i bs E; cbn [imapM] in E; [injection E as <-; done|].
  destruct (f i a) as [b| |] eqn:Eb; [|done..]. cbn [bind] in E. destruct (imapM f (S i) l) as [bs'| |] eqn:El; [|done..]. cbn [bind] in E. injection E as <-.
  destruct (IH _ _ El) as [Hl H]. split; [cbn; by rewrite Hl|]. intros [|p] a' Ha; cbn in Ha |- *.
  - injection Ha as <-. rewrite Nat.add_0_r. eauto.
  - replace (i + S p) with (S i + p) by lia. by apply H.
Qed.
Lemma geti_ok {A} (l : list A) i a : geti l i = Ok a <-> l !! i = Some a.
Proof. unfold geti. destruct (l !! i); naive_solver. Qed.
Lemma choose_list (Q : nat -> nat -> Prop) n : (forall N, N < n -> exists P, Q N P) -> exists φ : list nat, length φ = n /\ forall N P, φ !! N = Some P -> Q N P.
Proof.
  induction n as [|n IH]; intros H; [by exists []|]. destruct IH as (φ & Hl & Hφ); [intros N HN; apply H; lia|]. destruct (H n) as [P HP]; [lia|].
  exists (φ ++ [P]). split; [rewrite app_length; cbn; lia|]. intros N P' HN. apply lookup_app_Some in HN as [HN|[HN1 HN2]]; [by apply Hφ|].
  apply list_lookup_singleton_Some in HN2 as [HN2 <-]. by replace N with n by lia.
Qed.
Lemma find_before {B} a n (l : list B) N : N < a -> List.find (fun p => Nat.eqb (fst p) N) (combine (seq a n) l) = None.
Proof.
  revert a l. induction n as [|n IH]; intros a [|b l] H; [done..|]. cbn [seq combine List.find fst]. destruct (Nat.eqb_spec a N); [lia|]. apply IH. lia.
Qed.
Lemma find_at {B} a n (l : list B) p b : length l = n -> l !! p = Some b -> List.find (fun q => Nat.eqb (fst q) (a + p)) (combine (seq a n) l) = Some (a + p, b).
Proof.
  revert a n p. induction l as [|b' l IH]; intros a n p <- H; [done|]. cbn [length seq combine List.find fst]. destruct p as [|p]; cbn in H.
  - injection H as ->. rewrite Nat.add_0_r, Nat.eqb_refl. done.
  - destruct (Nat.eqb_spec a (a + S p)); [lia|]. replace (a + S p) with (S a + p) by lia. by apply IH.
Qed.
Lemma combine_delete {A B} i (l : list A) (l' : list B) : delete i (combine l l') = combine (delete i l) (delete i l').
Proof.
  revert i l'. induction l as [|a l IH]; intros i [|b l'].
  - by destruct i.
  - by destruct i.
  - destruct i, l; done.
  - destruct i as [|i]; [done|].
  change (delete (S i) (combine (a :: l) (b :: l'))) with ((a, b) :: delete i (combine l l')). by rewrite IH.
Qed.
Lemma delete_app_l {A} i (l l' : list A) : i < length l -> delete i (l ++ l') = delete i l ++ l'.
Proof.
  revert i. induction l as [|a l IH]; intros i H; cbn in H; [lia|]. destruct i as [|i]; [done|].
  change (delete (S i) ((a :: l) ++ l')) with (a :: delete i (l ++ l')). rewrite IH by lia. done.
Qed.

Section rules.
  Context {R : semiring} (eqr : wrule R -> wrule R -> bool) (Heq : forall r s, eqr r s = true <-> r = s).
  Lemma index_of_ok (r : wrule R) l i : index_of eqr r l = Ok i -> l !! i = Some r.
  Proof.
    revert i. induction l as [|s l IH]; intros i E; cbn [index_of] in E; [done|]. destruct (eqr s r) eqn:Es; [apply Heq in Es as ->; by injection E as <-|].
    destruct (index_of eqr r l) as [k| |]; [|done..]. cbn [bind] in E. injection E as <-. cbn. by apply IH.
  Qed.
  Context (hash : wrule R -> Z) (same : wrule R -> wrule R -> bool) (Hsame : forall r s, same r s = true -> wvariant r s).
  Lemma align_at_ok (A B : list (wrule R)) i j : align_at (align hash same A B) i = Ok j -> exists r s, A !! i = Some r /\ B !! j = Some s /\ wvariant r s.
  Proof.
    unfold align_at. destruct (List.find _ _) as [[oi oj]|] eqn:E; [|done]. destruct oj as [j'|]; [|done]. intros [= ->].
    apply find_some in E as [Hin E]. cbn in E. destruct oi as [i'|]; [|done]. apply Nat.eqb_eq in E as ->.
    apply align_go_pair in Hin as (r & s & _ & H1 & H2 & H3). rewrite Nat.sub_0_r in H1. exists r, s. rewrite <- !nth_error_lookup. eauto.
  Qed.
End rules.

(** * One step *)
Section steps.
  Context {R : semiring} (al : nat -> nat) (Hal : forall i j, al i = al j -> i = j) (minf : R) (is_one : R -> bool).
  Context (ord : list term -> list term) (is_input : term -> bool) (eqr : wrule R -> wrule R -> bool) (Heq : forall r s, eqr r s = true <-> r = s).
  Context (eqp : list (wrule R) -> list (wrule R) -> bool) (Heqp : forall P Q, eqp P Q = true -> RuleSpec.aligned wvariant P Q).
  Context (only : Prop) (base : term -> Prop) (Hc : forall x y : R, smul x y = smul y x).
  Notation stage := (stage (R := R)).
  Notation mrule := (wrule R * (Z -> Prop))%type.
  Context (se : list stage) (c : nat) (Hco : coherent al minf is_one ord is_input eqr se c) (Hreg : regular only base eqp se).
  Notation rules := (rules_of se).
  Context (V : nat -> nat -> Z) (HV : forall l p, (0 < V l p)%Z) (ρ : nat -> Z).
  Notation F := (reference se V).
  Notation completed := (completed se V ρ).
  Notation represents := (represents only base F).

  Lemma good_at k : k < length se -> forall s, s ∈ rules k -> good_rule s.
  Proof using Hco.
    intros Hk s Hs. destruct (lookup_lt_is_Some_2 _ _ Hk) as [st Hst]. rewrite (rules_of_lookup _ _ _ Hst) in Hs. destruct Hco as [_ H]. by apply (H _ _ Hst).
  Qed.
  Lemma fresh_at k : k < length se -> forall s v n, s ∈ rules k -> v ∈ wvars s -> c <= n -> v <> al n.
  Proof using Hco.
    intros Hk s v n Hs. destruct (lookup_lt_is_Some_2 _ _ Hk) as [st Hst]. rewrite (rules_of_lookup _ _ _ Hst) in Hs. destruct Hco as [_ H]. by apply (H _ _ Hst).
  Qed.
  Lemma completed_at k ms i r x : rules k !! i = Some r -> ms !! i = Some x -> completed k ms !! i = Some (r, inside ρ x).
  Proof using. intros Hr Hx. unfold SafeProofs.completed. apply lookup_app_l_Some. rewrite combine_lookup, list_lookup_fmap, Hr, Hx. done. Qed.
  Lemma completed_at' k ms i r P : length ms = length (rules k) -> i < length (rules k) -> completed k ms !! i = Some (r, P) -> rules k !! i = Some r /\ exists x, ms !! i = Some x /\ P = inside ρ x.
  Proof using.
    intros Hl Hi. unfold SafeProofs.completed. rewrite lookup_app_l by (rewrite combine_length, map_length; lia). rewrite combine_lookup, list_lookup_fmap.
    destruct (rules k !! i); [|done]. destruct (ms !! i); [|done]. cbn. intros [= <- <-]. eauto.
  Qed.

  (** what the subgoal is replaced by, seen in the completed program *)
  Lemma replaced d ms r j b us mid : d < length se -> length ms = length (rules d) -> replaceable only base se d r j -> wbody r !! j = Some (Goal b) ->
    (forall p k t, us !! p = Some (k, t) -> exists s, rules d !! k = Some s /\ length (wbody t) = j + length (wbody s) + (length (wbody r) - S j) /\
        (forall x L zs Q y, length L = j -> length zs = length (wbody s) -> inst r x (L ++ Goal y :: Q) -> inst s y zs ->
           inst t x (L ++ zs ++ Q) /\ mid p x (L ++ zs ++ Q) = y) /\
        (forall x L zs Q, length L = j -> length zs = length (wbody s) -> inst t x (L ++ zs ++ Q) ->
           inst r x (L ++ Goal (mid p x (L ++ zs ++ Q)) :: Q) /\ inst s (mid p x (L ++ zs ++ Q)) zs) /\
        (forall L vs Q k y ws, length L = j -> length vs = length (wbody s) -> length Q = length (wbody r) - S j ->
           leafy only t (L ++ vs ++ Q) <-> leafy only r (L ++ WNode k y ws :: Q) /\ leafy only s vs)) ->
    (forall k s x L y Q zs, rules d !! k = Some s -> length L = j -> inst r x (L ++ Goal y :: Q) -> inst s y zs -> k ∈ map fst us) ->
    (forall p k t, us !! p = Some (k, t) -> exists s, map fst (completed d ms) !! k = Some s /\ length (wbody t) = j + length (wbody s) + (length (wbody r) - S j) /\
        (forall x L zs Q y, length L = j -> length zs = length (wbody s) -> inst r x (L ++ Goal y :: Q) -> inst s y zs ->
           inst t x (L ++ zs ++ Q) /\ mid p x (L ++ zs ++ Q) = y) /\
        (forall x L zs Q, length L = j -> length zs = length (wbody s) -> inst t x (L ++ zs ++ Q) ->
           inst r x (L ++ Goal (mid p x (L ++ zs ++ Q)) :: Q) /\ inst s (mid p x (L ++ zs ++ Q)) zs) /\
        (forall L vs Q k y ws, length L = j -> length vs = length (wbody s) -> length Q = length (wbody r) - S j ->
           leafy only t (L ++ vs ++ Q) <-> leafy only r (L ++ WNode k y ws :: Q) /\ leafy only s vs)) /\
    (forall k s x L y Q zs, map fst (completed d ms) !! k = Some s -> length L = j -> inst r x (L ++ Goal y :: Q) -> inst s y zs -> k ∈ map fst us).
  Proof using Hco.
    intros Hd Hl (b' & Hb' & _ & _ & _ & Hfree) Hb HA HB. rewrite Hb' in Hb. injection Hb as ->. rewrite (completed_fst _ _ _ _ _ _ _ _ Hco) by done. split.
    - intros p k t Hp. destruct (HA p k t Hp) as (s & Hs & H). exists s. split; [by apply lookup_app_l_Some|done].
    - intros k s x L y Q zs Hk HL Hr Hs. apply lookup_app_Some in Hk as [Hk|[_ Hk]]; [by eapply HB|]. exfalso.
      destruct Hr as (σ & _ & _ & E). destruct Hs as (τ & _ & E' & _). eapply (Hfree s); [by eapply elem_of_list_lookup_2|]. instantiate (1 := τ). instantiate (1 := σ).
      rewrite E'. assert (E2 : (map (fsub σ) (wbody r)) !! j = Some (Goal (sub σ b))) by (rewrite list_lookup_fmap, Hb'; done).
      rewrite E in E2. rewrite lookup_app_r in E2 by lia. rewrite HL, Nat.sub_diag in E2. cbn in E2. by injection E2 as ->.
  Qed.

  Lemma unfold_represents k rs a i j d ix ma md ms : se !! k = Some (Stage rs (HUnfold a i j d ix)) ->
    length ma = length (rules a) -> length md = length (rules d) -> length ms = length rs ->
    (forall N s, rs !! N = Some s -> match List.find (fun p => Nat.eqb (fst p) N) ix with
       | Some (_, D) => exists x y, ma !! i = Some x /\ md !! D = Some y /\ ms !! N = Some (unfold_measure x y)
       | None => exists P x, rules a !! P = Some s /\ ma !! P = Some x /\ ms !! N = Some x
       end) ->
    represents (completed a ma) -> represents (completed d md) -> represents (completed k ms).
  Proof using Hco Hreg Hc Hal Heq.
    intros Hk Hla Hld Hlm HM Ra Rd. destruct Hco as [_ Hst]. destruct (Hst _ _ Hk) as [_ Hcm]. cbn in Hcm. destruct Hcm as (Hk0 & Hak & Hdk & n & c1 & c2 & E & Hu & Hq).
    pose proof (lookup_lt_Some _ _ _ Hk) as Hkl. destruct (reg_unfold _ _ _ _ Hreg _ _ _ _ _ _ _ Hk) as (r & Hr & Hrep). destruct Hrep as (b & Hb & Hbase & Hkept & Hvk & Hfree) eqn:Erep. clear Erep.
    destruct (unfold_shape al Hal minf is_one ord is_input eqr Heq only n i j (rules d) (rules a) c1 r b rs ix c2) as (i' & us & mid & Hi' & -> & -> & HN & HA & HB); try done.
    { apply good_at. lia. }
    { by eapply Hq. }
    { intros v n' Hv. eapply (proj2 Hu); [|done]. by eapply elem_of_list_lookup_2. }
    assert (i' = i) as -> by (by eapply distinct_eq; [apply (reg_distinct _ _ _ _ Hreg a)|..]).
    assert (Hx : exists x, ma !! i = Some x). { apply lookup_lt_is_Some_2. rewrite Hla. by eapply lookup_lt_Some. } destruct Hx as [x Hx].
    set (L0 := length (delete i (rules a))) in *.
    assert (Hlus : length ms = L0 + length us). { rewrite Hlm, app_length, map_length. done. }
    set (Ns := map (inside ρ) (drop L0 ms)).
    destruct (replaced d md r j b us mid) as [HA' HB']; try done; [lia|].
    assert (Hws : completed k ms ≡ₚ delete i (completed a ma) ++ combine (map snd us) Ns).
    { unfold SafeProofs.completed. rewrite (rules_of_lookup _ _ _ Hk). cbn [s_rules].
      rewrite <- (take_drop L0 ms) at 1. rewrite (map_app (inside ρ)), combine_app' by (rewrite map_length, take_length; lia).
      rewrite delete_app_l by (rewrite combine_length, map_length; apply lookup_lt_Some in Hr; lia). rewrite combine_delete.
      rewrite (rest_step _ _ _ _ _ _ _ _ Hco V k _ a Hk eq_refl) by done.
      assert (Et : map (inside ρ) (take L0 ms) = delete i (map (inside ρ) ma)).
      { rewrite <- (list_fmap_delete (inside ρ)). f_equal. apply list_eq_same_length with (n := L0).
        - unfold L0. rewrite !length_delete by (rewrite ?Hx; eauto). by rewrite Hla.
        - rewrite take_length. lia.
        - intros N y1 y2 HN1 Hy1 Hy2. rewrite lookup_take in Hy1 by done.
          assert (HN2 : exists s, delete i (rules a) !! N = Some s) by (by apply lookup_lt_is_Some_2). destruct HN2 as [s Hs].
          specialize (HM N s). rewrite find_before in HM by done. destruct HM as (P & x' & HP & Hx' & Hm).
          { by apply lookup_app_l_Some. }
          rewrite Hy1 in Hm. injection Hm as ->. destruct (decide (N < i)) as [Hlt|Hge].
          + rewrite lookup_delete_lt in Hs by done. rewrite lookup_delete_lt in Hy2 by done. rewrite (distinct_eq (rules a) P N s) in Hx'; [congruence|apply (reg_distinct _ _ _ _ Hreg a)|done|done].
          + rewrite lookup_delete_ge in Hs by lia. rewrite lookup_delete_ge in Hy2 by lia. rewrite (distinct_eq (rules a) P (S N) s) in Hx'; [congruence|apply (reg_distinct _ _ _ _ Hreg a)|done|done]. }
      rewrite Et. fold Ns. rewrite <- !app_assoc. apply Permutation_app_head. apply Permutation_app_comm. }
    destruct Ra as (f & g & Hi & Hs). destruct Rd as (f2 & g2 & Hi2 & Hs2).
    assert (Rw : represents (delete i (completed a ma) ++ combine (map snd us) Ns)).
    { eapply represents_step; [exact Hi|].
      eapply (unfold_steps only base (completed a ma) (completed d md) i j r (inside ρ x) us Ns mid) with (a := fun t => g2 (f t)) (a' := fun t => g (f2 t)) (μq := fun t => size F (f2 t)); try done.
      - by apply completed_at.
      - by apply lookup_lt_Some in Hb.
      - unfold Ns. rewrite map_length, drop_length. lia.
      - by eapply goal_shape.
      - eapply iso_trans; [exact Hi|]. apply iso_sym. exact Hi2.
      - intros t Ht. cbn beta. destruct Hi as (I1 & I2 & _). destruct Hi2 as (J1 & J2 & _). destruct (I1 t Ht) as (A1 & _). destruct (J2 _ A1) as [_ A2]. by rewrite A2.
      - intros pp k' t S s Q z1 z2 Hp HS HQ Hz1 Hz2. unfold Ns in HS. rewrite list_lookup_fmap, lookup_drop in HS.
        destruct (HA _ _ _ Hp) as (s' & Hs' & _). apply completed_at' in HQ as (_ & y & Hy & ->); [|done|by eapply lookup_lt_Some].
        assert (Hft : List.find (fun p => Nat.eqb (fst p) (L0 + pp)) (combine (seq L0 (length us)) (map fst us)) = Some (L0 + pp, k')).
        { apply find_at; [by rewrite map_length|]. by rewrite list_lookup_fmap, Hp. }
        destruct (ms !! (L0 + pp)) as [x'|] eqn:Ex; [|done]. cbn in HS. injection HS as <-.
        specialize (HM (L0 + pp) t). rewrite Hft in HM. destruct HM as (x1 & y1 & Hx1 & Hy1 & Hm).
        { rewrite lookup_app_r by (fold L0; lia). fold L0. replace (L0 + pp - L0) with pp by lia. by rewrite list_lookup_fmap, Hp. }
        rewrite Hx in Hx1. injection Hx1 as <-. rewrite Hy in Hy1. injection Hy1 as <-. rewrite Ex in Hm. injection Hm as ->.
        by apply iadd_inside. }
    eapply represents_perm; [done|exact Rw|symmetry; exact Hws|]. apply Forall_Forall2_diag, Forall_forall. intros ? _. apply weaker_refl.
  Qed.

  Lemma min_size_le (fs : list (factor R)) : (min_size (goals fs) <= Z.of_nat (length fs))%Z.
  Proof using.
    unfold min_size. assert (H : forall (gs : list term) z, (fold_left (fun n x => n + (if exo x then 0 else 1)) gs z <= z + Z.of_nat (length gs))%Z).
    { intros gs. induction gs as [|g gs IH]; intros z; cbn [fold_left length]; [lia|]. specialize (IH (z + (if exo g then 0 else 1))%Z). destruct (exo g); lia. }
    specialize (H (goals fs) 0%Z). assert (length (goals fs) <= length fs). { clear. induction fs as [|[v|b] fs IH]; cbn; [done|unfold goals in IH; lia|unfold goals in IH; cbn; lia]. } lia.
  Qed.

  Context (hash : wrule R -> Z) (same : wrule R -> wrule R -> bool) (Hsame : forall r s, same r s = true -> wvariant r s).
  Context (folds_by : wrule R -> wrule R -> list (list (factor R)))
    (Hfolds : forall P D fs, fs ∈ folds_by P D -> length fs + length (wbody D) = length (wbody P)).

  Lemma fold_represents k r tl a j d n u ix c' ma md (prs : list (interval * interval * list (factor R))) mr ms : se !! k = Some (Stage (r :: tl) (HFold a j d)) ->
    length ma = length (rules a) -> length md = length (rules d) -> length ms = S (length tl) ->
    unfold_by al ord is_input minf is_one eqr n 0 j (rules d) (r :: tl) c = Ok (u, ix, c') -> eqp (rules a) u = true ->
    length prs = length ix ->
    (forall p N D, ix !! p = Some (N, D) -> exists P rP rD x y fs, align_at (align hash same u (rules a)) N = Ok P /\ rules a !! P = Some rP /\ rules d !! D = Some rD /\
       ma !! P = Some x /\ md !! D = Some y /\ fs ∈ folds_by rP rD /\ prs !! p = Some (x, y, fs) /\ (0 < beval ρ (fold_condition x y [] (goals fs)))%Z) ->
    fold_measure (map fst prs) = Ok mr -> ms !! 0 = Some mr ->
    (forall N s, tl !! N = Some s -> exists P x, rules a !! P = Some s /\ ma !! P = Some x /\ ms !! (S N) = Some x) ->
    represents (completed a ma) -> represents (completed d md) -> represents (completed k ms).
  Proof using Hco Hreg Hc Hal Heq Heqp Hsame Hfolds.
    intros Hk Hla Hld Hlm E Ee Hlp HP Hmr Hm0 HM Ra Rd. destruct Hco as [_ Hst]. destruct (Hst _ _ Hk) as [[Hug Huf] Hcm]. cbn in Hcm. destruct Hcm as (Hk0 & Hak & Hdk & r' & tl' & [= <- <-] & Hq).
    pose proof (lookup_lt_Some _ _ _ Hk) as Hkl. pose proof (reg_fold _ _ _ _ Hreg _ _ _ _ _ _ Hk) as Hrep. destruct Hrep as (b & Hb & Hbase & Hkept & Hvk & Hfree) eqn:Erep. clear Erep.
    destruct (unfold_shape al Hal minf is_one ord is_input eqr Heq only n 0 j (rules d) (r :: tl) c r b u ix c') as (i' & us & mid & Hi' & -> & -> & HN & HA & HB); try done.
    { apply good_at. lia. }
    { by eapply Hq. }
    { intros v n' Hv. eapply Huf; [|done]. by left. }
    assert (i' = 0) as ->. { eapply distinct_eq; [|exact Hi'|done]. pose proof (reg_distinct _ _ _ _ Hreg k) as Hd. by rewrite (rules_of_lookup _ _ _ Hk) in Hd. }
    cbn [delete list_delete] in *. set (L0 := length tl) in *.
    assert (Hlus : length prs = length us). { rewrite Hlp, combine_length, seq_length, map_length. lia. }
    assert (Hix : forall pp k' t, us !! pp = Some (k', t) -> combine (seq L0 (length us)) (map fst us) !! pp = Some (L0 + pp, k')).
    { intros pp k' t Hp. rewrite combine_lookup, list_lookup_fmap, Hp, lookup_seq_lt; [done|by eapply lookup_lt_Some]. }
    set (Ns := map (fun p => inside ρ (fst (fst p))) prs).
    assert (Hms : exists T, ms = mr :: T). { destruct ms as [|m T]; [done|]. injection Hm0 as ->. by exists T. } destruct Hms as [T ->]. cbn in Hlm. injection Hlm as HlT.
    set (ps := completed k (mr :: T)).
    assert (Hps : ps = (r, inside ρ mr) :: combine tl (map (inside ρ) T) ++ rest se V a).
    { unfold ps, SafeProofs.completed. rewrite (rules_of_lookup _ _ _ Hk). cbn. do 2 f_equal. by apply (rest_step _ _ _ _ _ _ _ _ Hco V k _ a Hk eq_refl). }
    destruct (replaced d md r j b us mid) as [HA' HB']; try done; [lia|].
    pose proof (Heqp _ _ Ee) as Hal'. pose proof (aligned_length _ _ Hal') as Hlen. pose proof (distinct_aligned _ _ Hal' (reg_distinct _ _ _ _ Hreg a)) as Hdu.
    assert (Hchoose : exists φ : list nat, length φ = length (tl ++ map snd us) /\ forall N P, φ !! N = Some P ->
      exists rP s x X, rules a !! P = Some rP /\ ma !! P = Some x /\ (tl ++ map snd us) !! N = Some s /\ wvariant rP s /\
        (map (inside ρ) T ++ Ns) !! N = Some X /\ X = inside ρ x).
    { apply choose_list. intros N HNl. destruct (decide (N < L0)) as [Hlt|Hge].
      - destruct (lookup_lt_is_Some_2 _ _ Hlt) as [s Hs]. destruct (HM _ _ Hs) as (P & x & H1 & H2 & H3). change (T !! N = Some x) in H3. exists P, s, s, x, (inside ρ x).
        split; [done|]. split; [done|]. split; [by apply lookup_app_l_Some|]. split; [apply wvariant_refl|]. split; [|done].
        rewrite lookup_app_l by (rewrite map_length; lia). by rewrite list_lookup_fmap, H3.
      - rewrite app_length, map_length in HNl. fold L0 in HNl. assert (Hus : N - L0 < length us) by lia. destruct (lookup_lt_is_Some_2 _ _ Hus) as [[k' t] Hp].
        destruct (HP _ _ _ (Hix _ _ _ Hp)) as (P & rP & rD & x & y & fs & H1 & H2 & H3 & H4 & H5 & H6 & H7 & H8).
        apply (align_at_ok hash same Hsame) in H1 as (t' & rP' & H1 & H1' & Hv). rewrite H2 in H1'. injection H1' as <-. replace (L0 + (N - L0)) with N in H1 by lia.
        exists P, rP, t', x, (inside ρ x). split; [done|]. split; [done|]. split; [done|]. split; [by apply wvariant_sym|]. split; [|done].
        rewrite lookup_app_r by (rewrite map_length; lia). rewrite map_length, HlT. fold L0. unfold Ns. rewrite list_lookup_fmap, H7. done. }
    destruct Hchoose as (φ & Hφl & Hφ).
    set (A := combine (rules a) (map (inside ρ) ma)).
    assert (HAl : length A = length (rules a)) by (unfold A; rewrite combine_length, map_length; lia).
    assert (Hrefl : forall l : list mrule, Forall2 weaker l l) by (intros l; apply Forall_Forall2_diag, Forall_forall; intros ? _; apply weaker_refl).
    assert (R1 : represents (combine (tl ++ map snd us) (map (inside ρ) T ++ Ns) ++ rest se V a)).
    { eapply represents_perm; [done|exact Ra| |].
      - unfold SafeProofs.completed. fold A. apply Permutation_app_tail. apply (matched A (tl ++ map snd us) φ); [by rewrite HAl|done|done|].
        intros N P s HN1 HN2. destruct (Hφ _ _ HN1) as (rP & s' & x & X & H1 & H2 & H3 & H4 & _). exists rP, (inside ρ x). split; [|congruence].
        unfold A. by rewrite combine_lookup, list_lookup_fmap, H1, H2.
      - apply Forall2_app; [|apply Hrefl].
        apply Forall2_same_length_lookup_2.
        { rewrite map_length, combine_length, !app_length, !map_length. unfold Ns. rewrite map_length. rewrite app_length, map_length in Hφl. lia. }
        intros N p q Hp Hq'. rewrite list_lookup_fmap in Hp. destruct (φ !! N) as [P|] eqn:EP; [|done]. cbn in Hp. injection Hp as <-.
        destruct (Hφ _ _ EP) as (rP & s' & x & X & H1 & H2 & H3 & H4 & H5 & ->). rewrite combine_lookup, H3, H5 in Hq'. injection Hq' as <-.
        assert (HAP : A !! P = Some (rP, inside ρ x)) by (unfold A; by rewrite combine_lookup, list_lookup_fmap, H1, H2). rewrite HAP. done. }
    assert (Rw : represents (delete 0 ps ++ combine (map snd us) Ns)).
    { eapply represents_perm; [done|exact R1| |apply Hrefl]. rewrite Hps. cbn [delete list_delete]. rewrite combine_app' by (rewrite map_length; lia).
      rewrite <- !app_assoc. apply Permutation_app_head. apply Permutation_app_comm. }
    destruct Rw as (f & g & Hi & Hs). destruct Rd as (f2 & g2 & Hi2 & Hs2). fold ps.
    eapply represents_step; [exact Hi|].
    eapply (fold_steps only base ps (completed d md) 0 j r (inside ρ mr) us Ns mid) with (a := fun t => g2 (f t)) (a' := fun t => g (f2 t)) (μq := fun t => size F (f2 t)); try done.
    - by rewrite Hps.
    - by apply lookup_lt_Some in Hb.
    - unfold Ns. by rewrite map_length.
    - by eapply goal_shape.
    - eapply iso_trans; [exact Hi|]. apply iso_sym. exact Hi2.
    - intros t Ht. cbn beta. destruct Hi as (I1 & I2 & _). destruct Hi2 as (J1 & J2 & _). destruct (I1 t Ht) as (A1 & _). destruct (J2 _ A1) as [_ A2]. by rewrite A2.
    - intros pp k' t S s Q z1 z2 Hp HS HQ Hz1 Hz2. destruct (HA _ _ _ Hp) as (s' & Hs' & Hlt & _).
      apply completed_at' in HQ as (Hs'' & y & Hy & ->); [|done|by eapply lookup_lt_Some]. rewrite Hs'' in Hs'. injection Hs' as <-.
      destruct (HP _ _ _ (Hix _ _ _ Hp)) as (P & rP & rD & x & y' & fs & H1 & H2 & H3 & H4 & H5 & H6 & H7 & H8).
      rewrite Hs'' in H3. injection H3 as <-. rewrite Hy in H5. injection H5 as <-.
      unfold Ns in HS. rewrite list_lookup_fmap, H7 in HS. cbn in HS. injection HS as <-.
      apply (align_at_ok hash same Hsame) in H1 as (t' & rP' & H1 & H1' & Hv). rewrite H2 in H1'. injection H1' as <-.
      rewrite lookup_app_r in H1 by (fold L0; lia). fold L0 in H1. replace (L0 + pp - L0) with pp in H1 by lia. rewrite list_lookup_fmap, Hp in H1. cbn in H1. injection H1 as <-.
      apply wvariant_length in Hv. apply Hfolds in H6. pose proof (min_size_le fs) as Hmin.
      pose proof (proj2 (C39_conditions ρ x y [] (goals fs) z1 z2 Hz1 Hz2) H8) as Hpos. change (min_size []) with 0%Z in Hpos. split; [lia|].
      destruct (proj2 (C39_fold_unfold ρ) (map fst prs)) as (m & Em & Hm).
      { intros E0. apply map_eq_nil in E0. by rewrite E0 in H7. }
      rewrite Hmr in Em. injection Em as <-. apply (Hm x y); [|done|done]. apply elem_of_list_In, elem_of_list_fmap. exists (x, y, fs). split; [done|]. by eapply elem_of_list_lookup_2.
  Qed.

  Lemma define_represents k rs a nd ma (bs : list bound) : se !! k = Some (Stage rs (HDefine a nd)) ->
    length ma = length (rules a) -> length bs = nd -> (forall p b, bs !! p = Some b -> V k p = beval ρ b) ->
    represents (completed a ma) -> represents (completed k (ma ++ map point bs)).
  Proof using Hco Hc.
    intros Hk Hla Hlb HVk Ra. destruct (defined_define _ _ _ _ _ _ _ _ Hco k rs a nd Hk) as [Hrs Hnd].
    assert (Hk0 : k <> 0). { pose proof (parent_lt _ _ _ _ _ _ _ _ Hco k _ a Hk eq_refl). lia. }
    eapply represents_perm; [done|exact Ra| |].
    - unfold SafeProofs.completed. rewrite (rest_define _ _ _ _ _ _ _ _ Hco V k rs a nd Hk), app_assoc. reflexivity.
    - unfold SafeProofs.completed. rewrite (rules_of_lookup _ _ _ Hk). cbn [s_rules]. rewrite Hrs, (map_app (inside ρ)), combine_app' by (rewrite map_length; lia).
      apply Forall2_app; [apply Forall2_app|]; [apply Forall_Forall2_diag, Forall_forall; intros ? _; apply weaker_refl| |apply Forall_Forall2_diag, Forall_forall; intros ? _; apply weaker_refl].
      unfold exact. rewrite (brought_S _ _ _ _ _ _ _ _ Hco k Hk0). apply Forall2_same_length_lookup_2.
      { rewrite !combine_length, !map_length, seq_length. lia. }
      intros p q q' Hq Hq'. rewrite combine_lookup in Hq, Hq'. destruct (defined se k !! p) as [r|] eqn:Er; [|done].
      rewrite list_lookup_fmap, lookup_seq_lt in Hq by (by eapply lookup_lt_Some). cbn in Hq. injection Hq as <-.
      rewrite map_map, list_lookup_fmap in Hq'. destruct (bs !! p) as [b|] eqn:Eb; [|done]. cbn in Hq'. injection Hq' as <-.
      split; [apply wvariant_refl|]. cbn. intros z <-. rewrite (HVk p b Eb). split; cbn; lia.
  Qed.

  Lemma align_represents k l ml mk : k < length se -> l < length se -> eqp (rules l) (rules k) = true -> length ml = length (rules l) -> length mk = length (rules k) ->
    (forall i y, mk !! i = Some y -> exists j, align_at (align hash same (rules k) (rules l)) i = Ok j /\ ml !! j = Some y) ->
    represents (completed l ml) -> represents (completed k mk).
  Proof using Hco Hreg Hc Heqp Hsame.
    intros Hk Hl Ee Hll Hlk HM Rl. pose proof (Heqp _ _ Ee) as Hal'. pose proof (aligned_length _ _ Hal') as Hlen.
    set (A := combine (rules l) (map (inside ρ) ml)).
    assert (HAl : length A = length (rules l)) by (unfold A; rewrite combine_length, map_length; lia).
    assert (Hchoose : exists φ : list nat, length φ = length (rules k) /\ forall i j, φ !! i = Some j -> exists s r y, rules k !! i = Some s /\ mk !! i = Some y /\ A !! j = Some (r, inside ρ y) /\ wvariant r s).
    { apply choose_list. intros i Hi. destruct (lookup_lt_is_Some_2 mk i) as [y Hy]; [lia|]. destruct (HM _ _ Hy) as (j & Hj & Hy'). exists j.
      apply (align_at_ok hash same Hsame) in Hj as (s & r & H1 & H2 & Hv). exists s, r, y. split; [done|]. split; [done|]. split; [|by apply wvariant_sym].
      unfold A. by rewrite combine_lookup, list_lookup_fmap, H2, Hy'. }
    destruct Hchoose as (φ & Hφl & Hφ).
    eapply represents_perm; [done|exact Rl| |].
    - unfold SafeProofs.completed. fold A. apply Permutation_app_tail. apply (matched A (rules k) φ); [by rewrite HAl|apply (reg_distinct _ _ _ _ Hreg)|done|].
      intros i j s Hi Hs. destruct (Hφ _ _ Hi) as (s' & r & y & H1 & H2 & H3 & H4). exists r, (inside ρ y). split; [done|congruence].
    - unfold SafeProofs.completed. rewrite (rest_same _ _ _ _ _ _ _ _ Hco V k l); [|done|done|by apply (reg_same _ _ _ _ Hreg)].
      apply Forall2_app; [|apply Forall_Forall2_diag, Forall_forall; intros ? _; apply weaker_refl].
      apply Forall2_same_length_lookup_2.
      { rewrite map_length, combine_length, map_length. lia. }
      intros i p q Hp Hq. rewrite list_lookup_fmap in Hp. destruct (φ !! i) as [j|] eqn:Ej; [|done]. cbn in Hp. injection Hp as <-.
      destruct (Hφ _ _ Ej) as (s & r & y & H1 & H2 & H3 & H4). rewrite combine_lookup, list_lookup_fmap, H1, H2 in Hq. injection Hq as <-. rewrite H3. done.
  Qed.
End steps.

(** * The measure *)
Lemma new_vars_ok symb k v bs cs v' : new_vars symb k v = (bs, cs, v') -> length bs = k /\ forall ρ, Forall (holds ρ) cs -> Forall (fun b => 0 < beval ρ b)%Z bs.
Proof.
  revert v bs cs v'. induction k as [|k IH]; intros v bs cs v' E; cbn [new_vars] in E; [injection E as <- <- <-; split; [done|constructor]|].
  destruct symb.
  - destruct (new_vars true k (S v)) as [[bs' cs'] v''] eqn:En. injection E as <- <- <-. destruct (IH _ _ _ _ En) as [Hl H]. split; [cbn; by rewrite Hl|].
    intros ρ Hcs. cbn [app] in Hcs. inversion_clear Hcs as [|? ? H1 H2]. constructor; [done|by apply H].
  - destruct (new_vars false k v) as [[bs' cs'] v''] eqn:En. injection E as <- <- <-. destruct (IH _ _ _ _ En) as [Hl H]. split; [cbn; by rewrite Hl|].
    intros ρ Hcs. constructor; [done|by apply H].
Qed.

Section measures.
  Context {R : semiring} (al : nat -> nat) (Hal : forall i j, al i = al j -> i = j) (minf : R) (is_one : R -> bool).
  Context (ord : list term -> list term) (is_input : term -> bool) (eqr : wrule R -> wrule R -> bool) (Heq : forall r s, eqr r s = true <-> r = s).
  Context (eqp : list (wrule R) -> list (wrule R) -> bool) (Heqp : forall P Q, eqp P Q = true -> RuleSpec.aligned wvariant P Q).
  Context (hash : wrule R -> Z) (same : wrule R -> wrule R -> bool) (Hsame : forall r s, same r s = true -> wvariant r s).
  Context (folds_by : wrule R -> wrule R -> list (list (factor R)))
    (Hfolds : forall P D fs, fs ∈ folds_by P D -> length fs + length (wbody D) = length (wbody P)).
  Context (symb : bool).
  Context (only : Prop) (base : term -> Prop) (Hc : forall x y : R, smul x y = smul y x).
  Notation stage := (stage (R := R)).
  Context (se : list stage) (c : nat) (Hco : coherent al minf is_one ord is_input eqr se c) (Hreg : regular only base eqp se).
  Notation rules := (rules_of se).
  Notation measure := (measure al ord is_input minf is_one eqr eqp hash same folds_by symb se c).

  (** [dv]: the sizes that were given to the rules of the definitions (and of the root) *)
  Notation sizes := (nat -> option (list bound)).
  Definition agree (ρ : nat -> Z) (dv : sizes) (T : list nat) (V : nat -> nat -> Z) : Prop :=
    forall t bs p b, t ∈ T -> dv t = Some bs -> bs !! p = Some b -> V t p = beval ρ b.
  Definition sound (dv : sizes) (k : nat) (m : msafe) : Prop :=
    length (fst m) = length (rules k) /\ exists T, (forall t, t ∈ T -> is_Some (dv t)) /\
      forall ρ, Forall (holds ρ) (snd m) -> (forall t bs, t ∈ T -> dv t = Some bs -> Forall (fun b => 0 < beval ρ b)%Z bs) /\
        forall V, (forall l p, 0 < V l p)%Z -> agree ρ dv T V -> represents only base (reference se V) (completed se V ρ k (fst m)).
  Definition keeps (dv : sizes) (st : mstate) : Prop :=
    (forall l m, (l, m) ∈ ms_cache st -> l < length se /\ sound dv l m) /\ (forall l bs, dv l = Some bs -> exists m, (l, m) ∈ ms_cache st).
  Definition grows (dv dv' : sizes) : Prop := forall l bs, dv l = Some bs -> dv' l = Some bs.

  Lemma sound_grows dv dv' k m : grows dv dv' -> sound dv k m -> sound dv' k m.
  Proof using.
    intros Hg (Hl & T & HT & H). split; [done|]. exists T. split; [intros t Ht; destruct (HT t Ht) as [bs Hbs]; exists bs; by apply Hg|].
    intros ρ Hρ. destruct (H ρ Hρ) as [H1 H2]. split.
    - intros t bs Ht Hbs. destruct (HT t Ht) as [bs' Hbs']. pose proof (Hg _ _ Hbs') as E. rewrite Hbs in E. injection E as <-. by eapply H1.
    - intros V HV Ha. apply H2; [done|]. intros t bs p b Ht Hbs Hb. eapply Ha; [exact Ht|by apply Hg|done].
  Qed.
  Lemma sound_zero dv k s : se !! k = Some s -> sound dv k (zero_measure (s_rules s)).
  Proof using.
    intros Hk. split; [cbn; rewrite repeat_length, (rules_of_lookup _ _ _ Hk); done|]. exists []. split; [by intros t ?%elem_of_nil|].
    intros ρ Hρ. cbn in Hρ. inversion_clear Hρ as [|? ? H ?]. by destruct H.
  Qed.

  Definition fine (f n : nat) : Prop := forall k st m st' dv, keeps dv st -> measure f n k st = Ok (m, st') ->
    exists dv', grows dv dv' /\ keeps dv' st' /\ sound dv' k m /\ (forall l m', (l, m') ∈ ms_cache st' -> l <= k \/ exists m', (l, m') ∈ ms_cache st).

  Lemma measure_fine n f : fine f n.
  Proof using Hco Hreg Hc Hal Heq Heqp Hsame Hfolds.
    induction f as [|f IH]; intros k st m st' dv Hkeep E; [done|]. cbn [SafeModel.measure] in E.
    destruct (se !! k) as [s|] eqn:Hk; [|done]. pose proof (lookup_lt_Some _ _ _ Hk) as Hkl.
    destruct (cached eqp se k st) as [[l ml]|] eqn:Ec.
    - (* cached *)
      unfold cached in Ec. apply find_some in Ec as [Hin Ee]. cbn [fst] in Ee. apply elem_of_list_In in Hin. destruct (proj1 Hkeep _ _ Hin) as [Hll Hs].
      destruct (Nat.eqb_spec l k) as [->|Hlk].
      + injection E as <- <-. exists dv. split; [by intros ? ?|]. split; [done|]. split; [done|]. intros l' m' H. right. eauto.
      + cbn in Ee. destruct (align_measure hash same (s_rules s) (rules l) ml) as [m2| |] eqn:Ea; [|done..]. cbn [bind] in E. injection E as <- <-.
        exists dv. split; [by intros ? ?|]. split; [done|]. split; [|intros l' m' H; right; eauto].
        unfold align_measure in Ea. destruct (mapM _ _) as [ms| |] eqn:Em; [|done..]. cbn [bind] in Ea. injection Ea as <-.
        rewrite <- (rules_of_lookup _ _ _ Hk) in Em. apply mapM_ok in Em as [Hlm Hm]. rewrite seq_length in Hlm.
        destruct Hs as (Hl & T & HT & H). split; [done|]. exists T. split; [done|]. intros ρ Hρ. destruct (H ρ Hρ) as [H1 H2]. split; [done|].
        intros V HV Ha. eapply (align_represents al minf is_one ord is_input eqr eqp Heqp only base Hc se c Hco Hreg V ρ hash same Hsame k l (fst ml) ms); [done..| |by apply H2].
        intros i y Hy. destruct (Hm i i) as (y' & Hy' & E); [apply lookup_seq; apply lookup_lt_Some in Hy; cbn in Hy; lia|]. cbn [fst] in Hy. rewrite Hy in Hy'. injection Hy' as <-.
        destruct (align_at _ i) as [j| |]; [|done..]. cbn [bind] in E. apply geti_ok in E. eauto.
    - (* computed *)
      assert (Hnew : forall m', (k, m') ∉ ms_cache st).
      { intros m' Hin. unfold cached in Ec. apply elem_of_list_In in Hin. apply (find_none _ _ Ec) in Hin. cbn in Hin. by rewrite Nat.eqb_refl in Hin. }
      match type of E with bind ?X _ = _ => destruct X as [[m1 st1]| |] eqn:Em; [|done..] end. cbn [bind] in E. injection E as <- <-.
      assert (Hone : exists dv', grows dv dv' /\ (forall l bs, dv' l = Some bs -> l = k \/ exists m, (l, m) ∈ ms_cache st1) /\
        (forall l m, (l, m) ∈ ms_cache st1 -> l < length se /\ sound dv' l m) /\ sound dv' k m1 /\ (forall l m', (l, m') ∈ ms_cache st1 -> l < k \/ exists m', (l, m') ∈ ms_cache st)).
      { pose proof (proj2 Hco _ _ Hk) as [_ Hcm]. unfold came in Hcm.
        assert (Hzero : exists dv', grows dv dv' /\ (forall l bs, dv' l = Some bs -> l = k \/ exists m, (l, m) ∈ ms_cache st) /\
          (forall l m, (l, m) ∈ ms_cache st -> l < length se /\ sound dv' l m) /\ sound dv' k (zero_measure (s_rules s)) /\ (forall l m', (l, m') ∈ ms_cache st -> l < k \/ exists m', (l, m') ∈ ms_cache st)).
        { exists dv. split; [by intros ? ?|]. split; [intros l bs Hl; right; by eapply Hkeep|]. split; [apply Hkeep|]. split; [by apply sound_zero|]. eauto. }
        destruct (s_how s) as [|a nd|a i j d ix|a j d] eqn:Eh.
        - injection Em as <- <-. exact Hzero.
        - (* Define *)
          destruct Hcm as (_ & Hak & _).
          destruct (negb _); [done|]. destruct (measure f n a st) as [[mp st2]| |] eqn:Ea; [|done..]. cbn [bind] in Em.
          destruct (new_vars symb nd (ms_var st2)) as [[bs cs] v'] eqn:En. injection Em as <- <-. cbn [ms_cache].
          destruct (IH _ _ _ _ _ Hkeep Ea) as (dv1 & Hg1 & Hk1 & Hs1 & Hw1). apply new_vars_ok in En as [Hlb Hpos].
          assert (Hdk : dv1 k = None).
          { destruct (dv1 k) as [bs'|] eqn:E; [|done]. destruct (proj2 Hk1 _ _ E) as [m' Hm']. destruct (Hw1 _ _ Hm') as [|[m'' Hm'']]; [lia|]. by destruct (Hnew m''). }
          set (dv2 := fun l => if decide (l = k) then Some bs else dv1 l).
          assert (Hg2 : grows dv1 dv2). { intros l bs' Hl. unfold dv2. case_decide; [subst; congruence|done]. }
          exists dv2. split; [intros l bs' Hl; by apply Hg2, Hg1|]. split; [|split; [|split]].
          + intros l bs'. unfold dv2. case_decide; [by left|]. intros Hl. right. by eapply Hk1.
          + intros l m' Hin. destruct (proj1 Hk1 _ _ Hin) as [H1 H2]. split; [done|]. by eapply sound_grows.
          + destruct (sound_grows _ _ _ _ Hg2 Hs1) as (Hl & T & HT & H).
            destruct s as [rs h]. cbn in Eh. subst h. destruct (defined_define _ _ _ _ _ _ _ _ Hco k rs a nd Hk) as [Hrs Hnd].
            split. { cbn [fst]. rewrite app_length, map_length, Hl, (rules_of_lookup _ _ _ Hk). cbn [s_rules]. rewrite Hrs, app_length. lia. }
            exists (k :: T). split.
            { intros t Ht. apply elem_of_cons in Ht as [->|Ht]; [|by apply HT]. unfold dv2. rewrite decide_True by done. eauto. }
            cbn [snd fst]. intros ρ Hρ. apply Forall_app in Hρ as [Hρ1 Hρ2]. destruct (H ρ Hρ1) as [H1 H2]. split.
            * intros t bs' Ht. apply elem_of_cons in Ht as [->|Ht]; [|by apply H1]. unfold dv2. rewrite decide_True by done. intros [= <-]. by apply Hpos.
            * intros V HV Hag. eapply (define_represents al minf is_one ord is_input eqr only base Hc se c Hco V ρ k rs a nd (fst mp) bs); [done|done|done| |].
              -- intros p b Hb. eapply (Hag k bs); [by left|unfold dv2; by rewrite decide_True|done].
              -- apply H2; [done|]. intros t bs' p b Ht. apply Hag. by right.
          + intros l m' Hin. destruct (Hw1 _ _ Hin) as [|H]; [left; lia|by right].
        - (* Unfold *)
          destruct Hcm as (_ & Hak & Hdk & _).
          destruct (violates _ _ _ _ _ _) as [[|]| |]; [|..|done|done]; cbn [bind] in Em; [injection Em as <- <-; exact Hzero|].
          destruct (measure f n a st) as [[mp st2]| |] eqn:Ea; [|done..]. cbn [bind] in Em.
          destruct (measure f n d st2) as [[md st3]| |] eqn:Ed; [|done..]. cbn [bind] in Em.
          destruct (geti (rules a) i) as [r| |] eqn:Er; [|done..]. cbn [bind] in Em.
          destruct (imapM _ 0 (s_rules s)) as [ms| |] eqn:Ems; [|done..]. cbn [bind] in Em.
          destruct (mapM _ ix) as [cs| |] eqn:Ecs; [|done..]. cbn [bind] in Em. injection Em as <- <-.
          destruct (IH _ _ _ _ _ Hkeep Ea) as (dv1 & Hg1 & Hk1 & Hs1 & Hw1). destruct (IH _ _ _ _ _ Hk1 Ed) as (dv2 & Hg2 & Hk2 & Hs2 & Hw2).
          exists dv2. split; [intros l bs' Hl; by apply Hg2, Hg1|]. split; [intros l bs Hl; right; by eapply Hk2|]. split; [apply Hk2|]. split.
          + destruct (sound_grows _ _ _ _ Hg2 Hs1) as (Hla & Ta & HTa & Ha). destruct Hs2 as (Hld & Td & HTd & Hd).
            apply imapM_ok in Ems as [Hlm Hm]. destruct s as [rs h]. cbn in Eh. subst h. cbn [s_rules] in *.
            split; [cbn [fst]; by rewrite Hlm, (rules_of_lookup _ _ _ Hk)|]. exists (Ta ++ Td). split.
            { intros t Ht. apply elem_of_app in Ht as [Ht|Ht]; [by apply HTa|by apply HTd]. }
            cbn [snd fst]. intros ρ Hρ. apply Forall_app in Hρ as [Hρ1 Hρ2]. apply Forall_app in Hρ2 as [Hρ2 _]. destruct (Ha ρ Hρ1) as [A1 A2]. destruct (Hd ρ Hρ2) as [D1 D2]. split.
            * intros t bs Ht. apply elem_of_app in Ht as [Ht|Ht]; [by apply A1|by apply D1].
            * intros V HV Hag. eapply (unfold_represents al Hal minf is_one ord is_input eqr Heq eqp only base Hc se c Hco Hreg V ρ k rs a i j d ix (fst mp) (fst md) ms); [done..| | |].
              -- intros N s0 Hs0. destruct (Hm _ _ Hs0) as (y & Hy & Ey). cbn [plus] in Ey. destruct (List.find _ ix) as [[N' D]|].
                 ++ destruct (geti (fst mp) i) as [x| |] eqn:E1; [|done..]. cbn [bind] in Ey. destruct (geti (fst md) D) as [y0| |] eqn:E2; [|done..]. cbn [bind] in Ey. injection Ey as <-.
                    apply geti_ok in E1, E2. eauto.
                 ++ destruct (index_of eqr s0 (rules a)) as [P| |] eqn:E1; [|done..]. cbn [bind] in Ey. apply geti_ok in Ey. apply (index_of_ok eqr Heq) in E1. eauto.
              -- apply A2; [done|]. intros t bs p b Ht. apply Hag. apply elem_of_app. by left.
              -- apply D2; [done|]. intros t bs p b Ht. apply Hag. apply elem_of_app. by right.
          + intros l m' Hin. destruct (Hw2 _ _ Hin) as [|[m'' H]]; [left; lia|]. destruct (Hw1 _ _ H) as [|H']; [left; lia|by right].
        - (* Fold *)
          destruct Hcm as (_ & Hak & Hdk & r & tl & Hrs & _).
          destruct (unfold_by _ _ _ _ _ _ _ _ _ _ _ _) as [[[u ix] cu]| |] eqn:Eu; [|done..]. cbn [bind] in Em.
          destruct (eqp (rules a) u) eqn:Ee; cbn [negb] in Em; [|done].
          destruct (violates _ _ _ _ _ _) as [[|]| |]; [|..|done|done]; cbn [bind] in Em; [injection Em as <- <-; exact Hzero|].
          destruct (measure f n a st) as [[mp st2]| |] eqn:Ea; [|done..]. cbn [bind] in Em.
          destruct (measure f n d st2) as [[md st3]| |] eqn:Ed; [|done..]. cbn [bind] in Em.
          destruct (mapM _ ix) as [prs| |] eqn:Eprs; [|done..]. cbn [bind] in Em.
          destruct (fold_measure (map fst prs)) as [mr| |] eqn:Emr; [|done..]. cbn [bind] in Em.
          destruct (imapM _ 0 (s_rules s)) as [ms| |] eqn:Ems; [|done..]. cbn [bind] in Em. injection Em as <- <-.
          destruct (IH _ _ _ _ _ Hkeep Ea) as (dv1 & Hg1 & Hk1 & Hs1 & Hw1). destruct (IH _ _ _ _ _ Hk1 Ed) as (dv2 & Hg2 & Hk2 & Hs2 & Hw2).
          exists dv2. split; [intros l bs' Hl; by apply Hg2, Hg1|]. split; [intros l bs Hl; right; by eapply Hk2|]. split; [apply Hk2|]. split.
          + destruct (sound_grows _ _ _ _ Hg2 Hs1) as (Hla & Ta & HTa & Ha). destruct Hs2 as (Hld & Td & HTd & Hd).
            apply imapM_ok in Ems as [Hlm Hm]. apply mapM_ok in Eprs as [Hlp Hp]. destruct s as [rs h]. cbn in Eh. subst h. cbn [s_rules] in *. subst rs.
            split; [cbn [fst]; by rewrite Hlm, (rules_of_lookup _ _ _ Hk)|]. exists (Ta ++ Td). split.
            { intros t Ht. apply elem_of_app in Ht as [Ht|Ht]; [by apply HTa|by apply HTd]. }
            cbn [snd fst]. intros ρ Hρ. apply Forall_app in Hρ as [Hρ1 Hρ2]. apply Forall_app in Hρ2 as [Hρ2 Hρ3]. destruct (Ha ρ Hρ1) as [A1 A2]. destruct (Hd ρ Hρ2) as [D1 D2]. split.
            * intros t bs Ht. apply elem_of_app in Ht as [Ht|Ht]; [by apply A1|by apply D1].
            * intros V HV Hag.
              eapply (fold_represents al Hal minf is_one ord is_input eqr Heq eqp Heqp only base Hc se c Hco Hreg V ρ hash same Hsame folds_by Hfolds k r tl a j d n u ix cu (fst mp) (fst md) prs mr ms); [done|done|done|done|exact Eu|done|done| |done| | | |].
              -- intros p N D Hix. destruct (Hp _ _ Hix) as (pr & Hpr & Epr). cbn [fst snd] in Epr.
                 destruct (align_at _ N) as [P| |] eqn:EP; [|done..]. cbn [bind] in Epr. destruct (geti (rules a) P) as [rP| |] eqn:E1; [|done..]. cbn [bind] in Epr.
                 destruct (geti (rules d) D) as [rD| |] eqn:E2; [|done..]. cbn [bind] in Epr. destruct (geti (fst mp) P) as [x| |] eqn:E3; [|done..]. cbn [bind] in Epr.
                 destruct (geti (fst md) D) as [y| |] eqn:E4; [|done..]. cbn [bind] in Epr. destruct (last (folds_by rP rD)) as [fs|] eqn:E5; [|done]. injection Epr as <-.
                 apply geti_ok in E1, E2, E3, E4. exists P, rP, rD, x, y, fs. split; [done|]. split; [done|]. split; [done|]. split; [done|]. split; [done|].
                 split; [rewrite last_lookup in E5; by eapply elem_of_list_lookup_2|]. split; [done|].
                 rewrite Forall_forall in Hρ3. specialize (Hρ3 (CPos (fold_condition x y [] (goals fs)))). apply Hρ3. apply elem_of_list_fmap. exists (x, y, fs). split; [done|]. by eapply elem_of_list_lookup_2.
              -- destruct (Hm 0 r eq_refl) as (y & Hy & Ey). cbn in Ey. by injection Ey as <-.
              -- intros N s0 Hs0. destruct (Hm (S N) s0 Hs0) as (y & Hy & Ey). cbn [plus] in Ey.
                 destruct (index_of eqr s0 (rules a)) as [P| |] eqn:E1; [|done..]. cbn [bind] in Ey. apply geti_ok in Ey. apply (index_of_ok eqr Heq) in E1. eauto.
              -- apply A2; [done|]. intros t bs p b Ht. apply Hag. apply elem_of_app. by left.
              -- apply D2; [done|]. intros t bs p b Ht. apply Hag. apply elem_of_app. by right.
          + intros l m' Hin. destruct (Hw2 _ _ Hin) as [|[m'' H]]; [left; lia|]. destruct (Hw1 _ _ H) as [|H']; [left; lia|by right]. }
      destruct Hone as (dv' & Hg & Hd & Hch & Hsm & Hnw). exists dv'. split; [done|]. split; [|split; [done|]].
      + split; cbn [ms_cache].
        * intros l m Hin. apply elem_of_cons in Hin as [[= -> ->]|Hin]; [done|by apply Hch].
        * intros l bs Hl. destruct (Hd _ _ Hl) as [->|[m Hm]]; [exists m1; by left|exists m; by right].
      + cbn [ms_cache]. intros l m Hin. apply elem_of_cons in Hin as [[= -> ->]|Hin]; [by left|]. destruct (Hnw _ _ Hin) as [H|H]; [left; lia|by right].
  Qed.

  (** * The end *)
  Context (sat : list cond -> bool) (Hsat : forall cs, sat cs = true -> exists ρ, Forall (holds ρ) cs).
  Lemma is_safe_ok m : is_safe sat m = true -> exists ρ, Forall (holds ρ) (snd m).
  Proof using Hsat.
    unfold is_safe. destruct (forallb _ (snd m)) eqn:E; [|apply Hsat]. clear E. intros E. exists (fun _ => 0%Z). apply Forall_forall. intros x Hx.
    rewrite forallb_forall in E. apply elem_of_list_In, E in Hx. destruct x as [b|]; [|done]. destruct b; try done. cbn in *. destruct (0 <? z)%Z eqn:Ez; [|done]. lia.
  Qed.

  Lemma make_measure_keeps : exists dv, keeps dv (make_measure symb (rules 0)).
  Proof using Hco Hc.
    unfold make_measure. destruct (new_vars symb (length (rules 0)) 0) as [[bs cs] v] eqn:En. apply new_vars_ok in En as [Hlb Hpos].
    assert (H0 : 0 < length se). { destruct Hco as [[rs H] _]. by apply lookup_lt_Some in H. }
    exists (fun l => if decide (l = 0) then Some bs else None). split; cbn [ms_cache].
    - intros l m Hin. apply elem_of_list_singleton in Hin. injection Hin as -> ->. split; [done|]. split; [cbn; by rewrite map_length|].
      exists [0]. split; [intros t ->%elem_of_list_singleton; by rewrite decide_True|]. cbn [fst snd]. intros ρ Hρ. split.
      + intros t bs' ->%elem_of_list_singleton. rewrite decide_True by done. intros [= <-]. by apply Hpos.
      + intros V HV Hag. pose proof (represents_ref only base _ (reference_pos se V HV)) as Href. rewrite reference_exact in Href.
        eapply represents_perm; [done|exact Href| |].
        * apply (flat_map_take (exact se V) (fun x => if decide (x ∉ lineage se 0) then exact se V x else []) 0); [done|..].
          -- rewrite (lineage_0 _ _ _ _ _ _ _ _ Hco). rewrite decide_False; [done|]. intros H. apply H. by left.
          -- intros x Hx. rewrite (lineage_0 _ _ _ _ _ _ _ _ Hco). rewrite decide_True; [done|]. intros H. by apply elem_of_list_singleton in H.
        * unfold completed, rest. rewrite flat_map_filter. apply Forall2_app; [|apply Forall_Forall2_diag, Forall_forall; intros ? _; apply weaker_refl].
          unfold exact. rewrite (brought_0 _ _ _ _ _ _ _ _ Hco). apply Forall2_same_length_lookup_2.
          { rewrite !combine_length, !map_length, seq_length. lia. }
          intros p q q' Hq Hq'. rewrite combine_lookup in Hq, Hq'. destruct (rules 0 !! p) as [r|] eqn:Er; [|done].
          rewrite list_lookup_fmap, lookup_seq_lt in Hq by (by eapply lookup_lt_Some). cbn in Hq. injection Hq as <-.
          rewrite map_map, list_lookup_fmap in Hq'. destruct (bs !! p) as [b|] eqn:Eb; [|done]. cbn in Hq'. injection Hq' as <-.
          split; [apply wvariant_refl|]. cbn. intros z <-. rewrite (Hag 0 bs p b); [split; cbn; lia|by left|by rewrite decide_True|done].
    - intros l bs' Hl. case_decide; [|done]. subst. injection Hl as <-. eexists. by left.
  Qed.

  Lemma sound_meaning dv k m : k < length se -> sound dv k m -> is_safe sat m = true ->
    same_meaning (wderives only (rules k ++ missing se k) base) (wderives only (rules 0 ++ definitions se) base).
  Proof using Hco Hsat.
    intros Hk (Hl & T & HT & H) Hsafe. apply is_safe_ok in Hsafe as [ρ Hρ]. destruct (H ρ Hρ) as [H1 H2].
    set (V := fun t p => match decide (t ∈ T), dv t with left _, Some bs => match bs !! p with Some b => beval ρ b | None => 1%Z end | _, _ => 1%Z end).
    destruct (H2 V) as (f & g & Hi & _).
    - intros l p. unfold V. destruct (decide (l ∈ T)) as [Hl'|]; [|lia]. destruct (dv l) as [bs|] eqn:Ed; [|lia]. destruct (bs !! p) as [b|] eqn:Eb; [|lia].
      pose proof (H1 _ _ Hl' Ed) as Hp. rewrite Forall_forall in Hp. apply Hp. by eapply elem_of_list_lookup_2.
    - intros t bs p b Ht Hd Hb. unfold V. rewrite decide_True by done. by rewrite Hd, Hb.
    - apply iso_meaning in Hi. by rewrite (completed_fst _ _ _ _ _ _ _ _ Hco), (reference_fst _ _ _ _ _ _ _ _ Hco) in Hi.
  Qed.

  Lemma measure_lt f n k st m st' : measure f n k st = Ok (m, st') -> k < length se.
  Proof using. destruct f as [|f]; [done|]. cbn [SafeModel.measure]. destruct (se !! k) eqn:E; [|done]. intros _. by eapply lookup_lt_Some. Qed.

  Lemma asks_fine f n ks : forall dv st bs st', keeps dv st ->
    asks al ord is_input minf is_one eqr eqp hash same folds_by symb se c sat f n ks st = Ok (bs, st') ->
    forall q k, ks !! q = Some k -> bs !! q = Some true ->
    same_meaning (wderives only (rules k ++ missing se k) base) (wderives only (rules 0 ++ definitions se) base).
  Proof using Hco Hreg Hc Hal Heq Heqp Hsame Hfolds Hsat.
    induction ks as [|k0 ks IH]; intros dv st bs st' Hkeep E q k Hq Hb; [done|]. cbn [asks] in E.
    destruct (measure f n k0 st) as [[m st1]| |] eqn:Em; [|done..]. cbn [bind] in E.
    destruct (asks _ _ _ _ _ _ _ _ _ _ _ _ _ _ _ _ ks st1) as [[bs' st2]| |] eqn:Ea; [|done..]. cbn [bind] in E. injection E as <- <-.
    destruct (measure_fine n f _ _ _ _ _ Hkeep Em) as (dv' & _ & Hk' & Hs & _). destruct q as [|q]; cbn in Hq, Hb.
    - injection Hq as ->. injection Hb as Hb. eapply sound_meaning; [by eapply measure_lt|exact Hs|done].
    - by eapply IH.
  Qed.
End measures.
