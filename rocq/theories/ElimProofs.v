(** Proofs about linear rule elimination. *)
From Coq Require Import List.
From stdpp Require Import gmap.
From Coq Require Import Lia.
From Verif Require Import PyBase Semiring TermModel TermSpec TermProofs ChartProofs SetsModel SetsProofs FuelProofs UnifyProofs SolverProofs
  PruneModel UpdateModel UpdateSpec UpdateProofs TransSpec TransProofs TransModel UnfoldProofs LinearProofs ElimModel CoverProofs.
Import ListNotations.

Section abstract.
  Context {R : semiring}.
  Context (rs L : list (wrule R)) (base : term -> Prop) (i : nat) (s : wrule R) (Hi : rs !! i = Some s).
  (** where the head of the eliminated rule meets rule [k]; positions of the rules
      that are kept and of the combined rules in [L]; and back *)
  Context (at_ : nat -> option nat) (plain comb : nat -> nat) (kind : nat -> nat + nat).
  Context (mid : nat -> term -> list (factor R) -> term).
  Context (HP : forall k r, rs !! k = Some r -> k <> i -> L !! plain k = Some r /\ kind (plain k) = inl k).
  Context (HC : forall k r j, rs !! k = Some r -> at_ k = Some j -> exists t, L !! comb k = Some t /\ kind (comb k) = inr k /\
    j < length (wbody r) /\ length (wbody t) = length (wbody r) + length (wbody s) /\
    (forall x A y Q zs, length A = j -> inst r x (A ++ Goal y :: Q) -> inst s y zs ->
       inst t x (A ++ Val sone :: zs ++ Q) /\ mid k x (A ++ Val sone :: zs ++ Q) = y) /\
    (forall x fs, inst t x fs -> exists A zs Q, fs = A ++ Val sone :: zs ++ Q /\ length A = j /\ length zs = length (wbody s) /\
       inst r x (A ++ Goal (mid k x fs) :: Q) /\ inst s (mid k x fs) zs)).
  Context (HK : forall p t, L !! p = Some t ->
    (exists k, kind p = inl k /\ k <> i /\ rs !! k = Some t /\ plain k = p) \/
    (exists k j r, kind p = inr k /\ rs !! k = Some r /\ at_ k = Some j /\ comb k = p)).
  Context (HL : forall k r x A y Q zs, rs !! k = Some r -> inst r x (A ++ Goal y :: Q) -> inst s y zs -> at_ k = Some (length A)).

  (** the image, the images of the children, and whether this is a node of the
      eliminated rule that its parent has to absorb *)
  Fixpoint tr (t : wderiv R) : wderiv R * list (wderiv R) * bool :=
    match t with
    | VLeaf v => (VLeaf v, [], false)
    | TLeaf x => (TLeaf x, [], false)
    | WNode k x ts =>
        let ims := map tr ts in
        let ts' := map (fun o => fst (fst o)) ims in
        match at_ k with
        | Some j => match ims !! j with
                    | Some (_, vs, true) => (WNode (comb k) x (take j ts' ++ VLeaf sone :: vs ++ drop (S j) ts'), ts', false)
                    | _ => (WNode (plain k) x ts', ts', bool_decide (k = i))
                    end
        | None => (WNode (plain k) x ts', ts', bool_decide (k = i))
        end
    end.
  Definition im (t : wderiv R) : wderiv R := fst (fst (tr t)).
  Definition odd (t : wderiv R) : bool := snd (tr t).
  Fixpoint back (t : wderiv R) : wderiv R :=
    match t with
    | VLeaf v => VLeaf v
    | TLeaf x => TLeaf x
    | WNode p x ts =>
        let ts' := map back ts in
        match kind p with
        | inl k => WNode k x ts'
        | inr k => let j := default 0 (at_ k) in
                   let n := length (wbody s) in
                   WNode k x (take j ts' ++ WNode i (mid k x (map wroot ts)) (take n (drop (S j) ts')) :: drop (S j + n) ts')
        end
    end.

  Lemma ims_im ts : map (fun o : wderiv R * list (wderiv R) * bool => fst (fst o)) (map tr ts) = map im ts.
  Proof. by rewrite map_map. Qed.
  Lemma tr_kids k x ts : snd (fst (tr (WNode k x ts))) = map im ts.
  Proof. cbn [tr]. destruct (at_ k); [|by rewrite <- ims_im]. destruct (map tr ts !! n) as [[[? ?] []]|]; by rewrite <- ims_im. Qed.
  (** either the child where the eliminated rule can be used is absorbed, or not *)
  Lemma tr_comb k x A u Q : at_ k = Some (length A) -> odd u = true ->
    im (WNode k x (A ++ u :: Q)) = WNode (comb k) x (map im A ++ VLeaf sone :: snd (fst (tr u)) ++ map im Q) /\
    odd (WNode k x (A ++ u :: Q)) = false.
  Proof.
    intros Ha Ho. unfold im at 1, odd. cbn [tr]. rewrite Ha, ims_im, list_lookup_fmap, list_lookup_middle by done.
    cbn [fmap option_fmap option_map]. unfold odd in Ho. destruct (tr u) as [[a vs] o]. cbn in Ho. subst o. cbn [fst snd]. split; [|done].
    f_equal. rewrite map_app. cbn [map]. rewrite take_app_alt by (by rewrite map_length).
    rewrite drop_app_ge by (rewrite map_length; lia). rewrite map_length. replace (S (length A) - length A) with 1 by lia. done.
  Qed.
  Lemma tr_plain k x ts : (forall j u, at_ k = Some j -> ts !! j = Some u -> odd u = false) ->
    im (WNode k x ts) = WNode (plain k) x (map im ts) /\ odd (WNode k x ts) = bool_decide (k = i).
  Proof.
    intros H. unfold im at 1, odd. cbn [tr]. rewrite ims_im. destruct (at_ k) as [j|] eqn:Ha; [|done].
    rewrite list_lookup_fmap. destruct (ts !! j) as [u|] eqn:Eu; [|done]. cbn [fmap option_fmap option_map].
    specialize (H j u eq_refl Eu). unfold odd in H. destruct (tr u) as [[a vs] o]. cbn in H. by subst o.
  Qed.
  Lemma odd_node t : odd t = true -> exists x ts, t = WNode i x ts /\ forall j u, at_ i = Some j -> ts !! j = Some u -> odd u = false.
  Proof.
    destruct t as [v|x|k x ts]; [done..|]. intros Ho.
    assert (H : forall j u, at_ k = Some j -> ts !! j = Some u -> odd u = false).
    { intros j u Ha Hu. destruct (odd u) eqn:Eo; [|done]. 
      rewrite <- (take_drop_middle ts j u Hu) in Ho.
      destruct (tr_comb k x (take j ts) u (drop (S j) ts)) as [_ E]; [|done|congruence].
      rewrite take_length_le; [done|]. apply lookup_lt_Some in Hu. lia. }
    destruct (tr_plain k x ts H) as [_ E]. rewrite E in Ho. apply bool_decide_eq_true in Ho as ->. eauto.
  Qed.

  Notation D := (wderives False rs base).
  Notation D' := (wderives False L base).
  Definition even_ok (t : wderiv R) : Prop :=
    D' (im t) /\ back (im t) = t /\ wroot (im t) = wroot t /\ forall w, wvalue w (im t) = wvalue w t.
  Definition tr_ok (t : wderiv R) : Prop :=
    D t -> (odd t = false -> even_ok t) /\ (odd t = true -> forall k x ts, t = WNode k x ts -> Forall even_ok ts).
  Lemma even_kids (ts : list (wderiv R)) : Forall even_ok ts ->
    Forall D' (map im ts) /\ map back (map im ts) = ts /\ map wroot (map im ts) = map wroot ts /\
    forall w, map (wvalue w) (map im ts) = map (wvalue w) ts.
  Proof.
    induction 1 as [|t ts (A1 & A2 & A3 & A4) _ (B1 & B2 & B3 & B4)]; [split; [constructor|done]|]. cbn [map].
    split; [by constructor|]. split; [by rewrite A2, B2|]. split; [by rewrite A3, B3|]. intros w. by rewrite A4, B4.
  Qed.
  Lemma no_leafy (r : wrule R) ts : leafy False r ts.
  Proof. intros []. Qed.

  Lemma kid_odd k r x A u Q : rs !! k = Some r -> inst r x (map wroot (A ++ u :: Q)) -> D u -> odd u = true -> at_ k = Some (length A).
  Proof.
    intros Hr Hin Hu Ho. destruct (odd_node u Ho) as (y & ts & -> & _). apply wderives_node in Hu as (s' & Hs' & Hin' & _ & _).
    assert (s' = s) as -> by congruence. rewrite map_app in Hin. cbn [map wroot] in Hin.
    rewrite <- (map_length wroot A). by eapply HL.
  Qed.
  Lemma kids_even k r x ts : rs !! k = Some r -> inst r x (map wroot ts) -> Forall D ts ->
    (forall j u, at_ k = Some j -> ts !! j = Some u -> odd u = false) -> Forall (fun u => odd u = false) ts.
  Proof.
    intros Hr Hin HF H. apply Forall_lookup. intros j u Hu. destruct (odd u) eqn:Eo; [|done].
    pose proof (Forall_lookup_1 _ _ _ _ HF Hu) as Hd. rewrite <- (take_drop_middle ts j u Hu) in Hin.
    pose proof (kid_odd _ _ _ _ _ _ Hr Hin Hd Eo) as Ha. rewrite take_length_le in Ha by (apply lookup_lt_Some in Hu; lia).
    rewrite (H j u Ha Hu) in Eo. done.
  Qed.

  Lemma tr_correct t : tr_ok t.
  Proof.
    induction t as [v|x|k x ts IH] using wderiv_ind'.
    - intros _. split; [|done]. intros _. split; [constructor|done].
    - inversion 1; subst. split; [|done]. intros _. split; [by constructor|done].
    - intros Hd. apply wderives_node in Hd as (r & Hr & Hin & _ & HF).
      assert (Hc : (exists A u Q, ts = A ++ u :: Q /\ at_ k = Some (length A) /\ odd u = true) \/
        forall j u, at_ k = Some j -> ts !! j = Some u -> odd u = false).
      { destruct (at_ k) as [j|]; [|by right]. destruct (ts !! j) as [u|] eqn:Eu; [|right; intros ? ? [= <-]; by rewrite Eu].
        destruct (odd u) eqn:Eo; [left|right; intros ? ? [= <-] ?; congruence]. exists (take j ts), u, (drop (S j) ts).
        rewrite take_drop_middle by done. rewrite take_length_le by (apply lookup_lt_Some in Eu; lia). done. }
      destruct Hc as [(A & u & Q & -> & Ha & Ho)|Hpl].
      + destruct (tr_comb k x A u Q Ha Ho) as [E1 E2]. split; [|congruence]. intros _.
        apply Forall_app in HF as [HF1 HF2]. apply Forall_cons in HF2 as [HFu HFQ].
        apply Forall_app in IH as [IH1 IH2]. apply Forall_cons in IH2 as [IHu IHQ].
        destruct (odd_node u Ho) as (y & vs & -> & _). rewrite tr_kids in E1.
        pose proof (proj2 (IHu HFu) Ho _ _ _ eq_refl) as Hvs.
        apply wderives_node in HFu as (s' & Hs' & Hin' & _ & HFv). assert (s' = s) as -> by congruence.
        assert (Heven : forall B, (forall p u, B !! p = Some u -> exists A1 Q1, A ++ WNode i y vs :: Q = A1 ++ u :: Q1 /\ length A1 <> length A) ->
          Forall tr_ok B -> Forall D B -> Forall even_ok B).
        { intros B HB HB1 HB2. apply Forall_lookup. intros p u Hu. destruct (odd u) eqn:Eo.
          - exfalso. destruct (HB p u Hu) as (A1 & Q1 & E & Hn). rewrite E in Hin.
            pose proof (kid_odd _ _ _ _ _ _ Hr Hin (Forall_lookup_1 _ _ _ _ HB2 Hu) Eo) as Ha'. congruence.
          - by apply (Forall_lookup_1 _ _ _ _ HB1 Hu (Forall_lookup_1 _ _ _ _ HB2 Hu)). }
        assert (HA : Forall even_ok A).
        { apply Heven; [|done..]. intros p u Hu. exists (take p A), (drop (S p) A ++ WNode i y vs :: Q). split.
          - rewrite <- (take_drop_middle A p u Hu) at 1. by rewrite <- app_assoc.
          - rewrite take_length_le; apply lookup_lt_Some in Hu; lia. }
        assert (HQ : Forall even_ok Q).
        { apply Heven; [|done..]. intros p u Hu. exists (A ++ WNode i y vs :: take p Q), (drop (S p) Q). split.
          - rewrite <- (take_drop_middle Q p u Hu) at 1. by rewrite <- app_assoc.
          - rewrite app_length. cbn [length]. lia. }
        destruct (even_kids A HA) as (A1 & A2 & A3 & A4). destruct (even_kids vs Hvs) as (B1 & B2 & B3 & B4).
        destruct (even_kids Q HQ) as (C1 & C2 & C3 & C4).
        destruct (HC k r _ Hr Ha) as (t & Ht & Hk & Hj & Hlen & Hfw & _).
        rewrite map_app in Hin. cbn [map wroot] in Hin.
        destruct (Hfw x (map wroot A) y (map wroot Q) (map wroot vs) ltac:(by rewrite map_length) Hin Hin') as [Hit Hm].
        pose proof (inst_kids _ _ _ Hin') as Hlv.
        unfold even_ok. rewrite E1. split; [|split; [|split; [done|]]].
        * apply wderives_node. exists t. split; [done|]. split; [|split; [apply no_leafy|]].
          -- rewrite map_app. cbn [map wroot]. rewrite map_app, A3, B3, C3. done.
          -- apply Forall_app. split; [done|]. constructor; [constructor|]. by apply Forall_app.
        * cbn [back]. rewrite Hk, Ha. cbn [from_option]. unfold id. rewrite !map_app. cbn [map back wroot]. rewrite !map_app, A2, B2, C2, A3, B3, C3, Hm.
          rewrite take_app_alt by done. rewrite drop_app_ge by lia. replace (S (length A) - length A) with 1 by lia. cbn [drop]. rewrite ?drop_0.
          rewrite take_app_alt by done. rewrite drop_app_ge by lia.
          replace (S (length A) + length (wbody s) - length A) with (S (length vs)) by lia. cbn [drop]. by rewrite drop_app_alt.
        * intros w. cbn [wvalue]. rewrite !map_app. cbn [map wvalue]. rewrite !map_app, A4, B4, C4. rewrite !prodl_app.
          change (smul (prodl (map (wvalue w) A)) (smul sone (prodl (map (wvalue w) vs ++ map (wvalue w) Q))) =
            smul (prodl (map (wvalue w) A)) (smul (prodl (map (wvalue w) vs)) (prodl (map (wvalue w) Q)))).
          by rewrite prodl_app, smul_1_l.
      + destruct (tr_plain k x ts Hpl) as [E1 E2].
        pose proof (kids_even k r x ts Hr Hin HF Hpl) as Hev.
        assert (Hok : Forall even_ok ts).
        { apply Forall_lookup. intros p u Hu. apply (Forall_lookup_1 _ _ _ _ IH Hu).
          - by apply (Forall_lookup_1 _ _ _ _ HF Hu).
          - exact (Forall_lookup_1 _ _ _ _ Hev Hu). }
        split; [|intros _ ? ? ? [= _ _ <-]; done]. intros Ho. rewrite Ho in E2. symmetry in E2. apply bool_decide_eq_false in E2.
        destruct (HP k r Hr E2) as [HLk Hk]. destruct (even_kids ts Hok) as (A1 & A2 & A3 & A4).
        unfold even_ok. rewrite E1. split; [|split; [|split; [done|]]].
        * apply wderives_node. exists r. rewrite A3. split; [done|]. split; [done|]. split; [apply no_leafy|done].
        * cbn [back]. by rewrite Hk, A2.
        * intros w. cbn [wvalue]. by rewrite A4.
  Qed.

  Definition back_ok (t : wderiv R) : Prop := D' t -> D (back t) /\ odd (back t) = false /\ im (back t) = t /\ wroot (back t) = wroot t.
  Lemma back_kids (ts : list (wderiv R)) : Forall back_ok ts -> Forall D' ts ->
    Forall D (map back ts) /\ Forall (fun u => odd u = false) (map back ts) /\ map im (map back ts) = ts /\ map wroot (map back ts) = map wroot ts.
  Proof.
    induction 1 as [|t ts Ht _ IH]; intros HF; [split; [constructor|]; split; [constructor|done]|]. inversion HF as [|? ? H1 H2]; subst.
    destruct (Ht H1) as (A1 & A2 & A3 & A4). destruct (IH H2) as (B1 & B2 & B3 & B4). cbn [map].
    split; [by constructor|]. split; [by constructor|]. split; [by rewrite A3, B3|]. by rewrite A4, B4.
  Qed.
  Lemma back_correct t : back_ok t.
  Proof.
    induction t as [v|x|p x ts IH] using wderiv_ind'.
    - intros _. split; [constructor|done].
    - inversion 1; subst. split; [by constructor|done].
    - intros Hd. apply wderives_node in Hd as (t & Ht & Hin & _ & HF). cbn [back].
      destruct (HK p t Ht) as [(k & Hk & Hne & Hr & Hp)|(k & j & r & Hk & Hr & Ha & Hp)]; rewrite Hk.
      + destruct (back_kids ts IH HF) as (A1 & A2 & A3 & A4).
        destruct (tr_plain k x (map back ts)) as [E1 E2].
        { intros j u _ Hu. exact (Forall_lookup_1 _ _ _ _ A2 Hu). }
        split; [|split; [|split; [|done]]].
        * apply wderives_node. exists t. rewrite A4. split; [done|]. split; [done|]. split; [apply no_leafy|done].
        * rewrite E2. by apply bool_decide_eq_false.
        * by rewrite E1, A3, Hp.
      + destruct (HC k r j Hr Ha) as (t' & Ht' & _ & Hj & Hlen & _ & Hbw). rewrite Hp, Ht in Ht'. injection Ht' as <-.
        destruct (Hbw x _ Hin) as (fA & fz & fQ & Ef & HlA & Hlz & Hir & His). set (y := mid k x (map wroot ts)) in *.
        apply map_eq_app in Ef as (A & ts2 & -> & EA & Ef). apply map_eq_cons in Ef as (u & ts3 & -> & Eu & Ef).
        apply map_eq_app in Ef as (vs & Q & -> & Ev & EQ). subst fA fz fQ. rewrite map_length in HlA, Hlz.
        destruct u as [v|?|? ? ?]; [|discriminate..]. cbn [wroot] in Eu. injection Eu as ->.
        apply Forall_app in IH as [I1 I2]. apply Forall_cons in I2 as [_ I2]. apply Forall_app in I2 as [I2 I3].
        apply Forall_app in HF as [F1 F2]. apply Forall_cons in F2 as [_ F2]. apply Forall_app in F2 as [F2 F3].
        destruct (back_kids A I1 F1) as (A1 & A2 & A3 & A4). destruct (back_kids vs I2 F2) as (B1 & B2 & B3 & B4).
        destruct (back_kids Q I3 F3) as (C1 & C2 & C3 & C4).
        rewrite Ha. cbn [from_option]. unfold id. rewrite map_app. cbn [map back]. rewrite map_app.
        rewrite take_app_alt by (by rewrite map_length). rewrite !drop_app_ge by (rewrite map_length; lia). rewrite !map_length.
        replace (S j - length A) with 1 by lia. cbn [drop]. rewrite ?drop_0. rewrite take_app_alt by (by rewrite map_length).
        replace (S j + length (wbody s) - length A) with (S (length vs)) by lia. cbn [drop]. rewrite drop_app_alt by (by rewrite map_length).
        destruct (tr_plain i y (map back vs)) as [U1 U2].
        { intros j' u' _ Hu'. exact (Forall_lookup_1 _ _ _ _ B2 Hu'). }
        rewrite bool_decide_eq_true_2 in U2 by done.
        assert (HlA' : length (map back A) = j) by (by rewrite map_length). rewrite <- HlA' in Ha.
        destruct (tr_comb k x (map back A) (WNode i y (map back vs)) (map back Q) Ha U2) as [E1 E2].
        split; [|split; [done|split; [|done]]].
        * apply wderives_node. exists r. split; [done|]. rewrite map_app. cbn [map wroot]. rewrite A4, C4. split; [done|]. split; [apply no_leafy|].
          apply Forall_app. split; [done|]. constructor; [|done]. apply wderives_node. exists s. rewrite B4.
          split; [done|]. split; [done|]. split; [apply no_leafy|done].
        * rewrite E1, tr_kids, A3, B3, C3, Hp. done.
  Qed.

  Lemma elim_same_meaning : same_meaning (fun t => D t /\ odd t = false) D'.
  Proof.
    exists im, back. split.
    - intros t [Ht Ho]. by apply tr_correct.
    - intros t Ht. destruct (back_correct t Ht) as (H1 & H2 & H3 & _). done.
  Qed.
  (** a derivation of an item that the eliminated rule does not derive is kept *)
  Lemma not_odd t x : D t -> wroot t = Goal x -> (forall zs, ~ inst s x zs) -> odd t = false.
  Proof.
    intros Ht Hr Hn. destruct (odd t) eqn:Eo; [|done]. exfalso. destruct (odd_node t Eo) as (y & ts & -> & _).
    injection Hr as ->. apply wderives_node in Ht as (s' & Hs & Hin & _). assert (s' = s) as -> by congruence. by apply (Hn (map wroot ts)).
  Qed.
End abstract.

(** * What is bound and what is new *)
Lemma unify_dom (V : gset nat) n st x y st' b : acyclic st -> closed_V V st -> in_V V x -> in_V V y -> unify_f n st x y = Ok (st', b) ->
  closed_V V st' /\ forall v, v ∉ V -> st' !! v = st !! v.
Proof.
  intros Hac Hc Hx Hy E.
  destruct (ugen_computes py_eq occurs_check py_eq_ok occurs_check_ok V st x y) as (n0 & st2 & b2 & Hs & Hr); [by split|done..|].
  pose proof (mono_settles _ n _ _ (mono_unify_f st x y) E (ex_intro _ n0 Hs)) as [= <- <-].
  destruct Hr as ([Hac' Hcl'] & [Hsub Hout] & H). done.
Qed.

Section vars.
  Context {R : semiring} (wt : const -> R) (negligible is_one : R -> bool) (al cv : nat -> nat).
  Context (Hal : forall i j, al i = al j -> i = j).

  (** the variables of [P'] are those of [P] or new *)
  Definition grows (P P' : pstate R) : Prop :=
    p_c P <= p_c P' /\ forall r v, r ∈ p_rules P' -> v ∈ wvars r ->
      (exists r0, r0 ∈ p_rules P /\ v ∈ wvars r0) \/ exists j, v = al j /\ p_c P <= j < p_c P'.
  Lemma grows_refl P : grows P P.
  Proof. split; [done|]. intros r v Hr Hv. left. eauto. Qed.
  Lemma add_rule_rules n st (r : wrule R) P P' i : add_rule n st r P = Ok (P', i) -> p_rules P' = p_rules P ++ [r] /\ p_c P' = p_c P.
  Proof.
    unfold add_rule. destruct (p_f2r P); [|by intros [= <- <-]]. destruct (head_fn n st (whead r)); [|discriminate..]. by intros [= <- <-].
  Qed.
  Lemma grows_add n st θ (r r' : wrule R) P P' c bk f2 i : acyclic st -> resolution st θ ->
    fresh_rule al n st (p_c P) r = Ok (r', c) ->
    add_rule n st r' (PState (p_rules P) bk f2 c) = Ok (P', i) -> grows P P'.
  Proof.
    intros Hac Hθ Ef Ea. apply (fresh_rule_ok al Hal st θ Hac Hθ) in Ef as (ρ & _ & _ & Hc & Hv).
    apply add_rule_rules in Ea as [E1 E2]. cbn [p_rules p_c] in *. split; [by rewrite E2|]. intros q v Hq Hv'. rewrite E1 in Hq. rewrite E2.
    apply elem_of_app in Hq as [Hq|Hq]; [left; eauto|]. apply elem_of_list_singleton in Hq as ->. right. by apply Hv.
  Qed.
  Lemma update_grows n st θ r P P' : acyclic st -> resolution st θ ->
    update wt negligible is_one al cv n st r P = Ok P' -> grows P P'.
  Proof.
    intros Hac Hθ. unfold update. destruct (constant_folding_rhs wt negligible is_one n st r) as [[r1|]| |]; [|intros [= <-]; apply grows_refl|discriminate..].
    cbn [bind]. set (m := match p_buckets P with Some _ => Ok P | None => _ end).
    destruct m as [P1| |] eqn:Em; [|discriminate..]. cbn [bind].
    assert (H1 : p_rules P1 = p_rules P /\ p_c P1 = p_c P).
    { unfold m in Em. destruct (p_buckets P); [by injection Em as <-|]. destruct (make_buckets wt cv n st 0 (p_rules P) ∅); [|discriminate..]. by injection Em as <-. }
    destruct H1 as [H1 H1c]. clear Em m.
    assert (Hg : forall P2, grows P1 P2 -> grows P P2).
    { intros P2 [G1 G2]. split; [lia|]. intros q v Hq Hv. rewrite <- H1, <- H1c. by eapply G2. }
    destruct (update_bucket wt al cv n st r1 P1) as [[P2 o]| |] eqn:Eu; [|discriminate..]. cbn [bind].
    unfold update_bucket in Eu. destruct (get_const_rhs wt n st r1) as [[C|]| |]; [| |discriminate..]; cbn [bind] in Eu.
    - destruct (canonicalize cv n st (whead r1)) as [h| |]; [|discriminate..]. cbn [bind] in Eu.
      destruct (p_buckets P1) as [bk|] eqn:Ebk; [|discriminate]. destruct (bk !! h) as [i|].
      + destruct (merge_at wt n st i C P1) as [P3| |] eqn:Em; [|discriminate..]. cbn [bind] in Eu. injection Eu as <- <-. intros [= <-].
        apply Hg. unfold merge_at in Em. destruct (p_rules P1 !! i) as [s|] eqn:Es; [|discriminate]. destruct (wbody s) as [|f [|? ?]] eqn:Ef; [discriminate| |discriminate].
        destruct (factor_const wt n st f) as [[v|]| |]; [|discriminate..]. injection Em as <-. split; [done|]. cbn [p_rules].
        intros q w Hq Hw. left. apply elem_of_list_lookup in Hq as [k Hk]. destruct (decide (k = i)) as [->|Hn].
        * rewrite list_lookup_insert in Hk by (by eapply lookup_lt_Some). injection Hk as <-. exists s. split; [by eapply elem_of_list_lookup_2|].
          unfold wvars in *. cbn [whead wbody goals omap list_omap flat_map] in Hw. rewrite app_nil_r in Hw. apply elem_of_app. by left.
        * rewrite list_lookup_insert_ne in Hk by done. exists q. split; [by eapply elem_of_list_lookup_2|done].
      + destruct (fresh_rule al n st (p_c P1) r1) as [[r2 c]| |] eqn:Ef; [|discriminate..]. cbn [bind] in Eu.
        destruct (add_rule n st r2 _) as [[P3 i]| |] eqn:Ea; [|discriminate..]. cbn [bind] in Eu. injection Eu as <- <-. intros [= <-].
        apply Hg. destruct (grows_add _ _ _ _ _ _ _ _ _ _ _ Hac Hθ Ef Ea) as [G1 G2]. split; [exact G1|exact G2].
    - injection Eu as <- <-. destruct (fresh_rule al n st (p_c P1) r1) as [[r2 c]| |] eqn:Ef; [|discriminate..]. cbn [bind].
      destruct (add_rule n st r2 _) as [[P3 i]| |] eqn:Ea; [|discriminate..]. cbn [bind]. intros [= <-].
      apply Hg. exact (grows_add _ _ _ _ _ _ _ _ _ _ _ Hac Hθ Ef Ea).
  Qed.
End vars.

Section concrete.
  Context {R : semiring} (Hcomm : forall x y : R, smul x y = smul y x).
  Context (wt : const -> R) (negligible is_one : R -> bool) (al cv : nat -> nat) (minf : R).
  Context (Hal : forall i j, al i = al j -> i = j) (Hcv : forall i j, cv i = cv j -> i = j).
  Context (Hneg : forall C, negligible C = true -> C = szero) (Hone : forall C, is_one C = true -> C = sone).

  (** [P] stands for the plain list [L] of rules *)
  Definition stands (L : list (wrule R)) (P : pstate R) : Prop :=
    inv wt cv P /\ forall I, respects wt I -> forall x v, prog_value I (p_rules P) x v <-> prog_value I L x v.
  Lemma stands_update n st θ r L P P' : acyclic st -> resolution st θ -> unbound st (p_rules P) -> item_head (sub θ (whead r)) ->
    stands L P -> update wt negligible is_one al cv n st r P = Ok P' -> stands (L ++ [rsub θ r]) P'.
  Proof.
    intros Hac Hθ Hu Hh [HP HV] E.
    assert (HI0 : respects wt (fun t => match t with Cst k => wt k | _ => szero end)) by done.
    split; [by apply (update_ok Hcomm wt negligible is_one al cv Hal Hcv Hneg Hone _ HI0 n st θ r P P')|].
    intros I HI x v. destruct (update_ok Hcomm wt negligible is_one al cv Hal Hcv Hneg Hone I HI n st θ r P P' Hac Hθ Hu HP Hh E) as [_ H2].
    rewrite H2, !prog_value_app. by setoid_rewrite (HV I HI).
  Qed.
  Lemma stands_settles st θ r L P : acyclic st -> resolution st θ -> unbound st (p_rules P) -> item_head (sub θ (whead r)) ->
    stands L P -> exists P', settles (fun n => update wt negligible is_one al cv n st r P) P'.
  Proof.
    intros Hac Hθ Hu Hh [HP HV].
    assert (HI0 : respects wt (fun t => match t with Cst k => wt k | _ => szero end)) by done.
    by apply (update_settles Hcomm wt negligible is_one al cv Hal Hcv Hneg Hone _ HI0 st θ r P).
  Qed.

  (** the variables [vs] are not variables of the program and will not become so *)
  Definition apart (vs : list nat) (P : pstate R) : Prop :=
    (forall r v, r ∈ p_rules P -> v ∈ wvars r -> v ∉ vs) /\ forall j, p_c P <= j -> al j ∉ vs.
  Lemma apart_grows vs P P' : apart vs P -> grows al P P' -> apart vs P'.
  Proof.
    intros [H1 H2] [G1 G2]. split.
    - intros r v Hr Hv. destruct (G2 r v Hr Hv) as [(r0 & Hr0 & Hv0)|(j & -> & Hj)]; [by apply (H1 r0)|apply H2; lia].
    - intros j Hj. apply H2. lia.
  Qed.
  Lemma item_head_sub θ h : item_head h -> item_head (sub θ h).
  Proof. intros (f & args & ->). by eexists _, _. Qed.

  (** [b] and the head of [s] have a common instance *)
  Definition meets_head (s : wrule R) (b : term) : Prop := exists σ τ, sub σ b = sub τ (whead s).

  (** [t] has exactly the instances that arise by replacing the subgoal [j] of an
      instance of [r] with the body of an instance of [s] *)
  Definition comb_ok (r s : wrule R) (j : nat) (t : wrule R) (mid : term -> list (factor R) -> term) : Prop :=
    j < length (wbody r) /\ length (wbody t) = length (wbody r) + length (wbody s) /\
    (forall x A y Q zs, length A = j -> inst r x (A ++ Goal y :: Q) -> inst s y zs ->
       inst t x (A ++ Val sone :: zs ++ Q) /\ mid x (A ++ Val sone :: zs ++ Q) = y) /\
    (forall x fs, inst t x fs -> exists A zs Q, fs = A ++ Val sone :: zs ++ Q /\ length A = j /\ length zs = length (wbody s) /\
       inst r x (A ++ Goal (mid x fs) :: Q) /\ inst s (mid x fs) zs).

  Section one.
  Context (s r : wrule R) (Hdisj : forall v, v ∈ wvars s -> v ∉ wvars r).
  Context (Hk : forall j, kept r s j).

  Lemma rrename_id (q : wrule R) : rrename (fun v => v) q = q.
  Proof. apply rsub_Var. Qed.
  Notation newv := (stdpp.base.fresh (list_to_set (wvars r) : gset nat)).
  Definition al' (i : nat) : nat := nth i (wvars s) newv.
  Lemma al'_r v i : v ∈ wvars r -> 0 <= i -> v <> al' i.
  Proof.
    intros Hv _ ->. unfold al' in Hv. destruct (nth_in_or_default i (wvars s) newv) as [H|H].
    - apply elem_of_list_In in H. by apply Hdisj in H.
    - rewrite H in Hv. by apply (is_fresh (C := gset nat) (list_to_set (wvars r))), elem_of_list_to_set.
  Qed.
  Lemma al'_s v : v ∈ wvars (rrename (fun v => v) s) -> exists i, v = al' i /\ 0 <= i.
  Proof.
    rewrite rrename_id. intros Hv. apply elem_of_list_In in Hv. destruct (In_nth _ _ newv Hv) as (i & _ & E).
    exists i. split; [done|lia].
  Qed.

  Section at_b.
  Context (j : nat) (b : term) (Hb : wbody r !! j = Some (Goal b)).
  Context (st : store) (θ : nat -> term) (Hac : acyclic st) (Hθ : resolution st θ).
  Context (Hst : forall σ, solves σ st <-> sub σ (whead s) = sub σ b).
  Notation t := (WRule (whead r) (take j (wbody r) ++ Val sone :: wbody s ++ drop (S j) (wbody r))).
  Notation t0 := (WRule (whead r) (take j (wbody r) ++ wbody s ++ drop (S j) (wbody r))).

  Lemma Hst' σ : solves σ st <-> sub σ (whead (rrename (fun v => v) s)) = sub σ b.
  Proof. rewrite rrename_id. apply Hst. Qed.
  Lemma renames_id : rrenames (fun v => v) s.
  Proof. by intros ? ? ? ?. Qed.

  Lemma wvars_one v : v ∈ wvars (rsub θ t) <-> v ∈ wvars (rsub θ t0).
  Proof.
    unfold wvars. cbn [rsub whead wbody]. rewrite !map_app. cbn [map fsub]. rewrite map_app, !goals_app.
    change (goals (Val sone :: map (fsub θ) (wbody s) ++ map (fsub θ) (drop (S j) (wbody r)))) with (goals (map (fsub θ) (wbody s) ++ map (fsub θ) (drop (S j) (wbody r)))).
    by rewrite goals_app.
  Qed.
  Lemma b_kept v : In v (vars (sub θ b)) -> v ∈ wvars (rsub θ t).
  Proof.
    intros Hv. apply wvars_one. pose proof (kept_vars r j b Hb s (fun v => v) st θ Hθ Hst' (Hk j) v Hv) as H. by rewrite rrename_id in H.
  Qed.
  Lemma solves_sub σ a : solves σ st -> sub σ (sub θ a) = sub σ a.
  Proof. intros H. by apply (resolution_most_general st θ). Qed.
  Lemma sub_comb σ x fs : solves σ st -> sub σ (whead r) = x -> map (fsub σ) (wbody t) = fs ->
    midp (rsub θ t) (sub θ b) x fs = sub σ b.
  Proof.
    intros Hs E1 E2. rewrite (midp_sub _ _ σ).
    - by apply solves_sub.
    - exact b_kept.
    - cbn [rsub whead]. by rewrite solves_sub.
    - rewrite <- E2. cbn [rsub wbody]. rewrite map_map. apply map_ext. intros [v|a]; [done|]. cbn [fsub]. by rewrite solves_sub.
  Qed.
  Lemma comb_is_ok : comb_ok r s j (rsub θ t) (midp (rsub θ t) (sub θ b)).
  Proof.
    assert (Hj : j < length (wbody r)) by (by eapply lookup_lt_Some).
    split; [done|]. split; [|split].
    - cbn [rsub wbody]. rewrite map_length, app_length. cbn [length]. rewrite app_length, (len_take r j b Hb), drop_length. lia.
    - intros x A y Q zs HA H1 H2. pose proof (inst_length _ _ _ H2) as Hz.
      destruct (inst_combine al' 0 r j b Hb al'_r s (fun v => v) renames_id al'_s st Hst' x A zs Q y HA Hz H1 H2) as (σ & G & Hsv & E1 & E2 & E3).
      rewrite rrename_id in E2.
      assert (E4 : map (fsub σ) (wbody t) = A ++ Val sone :: zs ++ Q).
      { cbn [wbody]. rewrite !map_app in E2. apply app_inj_1 in E2 as [<- E2]; [|by rewrite map_length, (len_take r j b Hb)].
        rewrite map_app. cbn [map fsub]. by rewrite map_app, E2. }
      split.
      + apply (inst_rsub st θ); [done..|]. by exists σ.
      + by rewrite (sub_comb σ).
    - intros x fs Hi. apply (inst_rsub st θ) in Hi as (σ & G & Hsv & E1 & E2); [|done..].
      rewrite (sub_comb σ) by done. cbn [wbody] in E2. rewrite map_app in E2. cbn [map fsub] in E2. rewrite map_app in E2.
      exists (map (fsub σ) (take j (wbody r))), (map (fsub σ) (wbody s)), (map (fsub σ) (drop (S j) (wbody r))).
      split; [done|]. split; [by rewrite map_length, (len_take r j b Hb)|]. split; [by rewrite map_length|].
      apply (inst_split r j b Hb s (fun v => v) st Hst' σ); [by rewrite map_length, (len_take r j b Hb)|by rewrite map_length|done..|].
      by rewrite rrename_id, !map_app.
  Qed.
  End at_b.

  Lemma head_meets b : (forall v, In v (vars b) -> v ∈ wvars r) -> meets_head s b -> exists σ, sub σ (whead s) = sub σ b.
  Proof.
    intros Hbv (σ & τ & E). exists (fun v => if decide (v ∈ wvars s) then τ v else σ v).
    transitivity (sub τ (whead s)).
    - apply sub_ext. intros v Hv. apply decide_True. unfold wvars. apply elem_of_app. left. by apply elem_of_list_In.
    - rewrite <- E. symmetry. apply sub_ext. intros v Hv. apply decide_False. intros H. apply Hdisj in H. by apply H, Hbv.
  Qed.

  Notation V := (list_to_set (wvars s ++ wvars r) : gset nat).
  Lemma V_head : in_V V (whead s).
  Proof. intros v Hv. apply elem_of_list_to_set. unfold wvars. rewrite !elem_of_app. left. left. by apply elem_of_list_In. Qed.
  Lemma V_goal j b : wbody r !! j = Some (Goal b) -> in_V V b.
  Proof. intros Hb v Hv. apply elem_of_list_to_set. apply elem_of_app. right. by eapply b_vars. Qed.
  Lemma V_empty : closed_V V ∅.
  Proof. intros v t E. by rewrite lookup_empty in E. Qed.
  Lemma V_unbound st P : (forall v, v ∉ V -> st !! v = None) -> apart (wvars s ++ wvars r) P -> unbound st (p_rules P).
  Proof. intros H [H1 _] q v Hq Hv. apply H. rewrite elem_of_list_to_set. by apply (H1 q). Qed.

  Lemma unify_again n st b st' u j : wbody r !! j = Some (Goal b) -> acyclic st -> closed_V V st -> (forall v, v ∉ V -> st !! v = None) ->
    (forall σ, solves σ st <-> sub σ (whead s) = sub σ b) -> unify_f n st (whead s) b = Ok (st', u) ->
    u = true /\ acyclic st' /\ (forall v, v ∉ V -> st' !! v = None) /\ forall σ, solves σ st' <-> sub σ (whead s) = sub σ b.
  Proof.
    intros Hb Hac Hcl Hdom Hst E. destruct (unify_ok n st (whead s) b st' u Hac E) as (Hac' & _ & Hu).
    destruct (unify_dom V n st (whead s) b st' u Hac Hcl V_head (V_goal j b Hb) E) as [_ Hd].
    destruct (acyclic_resolution st Hac) as [θ Hθ]. destruct u.
    - split; [done|]. split; [done|]. split; [intros v Hv; rewrite (Hd v Hv); by apply Hdom|]. intros σ. rewrite Hu, Hst. tauto.
    - exfalso. apply (Hu θ); [apply Hθ|]. apply Hst, Hθ.
  Qed.

  Lemma put_ok n st j b L P P' : wbody r !! j = Some (Goal b) -> item_head (whead r) ->
    acyclic st -> closed_V V st -> (forall v, v ∉ V -> st !! v = None) ->
    (forall σ, solves σ st <-> sub σ (whead s) = sub σ b) ->
    stands L P -> apart (wvars s ++ wvars r) P ->
    put wt negligible is_one al cv minf n st (whead r) (take j (wbody r)) (whead s) b (wbody s) (drop (S j) (wbody r)) P = Ok P' ->
    exists t mid, comb_ok r s j t mid /\ stands (L ++ [t]) P' /\ grows al P P'.
  Proof.
    intros Hb Hh Hac Hcl Hdom Hst HL HA E. unfold put in E.
    set (all := Fn (whead r :: goals (take j (wbody r)) ++ whead s :: b :: goals (wbody s) ++ goals (drop (S j) (wbody r)))) in E.
    destruct (term_vars n st all []) as [was| |] eqn:Ew; [|discriminate..]. cbn [bind] in E.
    destruct (unify_f n st (whead s) b) as [[st' u]| |] eqn:Eu; [|discriminate..]. cbn [bind] in E.
    destruct (unify_again n st b st' u j Hb Hac Hcl Hdom Hst Eu) as (-> & Hac' & Hdom' & Hst2).
    destruct (acyclic_resolution st Hac) as [θ Hθ]. destruct (acyclic_resolution st' Hac') as [θ' Hθ'].
    set (t := WRule (whead r) (take j (wbody r) ++ Val sone :: wbody s ++ drop (S j) (wbody r))) in E.
    destruct (term_vars n st' (Fn (map Var was)) []) as [vs| |] eqn:Ev; [|discriminate..]. cbn [bind] in E.
    destruct (term_vars n st' (rterm t) []) as [vt| |] eqn:Et; [|discriminate..]. cbn [bind] in E.
    apply (term_vars_ok st θ) in Ew; [|done..]. apply (term_vars_ok st' θ') in Ev, Et; [|done..].
    rewrite rterm_sub, rterm_vars in Et.
    assert (Hall : forallb (fun v => existsb (Nat.eqb v) vt) vs = true).
    { apply forallb_forall. intros v Hv. apply existsb_exists. exists v. split; [|apply Nat.eqb_refl]. apply elem_of_list_In in Hv. apply elem_of_list_In.
      subst vs vt. apply (collect_elem (R := R) szero (fun _ => true)) in Hv. destruct Hv as [Hv|Hv]; [by apply elem_of_nil in Hv|].
      apply (collect_elem (R := R) szero (fun _ => true)). right.
      apply elem_of_list_In, vars_sub in Hv as (w & Hw & Hv). cbn [vars] in Hw. apply in_flat_map in Hw as (a & Ha & Hw).
      apply in_map_iff in Ha as (w' & <- & Ha). destruct Hw as [->|[]]. apply elem_of_list_In in Ha. subst was.
      apply (collect_elem (R := R) szero (fun _ => true)) in Ha. destruct Ha as [Ha|Ha]; [by apply elem_of_nil in Ha|].
      assert (Hv' : In v (vars (sub θ' all))).
      { rewrite <- (resolution_most_general st θ θ' Hac Hθ); [|apply Hst, Hst2, Hθ']. apply vars_sub. exists w. split; [by apply elem_of_list_In|done]. }
      pose proof (b_kept j b Hb st' θ' Hθ' Hst2) as Hbk.
      assert (Es : sub θ' (whead s) = sub θ' b) by (apply Hst2, Hθ').
      unfold wvars. apply elem_of_list_In. clear - Hv' Hbk Es. unfold wvars in Hbk. unfold t. cbn [rsub whead wbody] in *.
      setoid_rewrite elem_of_list_In in Hbk.
      rewrite !map_app in *. cbn [map fsub] in *. rewrite map_app in *. rewrite !goals_app in *.
      change (goals (Val sone :: map (fsub θ') (wbody s) ++ map (fsub θ') (drop (S j) (wbody r)))) with (goals (map (fsub θ') (wbody s) ++ map (fsub θ') (drop (S j) (wbody r)))) in *.
      rewrite !goals_app, !flat_map_app, !goals_fsub in *. unfold all in Hv'. cbn [sub map vars] in Hv'. 
      cbn [flat_map] in Hv'. rewrite map_app in Hv'. cbn [map] in Hv'. rewrite map_app, flat_map_app in Hv'. cbn [flat_map] in Hv'. rewrite flat_map_app, Es in Hv'.
      repeat setoid_rewrite in_app_iff in Hbk. repeat rewrite in_app_iff in Hv'. repeat rewrite in_app_iff.
      specialize (Hbk v). tauto. }
    rewrite Hall in E. exists (rsub θ' t), (midp (rsub θ' t) (sub θ' b)). split; [|split].
    - by apply (comb_is_ok j b Hb st' θ' Hac' Hθ').
    - eapply stands_update; [exact Hac'|exact Hθ'| | |exact HL|exact E].
      + by apply V_unbound.
      + by apply item_head_sub.
    - by eapply update_grows.
  Qed.
  Lemma put_settles st j b L P : wbody r !! j = Some (Goal b) -> item_head (whead r) ->
    acyclic st -> closed_V V st -> (forall v, v ∉ V -> st !! v = None) ->
    (forall σ, solves σ st <-> sub σ (whead s) = sub σ b) ->
    stands L P -> apart (wvars s ++ wvars r) P ->
    exists P', settles (fun n => put wt negligible is_one al cv minf n st (whead r) (take j (wbody r)) (whead s) b (wbody s) (drop (S j) (wbody r)) P) P'.
  Proof.
    intros Hb Hh Hac Hcl Hdom Hst HL HA. unfold put.
    destruct (acyclic_resolution st Hac) as [θ Hθ].
    destruct (unify_settles st (whead s) b Hac) as (st' & u & Hu). pose proof Hu as [n0 Hn0]. specialize (Hn0 n0 ltac:(lia)).
    destruct (unify_again n0 st b st' u j Hb Hac Hcl Hdom Hst Hn0) as (-> & Hac' & Hdom' & Hst2). clear n0 Hn0.
    destruct (acyclic_resolution st' Hac') as [θ' Hθ'].
    set (all := Fn (whead r :: goals (take j (wbody r)) ++ whead s :: b :: goals (wbody s) ++ goals (drop (S j) (wbody r)))).
    set (t := WRule (whead r) (take j (wbody r) ++ Val sone :: wbody s ++ drop (S j) (wbody r))).
    set (was := collect [] (vars (sub θ all))). set (vs := collect [] (vars (sub θ' (Fn (map Var was))))). set (vt := collect [] (vars (sub θ' (rterm t)))).
    set (t' := if forallb (fun v => existsb (Nat.eqb v) vt) vs then t else WRule (whead r) (wbody t ++ [Val minf])).
    destruct (stands_settles st' θ' t' L P) as [P' HP']; [done|done|by apply V_unbound|unfold t'; case_match; by apply item_head_sub|done|].
    exists P'. eapply settles_bind; [by apply (term_vars_settles st θ)|]. eapply settles_bind; [exact Hu|]. cbn beta iota.
    eapply settles_bind; [by apply (term_vars_settles st' θ')|]. eapply settles_bind; [by apply (term_vars_settles st' θ')|]. exact HP'.
  Qed.

  Lemma grows_trans (P1 P2 P3 : pstate R) : grows al P1 P2 -> grows al P2 P3 -> grows al P1 P3.
  Proof.
    intros [A1 A2] [B1 B2]. split; [lia|]. intros q v Hq Hv. destruct (B2 q v Hq Hv) as [(q0 & Hq0 & Hv0)|(j & -> & Hj)].
    - destruct (A2 q0 v Hq0 Hv0) as [?|(j & -> & Hj)]; [by left|]. right. exists j. split; [done|lia].
    - right. exists j. split; [done|lia].
  Qed.
  Lemma unify_first (n j : nat) (b : term) (st : store) (u : bool) : wbody r !! j = Some (Goal b) -> unify_f n ∅ (whead s) b = Ok (st, u) ->
    acyclic st /\ closed_V V st /\ (forall v, v ∉ V -> st !! v = None) /\ (u = true -> meets_head s b /\ forall σ, solves σ st <-> sub σ (whead s) = sub σ b) /\ (u = false -> ~ meets_head s b).
  Proof.
    intros Hb E. destruct (unify_ok n ∅ (whead s) b st u acyclic_empty E) as (Hac & _ & Hu).
    destruct (unify_dom V n ∅ (whead s) b st u acyclic_empty V_empty V_head (V_goal j b Hb) E) as [Hcl Hd].
    assert (H0 : forall σ, solves σ ∅) by (intros σ v t Ev; by rewrite lookup_empty in Ev).
    split; [done|]. split; [done|]. split; [intros v Hv; rewrite (Hd v Hv); apply lookup_empty|]. split; intros ->.
    - destruct (acyclic_resolution st Hac) as [θ Hθ]. split.
      + exists θ, θ. symmetry. apply Hu, Hθ.
      + intros σ. rewrite Hu. split; [tauto|done].
    - intros Hm. destruct (head_meets b) as [σ Hσ]; [intros v Hv; by eapply b_vars|done|]. by apply (Hu σ).
  Qed.

  Definition piece : Type := nat * wrule R * (term -> list (factor R) -> term).
  Definition piece_ok (j : nat) (p : piece) : Prop :=
    comb_ok r s (fst (fst p)) (snd (fst p)) (snd p) /\ j <= fst (fst p) /\ exists b, wbody r !! fst (fst p) = Some (Goal b) /\ meets_head s b.
  Lemma elim_body_ok n fs j count L P count' P' : fs = drop j (wbody r) -> item_head (whead r) ->
    stands L P -> apart (wvars s ++ wvars r) P ->
    elim_body wt negligible is_one al cv minf n s r fs j count P = Ok (count', P') ->
    exists ps : list piece, count' = count + length ps /\ stands (L ++ map (fun p => snd (fst p)) ps) P' /\ grows al P P' /\
      Forall (piece_ok j) ps /\ NoDup (map (fun p => fst (fst p)) ps) /\ forall q b, j <= q -> wbody r !! q = Some (Goal b) -> meets_head s b -> q ∈ map (fun p => fst (fst p)) ps.
  Proof.
    intros Hfs Hh. revert j count L P Hfs. induction fs as [|f fs IH]; intros j count L P Hfs HL HA E; cbn [elim_body] in E.
    - injection E as <- <-. exists []. cbn [map length]. rewrite app_nil_r, Nat.add_0_r. split; [done|]. split; [done|]. split; [apply grows_refl|].
      split; [constructor|]. split; [constructor|]. intros q b Hq Hb. apply lookup_lt_Some in Hb. apply (f_equal length) in Hfs. rewrite drop_length in Hfs. cbn in Hfs. lia.
    - assert (Hf : wbody r !! j = Some f) by (rewrite <- (Nat.add_0_r j), <- lookup_drop, <- Hfs; done).
      assert (Hfs' : fs = drop (S j) (wbody r)).
      { pose proof (f_equal (drop 1) Hfs) as H. rewrite drop_drop in H. cbn [drop] in H. rewrite drop_0 in H. rewrite H. f_equal. lia. }
      assert (Hskip : forall count L P, stands L P -> apart (wvars s ++ wvars r) P -> (forall b, f = Goal b -> ~ meets_head s b) ->
        elim_body wt negligible is_one al cv minf n s r fs (S j) count P = Ok (count', P') ->
        exists ps : list piece, count' = count + length ps /\ stands (L ++ map (fun p => snd (fst p)) ps) P' /\ grows al P P' /\
      Forall (piece_ok j) ps /\ NoDup (map (fun p => fst (fst p)) ps) /\
      forall q b, j <= q -> wbody r !! q = Some (Goal b) -> meets_head s b -> q ∈ map (fun p => fst (fst p)) ps).
      { intros count1 L1 P1 HL1 HA1 Hno E1. destruct (IH (S j) count1 L1 P1 Hfs' HL1 HA1 E1) as (ps & H1 & H2 & H3 & H4 & H5 & H6).
        exists ps. split; [done|]. split; [done|]. split; [done|]. split; [|split; [done|]].
        - eapply Forall_impl; [exact H4|]. intros p (A1 & A2 & A3). split; [done|]. split; [lia|done].
        - intros q b Hq Hb Hm. destruct (decide (q = j)) as [->|Hn]; [|apply (H6 q b); [lia|done..]].
          rewrite Hf in Hb. injection Hb as ->. by apply Hno in Hm. }
      destruct f as [v|b]; [by eapply Hskip|].
      destruct (unify_f n ∅ (whead s) b) as [[st u]| |] eqn:Eu; [|discriminate..]. cbn [bind] in E.
      destruct (unify_first n j b st u Hf Eu) as (Hac & Hcl & Hdom & Ht & Hno). destruct u.
      + destruct (Ht eq_refl) as [Hm Hst].
        destruct (put wt negligible is_one al cv minf n st (whead r) (take j (wbody r)) (whead s) b (wbody s) (drop (S j) (wbody r)) P) as [P1| |] eqn:Ep; [|discriminate..].
        cbn [bind] in E. destruct (put_ok n st j b L P P1 Hf Hh Hac Hcl Hdom Hst HL HA Ep) as (t & mid & Hc & HL1 & Hg1).
        destruct (IH (S j) (S count) (L ++ [t]) P1 Hfs' HL1 (apart_grows _ _ _ HA Hg1) E) as (ps & H1 & H2 & H3 & H4 & H5 & H6).
        exists ((j, t, mid) :: ps). cbn [map length fst snd]. split; [lia|]. split; [by rewrite <- app_assoc in H2|]. split; [by eapply grows_trans|].
        split; [|split].
        * constructor; [split; [done|]; split; [done|by exists b]|]. eapply Forall_impl; [exact H4|]. intros p (A1 & A2 & A3). split; [done|]. split; [lia|done].
        * constructor; [|done]. intros Hin. apply elem_of_list_In, in_map_iff in Hin as (p & Ep' & Hp). apply elem_of_list_In in Hp.
          rewrite Forall_forall in H4. destruct (H4 p Hp) as (_ & Hle & _). lia.
        * intros q b' Hq Hb' Hm'. apply elem_of_cons. destruct (decide (q = j)) as [->|Hn]; [by left|]. right. apply (H6 q b'); [lia|done..].
      + cbn [bind] in E. eapply Hskip; [exact HL|exact HA| |exact E]. intros b' [= <-]. by apply Hno.
  Qed.
  Lemma elim_body_settles fs j count L P : fs = drop j (wbody r) -> item_head (whead r) ->
    stands L P -> apart (wvars s ++ wvars r) P ->
    exists o, settles (fun n => elim_body wt negligible is_one al cv minf n s r fs j count P) o.
  Proof.
    intros Hfs Hh. revert j count L P Hfs. induction fs as [|f fs IH]; intros j count L P Hfs HL HA; cbn [elim_body].
    - eexists. apply settles_ret.
    - assert (Hf : wbody r !! j = Some f) by (rewrite <- (Nat.add_0_r j), <- lookup_drop, <- Hfs; done).
      assert (Hfs' : fs = drop (S j) (wbody r)).
      { pose proof (f_equal (drop 1) Hfs) as H. rewrite drop_drop in H. cbn [drop] in H. rewrite drop_0 in H. rewrite H. f_equal. lia. }
      destruct f as [v|b]; [by eapply IH|].
      destruct (unify_settles ∅ (whead s) b acyclic_empty) as (st & u & Hu). pose proof Hu as [n0 Hn0]. specialize (Hn0 n0 ltac:(lia)).
      destruct (unify_first n0 j b st u Hf Hn0) as (Hac & Hcl & Hdom & Ht & Hno). clear n0 Hn0. destruct u.
      + destruct (Ht eq_refl) as [Hm Hst]. destruct (put_settles st j b L P Hf Hh Hac Hcl Hdom Hst HL HA) as [P1 HP1].
        pose proof HP1 as [n1 Hn1]. specialize (Hn1 n1 ltac:(lia)).
        destruct (put_ok n1 st j b L P P1 Hf Hh Hac Hcl Hdom Hst HL HA Hn1) as (t & mid & Hc & HL1 & Hg1).
        destruct (IH (S j) (S count) (L ++ [t]) P1 Hfs' HL1 (apart_grows _ _ _ HA Hg1)) as [o Ho].
        exists o. eapply settles_bind; [exact Hu|]. cbn beta iota. eapply settles_bind; [exact HP1|]. exact Ho.
      + destruct (IH (S j) count L P Hfs' HL HA) as [o Ho]. exists o. eapply settles_bind; [exact Hu|]. cbn beta iota.
        eapply settles_bind; [apply settles_ret|]. exact Ho.
  Qed.
  End one.

  Lemma kept_inst (r r' s : wrule R) j : (forall x fs, inst r' x fs <-> inst r x fs) -> kept r s j -> kept r' s j.
  Proof. intros H Hk x A Q zs y y' HA H1 H2 H3 H4. apply H in H1, H3. by eapply Hk. Qed.
  Lemma comb_inst (r r' s : wrule R) j t mid : length (wbody r') = length (wbody r) -> (forall x fs, inst r' x fs <-> inst r x fs) ->
    comb_ok r' s j t mid -> comb_ok r s j t mid.
  Proof.
    intros Hl H (H1 & H2 & H3 & H4). rewrite Hl in H1, H2. split; [done|]. split; [done|]. split.
    - intros x A y Q zs HA Hr Hs. apply H3; [done|by apply H|done].
    - intros x fs Ht. destruct (H4 x fs Ht) as (A & zs & Q & E & HA & Hz & Hr & Hs). exists A, zs, Q. apply H in Hr. done.
  Qed.
  Lemma meets_rename (s : wrule R) ρ b : (forall v w, In v (vars b) -> In w (vars b) -> ρ v = ρ w -> v = w) ->
    meets_head s (sub (fun v => Var (ρ v)) b) <-> meets_head s b.
  Proof.
    intros Hρ. split.
    - intros (σ & τ & E). exists (fun v => σ (ρ v)), τ. rewrite <- E. by rewrite sub_sub.
    - intros (σ & τ & E). exists (fun v => σ (inv_on ρ (vars b) v)), τ. rewrite <- E, sub_sub. apply sub_ext. intros v Hv. cbn [sub].
      f_equal. by apply inv_on_spec.
  Qed.

  Section all.
  Context (rs : list (wrule R)) (c0 i : nat) (s : wrule R) (Hi : rs !! i = Some s).
  Context (Hhead : forall r, r ∈ rs -> item_head (whead r)) (Hnew : forall r v k, r ∈ rs -> v ∈ wvars r -> c0 <= k -> v <> al k).
  Context (Hdisj : forall k r v, rs !! k = Some r -> k <> i -> v ∈ wvars s -> v ∉ wvars r).
  Context (Hkept : forall r j, r ∈ rs -> kept r s j).

  Definition newvars (P : pstate R) : Prop :=
    c0 <= p_c P /\ forall r v, r ∈ p_rules P -> v ∈ wvars r -> exists j, v = al j /\ c0 <= j < p_c P.
  Lemma newvars_grows P P' : newvars P -> grows al P P' -> newvars P'.
  Proof.
    intros [H1 H2] [G1 G2]. split; [lia|]. intros r v Hr Hv. destruct (G2 r v Hr Hv) as [(r0 & Hr0 & Hv0)|(j & -> & Hj)].
    - destruct (H2 r0 v Hr0 Hv0) as (j & -> & Hj). exists j. split; [done|lia].
    - exists j. split; [done|lia].
  Qed.
  Lemma newvars_apart P r : newvars P -> r ∈ rs -> apart (wvars s ++ wvars r) P.
  Proof.
    intros [H1 H2] Hr. pose proof (elem_of_list_lookup_2 _ _ _ Hi) as Hs. split.
    - intros q v Hq Hv Hin. destruct (H2 q v Hq Hv) as (j & -> & Hj).
      apply elem_of_app in Hin as [Hin|Hin]; [by apply (Hnew s _ j Hs Hin); [lia|]|by apply (Hnew r _ j Hr Hin); [lia|]].
    - intros j Hj Hin. apply elem_of_app in Hin as [Hin|Hin]; [by apply (Hnew s _ j Hs Hin); [lia|]|by apply (Hnew r _ j Hr Hin); [lia|]].
  Qed.
  Lemma unbound_empty (P : pstate R) : unbound ∅ (p_rules P).
  Proof. intros ? ? _ _. apply lookup_empty. Qed.

  (** [at_ k] is where the head of [s] meets rule [k] *)
  Definition place (at_ : nat -> option nat) (k : nat) (r : wrule R) : Prop :=
    forall j b, wbody r !! j = Some (Goal b) -> meets_head s b -> at_ k = Some j.
  Definition entry (at_ : nat -> option nat) (mid : nat -> term -> list (factor R) -> term) (K : nat + nat) (t : wrule R) : Prop :=
    match K with
    | inl k => k <> i /\ rs !! k = Some t
    | inr k => exists r j, rs !! k = Some r /\ at_ k = Some j /\ comb_ok r s j t (mid k)
    end.
  Definition knum (K : nat + nat) : nat := match K with inl k => k | inr k => k end.

  (** the rule whose subgoals are looked at: a fresh copy if it is the eliminated one *)
  Lemma copy_ok n k r P r' P' L : rs !! k = Some r -> newvars P -> stands L P ->
    (if decide (k = i) then let* (r, c) := fresh_rule al n ∅ (p_c P) r in Ok (r, PState (p_rules P) (p_buckets P) (p_f2r P) c) else Ok (r, P)) = Ok (r', P') ->
    newvars P' /\ stands L P' /\ apart (wvars s ++ wvars r') P' /\ (forall v, v ∈ wvars s -> v ∉ wvars r') /\ (forall j, kept r' s j) /\ item_head (whead r') /\
    (k <> i -> r' = r) /\ length (wbody r') = length (wbody r) /\ (forall x fs, inst r' x fs <-> inst r x fs) /\
    (forall j, (exists b, wbody r' !! j = Some (Goal b) /\ meets_head s b) <-> exists b, wbody r !! j = Some (Goal b) /\ meets_head s b).
  Proof.
    intros Hr HN HL E. pose proof (elem_of_list_lookup_2 _ _ _ Hr) as Hin. case_decide as Hki.
    - subst k. assert (r = s) as -> by congruence.
      destruct (fresh_rule al n ∅ (p_c P) s) as [[q c]| |] eqn:Ef; [|discriminate..]. cbn [bind] in E. injection E as <- <-.
      apply (fresh_rule_ok al Hal ∅ Var acyclic_empty resolution_empty) in Ef as (ρ & -> & Hρ & Hc & Hv). rewrite rsub_Var in *.
      assert (Hinst : forall x fs, inst (rrename ρ s) x fs <-> inst s x fs) by (intros x fs; by apply inst_rename).
      destruct HN as [HN1 HN2].
      split; [|split; [|split; [|split; [|split; [|split; [|split; [done|split; [|split; [done|]]]]]]]]].
      + split; cbn [p_c p_rules]; [lia|]. intros q v Hq Hv'. destruct (HN2 q v Hq Hv') as (j & -> & Hj). exists j. split; [done|lia].
      + destruct HL as [[? ? ?] HL2]. split; [by split|done].
      + split; cbn [p_c p_rules].
        * intros q v Hq Hv' Hin'. destruct (HN2 q v Hq Hv') as (j & -> & Hj). apply elem_of_app in Hin' as [Hin'|Hin'].
          -- apply (Hnew s _ j Hin Hin'); [lia|done].
          -- destruct (Hv _ Hin') as (j' & E & Hj'). apply Hal in E. lia.
        * intros j Hj Hin'. apply elem_of_app in Hin' as [Hin'|Hin'].
          -- apply (Hnew s _ j Hin Hin'); [lia|done].
          -- destruct (Hv _ Hin') as (j' & E & Hj'). apply Hal in E. lia.
      + intros v Hs Hv'. destruct (Hv v Hv') as (j & -> & Hj). apply (Hnew s _ j Hin Hs); [lia|done].
      + intros j. apply (kept_inst s); [done|]. by apply Hkept.
      + cbn [rrename rsub whead]. by apply item_head_sub, Hhead.
      + cbn [rrename rsub wbody]. by rewrite map_length.
      + intros j. cbn [rrename rsub wbody]. change (@map (factor R) (factor R)) with (@fmap list _ (factor R) (factor R)). rewrite list_lookup_fmap.
        destruct (wbody s !! j) as [[v|b]|] eqn:Eb; cbn; [split; by intros (b & [=] & _)| |split; by intros (b & [=] & _)].
        assert (Hm : meets_head s (sub (fun v => Var (ρ v)) b) <-> meets_head s b).
        { apply meets_rename. intros v w Hv1 Hw1. apply Hρ; by eapply b_vars. }
        split; intros (b' & [= <-] & H); (eexists; split; [done|]); by apply Hm.
    - injection E as <- <-. split; [done|]. split; [done|]. split; [by apply newvars_apart|]. split; [intros v; by apply (Hdisj k)|].
      split; [intros j; by apply Hkept|]. split; [by apply Hhead|]. done.
  Qed.

  Lemma elim_rules_ok n rest k L P P' : rest = drop k rs -> newvars P -> stands L P ->
    elim_rules wt negligible is_one al cv minf n i s rest k P = Ok P' ->
    exists (Ks : list (nat + nat)) (Ts : list (wrule R)) at_ mid, stands (L ++ Ts) P' /\ Forall2 (entry at_ mid) Ks Ts /\ NoDup Ks /\
      (forall q r, k <= q -> rs !! q = Some r -> (q <> i -> inl q ∈ Ks) /\ (forall j, at_ q = Some j -> inr q ∈ Ks) /\ place at_ q r) /\
      (forall K, K ∈ Ks -> k <= knum K).
  Proof.
    revert k L P. induction rest as [|r rest IH]; intros k L P Hrest HN HL E; cbn [elim_rules] in E.
    - injection E as <-. exists [], [], (fun _ => None), (fun _ _ _ => Cst (CInt 0)). rewrite app_nil_r. split; [done|]. split; [constructor|]. split; [constructor|].
      split; [|by intros K ?%elem_of_nil]. intros q r Hq Hr. apply lookup_lt_Some in Hr. apply (f_equal length) in Hrest. rewrite drop_length in Hrest. cbn in Hrest. lia.
    - assert (Hr : rs !! k = Some r) by (rewrite <- (Nat.add_0_r k), <- lookup_drop, <- Hrest; done).
      assert (Hrest' : rest = drop (S k) rs).
      { pose proof (f_equal (drop 1) Hrest) as H. rewrite drop_drop in H. cbn [drop] in H. rewrite drop_0 in H. rewrite H. f_equal. lia. }
      match type of E with bind ?m _ = _ => destruct m as [[r' P1]| |] eqn:Ec; [|discriminate..] end. cbn [bind] in E.
      apply (copy_ok n k r P r' P1 L Hr HN HL) in Ec as (HN1 & HL1 & HA1 & Hd1 & Hk1 & Hh1 & Hsame & Hlen & Hinst & Hmeet).
      destruct (elim_body wt negligible is_one al cv minf n s r' (wbody r') 0 0 P1) as [[count P2]| |] eqn:Eb; [|discriminate..]. cbn [bind] in E.
      destruct (elim_body_ok s r' Hd1 Hk1 n (wbody r') 0 0 L P1 count P2 eq_refl Hh1 HL1 HA1 Eb) as (ps & -> & HL2 & Hg2 & Hps & Hnd & Hall).
      destruct (1 <? 0 + length ps) eqn:Ecount; [discriminate|]. apply Nat.ltb_ge in Ecount.
      pose proof (newvars_grows _ _ HN1 Hg2) as HN2.
      match type of E with bind ?m _ = _ => destruct m as [P3| |] eqn:Ep; [|discriminate..] end. cbn [bind] in E.
      set (pl := if decide (k = i) then [] else [r]).
      assert (H3 : stands (L ++ map (fun p => snd (fst p)) ps ++ pl) P3 /\ newvars P3).
      { unfold pl. case_decide as Hki.
        - injection Ep as <-. by rewrite app_nil_r.
        - rewrite (Hsame Hki) in Ep. rewrite app_assoc. split.
          + pose proof (stands_update n ∅ Var r (L ++ map (fun p => snd (fst p)) ps) P2 P3 acyclic_empty resolution_empty (unbound_empty P2)) as H. rewrite rsub_Var in H. apply H; [|done|done].
            rewrite sub_Var. apply Hhead. by eapply elem_of_list_lookup_2.
          + eapply newvars_grows; [exact HN2|]. eapply update_grows; [exact Hal|exact acyclic_empty|exact resolution_empty|exact Ep]. }
      destruct H3 as [HL3 HN3].
      destruct (IH (S k) _ P3 Hrest' HN3 HL3 E) as (Ks & Ts & at' & mid' & H1 & H2 & H3 & H4 & H5).
      set (at_ q := if decide (q = k) then match ps with p :: _ => Some (fst (fst p)) | [] => None end else at' q).
      set (mid q := if decide (q = k) then match ps with p :: _ => snd p | [] => mid' q end else mid' q).
      exists (map (fun _ => inr k) ps ++ (if decide (k = i) then [] else [inl k]) ++ Ks), (map (fun p => snd (fst p)) ps ++ pl ++ Ts), at_, mid.
      assert (Hrestq : forall K t, K ∈ Ks -> entry at' mid' K t -> entry at_ mid K t).
      { intros K t HK He. pose proof (H5 K HK) as Hle. destruct K as [q|q]; [done|]. cbn [knum] in Hle. destruct He as (rq & jq & Ha & Hb & Hc).
        exists rq, jq. unfold at_, mid. rewrite !decide_False by lia. done. }
      split; [|split; [|split; [|split]]].
      + rewrite <- !app_assoc in H1. done.
      + apply Forall2_app; [|apply Forall2_app].
        * destruct ps as [|p [|? ?]]; [constructor| |cbn in Ecount; lia]. cbn [map]. constructor; [|constructor].
          exists r, (fst (fst p)). unfold at_, mid. rewrite !decide_True by done. split; [done|]. split; [done|].
          apply Forall_cons in Hps as [(Hc & _) _]. by apply (comb_inst r r').
        * unfold pl. case_decide; [constructor|]. constructor; [|constructor]. done.
        * clear - H2 Hrestq. induction H2 as [|K t Ks Ts HKt _ IH2]; [constructor|]. constructor.
          -- apply Hrestq; [by apply elem_of_list_here|done].
          -- apply IH2. intros K' t' HK'. apply Hrestq. by apply elem_of_list_further.
      + apply NoDup_app. split; [|split].
        * destruct ps as [|p [|? ?]]; [constructor| |cbn in Ecount; lia]. apply NoDup_singleton.
        * intros K HK. apply elem_of_list_In, in_map_iff in HK as (_ & <- & _). rewrite elem_of_app. intros [HK|HK].
          -- case_decide; [by apply elem_of_nil in HK|]. by apply elem_of_list_singleton in HK.
          -- apply H5 in HK. cbn in HK. lia.
        * apply NoDup_app. split; [case_decide; [constructor|apply NoDup_singleton]|]. split; [|done].
          intros K HK HK'. apply H5 in HK'. case_decide; [by apply elem_of_nil in HK|]. apply elem_of_list_singleton in HK as ->. cbn in HK'. lia.
      + intros q rq Hq Hrq. destruct (decide (q = k)) as [->|Hn].
        * rewrite Hr in Hrq. injection Hrq as <-. split; [|split].
          -- intros Hne. rewrite !elem_of_app. right. left. rewrite decide_False by done. by apply elem_of_list_singleton.
          -- intros j Hj. unfold at_ in Hj. rewrite decide_True in Hj by done. rewrite !elem_of_app. left. destruct ps as [|p ps]; [done|]. by left.
          -- intros j b Hb Hm. unfold at_. rewrite decide_True by done.
             destruct (proj2 (Hmeet j)) as (b' & Hb' & Hm'); [by exists b|]. pose proof (Hall j b' ltac:(lia) Hb' Hm') as Hin.
             destruct ps as [|p [|? ?]]; [by apply elem_of_nil in Hin| |cbn in Ecount; lia]. by apply elem_of_list_singleton in Hin as ->.
        * destruct (H4 q rq ltac:(lia) Hrq) as (A1 & A2 & A3). split; [|split].
          -- intros Hne. rewrite !elem_of_app. right. right. by apply A1.
          -- intros j Hj. unfold at_ in Hj. rewrite decide_False in Hj by done. rewrite !elem_of_app. right. right. by eapply A2.
          -- intros j b Hb Hm. unfold at_. rewrite decide_False by done. by eapply A3.
      + intros K HK. rewrite !elem_of_app in HK. destruct HK as [HK|[HK|HK]].
        * apply elem_of_list_In, in_map_iff in HK as (_ & <- & _). done.
        * case_decide; [by apply elem_of_nil in HK|]. by apply elem_of_list_singleton in HK as ->.
        * apply H5 in HK. lia.
  Qed.

  Lemma elim_rules_settles rest k L P : rest = drop k rs -> newvars P -> stands L P ->
    (forall r j j' b b', r ∈ rs -> wbody r !! j = Some (Goal b) -> wbody r !! j' = Some (Goal b') -> meets_head s b -> meets_head s b' -> j = j') ->
    exists P', settles (fun n => elim_rules wt negligible is_one al cv minf n i s rest k P) P'.
  Proof.
    intros Hrest HN HL Huniq. revert k L P Hrest HN HL. induction rest as [|r rest IH]; intros k L P Hrest HN HL; cbn [elim_rules].
    - eexists. apply settles_ret.
    - assert (Hr : rs !! k = Some r) by (rewrite <- (Nat.add_0_r k), <- lookup_drop, <- Hrest; done).
      assert (Hrest' : rest = drop (S k) rs).
      { pose proof (f_equal (drop 1) Hrest) as H. rewrite drop_drop in H. cbn [drop] in H. rewrite drop_0 in H. rewrite H. f_equal. lia. }
      assert (Hc : exists r' P1, settles (fun n => if decide (k = i) then let* (r, c) := fresh_rule al n ∅ (p_c P) r in Ok (r, PState (p_rules P) (p_buckets P) (p_f2r P) c) else Ok (r, P)) (r', P1)).
      { case_decide; [|eexists _, _; apply settles_ret]. destruct (fresh_rule_settles al Hal ∅ Var acyclic_empty resolution_empty (p_c P) r) as (r' & c & Hf).
        eexists _, _. eapply settles_bind; [exact Hf|]. cbn beta iota. apply settles_ret. }
      destruct Hc as (r' & P1 & Hc). pose proof Hc as [n1 Hn1]. specialize (Hn1 n1 ltac:(lia)). cbn beta in Hn1.
      apply (copy_ok n1 k r P r' P1 L Hr HN HL) in Hn1 as (HN1 & HL1 & HA1 & Hd1 & Hk1 & Hh1 & Hsame & Hlen & Hinst & Hmeet).
      destruct (elim_body_settles s r' Hd1 Hk1 (wbody r') 0 0 L P1 eq_refl Hh1 HL1 HA1) as [[count P2] Hb].
      pose proof Hb as [n2 Hn2]. specialize (Hn2 n2 ltac:(lia)).
      destruct (elim_body_ok s r' Hd1 Hk1 n2 (wbody r') 0 0 L P1 count P2 eq_refl Hh1 HL1 HA1 Hn2) as (ps & -> & HL2 & Hg2 & Hps & Hnd & Hall).
      assert (Ecount : (1 <? 0 + length ps) = false).
      { apply Nat.ltb_ge. destruct ps as [|p [|p' ps]]; [cbn; lia..|]. exfalso.
        apply Forall_cons in Hps as [(_ & _ & Hp) Hps]. apply Forall_cons in Hps as [(_ & _ & Hp') _].
        apply Hmeet in Hp as (b & Hb1 & Hm1). apply Hmeet in Hp' as (b' & Hb2 & Hm2).
        pose proof (Huniq r _ _ _ _ (elem_of_list_lookup_2 _ _ _ Hr) Hb1 Hb2 Hm1 Hm2) as E. cbn [map] in Hnd. apply NoDup_cons in Hnd as [Hnd _].
        apply Hnd. rewrite E. apply elem_of_list_here. }
      pose proof (newvars_grows _ _ HN1 Hg2) as HN2.
      assert (Hp : exists P3, settles (fun n => if decide (k = i) then Ok P2 else update wt negligible is_one al cv n ∅ r' P2) P3).
      { case_decide as Hki; [eexists; apply settles_ret|]. rewrite (Hsame Hki). eapply stands_settles; [exact acyclic_empty|exact resolution_empty|apply unbound_empty| |exact HL2].
        rewrite sub_Var. apply Hhead. by eapply elem_of_list_lookup_2. }
      destruct Hp as [P3 Hp]. pose proof Hp as [n3 Hn3]. specialize (Hn3 n3 ltac:(lia)). cbn beta in Hn3.
      assert (H3 : exists L3, stands L3 P3 /\ newvars P3).
      { case_decide as Hki.
        - injection Hn3 as <-. eauto.
        - rewrite (Hsame Hki) in Hn3. eexists. split.
          + eapply (stands_update n3 ∅ Var r _ P2 P3 acyclic_empty resolution_empty (unbound_empty P2)); [|exact HL2|done].
            rewrite sub_Var. apply Hhead. by eapply elem_of_list_lookup_2.
          + eapply newvars_grows; [exact HN2|]. eapply update_grows; [exact Hal|exact acyclic_empty|exact resolution_empty|exact Hn3]. }
      destruct H3 as (L3 & HL3 & HN3). destruct (IH (S k) L3 P3 Hrest' HN3 HL3) as [P4 HP4].
      exists P4. eapply settles_bind; [exact Hc|]. cbn beta iota. eapply settles_bind; [exact Hb|]. cbn beta iota.
      rewrite Ecount. eapply settles_bind; [exact Hp|]. exact HP4.
  Qed.

  Fixpoint posK (K : nat + nat) (Ks : list (nat + nat)) : nat :=
    match Ks with [] => 0 | K' :: Ks => if decide (K' = K) then 0 else S (posK K Ks) end.
  Lemma posK_spec K Ks : K ∈ Ks -> Ks !! posK K Ks = Some K.
  Proof.
    induction Ks as [|a Ks IH]; [by intros ?%elem_of_nil|]. intros H. simpl. case_decide as E; [by subst|]. simpl.
    apply IH. apply elem_of_cons in H as [->|H]; done.
  Qed.

  Lemma elim_rules_meaning n P' base : elim_rules wt negligible is_one al cv minf n i s rs 0 (p_new [] c0) = Ok P' ->
    exists L, stands L P' /\
      same_meaning (fun t => wderives False rs base t /\ forall x, wroot t = Goal x -> forall zs, ~ inst s x zs)
        (fun t => wderives False L base t /\ forall x, wroot t = Goal x -> forall zs, ~ inst s x zs).
  Proof.
    intros E. destruct (elim_rules_ok n rs 0 [] (p_new [] c0) P') as (Ks & L & at_ & mid & HL & HF & HN & Hq & _); [done| | |done|].
    - split; [done|]. by intros r v ?%elem_of_nil.
    - split; [|done]. apply inv_new. by intros r ?%elem_of_nil.
    - exists L. split; [done|]. cbn [app] in *.
      set (plain k := posK (inl k) Ks). set (comb k := posK (inr k) Ks). set (kind p := default (inl 0) (Ks !! p)).
      assert (Hpos : forall K, K ∈ Ks -> exists t, L !! posK K Ks = Some t /\ entry at_ mid K t /\ kind (posK K Ks) = K).
      { intros K HK. pose proof (posK_spec K Ks HK) as Hp. destruct (Forall2_lookup_l _ _ _ _ _ HF Hp) as (t & Ht & He).
        exists t. split; [done|]. split; [done|]. unfold kind. by rewrite Hp. }
      pose proof (elim_same_meaning rs L base i s Hi at_ plain comb kind mid) as H.
      assert (Hm : same_meaning (fun t => wderives False rs base t /\ odd i at_ plain comb t = false) (wderives False L base)).
      { apply H.
        - intros k r Hr Hk. destruct (Hq k r ltac:(lia) Hr) as (H1 & _ & _). destruct (Hpos _ (H1 Hk)) as (t & Ht & [_ He] & Hkd).
          split; [|done]. unfold plain. rewrite Ht. congruence.
        - intros k r j Hr Ha. destruct (Hq k r ltac:(lia) Hr) as (_ & H2 & _). destruct (Hpos _ (H2 j Ha)) as (t & Ht & (r1 & j1 & Hr1 & Ha1 & Hc) & Hkd).
          assert (r1 = r) as -> by congruence. assert (j1 = j) as -> by congruence. destruct Hc as (C1 & C2 & C3 & C4). exists t. done.
        - intros p t Ht. destruct (Forall2_lookup_r _ _ _ _ _ HF Ht) as (K & HK & He).
          assert (Hkd : kind p = K) by (unfold kind; by rewrite HK).
          assert (Hpp : posK K Ks = p).
          { eapply NoDup_lookup; [exact HN| |exact HK]. apply posK_spec. by eapply elem_of_list_lookup_2. }
          destruct K as [k|k]; [left|right].
          + destruct He as [Hk Hr]. exists k. done.
          + destruct He as (r & j & Hr & Ha & _). exists k, j, r. done.
        - intros k r x A y Q zs Hr (σ & _ & _ & E2) (τ & _ & E3 & _). destruct (Hq k r ltac:(lia) Hr) as (_ & _ & H3).
          assert (Hb : exists b, wbody r !! length A = Some (Goal b) /\ sub σ b = y).
          { pose proof (f_equal (fun l => l !! length A) E2) as E4. cbn beta in E4. rewrite list_lookup_middle in E4 by done.
            change (@map (factor R) (factor R)) with (@fmap list _ (factor R) (factor R)) in E4. rewrite list_lookup_fmap in E4.
            destruct (wbody r !! length A) as [[v|b]|]; [done| |done]. cbn in E4. injection E4 as E4. by exists b. }
          destruct Hb as (b & Hb & Eb). apply (H3 _ b Hb). exists σ, τ. by rewrite Eb, E3. }
      clear H.
      pose proof (same_meaning_root _ _ (fun f => forall x, f = Goal x -> forall zs, ~ inst s x zs) Hm) as Hm'.
      refine (same_meaning_iff _ _ _ _ _ (fun _ => iff_refl _) Hm'). intros t. split; [tauto|]. intros [Ht Hx]. split; [|done]. split; [done|].
      destruct t as [v|x|k x ts]; [done..|]. by apply (not_odd rs base i s Hi at_ plain comb _ x Ht eq_refl), Hx.
  Qed.
  End all.
End concrete.
