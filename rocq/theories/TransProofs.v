(** Abstract facts about derivations: relabelling rules, permuting subgoals,
    unfolding a subgoal. *)
From Coq Require Import List.
From stdpp Require Import gmap.
From Coq Require Import Lia.
From Verif Require Import PyBase Semiring TermModel TermSpec TermProofs UpdateModel UpdateSpec UpdateProofs TransSpec.
Import ListNotations.

Section deriv.
  Context {R : semiring}.
  Implicit Types (rs : list (wrule R)).

  Lemma wderiv_ind' (Q : wderiv R -> Prop) :
    (forall v, Q (VLeaf v)) -> (forall x, Q (TLeaf x)) -> (forall i x ts, Forall Q ts -> Q (WNode i x ts)) -> forall t, Q t.
  Proof.
    intros H1 H2 H3. fix IH 1. intros [v|x|i x ts]; [apply H1|apply H2|]. apply H3.
    induction ts as [|t ts IHl]; constructor; [apply IH|apply IHl].
  Qed.

  Lemma same_meaning_refl (A : wderiv R -> Prop) : same_meaning A A.
  Proof. exists id, id. split; done. Qed.
  Lemma same_meaning_sym (A B : wderiv R -> Prop) : same_meaning A B -> same_meaning B A.
  Proof.
    intros (f & g & H1 & H2). exists g, f. split.
    - intros t Ht. destruct (H2 t Ht) as [Ha E]. destruct (H1 _ Ha) as (_ & _ & E1 & E2). rewrite E in E1, E2.
      split; [done|]. split; [done|]. split; [done|]. intros w. by rewrite E2.
    - intros t Ht. destruct (H1 t Ht) as (Hb & E & _). done.
  Qed.
  Lemma same_meaning_trans (A B C : wderiv R -> Prop) : same_meaning A B -> same_meaning B C -> same_meaning A C.
  Proof.
    intros (f & g & H1 & H2) (f' & g' & H1' & H2'). exists (fun t => f' (f t)), (fun t => g (g' t)). split.
    - intros t Ht. destruct (H1 t Ht) as (Hb & E & Er & Ev). destruct (H1' _ Hb) as (Hc & E' & Er' & Ev').
      split; [done|]. split; [by rewrite E'|]. split; [congruence|]. intros w. by rewrite Ev'.
    - intros t Ht. destruct (H2' t Ht) as [Hb E']. destruct (H2 _ Hb) as [Ha E]. split; [done|]. by rewrite E.
  Qed.
  Lemma same_meaning_iff (A A' B B' : wderiv R -> Prop) : (forall t, A t <-> A' t) -> (forall t, B t <-> B' t) -> same_meaning A B -> same_meaning A' B'.
  Proof.
    intros HA HB (f & g & H1 & H2). exists f, g. split; intros t Ht.
    - rewrite <- HB. apply H1. by apply HA.
    - rewrite <- HA. apply H2. by apply HB.
  Qed.
  (** restricting both sides by the root *)
  Lemma same_meaning_root (A B : wderiv R -> Prop) (Q : factor R -> Prop) : same_meaning A B ->
    same_meaning (fun t => A t /\ Q (wroot t)) (fun t => B t /\ Q (wroot t)).
  Proof.
    intros (f & g & H1 & H2). exists f, g. split.
    - intros t [Ht Hq]. destruct (H1 t Ht) as (Hb & E & Er & Ev). rewrite Er. done.
    - intros t [Ht Hq]. destruct (H2 t Ht) as [Ha E]. destruct (H1 _ Ha) as (_ & _ & Er & _). rewrite E in Er. rewrite <- Er. done.
  Qed.

  Definition leafy (only : Prop) (r : wrule R) (ts : list (wderiv R)) : Prop := only -> Forall2 value_like (wbody r) ts.
  Lemma wderives_node only rs base i x ts : wderives only rs base (WNode i x ts) <->
    exists r, rs !! i = Some r /\ inst r x (map wroot ts) /\ leafy only r ts /\ Forall (wderives only rs base) ts.
  Proof. split; [inversion 1; subst; eauto 6|]. intros (r & H1 & H2 & H3 & H4). by econstructor. Qed.
  (** maps that keep leaves *)
  Definition keeps_leaves (h : wderiv R -> wderiv R) : Prop := forall t, (exists x, h t = TLeaf x) <-> exists x, t = TLeaf x.
  Lemma leafy_map only (r : wrule R) h ts : keeps_leaves h -> leafy only r (map h ts) <-> leafy only r ts.
  Proof.
    intros Hh. unfold leafy. enough (Forall2 value_like (wbody r) (map h ts) <-> Forall2 value_like (wbody r) ts) by tauto.
    rewrite Forall2_fmap_r. unfold value_like. split; intros H; eapply Forall2_impl; try exact H; intros f t Hf v E; apply Hh; by eapply Hf.
  Qed.
  Lemma inst_length (r : wrule R) x fs : inst r x fs -> length fs = length (wbody r).
  Proof. intros (σ & _ & _ & <-). by rewrite map_length. Qed.
  Lemma inst_kids (r : wrule R) x (ts : list (wderiv R)) : inst r x (map wroot ts) -> length ts = length (wbody r).
  Proof. intros H. apply inst_length in H. by rewrite map_length in H. Qed.

  (** * Unfolding *)
  Section unfold.
  Context (only : Prop) (rs : list (wrule R)) (base : term -> Prop) (i j : nat) (r : wrule R).
  Context (us : list (nat * wrule R)) (mid : nat -> term -> list (factor R) -> term).
  Context (Hi : rs !! i = Some r) (Hj : j < length (wbody r)).
  Context (HN : NoDup (map fst us)).
  Notation m := (length (wbody r) - S j).
  Context (HA : forall p k t, us !! p = Some (k, t) -> exists s, rs !! k = Some s /\ length (wbody t) = j + length (wbody s) + m /\
    (forall x L zs Q y, length L = j -> length zs = length (wbody s) -> inst r x (L ++ Goal y :: Q) -> inst s y zs ->
       inst t x (L ++ zs ++ Q) /\ mid p x (L ++ zs ++ Q) = y) /\
    (forall x L zs Q, length L = j -> length zs = length (wbody s) -> inst t x (L ++ zs ++ Q) ->
       inst r x (L ++ Goal (mid p x (L ++ zs ++ Q)) :: Q) /\ inst s (mid p x (L ++ zs ++ Q)) zs) /\
    (forall L vs Q k y ws, length L = j -> length vs = length (wbody s) -> length Q = m ->
       leafy only t (L ++ vs ++ Q) <-> leafy only r (L ++ WNode k y ws :: Q) /\ leafy only s vs)).
  Context (HB : forall k s x L y Q zs, rs !! k = Some s -> length L = j -> inst r x (L ++ Goal y :: Q) -> inst s y zs -> k ∈ map fst us).
  Context (HC : forall x L f Q, length L = j -> inst r x (L ++ f :: Q) -> exists y, f = Goal y /\ ~ base y).

  Definition shift (k : nat) : nat := if decide (k < i) then k else pred k.
  Definition unshift (k : nat) : nat := if decide (k < i) then k else S k.
  Definition N1 : nat := pred (length rs).
  Fixpoint pos (k : nat) (ks : list nat) : nat :=
    match ks with [] => 0 | k' :: ks => if decide (k' = k) then 0 else S (pos k ks) end.
  Definition kids (t : wderiv R) : list (wderiv R) := match t with WNode _ _ ts => ts | _ => [] end.
  Definition num (t : wderiv R) : nat := match t with WNode k _ _ => k | _ => 0 end.

  (** the image of a derivation and of its children *)
  Fixpoint unf (t : wderiv R) : wderiv R * list (wderiv R) :=
    match t with
    | VLeaf v => (VLeaf v, [])
    | TLeaf x => (TLeaf x, [])
    | WNode k x ts =>
        let ims := map unf ts in
        let ts' := map fst ims in
        (if decide (k = i) then
           match ts !! j, ims !! j with
           | Some u, Some (_, vs) => WNode (N1 + pos (num u) (map fst us)) x (take j ts' ++ vs ++ drop (S j) ts')
           | _, _ => t
           end
         else WNode (shift k) x ts', ts')
    end.
  Definition unf1 (t : wderiv R) : wderiv R := fst (unf t).
  Fixpoint fold (t : wderiv R) : wderiv R :=
    match t with
    | VLeaf v => VLeaf v
    | TLeaf x => TLeaf x
    | WNode p x ts =>
        let ts' := map fold ts in
        if decide (p < N1) then WNode (unshift p) x ts'
        else let n := length ts - j - m in
             let k := default 0 (map fst us !! (p - N1)) in
             WNode i x (take j ts' ++ WNode k (mid (p - N1) x (map wroot ts)) (take n (drop j ts')) :: drop (j + n) ts')
    end.
  Notation rs' := (delete i rs ++ map snd us).

  Lemma N1_delete : length (delete i rs) = N1.
  Proof. unfold N1. rewrite length_delete; [lia|]. eauto. Qed.
  Lemma len_rs : S N1 = length rs.
  Proof. unfold N1. apply lookup_lt_Some in Hi. lia. Qed.
  Lemma lookup_shift k s : k <> i -> rs !! k = Some s -> rs' !! shift k = Some s /\ shift k < N1 /\ unshift (shift k) = k.
  Proof.
    intros Hk Hs. pose proof (lookup_lt_Some _ _ _ Hs) as Hlt. pose proof (lookup_lt_Some _ _ _ Hi) as Hlti. pose proof len_rs.
    unfold shift, unshift. destruct (decide (k < i)) as [Hl|Hl].
    - split; [|split; [lia|by rewrite decide_True]]. rewrite lookup_app_l by (rewrite N1_delete; lia). rewrite lookup_delete_lt by done. done.
    - rewrite lookup_app_l by (rewrite N1_delete; lia). rewrite lookup_delete_ge by lia.
      replace (S (pred k)) with k by lia. split; [done|]. split; [lia|]. rewrite decide_False by lia. lia.
  Qed.
  Lemma lookup_unshift p s : p < N1 -> rs' !! p = Some s -> rs !! unshift p = Some s /\ unshift p <> i /\ shift (unshift p) = p.
  Proof.
    intros Hp. rewrite lookup_app_l by (by rewrite N1_delete). unfold shift, unshift. destruct (decide (p < i)) as [Hl|Hl].
    - rewrite lookup_delete_lt by done. intros E. split; [done|]. split; [lia|]. by rewrite decide_True.
    - rewrite lookup_delete_ge by lia. intros E. split; [done|]. split; [lia|]. rewrite decide_False by lia. lia.
  Qed.
  Lemma lookup_new p t : N1 <= p -> rs' !! p = Some t -> exists k, us !! (p - N1) = Some (k, t).
  Proof.
    intros Hp. rewrite lookup_app_r by (by rewrite N1_delete). rewrite N1_delete, list_lookup_fmap.
    destruct (us !! (p - N1)) as [[k t']|]; [|done]. intros [= ->]. eauto.
  Qed.
  Lemma lookup_new' p k t : us !! p = Some (k, t) -> rs' !! (N1 + p) = Some t.
  Proof.
    intros E. rewrite lookup_app_r by (rewrite N1_delete; lia). rewrite N1_delete, list_lookup_fmap.
    replace (N1 + p - N1) with p by lia. by rewrite E.
  Qed.
  Lemma pos_spec k ks : k ∈ ks -> ks !! pos k ks = Some k.
  Proof.
    induction ks as [|a ks IH]; [by intros ?%elem_of_nil|]. intros H. simpl. case_decide as E; [by subst|]. simpl.
    apply IH. apply elem_of_cons in H as [->|H]; done.
  Qed.
  Lemma pos_lookup ks p k : NoDup ks -> ks !! p = Some k -> pos k ks = p.
  Proof.
    intros Hn Hp. eapply NoDup_lookup; [exact Hn| |exact Hp]. apply pos_spec. by eapply elem_of_list_lookup_2.
  Qed.

  Lemma split_at {A} (l : list A) n : n < length l -> exists L a Q, l = L ++ a :: Q /\ length L = n.
  Proof.
    intros H. destruct (lookup_lt_is_Some_2 l n H) as [a Ha]. exists (take n l), a, (drop (S n) l). split.
    - by rewrite take_drop_middle.
    - apply take_length_le. lia.
  Qed.
  Lemma split3 {A} (l : list A) a b : a + b <= length l -> exists L M Q, l = L ++ M ++ Q /\ length L = a /\ length M = b.
  Proof.
    intros H. exists (take a l), (take b (drop a l)), (drop b (drop a l)). split; [by rewrite !take_drop|].
    split; [apply take_length_le; lia|]. apply take_length_le. rewrite drop_length. lia.
  Qed.

  (** what the image of a derivation satisfies *)
  Definition unf_ok (t : wderiv R) : Prop :=
    wderives only rs base t -> wderives only rs' base (unf1 t) /\ fold (unf1 t) = t /\ wroot (unf1 t) = wroot t /\ forall w, wvalue w (unf1 t) = wvalue w t.

  Lemma unf_kids (ts : list (wderiv R)) : Forall unf_ok ts -> Forall (wderives only rs base) ts ->
    Forall (wderives only rs' base) (map unf1 ts) /\ map fold (map unf1 ts) = ts /\ map wroot (map unf1 ts) = map wroot ts /\
    forall w, map (wvalue w) (map unf1 ts) = map (wvalue w) ts.
  Proof.
    induction 1 as [|t ts Ht _ IH]; intros HF; [split; [constructor|done]|]. inversion HF as [|? ? H1 H2]; subst.
    destruct (Ht H1) as (A1 & A2 & A3 & A4). destruct (IH H2) as (B1 & B2 & B3 & B4). cbn [map].
    split; [by constructor|]. split; [by rewrite A2, B2|]. split; [by rewrite A3, B3|]. intros w. by rewrite A4, B4.
  Qed.
  Lemma unf_snd k x ts : snd (unf (WNode k x ts)) = map unf1 ts.
  Proof. simpl. by rewrite map_map. Qed.
  Lemma unf1_other k x ts : k <> i -> unf1 (WNode k x ts) = WNode (shift k) x (map unf1 ts).
  Proof. intros Hk. unfold unf1. simpl. rewrite decide_False by done. simpl. by rewrite map_map. Qed.
  Lemma unf1_unfold x L k y vs Q : length L = j ->
    unf1 (WNode i x (L ++ WNode k y vs :: Q)) = WNode (N1 + pos k (map fst us)) x (map unf1 L ++ map unf1 vs ++ map unf1 Q).
  Proof.
    intros HL. unfold unf1 at 1. cbn [unf]. rewrite decide_True by done.
    rewrite list_lookup_middle by done. rewrite list_lookup_fmap. rewrite list_lookup_middle by done.
    cbn [fmap option_fmap option_map]. rewrite (surjective_pairing (unf (WNode k y vs))). rewrite unf_snd. cbn [fst num].
    f_equal. rewrite !map_map. rewrite map_app. cbn [map]. rewrite take_app_alt by (by rewrite map_length).
    rewrite drop_app_ge by (rewrite map_length; lia). rewrite map_length, HL. replace (S j - j) with 1 by lia. done.
  Qed.

  Lemma unf1_leaves : keeps_leaves unf1.
  Proof.
    intros [v|x|k x ts]; unfold unf1; cbn [unf fst]; [split; by intros [? [=]]|done|]. split; [|by intros [? [=]]].
    case_decide; [|by intros [? [=]]]. destruct (ts !! j); [|by intros [? [=]]]. destruct (map unf ts !! j) as [[? ?]|]; by intros [? [=]].
  Qed.
  Lemma fold_leaves : keeps_leaves fold.
  Proof.
    intros [v|x|k x ts]; cbn [fold]; [split; by intros [? [=]]|done|]. split; [|by intros [? [=]]]. case_decide; by intros [? [=]].
  Qed.
  Lemma unf_correct t : unf_ok t /\ Forall unf_ok (kids t).
  Proof.
    induction t as [v|x|k x ts IH] using wderiv_ind'.
    - split; [|constructor]. intros _. split; [constructor|done].
    - split; [|constructor]. inversion 1; subst. split; [by constructor|done].
    - assert (Hts : Forall unf_ok ts) by (eapply Forall_impl; [exact IH|]; by intros t [H _]).
      split; [|done]. intros Hd. apply wderives_node in Hd as (s & Hs & Hin & Hlf & HF).
      destruct (decide (k = i)) as [->|Hk].
      + assert (s = r) as -> by congruence. pose proof (inst_kids _ _ _ Hin) as Hlen.
        destruct (split_at ts j) as (L & u & Q & -> & HL); [lia|].
        rewrite map_app in Hin. cbn [map] in Hin.
        assert (HLr : length (map wroot L) = j) by (by rewrite map_length).
        destruct (HC _ _ _ _ HLr Hin) as (y & Ey & Hbase).
        apply Forall_app in HF as [HF1 HF2]. apply Forall_cons in HF2 as [HFu HFQ].
        destruct u as [v|y'|k y' vs]; [done| |].
        { injection Ey as ->. inversion HFu; subst. done. }
        injection Ey as ->. cbn [wroot] in Hin.
        apply wderives_node in HFu as (s & Hs' & Hin' & Hlf' & HFv).
        pose proof (HB _ _ _ _ _ _ _ Hs' HLr Hin Hin') as Hk.
        pose proof (pos_spec _ _ Hk) as Hp. rewrite list_lookup_fmap in Hp.
        set (p := pos k (map fst us)) in *. destruct (us !! p) as [[k' t]|] eqn:Eu; [|done]. injection Hp as ->.
        destruct (HA p k t Eu) as (s' & Es' & Hlt & Hf & Hb & Hl). assert (s' = s) as -> by congruence.
        pose proof (inst_length _ _ _ Hin') as Hlz.
        destruct (Hf x (map wroot L) (map wroot vs) (map wroot Q) y HLr Hlz Hin Hin') as [Ht Hm].
        rewrite unf1_unfold by done. fold p.
        apply Forall_app in Hts as [Hts1 Hts2]. apply Forall_cons in Hts2 as [Hu HtsQ].
        assert (Hvs : Forall unf_ok vs).
        { rewrite Forall_app in IH. destruct IH as [_ IH]. by apply Forall_cons in IH as [[_ IHu] _]. }
        destruct (unf_kids L Hts1 HF1) as (A1 & A2 & A3 & A4).
        destruct (unf_kids vs Hvs HFv) as (B1 & B2 & B3 & B4).
        destruct (unf_kids Q HtsQ HFQ) as (C1 & C2 & C3 & C4).
        split; [|split; [|split; [done|]]].
        * apply wderives_node. exists t. split; [by eapply lookup_new'|]. rewrite !map_app, A3, B3, C3.
          split; [done|]. split; [|apply Forall_app; split; [done|]; by apply Forall_app].
          rewrite <- !map_app, leafy_map by apply unf1_leaves. apply (Hl _ _ _ k y vs); [done|by rewrite map_length in Hlz| |done].
          rewrite app_length in Hlen. cbn [length] in Hlen. lia.
        * rewrite map_length in Hlz. rewrite app_length in Hlen. cbn [length] in Hlen.
          cbn [fold]. rewrite decide_False by lia. replace (N1 + p - N1) with p by lia.
          rewrite !map_app, A2, B2, C2, A3, B3, C3, Hm.
          rewrite list_lookup_fmap, Eu. cbn [fmap option_fmap option_map default fst].
          assert (En : length (map unf1 L ++ map unf1 vs ++ map unf1 Q) - j - m = length vs).
          { rewrite !app_length, !map_length. lia. }
          rewrite En. rewrite take_app_alt by done. rewrite drop_app_alt by done.
          rewrite take_app_alt by done. rewrite drop_app_ge by lia. replace (j + length vs - length L) with (length vs) by lia.
          by rewrite drop_app_alt.
        * intros w. cbn [wvalue]. rewrite !map_app, A4, B4, C4. cbn [map wvalue]. rewrite !prodl_app. cbn [prodl]. by rewrite <- ?smul_assoc.
      + destruct (lookup_shift k s Hk Hs) as (E1 & E2 & E3). rewrite unf1_other by done.
        destruct (unf_kids ts Hts HF) as (A1 & A2 & A3 & A4). split; [|split; [|split; [done|]]].
        * apply wderives_node. exists s. rewrite A3, leafy_map by apply unf1_leaves. done.
        * cbn [fold]. rewrite decide_True by done. by rewrite E3, A2.
        * intros w. cbn [wvalue]. by rewrite A4.
  Qed.

  Definition fold_ok (t : wderiv R) : Prop := wderives only rs' base t -> wderives only rs base (fold t) /\ unf1 (fold t) = t /\ wroot (fold t) = wroot t.
  Lemma fold_kids (ts : list (wderiv R)) : Forall fold_ok ts -> Forall (wderives only rs' base) ts ->
    Forall (wderives only rs base) (map fold ts) /\ map unf1 (map fold ts) = ts /\ map wroot (map fold ts) = map wroot ts.
  Proof.
    induction 1 as [|t ts Ht _ IH]; intros HF; [split; [constructor|done]|]. inversion HF as [|? ? H1 H2]; subst.
    destruct (Ht H1) as (A1 & A2 & A3). destruct (IH H2) as (B1 & B2 & B3). cbn [map].
    split; [by constructor|]. split; [by rewrite A2, B2|]. by rewrite A3, B3.
  Qed.
  Lemma fold_correct t : fold_ok t.
  Proof.
    induction t as [v|x|p x ts IH] using wderiv_ind'.
    - split; [constructor|done].
    - inversion 1; subst. split; [by constructor|done].
    - intros Hd. apply wderives_node in Hd as (s & Hs & Hin & Hlf & HF). destruct (fold_kids ts IH HF) as (A1 & A2 & A3). cbn [fold].
      destruct (decide (p < N1)) as [Hp|Hp].
      + destruct (lookup_unshift p s Hp Hs) as (E1 & E2 & E3). split; [|split; [|done]].
        * apply wderives_node. exists s. rewrite A3, leafy_map by apply fold_leaves. done.
        * rewrite unf1_other by done. by rewrite E3, A2.
      + destruct (lookup_new p s ltac:(lia) Hs) as [k Eu]. destruct (HA _ _ _ Eu) as (s' & Hs' & Hlt & Hf & Hb & Hl).
        pose proof (inst_kids _ _ _ Hin) as Hlen. rewrite Hlt in Hlen.
        replace (length ts - j - m) with (length (wbody s')) by lia.
        assert (Ek : map fst us !! (p - N1) = Some k) by (by rewrite list_lookup_fmap, Eu). rewrite Ek. cbn [from_option]. unfold id at 1.
        destruct (split3 ts j (length (wbody s'))) as (L & vs & Q & -> & HL & Hvs); [lia|].
        rewrite !map_app in Hin. rewrite !map_app.
        destruct (Hb x (map wroot L) (map wroot vs) (map wroot Q)) as [Hr Hs2]; [by rewrite map_length|by rewrite map_length|done|].
        set (y := mid (p - N1) x _) in *.
        rewrite take_app_alt by (by rewrite map_length). rewrite drop_app_alt by (by rewrite map_length).
        rewrite take_app_alt by (by rewrite map_length). rewrite drop_app_ge by (rewrite map_length; lia).
        rewrite map_length, HL. replace (j + length (wbody s') - j) with (length (wbody s')) by lia.
        rewrite drop_app_alt by (by rewrite map_length).
        rewrite !map_app in A1, A2, A3. rewrite !Forall_app in A1. destruct A1 as (F1 & F2 & F3).
        rewrite !Forall_app in IH, HF. destruct IH as (I1 & I2 & I3), HF as (G1 & G2 & G3).
        destruct (fold_kids L I1 G1) as (_ & B2 & B3). destruct (fold_kids vs I2 G2) as (_ & C2 & C3). destruct (fold_kids Q I3 G3) as (_ & D2 & D3).
        rewrite !app_length in Hlen.
        apply (Hl L vs Q k y (map fold vs) HL Hvs ltac:(lia)) in Hlf as [Hl1 Hl2].
        split; [|split; [|done]].
        * apply wderives_node. exists r. split; [done|]. rewrite map_app. cbn [map wroot]. rewrite B3, D3. split; [done|]. split.
          { intros Ho. specialize (Hl1 Ho). assert (Hl3 : leafy only r (map fold (L ++ WNode k y (map fold vs) :: Q))).
            { apply leafy_map; [apply fold_leaves|]. by intros _. }
            rewrite map_app in Hl3. specialize (Hl3 Ho). cbn [map] in Hl3.
            apply Forall2_app_inv_r in Hl3 as (b1 & b2 & Hb1 & Hb2 & ->). apply Forall2_app; [done|].
            apply Forall2_cons_inv_r in Hb2 as (f & b3 & Hf0 & Hb3 & ->). constructor; [|done]. intros v E.
            destruct (Hf0 v E) as [z Ez]. cbn [fold] in Ez. case_decide; done. }
          apply Forall_app. split; [done|]. constructor; [|done]. apply wderives_node. exists s'. rewrite C3.
          rewrite leafy_map by apply fold_leaves. done.
        * rewrite unf1_unfold by (by rewrite map_length). rewrite B2, C2, D2.
          unfold id. rewrite (pos_lookup _ _ _ HN Ek). f_equal. lia.
  Qed.

  Lemma unfold_same_meaning : same_meaning (wderives only rs base) (wderives only rs' base).
  Proof.
    exists unf1, fold. split.
    - intros t Ht. by apply (unf_correct t).
    - intros t Ht. destruct (fold_correct t Ht) as (H1 & H2 & _). done.
  Qed.
  End unfold.

  (** * Relabelling the rules and permuting their subgoals *)
  Section align.
  Context (only : Prop) (rs1 rs2 : list (wrule R)) (base : term -> Prop).
  Context (p1 p2 : nat -> nat) (q1 q2 : nat -> list nat).
  Fixpoint permute {A} (q : list nat) (l : list A) : list A :=
    match q with
    | [] => []
    | a :: q => match l !! a with Some x => x :: permute q l | None => permute q l end
    end.

  Lemma permute_map {A B} (h : A -> B) q l : permute q (map h l) = map h (permute q l).
  Proof. induction q as [|a q IH]; [done|]. cbn [permute]. rewrite list_lookup_fmap. destruct (l !! a); cbn; by rewrite IH. Qed.
  Lemma permute_app {A} q q' (l : list A) : permute (q ++ q') l = permute q l ++ permute q' l.
  Proof. induction q as [|a q IH]; [done|]. cbn. destruct (l !! a); cbn; by rewrite IH. Qed.
  Lemma permute_prefix {A} q (l l' : list A) : Forall (fun a => a < length l) q -> permute q (l ++ l') = permute q l.
  Proof. induction 1 as [|a q Ha _ IH]; [done|]. cbn. by rewrite lookup_app_l, IH by done. Qed.
  Lemma permute_seq {A} (l : list A) : permute (seq 0 (length l)) l = l.
  Proof.
    induction l as [|a l IH] using rev_ind; [done|]. rewrite app_length. simpl. rewrite Nat.add_1_r, seq_S, permute_app, permute_prefix.
    - rewrite IH. cbn. by rewrite list_lookup_middle.
    - apply Forall_forall. intros b Hb. apply elem_of_seq in Hb. lia.
  Qed.
  Lemma permute_elem {A} q (l : list A) a : a ∈ permute q l -> a ∈ l.
  Proof.
    induction q as [|b q IH]; cbn; [by intros ?%elem_of_nil|]. destruct (l !! b) as [z|] eqn:E; [|done].
    intros [->|H]%elem_of_cons; [by eapply elem_of_list_lookup_2|by apply IH].
  Qed.
  Lemma permute_Forall {A} (Q : A -> Prop) q l : Forall Q l -> Forall Q (permute q l).
  Proof. rewrite !Forall_forall. intros H a Ha. apply H. by eapply permute_elem. Qed.
  Lemma permute_perm {A} q q' (l : list A) : q ≡ₚ q' -> permute q l ≡ₚ permute q' l.
  Proof.
    induction 1 as [|a q q' _ IH|a b q|q q' q'' _ IH1 _ IH2]; cbn; [done| | |by rewrite IH1].
    - destruct (l !! a); by rewrite IH.
    - destruct (l !! a), (l !! b); try done. constructor.
  Qed.
  Lemma permute_permutation {A} q (l : list A) : q ≡ₚ seq 0 (length l) -> permute q l ≡ₚ l.
  Proof. intros H. rewrite <- (permute_seq l) at 2. by apply permute_perm. Qed.

  Fixpoint realign (p : nat -> nat) (q : nat -> list nat) (t : wderiv R) : wderiv R :=
    match t with
    | VLeaf v => VLeaf v
    | TLeaf x => TLeaf x
    | WNode k x ts => WNode (p k) x (permute (q k) (map (realign p q) ts))
    end.
  Lemma realign_leaves p q : keeps_leaves (realign p q).
  Proof. intros [v|x|k x ts]; cbn [realign]; [split; by intros [? [=]]|done|split; by intros [? [=]]]. Qed.

  (** rule [k] of [rs] corresponds to rule [p k] of [rs'] with its subgoals permuted *)
  Definition aligned (rs rs' : list (wrule R)) (p p' : nat -> nat) (q q' : nat -> list nat) : Prop :=
    forall k s, rs !! k = Some s -> exists s', rs' !! p k = Some s' /\ p' (p k) = k /\
      q k ≡ₚ seq 0 (length (wbody s)) /\
      (forall (l : list (wderiv R)), length l = length (wbody s) -> permute (q' (p k)) (permute (q k) l) = l) /\
      (forall x fs, inst s x fs -> inst s' x (permute (q k) fs)) /\
      (forall ts, length ts = length (wbody s) -> leafy only s ts -> leafy only s' (permute (q k) ts)).
  Context (Hval : (forall k s, rs1 !! k = Some s -> q1 k = seq 0 (length (wbody s))) \/ forall x y : R, smul x y = smul y x).

  Lemma realign_ok rs rs' p p' q q' t : aligned rs rs' p p' q q' -> wderives only rs base t ->
    wderives only rs' base (realign p q t) /\ realign p' q' (realign p q t) = t /\ wroot (realign p q t) = wroot t.
  Proof.
    intros Hal. induction t as [v|x|k x ts IH] using wderiv_ind'.
    - split; [constructor|done].
    - inversion 1; subst. split; [by constructor|done].
    - intros Hd. apply wderives_node in Hd as (s & Hs & Hin & Hlf & HF).
      destruct (Hal k s Hs) as (s' & Hs' & Ep & Hq & Hqq & Hi & Hl).
      assert (A : Forall (wderives only rs' base) (map (realign p q) ts) /\ map (realign p' q') (map (realign p q) ts) = ts /\ map wroot (map (realign p q) ts) = map wroot ts).
      { clear - IH HF. induction IH as [|t ts Ht _ IHl]; [split; [constructor|done]|]. apply Forall_cons in HF as [H1 H2].
        destruct (Ht H1) as (A1 & A2 & A3). destruct (IHl H2) as (B1 & B2 & B3). cbn [map]. split; [by constructor|]. rewrite A2, B2, A3, B3. done. }
      destruct A as (A1 & A2 & A3). pose proof (inst_kids _ _ _ Hin) as Hlen. cbn [realign]. split; [|split; [|done]].
      + apply wderives_node. exists s'. split; [done|]. split; [|split].
        * rewrite <- permute_map, A3. by apply Hi.
        * apply Hl; [by rewrite map_length|]. by apply leafy_map; [apply realign_leaves|].
        * by apply permute_Forall.
      + rewrite Ep. f_equal. rewrite <- permute_map, A2. by apply Hqq.
  Qed.
  Lemma realign_value t : wderives only rs1 base t -> aligned rs1 rs2 p1 p2 q1 q2 -> forall w, wvalue w (realign p1 q1 t) = wvalue w t.
  Proof.
    intros Hd Hal w. revert Hd. induction t as [v|x|k x ts IH] using wderiv_ind'; [done|done|].
    intros Hd. apply wderives_node in Hd as (s & Hs & Hin & Hlf & HF). cbn [realign wvalue]. pose proof (inst_kids _ _ _ Hin) as Hlen.
    assert (E : map (wvalue w) (map (realign p1 q1) ts) = map (wvalue w) ts).
    { clear - IH HF. induction IH as [|t ts Ht _ IHl]; [done|]. apply Forall_cons in HF as [H1 H2]. cbn [map]. by rewrite Ht, IHl. }
    rewrite <- permute_map, E. destruct (Hal k s Hs) as (s' & _ & _ & Hq & _). destruct Hval as [Hv|Hc].
    - rewrite (Hv k s Hs). rewrite <- Hlen, <- (map_length (wvalue w) ts), permute_seq. done.
    - apply (prodl_perm Hc). apply permute_permutation. by rewrite map_length, Hlen.
  Qed.
  Lemma align_same_meaning : aligned rs1 rs2 p1 p2 q1 q2 -> aligned rs2 rs1 p2 p1 q2 q1 ->
    same_meaning (wderives only rs1 base) (wderives only rs2 base).
  Proof.
    intros H1 H2. exists (realign p1 q1), (realign p2 q2). split.
    - intros t Ht. destruct (realign_ok _ _ _ _ _ _ t H1 Ht) as (A1 & A2 & A3). split; [done|]. split; [done|]. split; [done|]. by apply realign_value.
    - intros t Ht. destruct (realign_ok _ _ _ _ _ _ t H2 Ht) as (A1 & A2 & A3). done.
  Qed.
  End align.

  (** * Rules for items that are never used *)
  Lemma drop_meaning (rs ds : list (wrule R)) base (G : term -> Prop) :
    (forall r x fs, r ∈ rs -> inst r x fs -> G x /\ Forall2 (fun f g => forall y, g = Goal y -> (exists v, f = Goal (Var v)) \/ G y) (wbody r) fs) ->
    (forall d x fs, d ∈ ds -> inst d x fs -> ~ G x) ->
    forall t, (forall x, wroot t = Goal x -> G x \/ exists z, t = TLeaf z) -> wderives True (rs ++ ds) base t <-> wderives True rs base t.
  Proof.
    intros H1 H2 t. induction t as [v|x|k x ts IH] using wderiv_ind'; intros Hr.
    - split; constructor.
    - split; inversion 1; by constructor.
    - destruct (Hr x eq_refl) as [Hx|[z [=]]]. rewrite !wderives_node. split.
      + intros (r & Hk & Hin & Hlf & HF). assert (Hk' : rs !! k = Some r).
        { apply lookup_app_Some in Hk as [Hk|[_ Hk]]; [done|]. exfalso. eapply H2; [|exact Hin|exact Hx]. by eapply elem_of_list_lookup_2. }
        exists r. split; [done|]. split; [done|]. split; [done|].
        destruct (H1 r x _ (elem_of_list_lookup_2 _ _ _ Hk') Hin) as [_ Hf]. specialize (Hlf Coq.Init.Logic.I). clear - IH HF Hf Hlf.
        rewrite Forall2_fmap_r in Hf. generalize dependent (wbody r). induction HF as [|t ts Ht HF IHl]; intros b Hf Hlf; [constructor|].
        apply Forall_cons in IH as [IH1 IH2].
        apply Forall2_cons_inv_r in Hf as (f & b' & Hl1 & Hl2 & ->). apply Forall2_cons in Hlf as [Hf1 Hf2].
        constructor; [|by eapply IHl]. apply IH1; [|done]. intros y Ey. destruct (Hf1 y Ey) as [[v ->]|Hy].
        * right. by eapply Hl1.
        * by left.
      + intros (r & Hk & Hin & Hlf & HF). exists r. split; [by apply lookup_app_l_Some|]. split; [done|]. split; [done|].
        clear - HF. eapply Forall_impl; [exact HF|]. clear. intros t. induction t as [v|x|k x ts IH] using wderiv_ind'.
        * constructor.
        * inversion 1; by constructor.
        * intros H. apply wderives_node in H as (r & Hk & Hin & Hlf & HF). apply wderives_node. exists r.
          split; [by apply lookup_app_l_Some|]. split; [done|]. split; [done|]. rewrite Forall_forall in IH, HF |- *. naive_solver.
  Qed.
End deriv.
