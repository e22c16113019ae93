(** Proofs about tarjan, condensation and hypergraph reachability. *)
From stdpp Require Import gmap relations.
From Coq Require Import Lia Sorted.
From Verif Require Import PyBase GraphModel GraphSpec.

Lemma sorted_app {A} (R : A -> A -> Prop) l1 l2 :
  StronglySorted R (l1 ++ l2) <->
  StronglySorted R l1 /\ StronglySorted R l2 /\ (forall x y, In x l1 -> In y l2 -> R x y).
Proof.
  induction l1 as [|a l1 IH]; simpl.
  - split; [intros; split; [constructor|done]|naive_solver].
  - split.
    + intros Hs. inversion Hs as [|? ? H1 H2]; subst. apply IH in H1 as (A1 & A2 & A3).
      rewrite List.Forall_forall in H2. split; [|split; [done|]].
      * constructor; [done|]. apply List.Forall_forall. intros x Hx. apply H2, in_or_app. by left.
      * intros x y [<-|Hx] Hy; [apply H2, in_or_app; by right|by apply A3].
    + intros (A1 & A2 & A3). inversion A1 as [|? ? B1 B2]; subst. constructor.
      * apply IH. split; [done|]. split; [done|]. intros; apply A3; [by right|done].
      * rewrite List.Forall_forall in *. intros x [Hx|Hx]%in_app_or; [by apply B2|]. apply A3; [by left|done].
Qed.

#[global] Instance reach_preorder {V} (succ : V -> list V) : PreOrder (reach succ).
Proof. unfold reach. apply _. Qed.

Section tarjan.
  Context {V : Type} `{Countable V}.
  Variable succ : V -> list V.
  Notation R := (reach succ).

  Definition vis (st : tstate V) (x : V) : Prop := is_Some (g_low st !! x).
  Definition inout (out : list (gset V)) (x : V) : Prop := exists C, In C out /\ x ∈ C.

  (** Every component is maximal and strongly connected, and its edges lead to it
      or to an earlier one. *)
  Definition scc_at (pre : list (gset V)) (C : gset V) : Prop :=
    (exists x, x ∈ C) /\
    (forall x y, x ∈ C -> y ∈ C -> R x y) /\
    (forall x y, x ∈ C -> R x y -> R y x -> y ∈ C) /\
    (forall x y, x ∈ C -> In y (succ x) -> y ∈ C \/ inout pre y) /\
    (forall x, x ∈ C -> ~ inout pre x).

  Definition scc_seq (out : list (gset V)) : Prop :=
    forall pre C post, out = pre ++ C :: post -> scc_at pre C.

  Lemma scc_seq_snoc out C : scc_seq out -> scc_at out C -> scc_seq (out ++ [C]).
  Proof.
    intros Ho Hc pre D post E.
    destruct (decide (post = [])) as [->|Hne].
    - apply app_inj_tail in E as [-> ->]. done.
    - destruct (exists_last Hne) as (post' & D' & ->).
      rewrite app_comm_cons, app_assoc in E. apply app_inj_tail in E as [E _]. by eapply Ho.
  Qed.

  Lemma scc_seq_closed out x y : scc_seq out -> inout out x -> R x y -> inout out y.
  Proof.
    intros Ho Hx Hr. induction Hr as [x|x z y Hz Hr IH]; [done|]. apply IH.
    destruct Hx as (C & HC & Hx). apply in_split in HC as (pre & post & ->).
    destruct (Ho pre C post eq_refl) as (_ & _ & _ & Hed & _).
    destruct (Hed x z Hx Hz) as [Hc|(D & HD & Hzd)].
    - exists C. split; [apply in_or_app; right; by left|done].
    - exists D. split; [apply in_or_app; by left|done].
  Qed.

  Record Inv (G : list V) (num : V -> nat) (st : tstate V) : Prop := {
    i_trail : forall x, x ∈ g_trail st <-> In x (g_stack st);
    i_vis : forall x, vis st x <-> In x (g_stack st) \/ inout (g_out st) x;
    i_disj : forall x, In x (g_stack st) -> ~ inout (g_out st) x;
    i_sorted : StronglySorted (fun a b => num b < num a) (g_stack st);
    i_t : forall x, In x (g_stack st) -> num x <= g_t st;
    i_gray : forall g, In g G -> In g (g_stack st);
    i_edge : forall x y, vis st x -> ~ In x G -> In y (succ x) -> vis st y;
    i_down : forall g y, In g G -> In y (g_stack st) -> num g <= num y -> R g y;
    i_up : forall y, In y (g_stack st) -> exists g, In g G /\ num g <= num y /\ R y g;
    i_low : forall v, In v (g_stack st) -> exists z, In z (g_stack st) /\
              g_low st !! v = Some (num z) /\ R v z /\ num z <= num v;
    i_out : scc_seq (g_out st)
  }.

  Definition set_low (v : V) (a : nat) (st : tstate V) : tstate V :=
    TState (<[v := a]> (g_low st)) (g_stack st) (g_trail st) (g_t st) (g_out st).

  Lemma vis_set_low v a st x : vis st v -> vis (set_low v a st) x <-> vis st x.
  Proof.
    intros Hv. unfold vis, set_low. simpl. destruct (decide (x = v)) as [->|Hne].
    - rewrite lookup_insert. split; [done|eauto].
    - by rewrite lookup_insert_ne.
  Qed.

  Lemma Inv_low_min G num st v w a b :
    Inv G num st -> In v (g_stack st) -> In w (g_stack st) -> R v w ->
    g_low st !! v = Some a -> g_low st !! w = Some b ->
    Inv G num (set_low v (min a b) st).
  Proof.
    intros HI Hv Hw HR Ha Hb.
    assert (Hvis : vis st v) by (unfold vis; rewrite Ha; eauto).
    destruct HI as [I1 I2 I3 I4 I5 I6 I7 I8 I9 I10 I11]. split; simpl; try done.
    - intros x. by rewrite vis_set_low.
    - intros x y. rewrite !vis_set_low by done. apply I7.
    - intros x Hx. destruct (decide (x = v)) as [->|Hne].
      + destruct (I10 v Hv) as (z & Z1 & Z2 & Z3 & Z4). destruct (I10 w Hw) as (z' & Z1' & Z2' & Z3' & Z4').
        assert (a = num z) as -> by congruence. assert (b = num z') as -> by congruence.
        rewrite lookup_insert. destruct (decide (num z <= num z')).
        * exists z. rewrite Nat.min_l by lia. done.
        * exists z'. rewrite Nat.min_r by lia. split; [done|]. split; [done|]. split; [transitivity w; done|lia].
      + destruct (I10 x Hx) as (z & Z). exists z. by rewrite lookup_insert_ne.
  Qed.

  (** What a call of dfs guarantees. *)
  Record Post (v : V) (G : list V) (num : V -> nat) (st : tstate V) (num' : V -> nat) (st' : tstate V) : Prop := {
    p_inv : Inv G num' st';
    p_num : forall x, vis st x -> num' x = num x;
    p_low : forall x, vis st x -> g_low st' !! x = g_low st !! x;
    p_stack : exists new, g_stack st' = new ++ g_stack st /\ exists l, g_low st' !! v = Some l /\
       ((new = [] /\ g_t st < l) \/
        (In v new /\ forall x y, In x new -> In y (succ x) -> In y (g_stack st) -> l <= num' y));
    p_v : vis st' v;
    p_reach : forall x, vis st' x -> vis st x \/ R v x;
    p_t : g_t st <= g_t st';
    p_out : exists more, g_out st' = g_out st ++ more
  }.

  Lemma p_mono v G num st num' st' x : Post v G num st num' st' -> vis st x -> vis st' x.
  Proof. intros HP Hx. unfold vis. by rewrite (p_low _ _ _ _ _ _ HP x Hx). Qed.

  Variable U : gset V.
  Hypothesis HU : forall x y, x ∈ U -> In y (succ x) -> y ∈ U.

  Definition todo (st : tstate V) : nat := size (U ∖ dom (g_low st)).

  Lemma todo_mono st st' : (forall x, vis st x -> vis st' x) -> todo st' <= todo st.
  Proof.
    intros Hm. unfold todo. apply subseteq_size. intros x. rewrite !elem_of_difference, !elem_of_dom. intros [? Hn].
    split; [done|]. intros Hx. apply Hn. by apply Hm.
  Qed.

  Lemma todo_strict st st' v : v ∈ U -> ~ vis st v -> vis st' v -> (forall x, vis st x -> vis st' x) ->
    todo st' < todo st.
  Proof.
    intros Hv Hn Hv' Hm. unfold todo. apply subset_size. apply strict_spec_alt. split.
    - intros x. rewrite !elem_of_difference, !elem_of_dom. intros [? Hx]. split; [done|].
      intros Hx'. apply Hx. by apply Hm.
    - intros E. assert (Hin : v ∈ U ∖ dom (g_low st')).
      { rewrite E. apply elem_of_difference. split; [done|]. by rewrite elem_of_dom. }
      apply elem_of_difference in Hin as [_ Hin]. apply Hin. by apply elem_of_dom.
  Qed.

  Notation body n v := (fun (w : V) (st : tstate V) =>
        match g_low st !! w with
        | None => let* st := tdfs succ n w st in low_min v w st
        | Some _ => if decide (w ∈ g_trail st) then low_min v w st else Ok st
        end).

  (** The state of the loop over the successors of [v], started at [st0]. *)
  Record Loop (v : V) (G : list V) (num0 : V -> nat) (st0 : tstate V) (s0 : list V)
    (done : list V) (num : V -> nat) (st : tstate V) : Prop := {
    l_inv : Inv (v :: G) num st;
    l_num : forall x, vis st0 x -> num x = num0 x;
    l_low : forall x, vis st0 x -> x <> v -> g_low st !! x = g_low st0 !! x;
    l_stack : exists new, g_stack st = new ++ v :: s0 /\ exists l, g_low st !! v = Some l /\
       (forall x y, In x new -> In y (succ x) -> In y s0 -> l <= num y) /\
       (forall w, In w done -> In w s0 -> l <= num w);
    l_done : forall w, In w done -> vis st w;
    l_mono : forall x, vis st0 x -> vis st x;
    l_reach : forall x, vis st x -> vis st0 x \/ R v x;
    l_t : g_t st0 <= g_t st;
    l_out : exists more, g_out st = g_out st0 ++ more
  }.

  Lemma low_min_eq v w st a b :
    g_low st !! v = Some a -> g_low st !! w = Some b -> low_min v w st = Ok (set_low v (min a b) st).
  Proof. intros Ha Hb. unfold low_min, get_low. by rewrite Ha, Hb. Qed.

  Lemma loop_spec n v G num0 st0 s0 :
    (forall w num st G, Inv G num st -> ~ vis st w -> w ∈ U -> (forall g, In g G -> R g w) -> todo st < n ->
       exists num' st', tdfs succ n w st = Ok st' /\ Post w G num st num' st') ->
    v ∈ U -> (forall g, In g G -> R g v) -> vis st0 v -> (forall x, In x s0 -> vis st0 x) ->
    forall ws dn num st,
      succ v = dn ++ ws -> todo st < n ->
      Loop v G num0 st0 s0 dn num st ->
      exists num' st', foldM (body n v) ws st = Ok st' /\ Loop v G num0 st0 s0 (dn ++ ws) num' st'.
  Proof.
    intros IH HvU Hgv Hv0 Hs0. induction ws as [|w ws IHws]; intros dn num st Esucc Hn HL.
    { exists num, st. rewrite app_nil_r. done. }
    assert (Hw : In w (succ v)) by (rewrite Esucc; apply in_or_app; right; by left).
    assert (Hvw : R v w) by (by apply rtc_once).
    assert (Hstep : exists num' st', body n v w st = Ok st' /\ todo st' <= todo st /\ Loop v G num0 st0 s0 (dn ++ [w]) num' st').
    { pose proof (l_inv _ _ _ _ _ _ _ _ HL) as HI.
      destruct (l_stack _ _ _ _ _ _ _ _ HL) as (new & Est & a & Ha & Hnew & Hdn).
      assert (Hvs : In v (g_stack st)) by (rewrite Est; apply in_or_app; right; by left).
      assert (Hlowv : a <= num v).
      { destruct (i_low _ _ _ HI v Hvs) as (z & _ & Z2 & _ & Z4). assert (a = num z) by congruence. lia. }
      simpl. destruct (g_low st !! w) as [b|] eqn:Eb.
      - assert (Hvisw : vis st w) by (unfold vis; rewrite Eb; eauto).
        destruct (decide (w ∈ g_trail st)) as [Ht|Ht].
        + (* on the stack *)
          apply (i_trail _ _ _ HI) in Ht.
          exists num, (set_low v (min a b) st). split; [by apply low_min_eq|].
          assert (Hvisv : vis st v) by (unfold vis; rewrite Ha; eauto).
          split; [apply todo_mono; intros x; by rewrite vis_set_low|].
          destruct HL as [L1 L2 L3 L4 L5 L6 L7 L8 L9]. split; try done.
          * by apply Inv_low_min with w.
          * intros x Hx Hne. simpl. rewrite lookup_insert_ne by done. by apply L3.
          * exists new. split; [done|]. exists (min a b). simpl. split; [apply lookup_insert|]. split.
            { intros x y Hx Hy Hys. specialize (Hnew x y Hx Hy Hys). lia. }
            intros u Hu Hus. apply in_app_or in Hu as [Hu|[<-|[]]].
            { specialize (Hdn u Hu Hus). lia. }
            destruct (i_low _ _ _ HI w Ht) as (z & _ & Z2 & _ & Z4). assert (b = num z) by congruence. lia.
          * intros u Hu. rewrite vis_set_low by done. apply in_app_or in Hu as [Hu|[<-|[]]]; [by apply L5|done].
          * intros x Hx. rewrite vis_set_low by done. by apply L6.
          * intros x. rewrite vis_set_low by done. by apply L7.
        + (* already in a component *)
          exists num, st. split; [done|]. split; [done|].
          destruct HL as [L1 L2 L3 L4 L5 L6 L7 L8 L9]. split; try done.
          * exists new. split; [done|]. exists a. split; [done|]. split; [done|].
            intros u Hu Hus. apply in_app_or in Hu as [Hu|[<-|[]]]; [by apply Hdn|].
            exfalso. apply Ht. apply (i_trail _ _ _ HI). rewrite Est. apply in_or_app. right. by right.
          * intros u Hu. apply in_app_or in Hu as [Hu|[<-|[]]]; [by apply L5|done].
      - assert (Hnw : ~ vis st w) by (unfold vis; rewrite Eb; by intros []).
        destruct (IH w num st (v :: G) HI Hnw) as (num' & st1 & E1 & HP).
        { by eapply HU. }
        { intros g [<-|Hg]; [done|]. etrans; [by apply Hgv|done]. }
        { done. }
        rewrite E1. simpl.
        assert (Hvisv : vis st v) by (unfold vis; rewrite Ha; eauto).
        pose proof (p_low _ _ _ _ _ _ HP v Hvisv) as Ha'. rewrite Ha in Ha'.
        destruct (p_stack _ _ _ _ _ _ HP) as (newW & Est1 & l & El & Hcase).
        assert (Hvisv1 : vis st1 v) by (unfold vis; rewrite Ha'; eauto).
        exists num', (set_low v (min a l) st1). split; [by apply low_min_eq|].
        split.
        { apply todo_mono. intros x Hx. rewrite vis_set_low by done. by eapply p_mono. }
        assert (Hminv : Inv (v :: G) num' (set_low v (min a l) st1)).
        { destruct Hcase as [[-> Hl]|[Hwn Hl]].
          - rewrite Nat.min_l.
            2:{ pose proof (i_t _ _ _ HI v Hvs). lia. }
            replace (set_low v a st1) with st1; [apply HP|].
            unfold set_low. destruct st1; simpl in *. by rewrite insert_id.
          - apply Inv_low_min with w; [apply HP| | |done|done|done].
            + rewrite Est1. apply in_or_app. by right.
            + rewrite Est1. apply in_or_app. by left. }
        assert (Hs0' : forall x, In x s0 -> vis st x).
        { intros x Hx. apply (l_mono _ _ _ _ _ _ _ _ HL), Hs0, Hx. }
        destruct HL as [L1 L2 L3 L4 L5 L6 L7 L8 L9]. split; try done.
        * intros x Hx. rewrite (p_num _ _ _ _ _ _ HP) by (by apply L6). by apply L2.
        * intros x Hx Hne. simpl. rewrite lookup_insert_ne by done.
          rewrite (p_low _ _ _ _ _ _ HP) by (by apply L6). by apply L3.
        * exists (newW ++ new). simpl. rewrite Est1, Est, app_assoc. split; [done|].
          exists (min a l). split; [apply lookup_insert|]. split.
          { intros x y Hx Hy Hys. apply in_app_or in Hx as [Hx|Hx].
            - destruct Hcase as [[-> _]|[_ Hl]]; [done|].
              assert (l <= num' y); [|lia]. apply (Hl x y Hx Hy). rewrite Est. apply in_or_app. right. by right.
            - specialize (Hnew x y Hx Hy Hys). rewrite (p_num _ _ _ _ _ _ HP) by (by apply Hs0'). lia. }
          intros u Hu Hus. rewrite (p_num _ _ _ _ _ _ HP) by (by apply Hs0').
          apply in_app_or in Hu as [Hu|[<-|[]]]; [specialize (Hdn u Hu Hus); lia|].
          exfalso. by apply Hnw, Hs0'.
        * intros u Hu. rewrite vis_set_low by done. apply in_app_or in Hu as [Hu|[<-|[]]].
          { eapply p_mono; [exact HP|]. by apply L5. }
          exact (p_v _ _ _ _ _ _ HP).
        * intros x Hx. rewrite vis_set_low by done. eapply p_mono; [exact HP|]. by apply L6.
        * intros x. rewrite vis_set_low by done. intros Hx. destruct (p_reach _ _ _ _ _ _ HP x Hx) as [Hx'|Hx'].
          { by apply L7. }
          right. transitivity w; done.
        * simpl. pose proof (p_t _ _ _ _ _ _ HP). lia.
        * simpl. destruct (p_out _ _ _ _ _ _ HP) as [more ->]. destruct L9 as [m' ->].
          exists (m' ++ more). by rewrite app_assoc. }
    destruct Hstep as (num' & st1 & E1 & Hle & HL1).
    destruct (IHws (dn ++ [w]) num' st1) as (num2 & st2 & E2 & HL2).
    - by rewrite <- app_assoc.
    - lia.
    - done.
    - exists num2, st2. split; [|by rewrite <- app_assoc in HL2].
      etransitivity; [exact (f_equal (fun m => bind m (foldM (body n v) ws)) E1)|exact E2].
  Qed.

  Lemma pop_until_spec (v : V) (new s0 : list V) (trail : gset V) (C : list V) :
    (forall x, x ∈ trail <-> In x (new ++ v :: s0)) -> List.NoDup (new ++ v :: s0) ->
    exists trail', pop_until v C (new ++ v :: s0) trail = Ok (C ++ new ++ [v], s0, trail') /\
      (forall x, x ∈ trail' <-> In x s0).
  Proof.
    revert C trail. induction new as [|w new IH]; intros C trail Ht Hn; cbn [app pop_until].
    - destruct (decide (v ∈ trail)) as [_|Hv].
      2:{ exfalso. apply Hv, Ht. by left. }
      destruct (decide (v = v)); [|done]. exists (trail ∖ {[v]}). split; [done|].
      intros x. rewrite elem_of_difference, elem_of_singleton, Ht. inversion Hn; subst.
      simpl. split; [naive_solver|]. intros Hx. split; [by right|]. by intros ->.
    - destruct (decide (w ∈ trail)) as [_|Hv].
      2:{ exfalso. apply Hv, Ht. by left. }
      inversion Hn as [|? ? Hw Hn']; subst.
      destruct (decide (w = v)) as [->|Hne].
      { exfalso. apply Hw, in_or_app. right. by left. }
      destruct (IH (C ++ [w]) (trail ∖ {[w]})) as (tr & E & Htr).
      + intros x. rewrite elem_of_difference, elem_of_singleton, Ht. simpl. split; [naive_solver|].
        intros Hx. split; [by right|]. by intros ->.
      + done.
      + exists tr. rewrite E. split; [|done]. by rewrite <- !app_assoc.
  Qed.

  Lemma sorted_nodup (num : V -> nat) l : StronglySorted (fun a b => num b < num a) l -> List.NoDup l.
  Proof.
    induction 1 as [|a l Hs IH Hf]; constructor; [|done]. intros Hin.
    rewrite List.Forall_forall in Hf. specialize (Hf a Hin). lia.
  Qed.

  Lemma tdfs_spec n w num st G :
    Inv G num st -> ~ vis st w -> w ∈ U -> (forall g, In g G -> R g w) -> todo st < n ->
    exists num' st', tdfs succ n w st = Ok st' /\ Post w G num st num' st'.
  Proof.
    revert w num st G. induction n as [|n IH]; intros v num st G HI Hv HvU Hg Hn; [lia|].
    cbn [tdfs]. set (t0 := S (g_t st)).
    set (st0 := TState (<[v := t0]> (g_low st)) (v :: g_stack st) ({[v]} ∪ g_trail st) t0 (g_out st)).
    set (num0 := fun x => if decide (x = v) then t0 else num x).
    assert (Hvis0 : forall x, vis st0 x <-> x = v \/ vis st x).
    { intros x. unfold vis. simpl. destruct (decide (x = v)) as [->|Hne].
      - rewrite lookup_insert. split; [by left|eauto].
      - rewrite lookup_insert_ne by done. split; [by right|]. by intros [?|?]. }
    assert (Hstv : forall x, In x (g_stack st) -> vis st x).
    { intros x Hx. apply (i_vis _ _ _ HI). by left. }
    assert (Hnv : forall x, vis st x -> num0 x = num x).
    { intros x Hx. unfold num0. destruct (decide (x = v)) as [->|]; [done|done]. }
    assert (Hnumv : num0 v = t0) by (unfold num0; by rewrite decide_True).
    assert (Hstn : forall x, In x (g_stack st) -> num0 x <= g_t st).
    { intros x Hx. rewrite Hnv by (by apply Hstv). by apply (i_t _ _ _ HI). }
    assert (HI0 : Inv (v :: G) num0 st0).
    { destruct HI as [I1 I2 I3 I4 I5 I6 I7 I8 I9 I10 I11]. split; simpl.
      - intros x. rewrite elem_of_union, elem_of_singleton, I1. naive_solver.
      - intros x. rewrite Hvis0, I2. naive_solver.
      - intros x [<-|Hx]; [|by apply I3]. intros Hx. apply Hv, I2. by right.
      - constructor.
        + assert (Hx : forall l, (forall x, In x l -> In x (g_stack st)) -> StronglySorted (fun a b => num b < num a) l ->
            StronglySorted (fun a b => num0 b < num0 a) l).
          { intros l Hl. induction 1 as [|a l Hs IHs Hf]; constructor.
            - apply IHs. intros; apply Hl; by right.
            - rewrite List.Forall_forall in *. intros x Hx. rewrite !Hnv; [by apply Hf|apply Hstv, Hl; by left|apply Hstv, Hl; by right]. }
          apply Hx; auto.
        + apply List.Forall_forall. intros x Hx. rewrite Hnumv. specialize (Hstn x Hx). unfold t0. lia.
      - intros x [<-|Hx]; [by rewrite Hnumv|]. specialize (Hstn x Hx). unfold t0. lia.
      - intros g [<-|Hg']; [by left|right; by apply I6].
      - intros x y. rewrite !Hvis0. intros [->|Hx] Hne Hy; [exfalso; apply Hne; by left|].
        right. eapply I7; [exact Hx| |exact Hy]. intros ?; apply Hne; by right.
      - intros g y [<-|Hg'] [<-|Hy].
        + intros _. constructor.
        + rewrite Hnumv. specialize (Hstn y Hy). unfold t0. lia.
        + intros _. by apply Hg.
        + rewrite !Hnv by (apply Hstv; auto). by apply I8.
      - intros y [<-|Hy].
        + exists v. split; [by left|]. split; [done|constructor].
        + destruct (I9 y Hy) as (g & G1 & G2 & G3). exists g. split; [by right|]. split; [|done].
          rewrite !Hnv by (apply Hstv; auto). done.
      - intros x [<-|Hx].
        + exists v. rewrite lookup_insert, Hnumv. split; [by left|]. split; [done|]. split; [constructor|done].
        + destruct (I10 x Hx) as (z & Z1 & Z2 & Z3 & Z4). exists z.
          assert (x <> v) by (intros ->; apply Hv, Hstv, Hx).
          rewrite lookup_insert_ne by done. rewrite !Hnv by (apply Hstv; auto).
          split; [by right|done].
      - done. }
    assert (HL0 : Loop v G num0 st0 (g_stack st) [] num0 st0).
    { split; try done.
      - exists []. simpl. split; [done|]. exists t0. split; [apply lookup_insert|]. done.
      - intros x Hx. by left.
      - exists []. by rewrite app_nil_r. }
    destruct (loop_spec n v G num0 st0 (g_stack st)) with (ws := succ v) (dn := @nil V) (num := num0) (st := st0)
      as (num1 & st1 & E1 & HL).
    - intros w num' st' G' ?????. by apply IH.
    - done.
    - done.
    - apply Hvis0. by left.
    - intros x Hx. apply Hvis0. right. by apply Hstv.
    - done.
    - assert (todo st0 < todo st); [|lia]. apply (todo_strict _ _ v); [done|done|apply Hvis0; by left|].
      intros x Hx. apply Hvis0. by right.
    - exact HL0.
    - simpl app in HL. rewrite E1. cbn [bind].
      destruct HL as [L1 L2 L3 L4 L5 L6 L7 L8 L9].
      destruct L4 as (new & Est & l & El & Hnew & Hdn).
      unfold get_low. rewrite El. cbn [bind].
      pose proof (i_sorted _ _ _ L1) as Hsort. rewrite Est in Hsort.
      apply sorted_app in Hsort as (S1 & S2 & S3). inversion S2 as [|? ? S4 S5]; subst.
      rewrite List.Forall_forall in S5.
      assert (Hnum1v : num1 v = t0).
      { rewrite L2 by (apply Hvis0; by left). done. }
      assert (Hs0n : forall y, In y (g_stack st) -> num1 y < num1 v) by done.
      assert (Hnewn : forall y, In y new -> num1 v < num1 y).
      { intros y Hy. apply (S3 y v Hy). by left. }
      assert (Hsucc : forall y, In y (succ v) -> vis st1 y) by done.
      destruct (i_low _ _ _ L1 v) as (z & Z1 & Z2 & Z3 & Z4).
      { rewrite Est. apply in_or_app. right. by left. }
      assert (l = num1 z) as -> by congruence.
      assert (Hedge1 : forall x y, vis st1 x -> ~ In x G -> In y (succ x) -> vis st1 y).
      { intros x y Hx Hne Hy. destruct (decide (x = v)) as [->|Hxv]; [by apply Hsucc|].
        eapply (i_edge _ _ _ L1); [exact Hx| |exact Hy]. intros [?|?]; [by subst|done]. }
      destruct (Nat.eqb_spec (num1 z) t0) as [Ez|Ez].
      + (* v is the root of a component *)
        assert (Hnd : List.NoDup (new ++ v :: g_stack st)).
        { rewrite <- Est. eapply sorted_nodup, L1. }
        destruct (pop_until_spec v new (g_stack st) (g_trail st1) []) as (tr & Ep & Htr); [|done|].
        { intros x. rewrite (i_trail _ _ _ L1), Est. done. }
        rewrite Est. rewrite Ep. cbn [bind fst snd]. simpl app.
        set (C := list_to_set (new ++ [v]) : gset V).
        assert (HC : forall x, x ∈ C <-> In x new \/ x = v).
        { intros x. unfold C. rewrite elem_of_list_to_set, elem_of_app, elem_of_list_singleton, elem_of_list_In. done. }
        exists num1, (TState (g_low st1) (g_stack st) tr (g_t st1) (g_out st1 ++ [C])).
        split; [done|].
        assert (Hstk : forall x, In x (g_stack st1) <-> x ∈ C \/ In x (g_stack st)).
        { intros x. rewrite Est, in_app_iff, HC. simpl. naive_solver. }
        assert (Hto : forall x, x ∈ C -> R v x).
        { intros x [Hx| ->]%HC; [|constructor]. apply (i_down _ _ _ L1); [by left|apply Hstk; left; apply HC; by left|].
          specialize (Hnewn x Hx). lia. }
        assert (Hfrom : forall x, x ∈ C -> R x v).
        { intros x Hx. destruct (i_up _ _ _ L1 x) as (g & [<-|Hg'] & _ & HR); [apply Hstk; by left|done|].
          etrans; [exact HR|]. by apply Hg. }
        assert (Hclosed : forall x y, x ∈ C -> In y (succ x) -> y ∈ C \/ inout (g_out st1) y).
        { intros x y Hx Hy. assert (Hvy : vis st1 y).
          { apply (Hedge1 x y); [apply (i_vis _ _ _ L1); left; apply Hstk; by left| |done].
            intros HxG. apply (i_gray _ _ _ HI) in HxG. apply HC in Hx as [Hx| ->].
            - specialize (Hnewn x Hx). specialize (Hs0n x HxG). lia.
            - apply Hv. by apply Hstv. }
          apply (i_vis _ _ _ L1) in Hvy as [Hys|Hyo]; [|by right]. apply Hstk in Hys as [?|Hys]; [by left|].
          exfalso. apply HC in Hx as [Hx| ->].
          - specialize (Hnew x y Hx Hy Hys). specialize (Hs0n y Hys). lia.
          - specialize (Hdn y Hy Hys). specialize (Hs0n y Hys). lia. }
        assert (Hscc : scc_at (g_out st1) C).
        { split; [exists v; apply HC; by right|]. split; [|split; [|split]].
          - intros x y Hx Hy. etrans; [by apply Hfrom|by apply Hto].
          - intros x y Hx Hxy Hyx.
            assert (Hgen : forall a b, R a b -> a ∈ C \/ inout (g_out st1) a -> b ∈ C \/ inout (g_out st1) b).
            { intros a b Hab. induction Hab as [a|a c b Hac Hcb IHab]; [done|]. intros [Ha|Ha]; apply IHab.
              - by eapply Hclosed.
              - right. eapply scc_seq_closed; [apply L1|exact Ha|by apply rtc_once]. }
            destruct (Hgen x y Hxy (or_introl Hx)) as [?|Hyo]; [done|]. exfalso.
            assert (Hxo : inout (g_out st1) x) by (eapply scc_seq_closed; [apply L1|exact Hyo|done]).
            eapply (i_disj _ _ _ L1); [|exact Hxo]. apply Hstk. by left.
          - exact Hclosed.
          - intros x Hx. apply (i_disj _ _ _ L1). apply Hstk. by left. }
        assert (Hino : forall x, inout (g_out st1 ++ [C]) x <-> inout (g_out st1) x \/ x ∈ C).
        { intros x. unfold inout. split.
          - intros (D & HD & Hx). apply in_app_or in HD as [HD|[<-|[]]]; [left; eauto|by right].
          - intros [(D & HD & Hx)|Hx]; [exists D; split; [apply in_or_app; by left|done]|].
            exists C. split; [apply in_or_app; right; by left|done]. }
        split; simpl.
        * split; simpl.
          -- done.
          -- intros x. change (vis st1 x <-> In x (g_stack st) \/ inout (g_out st1 ++ [C]) x).
             rewrite (i_vis _ _ _ L1), Hstk, Hino. naive_solver.
          -- intros x Hx. rewrite Hino. intros [Ho|Hc].
             ++ eapply (i_disj _ _ _ L1); [|exact Ho]. apply Hstk. by right.
             ++ apply HC in Hc as [Hc| ->].
                ** specialize (Hnewn x Hc). specialize (Hs0n x Hx). lia.
                ** by apply Hv, Hstv.
          -- done.
          -- intros x Hx. apply (i_t _ _ _ L1). apply Hstk. by right.
          -- apply HI.
          -- exact Hedge1.
          -- intros g y Hg' Hy. apply (i_down _ _ _ L1); [by right|apply Hstk; by right].
          -- intros y Hy. destruct (i_up _ _ _ L1 y) as (g & [<-|Hg'] & G2 & G3); [apply Hstk; by right| |by exists g].
             specialize (Hs0n y Hy). lia.
          -- intros x Hx. destruct (i_low _ _ _ L1 x) as (y & Y1 & Y2 & Y3 & Y4); [apply Hstk; by right|].
             exists y. split; [|done]. apply Hstk in Y1 as [Y1|Y1]; [|done]. exfalso.
             specialize (Hs0n x Hx). apply HC in Y1 as [Y1| ->]; [specialize (Hnewn y Y1); lia|lia].
          -- apply scc_seq_snoc; [apply L1|done].
        * intros x Hx. rewrite L2 by (apply Hvis0; by right). by apply Hnv.
        * intros x Hx. rewrite L3; [|apply Hvis0; by right|by intros ->]. simpl.
          rewrite lookup_insert_ne; [done|by intros ->].
        * exists []. split; [done|]. exists (num1 z). split; [done|]. left. split; [done|]. unfold t0 in Ez. lia.
        * apply L6. apply Hvis0. by left.
        * intros x Hx. destruct (L7 x Hx) as [Hx'|Hx']; [|by right]. apply Hvis0 in Hx' as [->|Hx']; [right; constructor|by left].
        * simpl in L8. unfold t0 in L8. lia.
        * destruct L9 as [more ->]. simpl. exists (more ++ [C]). by rewrite app_assoc.
      + (* v stays on the stack *)
        exists num1, st1. split; [done|].
        assert (Hzs : In z (g_stack st)).
        { rewrite Est in Z1. apply in_app_or in Z1 as [Z1|[<-|Z1]]; [|lia|done]. specialize (Hnewn z Z1). lia. }
        split.
        * destruct L1 as [I1 I2 I3 I4 I5 I6 I7 I8 I9 I10 I11]. split; try done.
          -- intros g Hg'. apply I6. by right.
          -- intros g y Hg'. apply I8. by right.
          -- intros y Hy. destruct (I9 y Hy) as (g & [<-|Hg'] & G2 & G3); [|by exists g].
             destruct (I9 z) as (g & [<-|Hg'] & G2' & G3').
             { rewrite Est. apply in_or_app. right. by right. }
             { specialize (Hs0n z Hzs). lia. }
             exists g. split; [done|]. split; [specialize (Hs0n z Hzs); lia|]. etrans; [exact G3|]. transitivity z; done.
        * intros x Hx. rewrite L2 by (apply Hvis0; by right). by apply Hnv.
        * intros x Hx. rewrite L3; [|apply Hvis0; by right|by intros ->]. simpl.
          rewrite lookup_insert_ne; [done|by intros ->].
        * exists (new ++ [v]). rewrite Est, <- app_assoc. split; [done|]. exists (num1 z). split; [done|].
          right. split; [apply in_or_app; right; by left|].
          intros x y Hx Hy Hys. apply in_app_or in Hx as [Hx|[<-|[]]]; [by eapply Hnew|by apply Hdn].
        * apply L6. apply Hvis0. by left.
        * intros x Hx. destruct (L7 x Hx) as [Hx'|Hx']; [|by right]. apply Hvis0 in Hx' as [->|Hx']; [right; constructor|by left].
        * simpl in L8. unfold t0 in L8. lia.
        * exact L9.
  Qed.

  (** The outer loop. *)
  Definition tinit : tstate V := TState ∅ [] ∅ 0 [].

  Lemma roots_spec n roots :
    (forall r, In r roots -> r ∈ U) -> size U < n ->
    forall num st, Inv [] num st -> (forall x, vis st x -> exists r, In r roots /\ R r x) ->
    forall rs, (forall r, In r rs -> In r roots) ->
    exists num' st', foldM (fun v st => match g_low st !! v with None => tdfs succ n v st | Some _ => Ok st end) rs st = Ok st' /\
      Inv [] num' st' /\ (forall x, vis st' x -> exists r, In r roots /\ R r x) /\
      (forall x, vis st x -> vis st' x) /\ (forall r, In r rs -> vis st' r).
  Proof.
    intros Hr Hn num st HI Hv rs. revert num st HI Hv. induction rs as [|r rs IH]; intros num st HI Hv Hsub.
    { exists num, st. done. }
    assert (Hr0 : In r roots) by (apply Hsub; by left).
    simpl. destruct (g_low st !! r) as [l|] eqn:El.
    - simpl. destruct (IH num st HI Hv) as (num' & st' & E & A1 & A2 & A3 & A4); [intros; apply Hsub; by right|].
      exists num', st'. split; [done|]. split; [done|]. split; [done|]. split; [done|].
      intros x [<-|Hx]; [|by apply A4]. apply A3. unfold vis. rewrite El. eauto.
    - destruct (tdfs_spec n r num st []) as (num1 & st1 & E1 & HP); [done| |by apply Hr|done| |].
      { unfold vis. rewrite El. by intros []. }
      { assert (todo st <= size U); [|lia]. unfold todo. apply subseteq_size. set_solver. }
      rewrite E1. simpl.
      destruct (IH num1 st1 (p_inv _ _ _ _ _ _ HP)) as (num' & st' & E & A1 & A2 & A3 & A4).
      { intros x Hx. destruct (p_reach _ _ _ _ _ _ HP x Hx) as [Hx'|Hx']; [by apply Hv|by exists r]. }
      { intros; apply Hsub; by right. }
      exists num', st'. split; [done|]. split; [done|]. split; [done|]. split.
      + intros x Hx. apply A3. by eapply p_mono.
      + intros x [<-|Hx]; [|by apply A4]. apply A3. exact (p_v _ _ _ _ _ _ HP).
  Qed.

  Lemma not_vis_init x : ~ vis tinit x.
  Proof. unfold vis, tinit. cbn [g_low]. intros [y Hy]. by rewrite lookup_empty in Hy. Qed.

  Lemma Inv_init : Inv [] (fun _ => 0) tinit.
  Proof.
    split.
    - intros x. simpl. split; [|done]. set_solver.
    - intros x. split; [intros Hx; by apply not_vis_init in Hx|]. intros [[]|(C & [] & _)].
    - intros x [].
    - constructor.
    - intros x [].
    - intros x [].
    - intros x y Hx. by apply not_vis_init in Hx.
    - intros g y [].
    - intros y [].
    - intros y [].
    - intros pre C post E. by destruct pre.
  Qed.

  Lemma tarjan_spec n roots :
    (forall r, In r roots -> r ∈ U) -> size U < n ->
    exists out, tarjan succ n roots = Ok out /\ scc_seq out /\
      (forall x, inout out x <-> exists r, In r roots /\ R r x).
  Proof.
    intros Hr Hn. destruct (roots_spec n roots Hr Hn _ tinit Inv_init) with (rs := roots)
      as (num & st & E & HI & Hv & _ & Hroots).
    - intros x Hx. by apply not_vis_init in Hx.
    - done.
    - exists (g_out st). unfold tarjan. fold tinit. rewrite E. split; [done|].
      split; [apply HI|].
      assert (Hst : g_stack st = []).
      { destruct (g_stack st) as [|y s] eqn:Es; [done|]. destruct (i_up _ _ _ HI y) as (g & [] & _).
        rewrite Es. by left. }
      intros x. split.
      + intros Hx. apply Hv. apply (i_vis _ _ _ HI). by right.
      + intros (r & Hrr & HR). eapply scc_seq_closed; [apply HI| |exact HR].
        specialize (Hroots r Hrr). apply (i_vis _ _ _ HI) in Hroots. rewrite Hst in Hroots. by destruct Hroots.
  Qed.
End tarjan.

(** * Condensation *)
Section condensation.
  Context {V : Type} `{Countable V}.
  Variable succ : V -> list V.
  Notation R := (reach succ).

  Lemma comp_index_app (x : V) i l1 l2 acc :
    comp_index x i (l1 ++ l2) acc = comp_index x (i + length l1) l2 (comp_index x i l1 acc).
  Proof.
    revert i acc. induction l1 as [|X l1 IH]; intros i acc; simpl; [by rewrite Nat.add_0_r|].
    rewrite IH. f_equal. lia.
  Qed.

  Lemma comp_index_notin (x : V) i l acc : ~ inout l x -> comp_index x i l acc = acc.
  Proof.
    revert i. induction l as [|X l IH]; intros i Hn; simpl; [done|].
    destruct (decide (x ∈ X)) as [Hx|Hx]; [exfalso; apply Hn; exists X; split; [by left|done]|].
    apply IH. intros (C & HC & Hx'). apply Hn. exists C. split; [by right|done].
  Qed.

  Lemma comp_of_spec sccs (x : V) C : scc_seq succ sccs ->
    comp_of sccs x = Some C <-> In C sccs /\ x ∈ C.
  Proof.
    intros Hs. assert (Hin : forall D, In D sccs -> x ∈ D -> comp_of sccs x = Some D).
    { intros D HD Hx. apply in_split in HD as (pre & post & E).
      unfold comp_of. rewrite E, comp_index_app. simpl. rewrite decide_True by done.
      rewrite comp_index_notin.
      - apply list_lookup_middle. done.
      - intros (D' & HD' & Hx'). apply in_split in HD' as (p2 & q2 & ->).
        destruct (Hs (pre ++ D :: p2) D' q2) as (_ & _ & _ & _ & Hd).
        { rewrite E, <- app_assoc. done. }
        apply (Hd x Hx'). exists D. split; [apply in_or_app; right; by left|done]. }
    split.
    - intros E. assert (Hi : inout sccs x).
      { destruct (decide (Exists (fun C => x ∈ C) sccs)) as [Hex|Hex].
        - apply Exists_exists in Hex as (D & HD & Hx). exists D. split; [by apply elem_of_list_In|done].
        - exfalso. unfold comp_of in E. rewrite comp_index_notin in E; [done|].
          intros (D & HD & Hx). apply Hex, Exists_exists. exists D. split; [by apply elem_of_list_In|done]. }
      destruct Hi as (D & HD & Hx). rewrite (Hin D HD Hx) in E. injection E as ->. done.
    - intros [HC Hx]. by apply Hin.
  Qed.

  Notation cedge sccs X := (fun (g : gset (gset V) * gset (gset V * gset V)) y =>
        if decide (y ∈ X) then g
        else match comp_of sccs y with
             | None => g
             | Some Y => ({[X]} ∪ ({[Y]} ∪ fst g), {[(X, Y)]} ∪ snd g)
             end).

  Lemma cond_edges sccs (X : gset V) ys g :
    X ∈ fst g ->
    let g' := fold_left (cedge sccs X) ys g in
    (forall Z, Z ∈ fst g' <-> Z ∈ fst g \/ exists y, In y ys /\ y ∉ X /\ comp_of sccs y = Some Z) /\
    (forall A B, (A, B) ∈ snd g' <-> (A, B) ∈ snd g \/ (A = X /\ exists y, In y ys /\ y ∉ X /\ comp_of sccs y = Some B)).
  Proof.
    revert g. induction ys as [|y ys IH]; intros g HX; simpl.
    { split; [intros Z|intros A B]; split; [by left| |by left|];
        [intros [?|(? & [] & _)]; done|intros [?|(_ & ? & [] & _)]; done]. }
    destruct (decide (y ∈ X)) as [Hy|Hy].
    { destruct (IH g HX) as [H1 H2]. split.
      - intros Z. rewrite H1. split; [intros [?|(z & Hz & ?)]; [by left|right; exists z; split; [by right|done]]|]. intros [?|(z & [<-|Hz] & Hn & Ez)]; [by left|done|]. right. eauto.
      - intros A B. rewrite H2. split; [intros [?|(? & z & Hz & ?)]; [by left|right; split; [done|]; exists z; split; [by right|done]]|]. intros [?|(-> & z & [<-|Hz] & Hn & Ez)]; [by left|done|]. right. eauto. }
    destruct (comp_of sccs y) as [Y|] eqn:EY.
    - destruct (IH ({[X]} ∪ ({[Y]} ∪ fst g), {[(X, Y)]} ∪ snd g)) as [H1 H2]; [simpl; clear; set_solver|]. simpl in H1, H2. split.
      + intros Z. rewrite H1. rewrite !elem_of_union, !elem_of_singleton. split.
        * intros [[->|[->|?]]|(z & Hz & Hn & Ez)]; [by left|right; exists y; auto|by left|right; exists z; auto].
        * intros [?|(z & [<-|Hz] & Hn & Ez)]; [left; right; by right|left; right; left; congruence|right; eauto].
      + intros A B. rewrite H2. rewrite !elem_of_union, !elem_of_singleton. split.
        * intros [[[= -> ->]|?]|(-> & z & Hz & Hn & Ez)]; [right; split; [done|]; exists y; auto|by left|right; split; [done|]; exists z; auto].
        * intros [?|(-> & z & [<-|Hz] & Hn & Ez)]; [left; by right|left; left; congruence|right; eauto].
    - destruct (IH g HX) as [H1 H2]. split.
      + intros Z. rewrite H1. split; [intros [?|(z & Hz & ?)]; [by left|right; exists z; split; [by right|done]]|]. intros [?|(z & [<-|Hz] & Hn & Ez)]; [by left|congruence|]. right. eauto.
      + intros A B. rewrite H2. split; [intros [?|(? & z & Hz & ?)]; [by left|right; split; [done|]; exists z; split; [by right|done]]|]. intros [?|(-> & z & [<-|Hz] & Hn & Ez)]; [by left|congruence|]. right. eauto.
  Qed.

  (** Z is the component of one of the nodes xs, or of a successor of one that
      lies outside its own component. *)
  Lemma cond_fold sccs xs g : scc_seq succ sccs ->
    let g' := fold_left (fun g x => cond_node succ sccs x g) xs g in
    (forall Z, Z ∈ fst g' <-> Z ∈ fst g \/ exists x, In x xs /\ exists X, comp_of sccs x = Some X /\
        (Z = X \/ exists y, In y (succ x) /\ y ∉ X /\ comp_of sccs y = Some Z)) /\
    (forall A B, (A, B) ∈ snd g' <-> (A, B) ∈ snd g \/
        exists x y, In x xs /\ comp_of sccs x = Some A /\ In y (succ x) /\ y ∉ A /\ comp_of sccs y = Some B).
  Proof.
    intros Hs. revert g. induction xs as [|x xs IH]; intros g; simpl.
    { split; [intros Z|intros A B]; split; [by left| |by left|];
        [intros [?|(? & [] & _)]; done|intros [?|(? & ? & [] & _)]; done]. }
    destruct (IH (cond_node succ sccs x g)) as [H1 H2].
    destruct (comp_of sccs x) as [X|] eqn:EX.
    - assert (Eg : cond_node succ sccs x g = fold_left (cedge sccs X) (succ x) ({[X]} ∪ fst g, snd g))
        by (unfold cond_node; by rewrite EX).
      rewrite Eg in H1, H2 |- *.
      destruct (cond_edges sccs X (succ x) ({[X]} ∪ fst g, snd g)) as [C1 C2]; [simpl; clear; set_solver|]. simpl in C1, C2. split.
      + intros Z. rewrite H1, C1, elem_of_union, elem_of_singleton. split.
        * intros [[[->|?]|(y & Hy)]|(x' & Hx' & HX')]; [right; exists x; eauto 10|by left|right; exists x; eauto 10|right; eauto].
        * intros [?|(x' & [<-|Hx'] & X' & EX' & HX')]; [left; left; by right| |right; eauto].
          assert (X' = X) as -> by congruence. left. destruct HX' as [->|?]; [by left; left|by right].
      + intros A B. rewrite H2, C2. split.
        * intros [[?|(-> & y & Hy & Hn & Ey)]|(x' & y & Hx' & HH)]; [by left|right; exists x, y; auto|right; exists x', y; auto].
        * intros [?|(x' & y & [<-|Hx'] & E1 & Hy & Hn & Ey)]; [by left; left| |right; exists x', y; auto].
          assert (A = X) as -> by congruence. left. right. split; [done|]. eauto.
    - assert (Eg : cond_node succ sccs x g = g) by (unfold cond_node; by rewrite EX).
      rewrite Eg in H1, H2 |- *. split.
      + intros Z. rewrite H1. split; [intros [?|(x' & Hx' & ?)]; [by left|right; exists x'; split; [by right|done]]|]. intros [?|(x' & [<-|Hx'] & X' & EX' & HX')]; [by left|congruence|right; eauto].
      + intros A B. rewrite H2. split; [intros [?|(x' & y & Hx' & ?)]; [by left|right; exists x', y; split; [by right|done]]|].
        intros [?|(x' & y & [<-|Hx'] & E1 & Hrest)]; [by left|congruence|right; exists x', y; auto].
  Qed.
End condensation.

(** * Hypergraph reachability *)
Section hyper.
  Context {V : Type} `{Countable V}.
  Variable E : list (@hedge V).
  Variable pick : nat -> gset V -> V.
  Hypothesis Hpick : forall k A, A ≠ ∅ -> pick k A ∈ A.

  Lemma in_outgoing x e : In e (outgoing E x) <-> In e E /\ In x (hbody e).
  Proof.
    unfold outgoing. rewrite in_flat_map. split.
    - intros (e' & He & Hm). apply in_map_iff in Hm as (b & <- & Hb). apply filter_In in Hb as [Hb Hx].
      apply bool_decide_eq_true in Hx as ->. done.
    - intros [He Hx]. exists e. split; [done|]. apply in_map_iff. exists x. split; [done|]. apply filter_In.
      split; [done|]. by apply bool_decide_eq_true.
  Qed.

  Lemma in_incoming x e : In e (incoming E x) <-> In e E /\ hhead e = x.
  Proof. unfold incoming. rewrite filter_In, bool_decide_eq_true. done. Qed.

  Definition heads : gset V := list_to_set (map hhead E).
  Lemma in_heads e : In e E -> hhead e ∈ heads.
  Proof. intros He. apply elem_of_list_to_set, elem_of_list_In, in_map, He. Qed.

  Variable given : V -> Prop.
  Notation D := (derivable E given).

  (** Forward pass.  Invariant: A ⊆ C, everything in C is derivable, and every
      edge whose body is in C and has no body node waiting has its head in C. *)
  Definition FI (C A : gset V) : Prop :=
    A ⊆ C /\ (forall x, x ∈ C -> D x) /\
    (forall e, In e E -> (forall b, In b (hbody e) -> b ∈ C) -> (forall b, In b (hbody e) -> b ∉ A) -> hhead e ∈ C).

  Lemma forallb_in (C : gset V) l : forallb (fun b => bool_decide (b ∈ C)) l = true <-> forall b, In b l -> b ∈ C.
  Proof.
    rewrite forallb_forall. split; intros Hl b Hb; specialize (Hl b Hb); [by apply bool_decide_eq_true in Hl|by apply bool_decide_eq_true].
  Qed.

  Lemma fwd_edge_eq (e : @hedge V) C A : fwd_edge e (C, A) =
    if forallb (fun b => bool_decide (b ∈ C)) (hbody e) then
      if decide (hhead e ∈ C) then (C, A) else ({[hhead e]} ∪ C, {[hhead e]} ∪ A)
    else (C, A).
  Proof. done. Qed.

  Lemma fwd_fold es C A C' A' :
    fold_left (fun s e => fwd_edge e s) es (C, A) = (C', A') ->
    (forall e, In e es -> In e E) -> (forall x, x ∈ C -> D x) -> A ⊆ C ->
    C ⊆ C' /\ A ⊆ A' /\ (forall x, x ∈ C' -> x ∈ C \/ x ∈ A' /\ x ∈ heads) /\ A' ⊆ C' /\
    (forall x, x ∈ A' -> x ∈ A \/ x ∈ C' /\ x ∉ C) /\
    (forall x, x ∈ C' -> D x) /\
    (forall e, In e es -> (forall b, In b (hbody e) -> b ∈ C) -> hhead e ∈ C').
  Proof.
    revert C A. induction es as [|e es IH]; intros C A; cbn [fold_left].
    { intros [= <- <-] _ HD HA. split; [done|]. split; [done|]. split; [by left|]. split; [done|]. split; [by left|]. done. }
    intros Hf Hes HD HA. rewrite fwd_edge_eq in Hf.
    destruct (forallb _ _) eqn:Eb.
    - pose proof (proj1 (forallb_in C (hbody e)) Eb) as Hb. destruct (decide (hhead e ∈ C)) as [Hh|Hh].
      + destruct (IH C A Hf) as (H1 & H2 & H3 & H4 & H4' & H5 & H6); [intros; apply Hes; by right|done|done|].
        repeat (split; [done|]). intros e' [<-|He'] Hb'; [by apply H1|by apply H6].
      + assert (HDh : D (hhead e)).
        { destruct e as [h b]. apply dv_edge with b; [apply Hes; by left|]. apply Forall_forall. intros x Hx.
          apply HD, Hb. by apply elem_of_list_In. }
        destruct (IH ({[hhead e]} ∪ C) ({[hhead e]} ∪ A) Hf) as (H1 & H2 & H3 & H4 & H4' & H5 & H6).
        { intros; apply Hes; by right. }
        { clear - HD HDh. intros x Hx. apply elem_of_union in Hx as [Hx|Hx]; [|by apply HD]. apply elem_of_singleton in Hx as ->. done. } { clear - HA. set_solver. }
        split; [clear - H1; set_solver|]. split; [clear - H2; set_solver|]. split.
        { intros x Hx. destruct (H3 x Hx) as [Hx'|?]; [|by right]. apply elem_of_union in Hx' as [Hx'|?]; [|by left].
          apply elem_of_singleton in Hx' as ->. right. split; [clear - H2; set_solver|]. apply in_heads, Hes. by left. }
        split; [done|]. split; [clear - H4' H1 Hh; set_solver|]. split; [done|].
        intros e' [<-|He'] Hb'; [apply H1; clear; set_solver|]. apply H6; [done|]. intros b Hbb. specialize (Hb' b Hbb). clear - Hb'. set_solver.
    - destruct (IH C A Hf) as (H1 & H2 & H3 & H4 & H4' & H5 & H6); [intros; apply Hes; by right|done|done|].
      repeat (split; [done|]). intros e' [<-|He'] Hb'; [|by apply H6].
      apply (forallb_in C (hbody e)) in Hb'. congruence.
  Qed.

  Lemma fwd_loop_spec n k C A :
    FI C A -> size A + size (heads ∖ C) < n ->
    exists C', fwd_loop pick E n k C A = Ok C' /\ C ⊆ C' /\ FI C' ∅.
  Proof.
    revert k C A. induction n as [|n IH]; intros k C A HI Hn; [lia|]. simpl.
    destruct (decide (A = ∅)) as [->|Hne]; [by exists C|].
    pose proof (Hpick k A Hne) as Hx. set (x := pick k A) in *.
    destruct (fold_left _ (outgoing E x) (C, A ∖ {[x]})) as [C' A'] eqn:Ef.
    destruct HI as (HA & HD & HE).
    destruct (fwd_fold _ _ _ _ _ Ef) as (H1 & H2 & H3 & H4 & H4' & H5 & H6).
    { intros e He. by apply in_outgoing in He as []. } { done. } { set_solver. }
    destruct (IH (S k) C' A') as (C2 & E2 & S2 & I2).
    - split; [done|]. split; [done|]. intros e He Hb Hw.
      destruct (decide (x ∈ hbody e)) as [Hxe%elem_of_list_In|Hxe].
      + destruct (forallb (fun b => bool_decide (b ∈ C)) (hbody e)) eqn:Eb.
        * pose proof (proj1 (forallb_in C (hbody e)) Eb) as HbC. apply H6; [by apply in_outgoing|done].
        * exfalso. assert (HbC : forall b, In b (hbody e) -> b ∈ C).
          { intros b Hbb. specialize (Hb b Hbb). specialize (Hw b Hbb). destruct (H3 b Hb) as [?|[? _]]; done. }
          apply (forallb_in C (hbody e)) in HbC. congruence.
      + apply H1, HE; [done| |].
        * intros b Hbb. specialize (Hb b Hbb). specialize (Hw b Hbb). destruct (H3 b Hb) as [?|[? _]]; done.
        * intros b Hbb HbA. apply (Hw b Hbb). apply H2. apply elem_of_difference. split; [done|].
          apply not_elem_of_singleton. intros ->. apply Hxe. by apply elem_of_list_In.
    - (* measure *)
      assert (HAd : A' ⊆ (A ∖ {[x]}) ∪ (C' ∖ C)).
      { intros y Hy. destruct (H4' y Hy) as [?|[? ?]]; set_solver. }
      pose proof (subseteq_size _ _ HAd) as Hs1.
      rewrite size_union in Hs1 by set_solver.
      assert (Hs2 : size (A ∖ {[x]}) + 1 = size A).
      { assert (Hs0 : size ({[x]} : gset V) <= size A) by (apply subseteq_size; set_solver).
        rewrite size_difference by set_solver. rewrite size_singleton in *. lia. }
      assert (Hs3 : size (heads ∖ C') + size (C' ∖ C) <= size (heads ∖ C)).
      { rewrite <- size_union by set_solver. apply subseteq_size. intros y. rewrite elem_of_union, !elem_of_difference.
        intros [[? ?]|[Hy ?]]; [set_solver|]. destruct (H3 y Hy) as [?|[_ ?]]; [done|]. set_solver. }
      lia.
    - exists C2. split; [done|]. split; [set_solver|done].
  Qed.

  Lemma FI_final C : FI C ∅ -> (forall x, given x -> x ∈ C) -> forall x, x ∈ C <-> D x.
  Proof.
    intros (_ & HD & HE) Hg x. split; [apply HD|].
    revert x. fix IH 2. intros x [y Hy|h b He Hb]; [by apply Hg|].
    apply (HE (h, b) He); [|set_solver]. simpl. clear He.
    intros y Hy. induction Hb as [|z b Hz Hb IHb]; [done|]. destruct Hy as [<-|Hy]; [by apply IH|by apply IHb].
  Qed.

  (** Backward pass. *)
  Variable C : gset V.
  Variable outs : V -> Prop.
  Definition step_ok (T : gset V) (x : V) := forall e, In e E -> hhead e = x -> forall b, In b (hbody e) -> b ∈ C -> b ∈ T.

  (** The nodes from which an output can be reached going through nodes of C. *)
  Inductive up : V -> Prop :=
  | up_out x : outs x -> up x
  | up_edge x y : up y -> feeds E x y -> x ∈ C -> up x.

  Lemma bwd_body bs (T A T' A' : gset V) :
    fold_left (fun s b => if decide (b ∉ fst s /\ b ∈ C) then ({[b]} ∪ fst s, {[b]} ∪ snd s) else s) bs (T, A) = (T', A') ->
    T ⊆ T' /\ A ⊆ A' /\ (forall x, x ∈ T' -> x ∈ T \/ (In x bs /\ x ∈ C /\ x ∈ A' /\ x ∉ T)) /\
    (forall x, x ∈ A' -> x ∈ A \/ x ∈ T' /\ x ∉ T) /\ (forall b, In b bs -> b ∈ C -> b ∈ T').
  Proof.
    revert T A. induction bs as [|b bs IH]; intros T A; simpl.
    { intros [= <- <-]. split; [done|]. split; [done|]. split; [by left|]. split; [by left|done]. }
    destruct (decide _) as [[Hb HbC]|Hb]; intros Hf; destruct (IH _ _ Hf) as (H1 & H2 & H3 & H4 & H5); clear IH.
    - simpl in *. split; [set_solver|]. split; [set_solver|]. split.
      { intros x Hx. destruct (H3 x Hx) as [Hx'|(Hxb & HxC & HxA & HxT)].
        - apply elem_of_union in Hx' as [Hx'|?]; [|by left]. apply elem_of_singleton in Hx' as ->.
          right. split; [by left|]. split; [done|]. split; [set_solver|done].
        - right. split; [by right|]. split; [done|]. split; [done|]. set_solver. }
      split.
      { intros x Hx. destruct (H4 x Hx) as [Hx'|[? ?]]; [|right; set_solver].
        apply elem_of_union in Hx' as [Hx'|?]; [|by left]. apply elem_of_singleton in Hx' as ->. right. split; [set_solver|done]. }
      intros x [<-|Hx] HxC; [set_solver|by apply H5].
    - simpl in *. split; [done|]. split; [done|]. split.
      { intros x Hx. destruct (H3 x Hx) as [?|(? & ? & ? & ?)]; [by left|]. right. split; [by right|done]. }
      split; [done|]. intros x [<-|Hx] HxC; [|by apply H5]. apply H1.
      destruct (decide (b ∈ T)); [done|]. exfalso. by apply Hb.
  Qed.

  Lemma bwd_edge_eq (e : @hedge V) (T A : gset V) : bwd_edge C e (T, A) =
    if decide (hhead e ∈ T) then
    fold_left (fun s b => if decide (b ∉ fst s /\ b ∈ C) then ({[b]} ∪ fst s, {[b]} ∪ snd s) else s) (hbody e) (T, A)
    else (T, A).
  Proof. done. Qed.

  Lemma bwd_fold es (T A T' A' : gset V) :
    fold_left (fun s e => bwd_edge C e s) es (T, A) = (T', A') ->
    (forall e, In e es -> In e E /\ hhead e ∈ T) -> (forall x, x ∈ T -> up x) ->
    T ⊆ T' /\ A ⊆ A' /\ (forall x, x ∈ T' -> x ∈ T \/ (x ∈ C /\ x ∈ A')) /\
    (forall x, x ∈ A' -> x ∈ A \/ x ∈ T' /\ x ∉ T) /\
    (forall x, x ∈ T' -> up x) /\
    (forall e b, In e es -> In b (hbody e) -> b ∈ C -> b ∈ T').
  Proof.
    revert T A. induction es as [|e es IH]; intros T A; cbn [fold_left].
    { intros [= <- <-] _ Hu. split; [done|]. split; [done|]. split; [by left|]. split; [by left|]. done. }
    intros Hf Hes Hu. rewrite bwd_edge_eq in Hf.
    destruct (Hes e) as [He Hhe]; [by left|]. rewrite decide_True in Hf by done.
    destruct (fold_left (fun s b => if decide (b ∉ fst s /\ b ∈ C) then ({[b]} ∪ fst s, {[b]} ∪ snd s) else s) (hbody e) (T, A)) as [T1 A1] eqn:E1.
    destruct (bwd_body _ _ _ _ _ E1) as (B1 & B2 & B3 & B4 & B5).
    destruct (IH T1 A1 Hf) as (H1 & H2 & H3 & H4 & H5 & H6).
    { intros e' He'. destruct (Hes e') as [? ?]; [by right|]. split; [done|by apply B1]. }
    { intros x Hx. destruct (B3 x Hx) as [?|(Hxb & HxC & _)]; [by apply Hu|].
      apply (up_edge x (hhead e)); [by apply Hu| |done]. exists (hbody e). split; [by destruct e|done]. }
    split; [clear - B1 H1; set_solver|]. split; [clear - B2 H2; set_solver|]. split.
    { intros x Hx. destruct (H3 x Hx) as [Hx'|?]; [|by right]. destruct (B3 x Hx') as [?|(? & ? & ? & ?)]; [by left|].
      right. split; [done|]. by apply H2. }
    split.
    { intros x Hx. destruct (H4 x Hx) as [Hx'|[? ?]]; [|right; set_solver].
      destruct (B4 x Hx') as [?|[? ?]]; [by left|right]. set_solver. }
    split; [done|]. intros e' b [<-|He'] Hb HbC; [apply H1; by apply B5|by eapply H6].
  Qed.

  Definition BI (T A : gset V) : Prop :=
    A ⊆ T /\ (forall x, x ∈ T -> up x) /\ (forall x, x ∈ T -> x ∉ A -> step_ok T x).

  Lemma bwd_loop_spec n k T A :
    BI T A -> size A + size (C ∖ T) < n ->
    exists T', bwd_loop pick E C n k T A = Ok T' /\ T ⊆ T' /\ BI T' ∅.
  Proof.
    revert k T A. induction n as [|n IH]; intros k T A HI Hn; [lia|]. simpl.
    destruct (decide (A = ∅)) as [->|Hne]; [by exists T|].
    pose proof (Hpick k A Hne) as Hx. set (x := pick k A) in *.
    destruct (fold_left _ (incoming E x) (T, A ∖ {[x]})) as [T' A'] eqn:Ef.
    destruct HI as (HA & HU & HE).
    destruct (bwd_fold _ _ _ _ _ Ef) as (H1 & H2 & H3 & H4 & H5 & H6).
    { intros e He. apply in_incoming in He as [? ->]. set_solver. } { done. }
    destruct (IH (S k) T' A') as (T2 & E2 & S2 & I2).
    - split; [|split; [done|]].
      + intros y Hy. destruct (H4 y Hy) as [?|[? ?]]; set_solver.
      + intros y Hy HyA e He Hh b Hb HbC. destruct (decide (y = x)) as [->|Hyx].
        * eapply H6; [apply in_incoming; split; [exact He|exact Hh]|done|done].
        * apply H1. destruct (H3 y Hy) as [HyT|[_ ?]]; [|done]. apply (HE y HyT) with e; [|done..].
          intros HyA'. apply HyA, H2. set_solver.
    - assert (HAd : A' ⊆ (A ∖ {[x]}) ∪ (T' ∖ T)).
      { intros y Hy. destruct (H4 y Hy) as [?|[? ?]]; set_solver. }
      pose proof (subseteq_size _ _ HAd) as Hs1.
      rewrite size_union in Hs1 by set_solver.
      assert (Hs2 : size (A ∖ {[x]}) + 1 = size A).
      { assert (Hs0 : size ({[x]} : gset V) <= size A) by (apply subseteq_size; set_solver).
        rewrite size_difference by set_solver. rewrite size_singleton in *. lia. }
      assert (Hs3 : size (C ∖ T') + size (T' ∖ T) <= size (C ∖ T)).
      { rewrite <- size_union by set_solver. apply subseteq_size. intros y. rewrite elem_of_union, !elem_of_difference.
        intros [[? ?]|[Hy ?]]; [set_solver|]. destruct (H3 y Hy) as [?|[? _]]; [done|]. set_solver. }
      lia.
    - exists T2. split; [done|]. split; [set_solver|done].
  Qed.

  Lemma BI_final T : BI T ∅ -> (forall x, outs x -> x ∈ T) -> forall x, x ∈ T <-> up x.
  Proof.
    intros (_ & HU & HE) Ho x. split; [apply HU|].
    induction 1 as [x Hx|x y Hy IH (b & Hb & Hxb) HxC]; [by apply Ho|].
    apply (HE y IH) with (y, b); [set_solver|done..].
  Qed.
End hyper.
