(** The slash and left-corner transformations keep derivations. *)
From Coq Require Import List.
From stdpp Require Import gmap.
From Coq Require Import Lia.
From Coq Require String Ascii.
From Verif Require Import PyBase Semiring TermModel TermSpec TermProofs ChartProofs SetsModel SetsSpec SetsProofs FuelProofs UnifyProofs SolverProofs CoverProofs
  PruneModel NamesModel UpdateModel UpdateSpec UpdateProofs TransSpec TransProofs TransModel UnfoldProofs LinearProofs SlashSpec SlashModel SlashProofs CoarseProofs SlashRules.
Import String.StringSyntax Ascii.AsciiSyntax.
Import ListNotations.
Local Open Scope string_scope.
Local Open Scope list_scope.

Lemma nodup_flat {A} (tag : A -> nat) (f : nat -> list A) a n : (forall i K, K ∈ f i -> tag K = i) -> (forall i, NoDup (f i)) -> NoDup (flat_map f (seq a n)).
Proof.
  intros Ht Hn. revert a. induction n as [|n IH]; intros a; cbn; [constructor|]. apply NoDup_app. split; [done|]. split; [|apply IH].
  intros K HK HK'. apply Ht in HK. apply elem_of_list_In, in_flat_map in HK' as (i & Hi & HK'). apply elem_of_list_In, Ht in HK'.
  apply in_seq in Hi. lia.
Qed.
Lemma elem_flat {A} (f : nat -> list A) a n K : K ∈ flat_map f (seq a n) <-> exists i, a <= i < a + n /\ K ∈ f i.
Proof.
  rewrite elem_of_list_In, in_flat_map. split; intros (i & H1 & H2); exists i; rewrite elem_of_list_In, in_seq in *; done.
Qed.
Lemma local_loop_new fuel sy prefix f c g : local_loop fuel sy prefix f c = Ok g -> g ∉ sy.
Proof.
  revert f c. induction fuel as [|fuel IH]; intros f c E; [discriminate|]. cbn [local_loop] in E. destruct (decide (f ∈ sy)); [by eapply IH|]. by injection E as <-.
Qed.
Lemma wderives_base {R : semiring} (only : Prop) rs (base base2 : term -> Prop) (t : wderiv R) :
  (forall x, base x -> base2 x) -> wderives only rs base t -> wderives only rs base2 t.
Proof.
  intros Hb. induction t as [v|y|i y ts IH] using wderiv_ind'; intros Ht; inversion Ht; subst; [constructor|constructor; by apply Hb|].
  econstructor; [done|done|done|]. rewrite Forall_forall in *. auto.
Qed.

Section index.
  Context {A : Type} `{EqDecision A} (Ks : list A) (d : A).
  Definition ixl (K : A) : nat := default 0 (fst <$> list_find (eq K) Ks).
  Definition kindl (k : nat) : A := default d (Ks !! k).
  Lemma ixl_elem K : K ∈ Ks -> Ks !! ixl K = Some K.
  Proof.
    intros H. unfold ixl. destruct (list_find_elem_of (eq K) Ks K H eq_refl) as [[i K'] E]. rewrite E. cbn.
    apply list_find_Some in E as (H1 & <- & _). done.
  Qed.
  Lemma ixl_lookup k K : NoDup Ks -> Ks !! k = Some K -> ixl K = k.
  Proof.
    intros Hn Hk. pose proof (ixl_elem K (elem_of_list_lookup_2 _ _ _ Hk)) as H. by eapply NoDup_lookup.
  Qed.
End index.

Section useful.
  Context {R : semiring} (al cv : nat -> nat) (positions : nat -> option nat) (rs : list (wrule R)).
  Context (Hpos : forall i r j, rs !! i = Some r -> positions i = Some j -> exists b, wbody r !! j = Some (Goal b) /\ item b).
  Lemma find_useful_run n rest i st us st' : rest = drop i rs -> find_useful al cv positions n rest i st = Ok (us, st') ->
    st' = st /\ forall u, u ∈ us <-> exists k r j, i <= k /\ rs !! k = Some r /\ positions k = Some j /\ wbody r !! j = Some (Goal u).
  Proof.
    revert i us st'. induction rest as [|r rest IH]; intros i us st' Hd E; cbn [find_useful] in E.
    { injection E as <- <-. split; [done|]. intros u. split; [by intros ?%elem_of_nil|]. intros (k & r & j & Hk & Hr & _).
      apply lookup_lt_Some in Hr. apply (f_equal length) in Hd. rewrite drop_length in Hd. cbn in Hd. lia. }
    assert (Hr : rs !! i = Some r) by (rewrite <- (Nat.add_0_r i), <- lookup_drop, <- Hd; done).
    assert (Hd' : rest = drop (S i) rs).
    { pose proof (f_equal (drop 1) Hd) as H. rewrite drop_drop in H. cbn [drop] in H. rewrite drop_0 in H. rewrite H. f_equal. lia. }
    destruct (positions i) as [j|] eqn:Hj.
    - destruct (Hpos i r j Hr Hj) as (b & Hb & Hi). rewrite Hb, (item_not_const b Hi) in E.
      destruct (find_useful al cv positions n rest (S i) st) as [[us1 st1]| |] eqn:E1; [|discriminate..]. cbn [bind] in E. injection E as <- <-.
      destruct (IH _ _ _ Hd' E1) as [-> H]. split; [done|]. intros u. rewrite elem_of_cons, H. split.
      + intros [->|(k & r' & j' & Hk & Hrest)]; [by exists i, r, j|]. exists k, r', j'. split; [lia|done].
      + intros (k & r' & j' & Hk & Hr' & Hj' & Hb'). destruct (decide (k = i)) as [->|Hne]; [left; congruence|].
        right. exists k, r', j'. split; [lia|done].
    - destruct (IH _ _ _ Hd' E) as [-> H]. split; [done|]. intros u. rewrite H. split.
      + intros (k & r' & j' & Hk & Hrest). exists k, r', j'. split; [lia|done].
      + intros (k & r' & j' & Hk & Hr' & Hj' & Hb'). destruct (decide (k = i)) as [->|Hne]; [congruence|]. exists k, r', j'. split; [lia|done].
  Qed.
End useful.

Section final.
  Context {R : semiring} (Hcomm : forall a b : R, smul a b = smul b a).
  Context (al cv : nat -> nat) (Hal : forall i j, al i = al j -> i = j) (Hcv : forall i j, cv i = cv j -> i = j) (Halcv : forall i j, al i <> cv j).
  Context (inputs : list term) (positions : nat -> option nat) (lc : bool) (rs : list (wrule R)) (c0 : nat).
  Context (Hproper : Forall proper (node_terms inputs rs)) (Hitems : Forall item (node_terms inputs rs)).
  Context (Hgoals : forall r b, r ∈ rs -> Goal b ∈ wbody r -> (exists k, b = Cst k) \/ item_head b).
  Context (Hfresh : forall r v k, r ∈ rs -> v ∈ wvars r -> c0 <= k -> v <> al k).
  Context (Hsep : forall k k' r r' v, rs !! k = Some r -> rs !! k' = Some r' -> k <> k' -> v ∈ wvars r -> v ∉ wvars r').
  Context (Hinp : forall y v, y ∈ inputs -> In v (vars y) -> (forall r, r ∈ rs -> v ∉ wvars r) /\ (forall k, c0 <= k -> v <> al k) /\ (forall k, v <> cv k)).
  Context (Hpos : forall i r j, rs !! i = Some r -> positions i = Some j -> exists b, wbody r !! j = Some (Goal b) /\ item b).
  Context (Hsig : forall y r, y ∈ inputs -> r ∈ rs -> sig y <> sig (whead r)).
  Context (Hself : forall i r j b, rs !! i = Some r -> positions i = Some j -> wbody r !! j = Some (Goal b) -> meet (whead r) b -> exists σ, sub σ (whead r) = sub σ b).
  Context (base : term -> Prop) (Hbase : forall y, base y -> ground y /\ (is_const y = true \/ is_builtin y = true \/ exists u, u ∈ inputs /\ gr_inst u y)).
  Context (n : nat) (slash_fn0 other_fn0 : String.string) (x0 : term) (rs' : list (wrule R)) (slash_fn other_fn : String.string) (c' : nat).
  Context (Hnm1 : slash_fn <> "$not_matches") (Hnm2 : "$not_matches" ∉ wsyms rs).
  Notation oldn := (old (CStr slash_fn) (CStr other_fn) (CStr "$not_matches")).
  Context (Hbold : forall y, base y -> oldn y) (Hiold : forall u, u ∈ inputs -> oldn u).
  Context (E : slash al cv inputs positions lc n slash_fn0 other_fn0 x0 rs c0 = Ok (rs', slash_fn, other_fn, c')).

  Lemma old_wsyms t : slash_fn ∉ wsyms rs -> other_fn ∉ wsyms rs -> item_head t -> (forall f, f ∈ fn_name t -> f ∈ wsyms rs) -> oldn t.
  Proof.
    intros H1 H2 (g & l & ->) Hw f args [= -> ->]. repeat split; intros ->; cbn [fn_name] in Hw.
    - by apply H1, Hw, elem_of_list_singleton.
    - by apply H2, Hw, elem_of_list_singleton.
    - by apply Hnm2, Hw, elem_of_list_singleton.
  Qed.
  Lemma head_wsyms r f : r ∈ rs -> f ∈ fn_name (whead r) -> f ∈ wsyms rs.
  Proof.
    intros Hr Hf. apply elem_of_list_In, in_flat_map. exists r. split; [by apply elem_of_list_In|]. apply in_or_app. left. by apply elem_of_list_In.
  Qed.
  Lemma goal_wsyms r b f : r ∈ rs -> Goal b ∈ wbody r -> f ∈ fn_name b -> f ∈ wsyms rs.
  Proof.
    intros Hr Hb Hf. apply elem_of_list_In, in_flat_map. exists r. split; [by apply elem_of_list_In|]. apply in_or_app. right.
    apply in_flat_map. exists b. split; [by apply elem_of_list_In, elem_of_goals|by apply elem_of_list_In].
  Qed.
  Lemma old_sig t t' : item_head t -> sig t = sig t' -> oldn t -> oldn t'.
  Proof.
    intros (g & l & ->) Hs Ho f args ->. cbn in Hs. injection Hs as -> _. by apply (Ho f l).
  Qed.

  Lemma take_len' (r : wrule R) j b (f : factor R -> factor R) : wbody r !! j = Some (Goal b) -> length (map f (take j (wbody r))) = j.
  Proof using. intros H. rewrite map_length, take_length. apply lookup_lt_Some in H. lia. Qed.

  Lemma Xb_false' x z : Xb x z = false <-> ~ gr_inst x z.
  Proof using. rewrite <- Xb_spec. destruct (Xb x z); split; congruence. Qed.

  Theorem slash_meaning : same_meaning_if (W (CStr "$not_matches") (Cst (CStr "lam"))) (wderives False rs base)
    (fun t => wderives False rs' (fun y => base y \/ exists z, y = not_matches z /\ ground z /\ ~ gr_inst x0 z) t /\ forall y, wroot t = Goal y -> oldn y).
  Proof.
    pose proof E as E0. unfold slash in E0.
    destruct (local_gen_functor n (wsyms rs) slash_fn0) as [sf| |] eqn:Esf; [|discriminate..]. cbn [bind] in E0.
    destruct (local_gen_functor n (wsyms rs) other_fn0) as [of_| |] eqn:Eof; [|discriminate..]. cbn [bind] in E0.
    destruct (fresh al n ∅ c0 x0) as [[x c1]| |] eqn:Ex; [|discriminate..]. cbn [bind] in E0.
    destruct (coarse_nodes al cv inputs n rs c1) as [[nodes c2]| |] eqn:En; [|discriminate..]. cbn [bind] in E0.
    destruct (find_useful al cv positions n rs 0 (nodes, c2)) as [[us st']| |] eqn:Eu; [|discriminate..]. cbn [bind] in E0.
    destruct (find_useful_run al cv positions rs Hpos n rs 0 _ _ _ ltac:(by rewrite drop_0) Eu) as [-> Hus0]. 
    match type of E0 with (let* _ := ?X in _) = _ => destruct X as [[tb c4]| |] eqn:Eb; [|discriminate..] end. cbn [bind] in E0.
    match type of E0 with (let* _ := ?X in _) = _ => destruct X as [[L1 c5]| |] eqn:E1; [|discriminate..] end. cbn [bind] in E0.
    match type of E0 with (let* _ := ?X in _) = _ => destruct X as [[L2 c6]| |] eqn:E2; [|discriminate..] end. cbn [bind] in E0.
    injection E0 as Ers -> -> ->. apply local_loop_new in Esf, Eof. clear E.
    apply (fresh_run al Hal) in Ex as (Hvx & Hc1 & Hx).
    assert (Hih : Forall item_head (node_terms inputs rs)) by (eapply Forall_impl; [exact Hitems|by intros t [? _]]).
    destruct (coarse_nodes_run al cv Hal Hcv Halcv inputs rs n c1 nodes c2 En Hproper Hih) as (Hc2 & Hncv & Hnih & Hnsig & Hncov).
    assert (Hnit : Forall item nodes).
    { apply Forall_forall. intros y Hy. destruct (Hnsig y Hy) as (t & Ht & Hts). rewrite Forall_forall in Hitems, Hnih. eapply item_sig; [exact Hts|by apply Hitems|by apply Hnih]. }
    set (useful := x :: us) in *.
    assert (Hus : forall u, u ∈ useful <-> u = x \/ exists i r j, rs !! i = Some r /\ positions i = Some j /\ wbody r !! j = Some (Goal u)).
    { intros u. unfold useful. rewrite elem_of_cons, Hus0. split; (intros [?|H]; [by left|right]).
      - destruct H as (k & r & j & _ & H). eauto.
      - destruct H as (k & r & j & H). exists k, r, j. split; [lia|done]. }
    assert (Hxgr : forall z, gr_inst x z <-> gr_inst x0 z) by (intros z; symmetry; by apply gr_variant).
    (* the choices *)
    assert (Bup : exists up : nat -> bool, forall i r, rs !! i = Some r -> up i = true <-> ug useful (whead r)).
    { destruct (fin_choice (fun i => exists r, rs !! i = Some r /\ ug useful (whead r)) (length rs)) as [f Hf].
      - intros k Hk. apply lookup_lt_is_Some in Hk as [r Hr]. destruct (exists_em (fun u => exists σ, sub σ (whead r) = sub σ u) useful) as [H|H].
        + intros u _. apply unify_em.
        + left. by exists r.
        + right. intros (r' & Hr' & H'). rewrite Hr in Hr'. injection Hr' as <-. done.
      - exists f. intros i r Hr. rewrite Hf by (by eapply lookup_lt_Some). split; [|eauto]. intros (r' & Hr' & H'). congruence. }
    destruct Bup as [up Bup].
    assert (Hat : forall P : term -> Prop, (forall b, P b \/ ~ P b) -> exists f : nat -> bool,
       forall i r j b, rs !! i = Some r -> positions i = Some j -> wbody r !! j = Some (Goal b) -> f i = true <-> P b).
    { intros P HP. destruct (fin_choice (fun i => exists r j b, rs !! i = Some r /\ positions i = Some j /\ wbody r !! j = Some (Goal b) /\ P b) (length rs)) as [f Hf].
      - intros k Hk. apply lookup_lt_is_Some in Hk as [r Hr]. destruct (positions k) as [j|] eqn:Hj; [|right; by intros (? & ? & ? & _ & ? & _)].
        destruct (wbody r !! j) as [[v|b]|] eqn:Hb; [right; intros (? & ? & ? & ? & ? & ? & _); congruence| |right; intros (? & ? & ? & ? & ? & ? & _); congruence].
        destruct (HP b) as [H|H]; [left; by exists r, j, b|]. right. intros (r' & j' & b' & Hr' & Hj' & Hb' & H').
        rewrite Hr in Hr'. injection Hr' as <-. injection Hj' as <-. rewrite Hb in Hb'. injection Hb' as <-. done.
      - exists f. intros i r j b Hr Hj Hb. rewrite Hf by (by eapply lookup_lt_Some). split; [|intros ?; by exists r, j, b].
        intros (r' & j' & b' & Hr' & Hj' & Hb' & H'). rewrite Hr in Hr'. injection Hr' as <-. rewrite Hj in Hj'. injection Hj' as <-. rewrite Hb in Hb'. injection Hb' as <-. done. }
    destruct (Hat (fun b => exists y, y ∈ inputs /\ meet y b)) as [ex Bex].
    { intros b. apply exists_em. intros y _. apply meet_em. }
    destruct (Hat (fun b => meet x b)) as [mx Bmx]; [intros b; apply meet_em|].
    assert (Hnode : forall P : nat -> term -> Prop, (forall p y, P p y \/ ~ P p y) -> exists f : nat -> bool, forall p y, nodes !! p = Some y -> f p = true <-> P p y).
    { intros P HP. destruct (fin_choice (fun p => exists y, nodes !! p = Some y /\ P p y) (length nodes)) as [f Hf].
      - intros k Hk. apply lookup_lt_is_Some in Hk as [y Hy]. destruct (HP k y) as [H|H]; [left; eauto|right]. intros (y' & Hy' & H'). congruence.
      - exists f. intros p y Hy. rewrite Hf by (by eapply lookup_lt_Some). split; [|eauto]. intros (y' & Hy' & H'). congruence. }
    destruct (Hnode (fun _ y => ~ exists u, u ∈ inputs /\ meet u y)) as [endo Bendo].
    { intros _ y. destruct (exists_em (fun u => meet u y) inputs) as [H|H]; [intros u _; apply meet_em| |by left]. right. tauto. }
    destruct (Hnode (fun p y => endo p = true /\ (forall v, x <> Var v) /\ exists u, u ∈ useful /\ meet y u)) as [ro Bro].
    { intros p y. destruct (endo p); [|right; by intros [? _]].
      assert (Hv : (forall v, x <> Var v) \/ ~ forall v, x <> Var v) by (destruct x as [v| |]; [right; intros H; by apply (H v)|by left..]).
      destruct Hv as [Hv|Hv]; [|right; tauto]. destruct (exists_em (fun u => meet y u) useful) as [H|H]; [intros u _; apply meet_em|by left|right; tauto]. }
    destruct (Hnode (fun _ y => meet x y)) as [con Bcon]; [intros _ y; apply meet_em|].
    destruct (Hnode (fun _ y => exists u, u ∈ inputs /\ meet3 x y u)) as [zex Bzex].
    { intros _ y. apply exists_em. intros u _. apply meet3_em. }
    clear Hat Hnode.
    (* the rules *)
    set (kin := kinst lc rs (Xb x) (CStr slash_fn) (CStr other_fn) (CStr "$not_matches") (Cst (CStr "lam")) positions up ex (N nodes) endo ro con zex).
    set (GG := G positions lc rs x nodes slash_fn other_fn up ex endo ro con zex).
    set (Ks := KB :: flat_map (rk positions mx) (seq 0 (length rs)) ++ flat_map (nk nodes endo ro con) (seq 0 (length nodes))).
    assert (Htmp : forall r, r ∈ rs -> al c2 ∉ wvars r) by (intros r Hr Hv; apply (Hfresh r (al c2) c2 Hr Hv); [lia|done]).
    assert (HF : Forall2 GG Ks rs').
    { rewrite <- Ers. constructor; [|apply Forall2_app].
      - pose proof (KB_ok positions lc rs x nodes slash_fn other_fn up ex endo ro con zex (al c2)) as HK.
        destruct lc; apply (fresh_inst0 al Hal) in Eb as [_ HI]; intros y fs; rewrite HI; apply HK.
      - refine (proj2 (rule_loop_run al cv Hal inputs positions lc rs c0 Hitems Hfresh Hinp Hpos Hsig x c1 Hx Hc1 nodes c2 Hc2 useful Hus slash_fn other_fn
          up ex mx endo ro con zex Bup Bex Bmx n (al c2) rs 0 _ _ _ Htmp _ E1)). by rewrite drop_0.
      - refine (proj2 (node_loop_run al cv Hal inputs positions lc rs c0 Hfresh Hinp x c1 Hx Hc1 nodes c2 Hc2 Hncv Hnit useful Hus slash_fn other_fn
          up ex mx endo ro con zex Bmx Bendo Bro Bcon Bzex n nodes 0 _ _ _ _ _ E2)); [|by rewrite drop_0].
        assert (Hc5 : c2 <= c4) by (destruct lc; apply (fresh_inst0 al Hal) in Eb as [? _]; lia).
        pose proof (proj1 (rule_loop_run al cv Hal inputs positions lc rs c0 Hitems Hfresh Hinp Hpos Hsig x c1 Hx Hc1 nodes c2 Hc2 useful Hus slash_fn other_fn
          up ex mx endo ro con zex Bup Bex Bmx n (al c2) rs 0 _ _ _ Htmp ltac:(by rewrite drop_0) E1)). lia. }
    assert (Hcovers : forall k r j b, rs !! k = Some r -> positions k = Some j -> wbody r !! j = Some (Goal b) -> mx k = true -> instance_of x b).
    { intros k r j b Hr Hj Hb Hm. exact (rule_loop_covers al inputs positions lc rs c0 Hfresh x c1 Hx Hc1 c2 Hc2 useful slash_fn other_fn mx Bmx n (Var (al c2)) rs 0 _ _ _ ltac:(by rewrite drop_0) E1 k r j b ltac:(lia) Hr Hj Hb Hm). }
    assert (HND : NoDup Ks).
    { unfold Ks. constructor.
      - intros [H|H]%elem_of_app; apply elem_flat in H as (i & _ & H).
        + unfold rk in H. destruct (positions i); [|by apply elem_of_list_singleton in H]. apply elem_of_cons in H as [H|H]; [done|].
          destruct (mx i); [by apply elem_of_nil in H|by apply elem_of_list_singleton in H].
        + unfold nk in H. destruct (endo i); [|by apply elem_of_nil in H]. apply elem_of_app in H as [H|H].
          * destruct (ro i); [by apply elem_of_list_singleton in H|by apply elem_of_nil in H].
          * apply elem_flat in H as (q & _ & H). unfold qk in H. destruct (con q); [by apply elem_of_list_singleton in H|by apply elem_of_nil in H].
      - apply NoDup_app. split; [|split].
        + apply (nodup_flat (fun K => match K with KO i | KOO i | KSS i => i | _ => 0 end)).
          * intros i K H. unfold rk in H. destruct (positions i); [|by apply elem_of_list_singleton in H as ->]. apply elem_of_cons in H as [->|H]; [done|].
            destruct (mx i); [by apply elem_of_nil in H|by apply elem_of_list_singleton in H as ->].
          * intros i. unfold rk. destruct (positions i); [|apply NoDup_singleton]. constructor; [|destruct (mx i); [constructor|apply NoDup_singleton]].
            destruct (mx i); [by intros ?%elem_of_nil|by intros ?%elem_of_list_singleton].
        + intros K H H'. apply elem_flat in H as (i & _ & H). apply elem_flat in H' as (p & _ & H').
          assert (HK : exists i, K = KO i \/ K = KOO i \/ K = KSS i).
          { exists i. unfold rk in H. destruct (positions i); [|apply elem_of_list_singleton in H; tauto]. apply elem_of_cons in H as [H|H]; [tauto|].
            destruct (mx i); [by apply elem_of_nil in H|apply elem_of_list_singleton in H; tauto]. }
          unfold nk in H'. destruct (endo p); [|by apply elem_of_nil in H']. apply elem_of_app in H' as [H'|H'].
          * destruct (ro p); [apply elem_of_list_singleton in H'|by apply elem_of_nil in H']. destruct HK as (? & [?|[?|?]]); congruence.
          * apply elem_flat in H' as (q & _ & H'). unfold qk in H'. destruct (con q); [apply elem_of_list_singleton in H'|by apply elem_of_nil in H']. destruct HK as (? & [?|[?|?]]); congruence.
        + apply (nodup_flat (fun K => match K with KRO p | KRSO p _ => p | _ => 0 end)).
          * intros p K H. unfold nk in H. destruct (endo p); [|by apply elem_of_nil in H]. apply elem_of_app in H as [H|H].
            -- destruct (ro p); [by apply elem_of_list_singleton in H as ->|by apply elem_of_nil in H].
            -- apply elem_flat in H as (q & _ & H). unfold qk in H. destruct (con q); [by apply elem_of_list_singleton in H as ->|by apply elem_of_nil in H].
          * intros p. unfold nk. destruct (endo p); [|constructor]. apply NoDup_app. split; [destruct (ro p); [apply NoDup_singleton|constructor]|]. split.
            -- intros K H H'. destruct (ro p); [apply elem_of_list_singleton in H as ->|by apply elem_of_nil in H].
               apply elem_flat in H' as (q & _ & H'). unfold qk in H'. destruct (con q); [by apply elem_of_list_singleton in H'|by apply elem_of_nil in H'].
            -- apply (nodup_flat (fun K => match K with KRSO _ q => q | _ => 0 end)).
               ++ intros q K H. unfold qk in H. destruct (con q); [by apply elem_of_list_singleton in H as ->|by apply elem_of_nil in H].
               ++ intros q. unfold qk. destruct (con q); [apply NoDup_singleton|constructor]. }
    assert (HC : forall K y fs, kin K y fs -> K ∈ Ks).
    { intros K y fs HK. unfold Ks. apply elem_of_cons. rewrite elem_of_app, !elem_flat. destruct K as [i|i|i| |p|p q]; cbn [kin kinst] in HK.
      - destruct HK as (r & y' & Hr & Hj & _). right; left. exists i. split; [apply lookup_lt_Some in Hr; lia|]. unfold rk. rewrite Hj. by apply elem_of_list_singleton.
      - destruct HK as (r & y' & A & b & Q & Hr & Hj & Hin & HX & _). right; left. exists i. split; [apply lookup_lt_Some in Hr; lia|]. unfold rk. rewrite Hj.
        apply elem_of_cons. right. destruct (mx i) eqn:Em; [|by apply elem_of_list_singleton]. exfalso.
        destruct (Hpos i r _ Hr Hj) as (b0 & Hb0 & _). pose proof (Hcovers i r _ b0 Hr Hj Hb0 Em) as Hcov.
        apply (inst_split rs i r (length A) b0 y' _ Hr Hb0) in Hin as (σ & H1 & _ & H3). apply split_unique in H3 as (_ & [= ->] & _); [|by erewrite take_len' by exact Hb0].
        apply Xb_false' in HX. apply HX. eapply gr_instance; [exact Hcov|]. by apply gr_sub.
      - destruct HK as (r & y' & A & b & Q & Hr & Hj & _). right; left. exists i. split; [apply lookup_lt_Some in Hr; lia|]. unfold rk. rewrite Hj. left.
      - by left.
      - destruct HK as (Hro & (y0 & Hy & _) & _). right; right. exists p. split; [apply lookup_lt_Some in Hy; lia|]. unfold nk.
        pose proof (proj1 (Bro p y0 Hy) Hro) as (He & _). rewrite He, Hro. apply elem_of_app. left. by apply elem_of_list_singleton.
      - destruct HK as (He & (y0 & Hy & _) & z & (z1 & Hz1 & Hz) & HX & _). right; right. exists p. split; [apply lookup_lt_Some in Hy; lia|]. unfold nk. rewrite He.
        apply elem_of_app. right. apply elem_flat. exists q. split; [apply lookup_lt_Some in Hz1; lia|]. unfold qk.
        replace (con q) with true; [by apply elem_of_list_singleton|]. symmetry. apply (Bcon q z1 Hz1). exists z. split; [by apply Xb_spec|done]. }
    set (ix := ixl Ks). set (kind := kindl Ks KB).
    assert (HI : forall K y fs, kin K y fs -> exists t, rs' !! ix K = Some t /\ inst t y fs /\ kind (ix K) = K).
    { intros K y fs HK. pose proof (ixl_elem Ks K (HC K y fs HK)) as Hk. destruct (Forall2_lookup_l _ _ _ _ _ HF Hk) as (t & Ht & HG).
      exists t. split; [done|]. split; [by apply HG|]. unfold kind, kindl, ix. by rewrite Hk. }
    assert (HL : forall k t y fs, rs' !! k = Some t -> inst t y fs -> kin (kind k) y fs /\ ix (kind k) = k).
    { intros k t y fs Ht Hin. destruct (Forall2_lookup_r _ _ _ _ _ HF Ht) as (K & HK & HG). unfold kind, kindl. rewrite HK. cbn.
      split; [by apply HG|]. exact (ixl_lookup Ks k K HND HK). }
    clear HF HND HC.
    assert (Hgd : forall z y, Decision (gr_inst y z)).
    { intros z y. destruct (ground_decision z) as [Hg|Hg]; [exact (gr_dec y z Hg)|right; by intros [? _]]. }
    set (nd z := default 0 (fst <$> list_find (fun y => gr_inst y z) nodes)).
    (* nodes of instances *)
    assert (Hndt : forall t z, t ∈ node_terms inputs rs -> gr_inst t z -> exists y, nodes !! nd z = Some y /\ instance_of y t /\ forall p, N nodes p z -> p = nd z).
    { intros t z Ht Hz. destruct (Hncov t Ht) as (p & y & Hp & Hi & Hu).
      assert (Huniq : forall q w, nodes !! q = Some w -> gr_inst w z -> q = p) by (intros q w Hq Hw; apply (Hu q w Hq); by exists z).
      assert (Hnd : nd z = p).
      { unfold nd. destruct (list_find_elem_of (fun y => gr_inst y z) nodes y) as [[q w] Eq].
        - by eapply elem_of_list_lookup_2.
        - by eapply gr_instance.
        - rewrite Eq. cbn. apply list_find_Some in Eq as (Hq & Hw & _). by eapply Huniq. }
      exists y. rewrite Hnd. split; [done|]. split; [done|]. intros q (w & Hq & Hw). by eapply Huniq. }
    assert (Hhd : forall i r y fs, rs !! i = Some r -> inst r y fs -> gr_inst (whead r) y).
    { intros i r y fs _ (σ & H1 & <- & _). by apply gr_sub. }
    assert (Hgl : forall i r y A b Q, rs !! i = Some r -> positions i = Some (length A) -> inst r y (A ++ Goal b :: Q) ->
      exists b0, wbody r !! length A = Some (Goal b0) /\ item b0 /\ gr_inst b0 b).
    { intros i r y A b Q Hr Hj Hin. destruct (Hpos i r _ Hr Hj) as (b0 & Hb0 & Hi). exists b0. split; [done|]. split; [done|].
      destruct (proj1 (inst_split rs i r (length A) b0 y _ Hr Hb0) Hin) as (σ & H1 & _ & H3). apply split_unique in H3 as (_ & [= ->] & _); [|by erewrite take_len' by exact Hb0].
      by apply gr_sub. }
    assert (Hitem : forall t z, item t -> gr_inst t z -> item z /\ sig z = sig t).
    { intros t z Ht Hz. assert (Es : sig z = sig t) by (apply gr_sig; [apply Ht|done]). split; [|done].
      eapply item_sig; [by symmetry|done|]. apply sig_item. rewrite Es. apply sig_item, Ht. }
    assert (Hbi : forall z, item z -> base z -> exists u, u ∈ inputs /\ gr_inst u z).
    { intros z [(f & l & ->) Hb] Hz. destruct (Hbase _ Hz) as [_ [H|[H|H]]]; [done|congruence|done]. }
    assert (Hri : forall r, r ∈ rs -> item (whead r)) by (intros r Hr; by eapply head_item).
    assert (Hii : forall u, u ∈ inputs -> item u) by (intros u Hu; by eapply input_item).
    assert (Hsm : same_meaning_if (W (CStr "$not_matches") (Cst (CStr "lam"))) (wderives False rs base)
      (fun t => wderives False rs' (base' base (Xb x) (CStr "$not_matches") (Cst (CStr "lam"))) t /\ forall y, wroot t = Goal y -> oldn y)).
    { apply (spine_meaning Hcomm lc rs rs' base (Xb x) (CStr slash_fn) (CStr other_fn) (CStr "$not_matches")) with (pos := positions) (up := up) (ex := ex)
        (N := N nodes) (nd := nd) (endo := endo) (ro := ro) (con := con) (zex := zex) (ix := ix) (kind := kind).
      - by intros [= ?].
      - done.
      - done.
      - (* old *) intros i r y fs Hr Hin. pose proof (elem_of_list_lookup_2 _ _ _ Hr) as Hr'. split.
        + destruct (Hitem _ _ (Hri r Hr') (Hhd i r y fs Hr Hin)) as [_ Es]. eapply old_sig; [apply (Hri r Hr')|by symmetry|].
          apply old_wsyms; [done|done|apply (Hri r Hr')|]. intros f. by apply head_wsyms.
        + destruct Hin as (σ & H1 & _ & <-). intros b Hb. apply elem_of_list_In, in_map_iff in Hb as ([v|b0] & [= <-] & Hb0). apply elem_of_list_In in Hb0.
          destruct (Hgoals r b0 Hr' Hb0) as [[k ->]|Hi]; [by intros f args|]. assert (Es : sig b0 = sig (sub σ b0)) by (symmetry; apply gr_sig; [done|by apply gr_sub]).
          eapply old_sig; [exact Hi|exact Es|]. apply old_wsyms; [done|done|done|]. intros f. by eapply goal_wsyms.
      - done.
      - intros i r j y fs Hr Hj Hin. destruct (Hpos i r j Hr Hj) as (b0 & Hb0 & _). destruct (proj1 (inst_split rs i r j b0 y _ Hr Hb0) Hin) as (σ & H1 & _ & ->).
        eexists _, _, _. split; [reflexivity|]. erewrite take_len'; [done|exact Hb0].
      - (* ex *) intros i r y A b Q Hr Hj Hin. destruct (Hgl i r y A b Q Hr Hj Hin) as (b0 & Hb0 & Hi0 & Hb). destruct (Hitem b0 b Hi0 Hb) as [Hib Esb].
        destruct (ex i) eqn:Ee.
        + apply (Bex i r _ b0 Hr Hj Hb0) in Ee as (u & Hu & Hm). intros (i' & r' & fs' & Hr' & Hin').
          pose proof (elem_of_list_lookup_2 _ _ _ Hr') as Hr''. apply (Hsig u r' Hu Hr'').
          rewrite (sig_meet u b0); [|apply (Hii u Hu)|apply Hi0|done]. rewrite <- Esb. apply gr_sig; [apply (Hri r' Hr'')|by eapply Hhd].
        + intros Hbb. destruct (Hbi b Hib Hbb) as (u & Hu & Hub). assert (ex i = true); [|congruence]. apply (Bex i r _ b0 Hr Hj Hb0). exists u. split; [done|]. by exists b.
      - (* nd *) intros z [(i & r & fs & Hr & Hin)|[(i & r & y & A & Q & Hr & Hj & Hin) _]].
        + pose proof (elem_of_list_lookup_2 _ _ _ Hr) as Hr'. pose proof (Hhd i r z fs Hr Hin) as Hz.
          destruct (Hndt (whead r) z (head_node inputs rs r Hr') Hz) as (w & Hw & Hi & Hu). split; [|done]. exists w. split; [done|]. by eapply gr_instance.
        + destruct (Hgl i r y A z Q Hr Hj Hin) as (b0 & Hb0 & Hi0 & Hb).
          destruct (Hndt b0 z (goal_node inputs rs i r b0 _ Hr Hb0 Hi0) Hb) as (w & Hw & Hi & Hu). split; [|done]. exists w. split; [done|]. by eapply gr_instance.
      - by intros p z (y & _ & [? _]).
      - (* old nodes *) intros p z (y & Hp & Hz). pose proof (elem_of_list_lookup_2 _ _ _ Hp) as Hy. destruct (Hnsig y Hy) as (t & Ht & Es).
        rewrite Forall_forall in Hnih, Hih. assert (Esz : sig z = sig y) by (apply gr_sig; [by apply Hnih|done]).
        eapply old_sig; [exact (Hih t Ht)|by rewrite Esz|]. unfold node_terms in Ht. apply elem_of_app in Ht as [Ht|Ht]; [by apply Hiold|].
        apply elem_of_list_In, in_flat_map in Ht as (r & Hr & Ht). apply elem_of_list_In in Hr. destruct Ht as [<-|Ht].
        + apply old_wsyms; [done|done|apply (Hri r Hr)|]. intros f. by apply head_wsyms.
        + apply filter_In in Ht as [Ht Hnb]. apply elem_of_list_In, elem_of_goals in Ht. destruct (Hgoals r t Hr Ht) as [[k ->]|Hi]; [by intros f args|].
          apply old_wsyms; [done|done|done|]. intros f. by eapply goal_wsyms.
      - (* endo *) intros y (i & r & fs & Hr & Hin). pose proof (elem_of_list_lookup_2 _ _ _ Hr) as Hr'. pose proof (Hhd i r y fs Hr Hin) as Hy.
        destruct (Hndt (whead r) y (head_node inputs rs r Hr') Hy) as (w & Hw & Hi & _). apply (Bendo _ w Hw). intros (u & Hu & Hm).
        apply (Hsig u r Hu Hr'). assert (Hwi : item_head w) by (rewrite Forall_forall in Hnih; apply Hnih; by eapply elem_of_list_lookup_2).
        rewrite (sig_meet u w); [|apply (Hii u Hu)|done|done]. by apply instance_sig.
      - intros p y He (w & Hw & Hy) Hb. assert (Hwi : item w) by (rewrite Forall_forall in Hnit; apply Hnit; by eapply elem_of_list_lookup_2).
        destruct (Hitem w y Hwi Hy) as [Hyi _]. destruct (Hbi y Hyi Hb) as (u & Hu & Huy). apply (Bendo p w Hw) in He. apply He. exists u. split; [done|]. by exists y.
      - (* zex *) intros q z (w & Hw & Hz) HX. assert (Hwi : item w) by (rewrite Forall_forall in Hnit; apply Hnit; by eapply elem_of_list_lookup_2).
        destruct (Hitem w z Hwi Hz) as [Hzi Esz]. destruct (zex q) eqn:Ez.
        + apply (Bzex q w Hw) in Ez as (u & Hu & g & _ & G2 & G3). intros (i & r & fs & Hr & Hin). pose proof (elem_of_list_lookup_2 _ _ _ Hr) as Hr'.
          apply (Hsig u r Hu Hr'). rewrite (sig_meet u w); [|apply (Hii u Hu)|apply Hwi|by exists g]. rewrite <- Esz. apply gr_sig; [apply (Hri r Hr')|by eapply Hhd].
        + intros Hb. destruct (Hbi z Hzi Hb) as (u & Hu & Huz). assert (zex q = true); [|congruence]. apply (Bzex q w Hw). exists u. split; [done|]. exists z.
          split; [by apply Xb_spec|done].
      - (* up *) intros i r y fs Hr Hin HX. pose proof (elem_of_list_lookup_2 _ _ _ Hr) as Hr'. apply (Bup i r Hr). exists x. split; [apply Hus; by left|].
        apply unify_meet; [|exists y; split; [by eapply Hhd|by apply Xb_spec]]. intros v H1 H2. destruct (Hx v H2) as (k & -> & Hk).
        apply (Hfresh r (al k) k Hr'); [by apply head_wvars|lia|done].
      - intros i r y fs k r' x' A Q Hr Hin Hr' Hj Hin' He. destruct (Hgl k r' x' A y Q Hr' Hj Hin') as (b0 & Hb0 & Hi0 & Hb).
        apply (Bup i r Hr). exists b0. split; [apply Hus; right; by exists k, r', (length A)|].
        assert (Hm : meet (whead r) b0) by (exists y; split; [by eapply Hhd|done]).
        destruct (decide (i = k)) as [->|Hne].
        + rewrite Hr in Hr'. injection Hr' as <-. by eapply Hself.
        + apply unify_meet; [|done]. intros v H1 H2. apply (Hsep i k r r' v Hr Hr' Hne); [by apply head_wvars|by eapply goal_wvars].
      - (* ro *) intros i r y fs Hr Hin Hu HX. pose proof (elem_of_list_lookup_2 _ _ _ Hr) as Hr'. pose proof (Hhd i r y fs Hr Hin) as Hy.
        destruct (Hndt (whead r) y (head_node inputs rs r Hr') Hy) as (w & Hw & Hi & _). apply (Bro _ w Hw). split; [|split].
        + apply (Bendo _ w Hw). intros (u & Hu' & Hm).
          apply (Hsig u r Hu' Hr'). assert (Hwi : item_head w) by (rewrite Forall_forall in Hnih; apply Hnih; by eapply elem_of_list_lookup_2).
          rewrite (sig_meet u w); [|apply (Hii u Hu')|done|done]. by apply instance_sig.
        + intros v ->. apply Xb_false' in HX. apply HX. apply gr_var. apply Hy.
        + apply (Bup i r Hr) in Hu as (u & Hu & σ & Hσ). exists u. split; [done|]. destruct (meet_unify σ σ (whead r) u Hσ) as (g & G1 & G2).
          exists g. split; [by eapply gr_instance|done].
      - (* con *) intros p y Hro Hc (w & Hw & Hy). apply Xb_false'. intros Hxy. assert (con p = true); [|congruence]. apply (Bcon p w Hw). by exists y. }
    destruct Hsm as (f & g & Hf & Hg). exists f, g.
    assert (Hbb : forall t, wderives False rs' (base' base (Xb x) (CStr "$not_matches") (Cst (CStr "lam"))) t <->
      wderives False rs' (fun y => base y \/ exists z, y = not_matches z /\ ground z /\ ~ gr_inst x0 z) t).
    { intros t. split; apply wderives_base; (intros y [?|(z & -> & Hz & H)]; [by left|right; exists z; split; [done|split; [done|]]]).
      - rewrite <- Hxgr. by apply Xb_false'.
      - apply Xb_false'. by rewrite Hxgr. }
    split.
    - intros t Ht. destruct (Hf t Ht) as ((H1 & H2) & H3). split; [|done]. split; [by apply Hbb|done].
    - intros t [Ht Ho]. apply Hg. split; [by apply Hbb|done].
  Qed.
End final.
