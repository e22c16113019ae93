(** The slash and left-corner transformations end. *)
From Coq Require Import List.
From stdpp Require Import gmap.
From Coq Require Import Lia.
From Coq Require String Ascii.
From Verif Require Import PyBase Semiring TermModel TermSpec TermProofs ChartProofs SetsModel SetsSpec SetsProofs SetsProps FuelProofs UnifyProofs SolverProofs CoverProofs
  PruneModel NamesModel NamesProps UpdateModel UpdateSpec UpdateProofs TransSpec TransProofs TransModel UnfoldProofs LinearProofs SlashSpec SlashModel CoarseProofs SlashRules.
Import String.StringSyntax Ascii.AsciiSyntax.
Import ListNotations.
Local Open Scope string_scope.
Local Open Scope list_scope.

(** With enough fuel the outcome is a result with [Q] or an exception with [E]. *)
Definition ends {A} (m : nat -> res A) (Q : A -> Prop) (E : exn -> Prop) : Prop :=
  exists n0 o, (forall n, n0 <= n -> m n = o) /\ match o with Ok a => Q a | Raise e => E e | OutOfFuel => False end.

Lemma ends_bind {A B} (m : nat -> res A) (k : nat -> A -> res B) (Q : A -> Prop) (Q' : B -> Prop) E :
  ends m Q E -> (forall a, Q a -> ends (fun n => k n a) Q' E) -> ends (fun n => let* x := m n in k n x) Q' E.
Proof.
  intros (n0 & o & Ho & HQ) Hk. destruct o as [a|e|]; [|exists n0, (Raise e)|done].
  - destruct (Hk a HQ) as (n1 & o & Ho' & HQ'). exists (n0 + n1), o. split; [|done]. intros n Hn. rewrite Ho by lia. cbn [bind]. apply Ho'. lia.
  - split; [|done]. intros n Hn. by rewrite Ho.
Qed.
Lemma ends_bind2 {A A' B} (m : nat -> res (A * A')) (k : nat -> A -> A' -> res B) (Q : A * A' -> Prop) (Q' : B -> Prop) E :
  ends m Q E -> (forall a b, Q (a, b) -> ends (fun n => k n a b) Q' E) -> ends (fun n => let* (x, y) := m n in k n x y) Q' E.
Proof. intros H Hk. apply (ends_bind m (fun n p => let '(x, y) := p in k n x y) Q); [done|]. intros [a b]. apply Hk. Qed.
Lemma ends_ok {A} (a : A) (Q : A -> Prop) E : Q a -> ends (fun _ => Ok a) Q E.
Proof. intros H. exists 0, (Ok a). done. Qed.
Lemma ends_raise {A} e (Q : A -> Prop) (E : exn -> Prop) : E e -> ends (fun _ => Raise e) Q E.
Proof. intros H. exists 0, (Raise e). done. Qed.
Lemma ends_settles {A} (m : nat -> res A) a (Q : A -> Prop) E : settles m a -> Q a -> ends m Q E.
Proof. intros [n0 H] HQ. exists n0, (Ok a). done. Qed.

Section halts.
  Context {R : semiring}.
  Context (al cv : nat -> nat) (Hal : forall i j, al i = al j -> i = j) (Hcv : forall i j, cv i = cv j -> i = j) (Halcv : forall i j, al i <> cv j).
  Context (inputs : list term) (positions : nat -> option nat) (lc : bool).
  Context (E : exn -> Prop).
  Implicit Types r : wrule R.

  Lemma unifies_ends st x y : acyclic st -> ends (fun n => unifies n st x y) (fun _ => True) E.
  Proof.
    intros Hac. destruct (unify_settles st x y Hac) as (st' & b & [n0 H]). exists n0, (Ok b). split; [|done].
    intros n Hn. eapply unify_unifies. by apply H.
  Qed.
  Lemma any_unifies_ends st ys x : acyclic st -> ends (fun n => any_unifies n st ys x) (fun _ => True) E.
  Proof.
    intros Hac. induction ys as [|y ys IH]; [by apply ends_ok|]. cbn [any_unifies].
    eapply ends_bind; [by apply unifies_ends|]. intros [] _; [by apply ends_ok|done].
  Qed.
  Lemma is_exogenous_ends st x : acyclic st -> ends (fun n => is_exogenous inputs n st x) (fun _ => True) E.
  Proof.
    intros Hac. destruct (acyclic_resolution st Hac) as [θ Hθ]. unfold is_exogenous. destruct (snap_settles st θ Hac Hθ x) as (x' & Hs & _).
    eapply (ends_bind _ _ (fun _ => True)); [by eapply ends_settles|]. intros y _. destruct (is_const y || is_builtin y); [by apply ends_ok|by apply any_unifies_ends].
  Qed.
  Lemma is_useful_ends useful st z : acyclic st -> ends (fun n => is_useful useful n st z) (fun _ => True) E.
  Proof.
    intros Hac. unfold is_useful. induction useful as [|y ys IH]; [by apply ends_ok|]. cbn [is_useful_in].
    eapply ends_bind; [by apply unifies_ends|]. intros [] _; [by apply ends_ok|done].
  Qed.
  Lemma mk_other_ends other_fn useful st z : acyclic st -> ends (fun n => mk_other inputs other_fn useful n st z) (fun _ => True) E.
  Proof.
    intros Hac. unfold mk_other. eapply ends_bind; [by apply is_exogenous_ends|]. intros [] _; [by apply ends_ok|].
    eapply ends_bind; [by apply is_useful_ends|]. intros u _. by apply ends_ok.
  Qed.
  Lemma fresh_rule_ends st c r : acyclic st -> ends (fun n => fresh_rule al n st c r) (fun _ => True) E.
  Proof.
    intros Hac. destruct (acyclic_resolution st Hac) as [θ Hθ]. destruct (fresh_rule_settles al Hal st θ Hac Hθ c r) as (r' & c' & H). by eapply ends_settles.
  Qed.
  Lemma fresh_ends c x : ends (fun n => fresh al n ∅ c x) (fun p => variant x (fst p) /\ c <= snd p /\ from al c (snd p) (fst p)) E.
  Proof. destruct (fresh_settles al Hal c x) as (y & c' & H & H'). by eapply ends_settles. Qed.

  Context (HK : E KeyError).
  Lemma all_roots_ends nodes ts : ends (fun n => all_roots al n nodes ts) (fun _ => True) E.
  Proof.
    destruct nodes as [xs c]. induction ts as [|t ts IH]; [by apply ends_ok|]. cbn [all_roots]. eapply (ends_bind _ _ (fun _ => True)); [|done].
    unfold de_find. eapply ends_bind2; [apply fresh_ends|]. intros t' c' _. destruct (de_find_all_spec t' 0 xs) as (is & Hs & _).
    eapply (ends_bind _ _ (fun _ => True)); [by eapply ends_settles|]. intros js _. destruct js as [|k [|? ?]]; [by apply ends_raise|by apply ends_ok|by apply ends_raise].
  Qed.
  Lemma coarse_nodes_ends rs c : Forall proper (node_terms inputs rs) -> ends (fun n => coarse_nodes (R := R) al cv inputs n rs c) (fun _ => True) E.
  Proof.
    intros Hp. unfold coarse_nodes. destruct (de_adds_spec al cv Hal Hcv Halcv ([], c) (node_terms inputs rs) [] Hp) as ([xs c'] & Hs & _).
    { split; [constructor|]. split; [constructor|]. by intros a []. }
    eapply (ends_bind _ _ (fun _ => True)); [by eapply ends_settles|]. intros nodes _.
    eapply ends_bind; [apply all_roots_ends|]. intros _ _. by apply ends_ok.
  Qed.

  Lemma find_useful_ends (rs rest : list (wrule R)) i nodes : rest = drop i rs ->
    (forall k r j, rs !! k = Some r -> positions k = Some j -> exists b, wbody r !! j = Some (Goal b) /\ item b) ->
    ends (fun n => find_useful al cv positions n rest i nodes) (fun _ => True) E.
  Proof.
    intros Hd Hpos. revert i Hd. induction rest as [|r rest IH]; intros i Hd; [by apply ends_ok|]. cbn [find_useful].
    assert (Hr : rs !! i = Some r) by (rewrite <- (Nat.add_0_r i), <- lookup_drop, <- Hd; done).
    assert (Hd' : rest = drop (S i) rs).
    { pose proof (f_equal (drop 1) Hd) as H. rewrite drop_drop in H. cbn [drop] in H. rewrite drop_0 in H. rewrite H. f_equal. lia. }
    destruct (positions i) as [j|] eqn:Hj; [|by apply IH]. destruct (Hpos i r j Hr Hj) as (b & -> & Hb). rewrite (item_not_const b Hb).
    eapply ends_bind2; [by apply IH|]. intros us nodes' _. by apply ends_ok.
  Qed.

  Lemma rule_loop_ends slash_fn other_fn x useful tmp (rs rest : list (wrule R)) i c : rest = drop i rs ->
    (forall k r j, rs !! k = Some r -> positions k = Some j -> exists b, wbody r !! j = Some (Goal b) /\ item b) ->
    (forall k r j b, rs !! k = Some r -> positions k = Some j -> wbody r !! j = Some (Goal b) ->
       disjoint_vars x b /\ (meet x b -> ~ instance_of x b -> E AssertionError)) ->
    ends (fun n => rule_loop al inputs positions lc slash_fn other_fn x useful n tmp rest i c) (fun _ => True) E.
  Proof.
    intros Hd Hpos HA. revert i c Hd. induction rest as [|r rest IH]; intros i c Hd; [by apply ends_ok|]. cbn [rule_loop].
    assert (Hr : rs !! i = Some r) by (rewrite <- (Nat.add_0_r i), <- lookup_drop, <- Hd; done).
    assert (Hd' : rest = drop (S i) rs).
    { pose proof (f_equal (drop 1) Hd) as H. rewrite drop_drop in H. cbn [drop] in H. rewrite drop_0 in H. rewrite H. f_equal. lia. }
    pose proof acyclic_empty as Hae.
    destruct (positions i) as [j|] eqn:Hj.
    - destruct (Hpos i r j Hr Hj) as (b & Hb & Hi). destruct (HA i r j b Hr Hj Hb) as [Hdis Has]. rewrite Hb.
      destruct (unifies_settles x b) as (u & Hu & Hu'). destruct (covers_settles x b Hdis) as (k & Hk & Hk').
      eapply (ends_bind _ _ (fun u => u = true -> meet x b)); [eapply ends_settles; [exact Hu|]|].
      { intros H. apply Hu' in H as [σ Hσ]. by eapply meet_unify. }
      clear u Hu Hu'. intros u Hu. eapply (ends_bind _ _ (fun ok => ok = false -> meet x b /\ ~ instance_of x b)).
      { destruct u; [|by apply ends_ok]. eapply ends_settles; [exact Hk|]. intros ->. split; [by apply Hu|]. intros H. apply Hk' in H. done. }
      intros [] Hok; cbn [negb]; [|apply ends_raise; destruct (Hok eq_refl); by apply Has].
      eapply ends_bind2; [destruct lc; by apply fresh_rule_ends|]. intros ss c1 _.
      eapply ends_bind2.
      + instantiate (1 := fun _ => True). destruct u; [by apply ends_ok|].
        eapply ends_bind; [by apply mk_other_ends|]. intros h' _. eapply ends_bind; [by apply mk_other_ends|]. intros b' _.
        eapply ends_bind2; [by apply fresh_rule_ends|]. intros oo c2 _. by apply ends_ok.
      + intros oo c2 _. eapply ends_bind2; [by apply IH|]. intros L c3 _. by apply ends_ok.
    - eapply ends_bind; [by apply is_useful_ends|]. intros u _. eapply (ends_bind _ _ (fun _ => True)).
      { destruct u; [by apply mk_other_ends|by apply ends_ok]. }
      intros h' _. eapply ends_bind2; [by apply fresh_rule_ends|]. intros o c1 _. eapply ends_bind2; [by apply IH|]. intros L c2 _. by apply ends_ok.
  Qed.

  Lemma add_ro_ends y o cs c : ends (fun n => add_ro (R := R) al n y o cs c) (fun _ => True) E.
  Proof.
    revert c. induction cs as [|k cs IH]; intros c; [by apply ends_ok|]. cbn [add_ro]. pose proof acyclic_empty as Hae.
    eapply ends_bind2; [by apply fresh_rule_ends|]. intros r c1 _. eapply ends_bind2; [apply IH|]. intros L c2 _. by apply ends_ok.
  Qed.
  Lemma rso_loop_ends slash_fn other_fn x useful y nodes c : ends (fun n => rso_loop (R := R) al inputs slash_fn other_fn x useful n y nodes c) (fun _ => True) E.
  Proof.
    revert c. induction nodes as [|z nodes IH]; intros c; [by apply ends_ok|]. cbn [rso_loop]. pose proof acyclic_empty as Hae.
    eapply ends_bind2; [apply fresh_ends|]. intros z' c1 _. destruct (unify_settles ∅ x z' Hae) as (st & u & Hs).
    eapply (ends_bind2 _ _ (fun p => acyclic (fst p))).
    { eapply ends_settles; [exact Hs|]. cbn. destruct Hs as [n0 Hs]. by destruct (unify_ok n0 ∅ x z' st u Hae (Hs n0 (le_n _))). }
    clear st u Hs. intros st u Hst. eapply ends_bind2.
    - instantiate (1 := fun _ => True). destruct u; [|by apply ends_ok]. eapply ends_bind; [by apply mk_other_ends|]. intros o _.
      eapply ends_bind2; [by apply fresh_rule_ends|]. intros r c2 _. by apply ends_ok.
    - intros L1 c2 _. eapply ends_bind2; [apply IH|]. intros L c3 _. by apply ends_ok.
  Qed.
  Lemma node_loop_ends slash_fn other_fn x useful all nodes c : ends (fun n => node_loop (R := R) al inputs slash_fn other_fn x useful n all nodes c) (fun _ => True) E.
  Proof.
    revert c. induction nodes as [|y nodes IH]; intros c; [by apply ends_ok|]. cbn [node_loop]. pose proof acyclic_empty as Hae.
    eapply ends_bind; [by apply is_exogenous_ends|]. intros [] _; [apply IH|].
    eapply ends_bind2; [apply fresh_ends|]. intros y' c1 _. eapply ends_bind; [by apply is_useful_ends|]. intros u _.
    eapply ends_bind2.
    - instantiate (1 := fun _ => True). destruct u; [|by apply ends_ok]. eapply ends_bind2; [apply fresh_ends|]. intros a c2 _.
      eapply (ends_bind _ _ (fun _ => True)).
      { unfold not_matches3. destruct a; [by apply ends_ok| |]; (eapply ends_bind; [by apply unifies_ends|]; intros ? _; by apply ends_ok). }
      intros cs _. eapply (ends_bind _ _ (fun _ => True)); [destruct cs; [by apply ends_ok|by apply mk_other_ends]|]. intros o _. apply add_ro_ends.
    - intros L1 c2 _. eapply ends_bind2; [apply rso_loop_ends|]. intros L2 c3 _. eapply ends_bind2; [apply IH|]. intros L c4 _. by apply ends_ok.
  Qed.

  Lemma local_mono n m sy p f c g : local_loop n sy p f c = Ok g -> n <= m -> local_loop m sy p f c = Ok g.
  Proof using.
    revert m f c. induction n as [|n IH]; intros m f c H Hm; [done|]. destruct m as [|m]; [lia|]. cbn [local_loop] in *.
    destruct (decide (f ∈ sy)); [|done]. apply IH; [done|lia].
  Qed.
  Lemma local_ends (rs : list (wrule R)) p : ends (fun n => local_gen_functor n (wsyms rs) p) (fun _ => True) E.
  Proof.
    set (P := map (fun r : wrule R => Rule (whead r) (goals (wbody r))) rs).
    assert (HP : wsyms rs = NamesModel.syms P).
    { unfold wsyms, NamesModel.syms, P. clear. induction rs as [|r rs IH]; [done|]. cbn [map flat_map]. by rewrite IH. }
    rewrite HP. destruct (C36_local P p (S (length (NamesModel.syms P))) ltac:(lia)) as (f & Hf & _).
    eapply ends_settles; [|done]. exists (S (length (NamesModel.syms P))). intros n Hn. exact (local_mono _ _ _ _ _ _ _ Hf Hn).
  Qed.

  Lemma slash_ends slash_fn other_fn x (rs : list (wrule R)) c :
    Forall proper (node_terms inputs rs) ->
    (forall r v k, r ∈ rs -> v ∈ wvars r -> c <= k -> v <> al k) ->
    (forall k r j, rs !! k = Some r -> positions k = Some j -> exists b, wbody r !! j = Some (Goal b) /\ item b) ->
    (forall k r j b, rs !! k = Some r -> positions k = Some j -> wbody r !! j = Some (Goal b) ->
       meet x b -> ~ instance_of x b -> E AssertionError) ->
    ends (fun n => slash al cv inputs positions lc n slash_fn other_fn x rs c) (fun _ => True) E.
  Proof.
    intros Hp Hfr Hpos HA. unfold slash. eapply ends_bind; [apply local_ends|]. intros sf _. eapply ends_bind; [apply local_ends|]. intros of_ _.
    eapply ends_bind2; [apply fresh_ends|]. intros x' c1 (Hv & Hc & Hx). cbn [fst snd] in *.
    eapply ends_bind2; [by apply coarse_nodes_ends|]. intros nodes c2 _.
    eapply ends_bind2; [eapply find_useful_ends; [symmetry; apply drop_0|done]|]. intros us [nodes' c3] _. pose proof acyclic_empty as Hae.
    eapply ends_bind2; [destruct lc; by apply fresh_rule_ends|]. intros b c4 _.
    eapply ends_bind2; [eapply rule_loop_ends; [symmetry; apply drop_0|done|]|].
    - intros k r j b0 Hr Hj Hb. split.
      + intros v Hv1 Hv2. destruct (Hx v Hv1) as (k' & -> & Hk'). apply (Hfr r (al k') k'); [by eapply elem_of_list_lookup_2|by eapply goal_wvars|lia|done].
      + intros Hm Hni. apply (HA k r j b0 Hr Hj Hb).
        * destruct Hm as (g & H1 & H2). exists g. split; [|done]. by apply (gr_variant x x' g Hv).
        * intros H. apply Hni. by eapply variant_instance_l.
    - intros L1 c5 _. eapply ends_bind2; [apply node_loop_ends|]. intros L2 c6 _. by apply ends_ok.
  Qed.
End halts.
