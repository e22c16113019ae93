(** Proofs for C31: fold with the reversibility check, hook and binarize. *)
From Coq Require Import List Permutation Sorting.Sorted.
From stdpp Require Import gmap.
From Coq Require Import Lia.
From Coq Require String Ascii.
From Verif Require Import PyBase Semiring TermModel TermSpec TermProofs SetsModel SetsProofs FuelProofs UnifyProofs CoverProofs NamesModel RuleSpec
  UpdateModel UpdateSpec UpdateProofs TransModel TransSpec TransProofs UnfoldProofs TransProps LinearProofs LinearProps.
Import String.StringSyntax Ascii.AsciiSyntax.
Import ListNotations.

Section fold.
  Local Open Scope string_scope.
  Local Open Scope list_scope.
  Context {R : semiring}.

  (** * Reordered subgoals *)
  Lemma permute_nil {A} q : permute q (@nil A) = [].
  Proof. induction q; done. Qed.
  Lemma permute_skip {A} q (x : A) l : permute (0 :: map S q) (x :: l) = x :: permute q l.
  Proof.
    cbn [permute]. cbn. f_equal. induction q as [|a q IH]; [done|]. cbn [permute map]. cbn. destruct (l !! a); by rewrite IH.
  Qed.
  Lemma permute_lookup {A} q (l : list A) : Forall (fun a => a < length l) q -> forall k, permute q l !! k = q !! k ≫= (fun a => l !! a).
  Proof.
    induction 1 as [|a q Ha _ IH]; intros k; [done|]. cbn [permute]. destruct (lookup_lt_is_Some_2 l a Ha) as [x Hx]. rewrite Hx.
    destruct k as [|k]; [done|]. cbn. apply IH.
  Qed.
  Lemma permute_permute {A} q1 q2 (l : list A) : Forall (fun a => a < length l) q1 -> permute (permute q2 q1) l = permute q2 (permute q1 l).
  Proof.
    intros H. induction q2 as [|a q2 IH]; [done|]. cbn [permute]. rewrite (permute_lookup q1 l H). destruct (q1 !! a) as [b|] eqn:Eb; [|done].
    cbn. rewrite Forall_forall in H. destruct (lookup_lt_is_Some_2 l b (H b (elem_of_list_lookup_2 _ _ _ Eb))) as [x Hx]. rewrite Hx. by rewrite IH.
  Qed.
  Lemma seq_range q m : q ≡ₚ seq 0 m -> Forall (fun a => a < m) q.
  Proof. intros H. apply Forall_forall. intros a Ha. rewrite H in Ha. apply elem_of_seq in Ha. lia. Qed.

  Lemma perm_indices {A} (l l' : list A) : l ≡ₚ l' -> exists q q',
    q ≡ₚ seq 0 (length l) /\ q' ≡ₚ seq 0 (length l) /\ permute q l = l' /\ permute q' l' = l /\
    forall (ts : list (wderiv R)), length ts = length l -> permute q' (permute q ts) = ts /\ permute q (permute q' ts) = ts.
  Proof.
    induction 1 as [|x l l' Hp (q & q' & H1 & H2 & H3 & H4 & H5)|x y l|l l2 l3 Hp1 (q1 & q1' & A1 & A2 & A3 & A4 & A5) Hp2 (q2 & q2' & B1 & B2 & B3 & B4 & B5)].
    - exists [], []. split; [done|]. split; [done|]. split; [done|]. split; [done|]. by intros [|].
    - exists (0 :: map S q), (0 :: map S q'). cbn [length seq]. split; [|split; [|split; [|split]]].
      + rewrite H1, seq_shift. done.
      + rewrite H2, seq_shift. done.
      + by rewrite permute_skip, H3.
      + by rewrite permute_skip, H4.
      + intros [|t ts] Ht; [done|]. injection Ht as Ht. rewrite !permute_skip. destruct (H5 ts Ht) as [-> ->]. done.
    - exists (1 :: 0 :: map S (map S (seq 0 (length l)))), (1 :: 0 :: map S (map S (seq 0 (length l)))). cbn [length seq].
      assert (Hsw : forall {B} (u v : B) ts, length ts = length l -> permute (1 :: 0 :: map S (map S (seq 0 (length l)))) (u :: v :: ts) = v :: u :: ts).
      { intros B u v ts Hl. cbn [permute]. cbn. do 2 f_equal. rewrite <- Hl. rewrite <- (permute_seq ts) at 3. generalize (seq 0 (length ts)). clear.
        intros q. induction q as [|a q IH]; [done|]. cbn [permute map]. cbn. destruct (ts !! a); by rewrite IH. }
      rewrite !Hsw by done. rewrite !seq_shift. split; [constructor|]. split; [constructor|]. split; [done|]. split; [done|].
      intros [|t [|u ts]] Ht; [done..|]. injection Ht as Ht. rewrite <- !seq_shift, !Hsw by done. done.
    - pose proof (Permutation_length Hp1) as L1. pose proof (Permutation_length Hp2) as L2.
      assert (Lq1 : length q1 = length l) by (by rewrite A1, seq_length).
      assert (Lq2' : length q2' = length l) by (by rewrite B2, seq_length, L1).
      pose proof (seq_range _ _ A1) as R1. pose proof (seq_range _ _ A2) as R1'. pose proof (seq_range _ _ B1) as R2. pose proof (seq_range _ _ B2) as R2'.
      exists (permute q2 q1), (permute q1' q2'). rewrite <- L1 in B1, B2, B5, R2, R2'. split; [|split; [|split; [|split]]].
      + rewrite permute_permutation; [done|]. by rewrite Lq1.
      + rewrite permute_permutation; [done|]. by rewrite Lq2'.
      + rewrite permute_permute, A3 by done. done.
      + rewrite permute_permute, B4; [done|]. rewrite <- L2, <- L1. done.
      + intros ts Ht.
        assert (Hl : length (permute q1 ts) = length l) by (rewrite permute_permutation; [done|by rewrite Ht]).
        assert (Hl' : length (permute q2' ts) = length l) by (rewrite permute_permutation; [done|by rewrite Ht]).
        rewrite (permute_permute q1 q2 ts) by (rewrite Ht; done). rewrite (permute_permute q2' q1' ts) by (rewrite Ht; done).
        assert (Hl2 : length (permute q2 (permute q1 ts)) = length l) by (rewrite permute_permutation; [done|by rewrite Hl]).
        assert (Hl2' : length (permute q1' (permute q2' ts)) = length l) by (rewrite permute_permutation; [done|by rewrite Hl']).
        rewrite permute_permute by (rewrite Hl2; done). rewrite permute_permute by (rewrite Hl2'; done).
        destruct (B5 _ Hl) as [-> _]. destruct (A5 _ Ht) as [-> _]. destruct (A5 _ Hl') as [_ ->]. destruct (B5 _ Ht) as [_ ->]. done.
  Qed.
  Lemma permute_Forall2 {A B} (P : A -> B -> Prop) q l m : Forall2 P l m -> Forall2 P (permute q l) (permute q m).
  Proof.
    intros H. induction q as [|a q IH]; [constructor|]. cbn [permute].
    destruct (l !! a) as [x|] eqn:Ex.
    - destruct (Forall2_lookup_l _ _ _ _ _ H Ex) as (y & -> & Hxy). by constructor.
    - assert (m !! a = None) as ->; [|done]. apply lookup_ge_None. rewrite <- (Forall2_length _ _ _ H). by apply lookup_ge_None.
  Qed.

  (** the same head, the subgoals in another order *)
  Definition reordered (r s : wrule R) : Prop := whead s = whead r /\ wbody r ≡ₚ wbody s.
  Lemma reorder_meaning (only : Prop) (P Q : list (wrule R)) base : (forall x y : R, smul x y = smul y x) ->
    Forall2 reordered P Q -> same_meaning (wderives only P base) (wderives only Q base).
  Proof.
    intros Hc H.
    assert (Hix : exists qs : list (list nat * list nat), Forall2 (fun (rs : wrule R * wrule R) qq =>
        let '(r, s) := rs in let '(q, q') := qq in
        whead s = whead r /\ q ≡ₚ seq 0 (length (wbody r)) /\ q' ≡ₚ seq 0 (length (wbody s)) /\ permute q (wbody r) = wbody s /\ permute q' (wbody s) = wbody r /\
        forall (ts : list (wderiv R)), length ts = length (wbody r) -> permute q' (permute q ts) = ts /\ permute q (permute q' ts) = ts) (combine P Q) qs).
    { induction H as [|r s P Q [Hh Hb] _ [qs IH]]; [exists []; constructor|]. destruct (perm_indices _ _ Hb) as (q & q' & H1 & H2 & H3 & H4 & H5).
      exists ((q, q') :: qs). cbn [combine]. constructor; [|done]. rewrite <- (Permutation_length Hb). done. }
    destruct Hix as [qs Hqs].
    assert (Hlk : forall k r s, P !! k = Some r -> Q !! k = Some s -> exists q q', qs !! k = Some (q, q') /\
        whead s = whead r /\ q ≡ₚ seq 0 (length (wbody r)) /\ q' ≡ₚ seq 0 (length (wbody s)) /\ permute q (wbody r) = wbody s /\ permute q' (wbody s) = wbody r /\
        forall (ts : list (wderiv R)), length ts = length (wbody r) -> permute q' (permute q ts) = ts /\ permute q (permute q' ts) = ts).
    { intros k r s Hr Hs. assert (Hk : combine P Q !! k = Some (r, s)).
      { clear - Hr Hs. revert P Q Hr Hs. induction k as [|k IH]; intros [|p P] [|q Q] Hr Hs; try done; [by injection Hr as ->; injection Hs as ->|]. by apply IH. }
      destruct (Forall2_lookup_l _ _ _ _ _ Hqs Hk) as ([q q'] & Hq & Hrest). by exists q, q'. }
    set (q1 k := match qs !! k with Some (q, _) => q | None => [] end).
    set (q2 k := match qs !! k with Some (_, q) => q | None => [] end).
    refine (align_same_meaning only P Q base id id q1 q2 (or_intror Hc) _ _).
    - intros k r Hr. destruct (Forall2_lookup_l _ _ _ _ _ H Hr) as (s & Hs & _). exists s. split; [done|]. split; [done|].
      destruct (Hlk k r s Hr Hs) as (q & q' & Hq & Hh & Hq1 & Hq2 & E1 & E2 & E3). unfold q1, q2. cbn [id]. rewrite Hq. split; [done|]. split.
      { intros l Hl. by apply E3. } split.
      + intros x fs (σ & G & <- & <-). exists σ. split; [done|]. split; [by rewrite Hh|]. rewrite <- E1. by rewrite permute_map.
      + intros ts _ Hlf Ho. rewrite <- E1. apply permute_Forall2. by apply Hlf.
    - intros k s Hs. destruct (Forall2_lookup_r _ _ _ _ _ H Hs) as (r & Hr & _ & Hb). exists r. split; [done|]. split; [done|].
      destruct (Hlk k r s Hr Hs) as (q & q' & Hq & Hh & Hq1 & Hq2 & E1 & E2 & E3). unfold q1, q2. cbn [id]. rewrite Hq. split; [done|]. split.
      { intros l Hl. apply E3. by rewrite Hl, (Permutation_length Hb). } split.
      + intros x fs (σ & G & <- & <-). exists σ. split; [done|]. split; [by rewrite Hh|]. rewrite <- E2. by rewrite permute_map.
      + intros ts _ Hlf Ho. rewrite <- E2. apply permute_Forall2. by apply Hlf.
  Qed.

  Lemma variants_meaning (only : Prop) (P Q : list (wrule R)) base : (forall x y : R, smul x y = smul y x) ->
    RuleSpec.aligned wvariant P Q -> same_meaning (wderives only P base) (wderives only Q base).
  Proof.
    intros Hc (Q' & Hp & Hf).
    assert (Hmid : exists M, Forall2 (fun r s => requiv only r s) P M /\ Forall2 reordered M Q').
    { clear Hp. induction Hf as [|r s P Q' (ρ & Hρ & Hh & Hb) _ (M & H1 & H2)]; [exists []; split; constructor|].
      exists (rrename ρ r :: M). split.
      - constructor; [|done]. apply requiv_sym, requiv_rename. exact Hρ.
      - constructor; [|done]. split; [done|]. cbn [rrename rsub wbody]. by rewrite Hb. }
    destruct Hmid as (M & H1 & H2).
    eapply same_meaning_trans; [exact (perm_meaning only P P M base (reflexivity _) H1)|].
    eapply same_meaning_trans; [exact (reorder_meaning only M Q' base Hc H2)|].
    apply (perm_meaning only Q' Q Q base); [by symmetry|]. clear. induction Q; constructor; [apply requiv_refl|done].
  Qed.

  (** * Lists without some positions *)
  Lemma without_elem {A} js (l : list A) k a : a ∈ without js l k -> a ∈ l.
  Proof.
    revert k. induction l as [|b l IH]; intros k; cbn [without]; [done|]. case_decide.
    - intros Ha. right. by eapply IH.
    - rewrite !elem_of_cons. intros [->|Ha]; [by left|]. right. by eapply IH.
  Qed.
  Lemma without_none {A} js (l : list A) k : (forall j, j ∈ js -> j < k) -> without js l k = l.
  Proof.
    revert k. induction l as [|b l IH]; intros k H; cbn [without]; [done|]. rewrite decide_False.
    - f_equal. apply IH. intros j Hj. apply H in Hj. lia.
    - intros Hk. apply H in Hk. lia.
  Qed.
  Lemma without_delete {A} i (l : list A) k : without [k + i] l k = delete i l.
  Proof.
    revert k i. induction l as [|b l IH]; intros k i; cbn [without]; [done|]. destruct i as [|i].
    - rewrite decide_True by (apply elem_of_list_singleton; lia). cbn. apply without_none. intros j Hj%elem_of_list_singleton. lia.
    - rewrite decide_False by (rewrite elem_of_list_singleton; lia). change (delete (S i) (b :: l)) with (b :: delete i l). f_equal.
      rewrite <- (IH (S k) i). do 2 f_equal. lia.
  Qed.
  Lemma pick_elem {A} (l : list A) js fs a : pick l js = Ok fs -> a ∈ fs -> a ∈ l.
  Proof.
    revert fs. induction js as [|j js IH]; intros fs; cbn [pick]; [by intros [= <-] ?%elem_of_nil|].
    destruct (l !! j) as [b|] eqn:Ej; [|done]. destruct (pick l js) as [r| |]; [|done..]. intros [= <-] [->|Ha]%elem_of_cons.
    - by eapply elem_of_list_lookup_2.
    - by apply (IH r).
  Qed.
  Lemma pick_length {A} (l : list A) js fs : pick l js = Ok fs -> length fs = length js.
  Proof.
    revert fs. induction js as [|j js IH]; intros fs; cbn [pick]; [by intros [= <-]|].
    destruct (l !! j) as [b|] eqn:Ej; [|done]. destruct (pick l js) as [r| |]; [|done..]. intros [= <-]. cbn. f_equal. by apply IH.
  Qed.

  Lemma collect_NoDup vs l : NoDup vs -> NoDup (collect vs l).
  Proof.
    unfold collect. revert vs. induction l as [|u l IH]; intros vs H; cbn [fold_left]; [done|]. apply IH. unfold oset_add.
    destruct (existsb (Nat.eqb u) vs) eqn:E; [done|]. apply NoDup_app. split; [done|]. split; [|apply NoDup_singleton].
    intros x Hx ->%elem_of_list_singleton. apply Bool.not_true_iff_false in E. apply E, existsb_exists. exists u. split; [by apply elem_of_list_In|apply Nat.eqb_refl].
  Qed.
  Lemma term_vars_empty n x vs : term_vars n ∅ x [] = Ok vs -> NoDup vs /\ forall v, v ∈ vs <-> In v (vars x).
  Proof.
    intros E. apply (term_vars_ok ∅ Var) in E as ->; [|apply acyclic_empty|apply resolution_empty]. rewrite sub_Var. split; [apply collect_NoDup, NoDup_nil_2|].
    intros v. rewrite (collect_elem (R := R) szero (fun _ => true)), elem_of_nil, <- elem_of_list_In. tauto.
  Qed.
  Definition fvars (fs : list (factor R)) : list nat := flat_map vars (goals fs).
  Lemma fvars_elem fs v : In v (fvars fs) <-> exists b, Goal b ∈ fs /\ In v (vars b).
  Proof.
    unfold fvars. rewrite in_flat_map. split; intros (b & Hb & Hv); exists b; (split; [|done]).
    - by apply elem_of_list_In, elem_of_goals in Hb.
    - by apply elem_of_list_In, elem_of_goals.
  Qed.
  Lemma fvars_sub (fs gs : list (factor R)) v : (forall f, f ∈ fs -> f ∈ gs) -> In v (fvars fs) -> In v (fvars gs).
  Proof. rewrite !fvars_elem. intros H (b & Hb & Hv). exists b. auto. Qed.
  Lemma vars_Fn_goals (fs : list (factor R)) : vars (Fn (goals fs)) = fvars fs.
  Proof. done. Qed.
  Lemma wvars_iff (r : wrule R) v : v ∈ wvars r <-> In v (vars (whead r)) \/ In v (fvars (wbody r)).
  Proof. unfold wvars, fvars. by rewrite elem_of_app, !elem_of_list_In. Qed.

  (** the new rule of the hook trick *)
  Definition hooked (r : wrule R) (js : list nat) (name : String.string) (tmp : wrule R) : Prop :=
    exists out fs, tmp = WRule (Fn (Cst (CStr name) :: map Var out)) fs /\ pick (wbody r) js = Ok fs /\ NoDup out /\
      forall v, v ∈ out <-> In v (fvars fs) /\ (In v (fvars (without js (wbody r) 0)) \/ In v (vars (whead r))).
  Lemma loop_ok n (r : wrule R) js name tmp : loop_absorption n r js name = Ok tmp -> hooked r js name tmp.
  Proof.
    unfold loop_absorption. destruct (pick (wbody r) js) as [fs| |] eqn:Ep; [|done..]. cbn [bind].
    destruct (term_vars n ∅ (Fn (goals (wbody r))) []) as [vb| |] eqn:Eb; [|done..]. cbn [bind].
    destruct (term_vars n ∅ (Fn (goals (without js (wbody r) 0))) []) as [vr| |] eqn:Er; [|done..]. cbn [bind].
    destruct (term_vars n ∅ (whead r) []) as [vh| |] eqn:Eh; [|done..]. cbn [bind].
    destruct (term_vars n ∅ (Fn (goals fs)) []) as [vt| |] eqn:Et; [|done..]. cbn [bind]. intros [= <-].
    apply term_vars_empty in Eb as [_ Hb], Er as [_ Hr], Eh as [_ Hh], Et as [Hnd Ht]. rewrite vars_Fn_goals in Hb, Hr, Ht.
    eexists _, fs. split; [done|]. split; [done|]. split; [by apply NoDup_filter|]. intros v.
    rewrite !elem_of_list_filter, Ht. split.
    - intros [Hn Hv]. split; [done|]. rewrite Hr, Hh, Hb in Hn.
      assert (In v (fvars (wbody r))) by (eapply fvars_sub; [|exact Hv]; intros f Hf; by eapply pick_elem).
      destruct (decide (In v (fvars (without js (wbody r) 0)))); [by left|]. destruct (decide (In v (vars (whead r)))); [by right|]. exfalso. apply Hn. tauto.
    - intros [Hv Hx]. split; [|done]. rewrite Hr, Hh. tauto.
  Qed.

  (** * fold *)
  Context (al : nat -> nat) (Hal : forall i j, al i = al j -> i = j).
  Context (ord : list term -> list term) (is_input : term -> bool) (minf : R) (is_one : R -> bool) (eqr : wrule R -> wrule R -> bool).
  Context (Heq : forall r s, eqr r s = true <-> r = s).
  Context (eqp : list (wrule R) -> list (wrule R) -> bool).
  Context (Heqp : forall P Q, eqp P Q = true -> RuleSpec.aligned wvariant P Q).
  Context (Hcomm : forall x y : R, smul x y = smul y x).

  Lemma fold_ok (only : Prop) n r j S (rs : list (wrule R)) c b base new c' :
    (forall s, s ∈ r :: rs -> good_rule s) -> wbody r !! j = Some (Goal b) -> item_query b ->
    (forall v k, v ∈ wvars r -> c <= k -> v <> al k) ->
    (forall s, s ∈ r :: without S rs 0 -> kept r s j) -> (forall σ, (forall v, ground (σ v)) -> ~ base (sub σ b)) ->
    (only -> (forall v, b <> Var v) /\ forall s, s ∈ r :: without S rs 0 -> values_kept r s b) ->
    basic_fold al ord is_input minf is_one eqr eqp n r j S rs c = Ok (new, c') ->
    new = r :: without S rs 0 /\ same_meaning (wderives only rs base) (wderives only new base).
  Proof.
    intros Hg Hb Hq Hf Hk Hbase Hvk E. unfold basic_fold, TransModel.fold, minus in E. destruct (forallb _ S); [|done]. cbn [bind] in E.
    destruct (unfold al ord is_input minf is_one eqr n 0 j (r :: without S rs 0) c) as [[[rev ix] c2]| |] eqn:Eu; [|done..]. cbn [bind] in E.
    destruct (eqp rev rs) eqn:Ee; [|done]. injection E as <- <-. split; [done|]. apply Heqp in Ee.
    apply (unfold_ok al Hal minf is_one ord is_input eqr Heq only n 0 j _ c r b base rev ix c2) in Eu; [|clear Eu; try done..].
    - eapply same_meaning_trans; [apply same_meaning_sym; exact (variants_meaning only rev rs base Hcomm Ee)|]. by apply same_meaning_sym.
    - intros s Hs. apply Hg. apply elem_of_cons in Hs as [->|Hs]; [left|right]. by eapply without_elem.
  Qed.

  Lemma match_rules_c n (q : term) (rs : list (wrule R)) ix : forall c os c', match_rules al n ∅ q rs ix c = Ok (os, c') -> c <= c'.
  Proof.
    induction ix as [|i ix IH]; intros c os c' E; cbn [match_rules] in E; [by injection E as <- <-|].
    destruct (rs !! i) as [r|]; [|done]. destruct (fresh_rule al n ∅ c r) as [[r1 c1]| |] eqn:Ef; [|done..]. cbn [bind] in E.
    destruct (unify_f n ∅ (whead r1) q) as [[st b]| |]; [|done..]. cbn [bind] in E.
    destruct (match_rules al n ∅ q rs ix c1) as [[rest c2]| |] eqn:Em; [|done..]. cbn [bind] in E. injection E as <- <-.
    apply (fresh_rule_ok al Hal ∅ Var acyclic_empty resolution_empty) in Ef as (_ & _ & _ & Hc & _). apply IH in Em. lia.
  Qed.
  Lemma lookup_c n (q : term) (P : pstate R) os P' : lookup al ord n ∅ q P = Ok (os, P') -> p_c P <= p_c P'.
  Proof.
    unfold lookup. destruct (snap n ∅ q) as [q'| |]; [|done..]. cbn [bind]. destruct q' as [v|k|xs]; [|done|].
    - destruct (match_rules _ _ _ _ _ _ _) as [[os' c']| |] eqn:Em; [|done..]. cbn [bind]. intros [= <- <-]. by apply match_rules_c in Em.
    - destruct (head_fn n ∅ _) as [f| |]; [|done..]. cbn [bind]. destruct (f2r ord n ∅ f P) as [[ix P1]| |] eqn:Ef; [|done..]. cbn [bind].
      assert (E : p_c P1 = p_c P).
      { unfold f2r in Ef. destruct (p_f2r P); [by injection Ef as <- <-|]. destruct (syms n ∅ (p_rules P)) as [sy| |]; [|done..]. cbn [bind] in Ef.
        destruct (build_f2r _ _ _ _ _ _ _) as [[ix' f']| |]; [|done..]. cbn [bind] in Ef. by injection Ef as <- <-. }
      destruct (match_rules _ _ _ _ _ _ _) as [[os' c']| |] eqn:Em; [|done..]. cbn [bind]. intros [= <- <-]. apply match_rules_c in Em. cbn [p_c]. lia.
  Qed.
  Lemma inline_all_c n (r : wrule R) j os : Forall (fun o => acyclic (snd o)) os -> forall c us c', inline_all al minf is_one n r j os c = Ok (us, c') -> c <= c'.
  Proof.
    induction 1 as [|[[k s] st] os Hac _ IH]; intros c us c' E; cbn [inline_all] in E; [by injection E as <- <-|]. cbn [snd] in Hac.
    destruct (inline al minf is_one n r j s st c) as [[t c1]| |] eqn:Ei; [|done..]. cbn [bind] in E.
    destruct (inline_all al minf is_one n r j os c1) as [[us1 c2]| |] eqn:Ea; [|done..]. cbn [bind] in E. injection E as <- <-.
    apply IH in Ea. unfold inline in Ei.
    destruct (term_vars _ _ _ _) as [vs| |]; [|done..]. cbn [bind] in Ei. destruct (term_vars _ _ _ _) as [vt| |]; [|done..]. cbn [bind] in Ei.
    destruct (acyclic_resolution _ Hac) as [θ Hθ]. apply (fresh_rule_ok al Hal st θ Hac Hθ) in Ei as (_ & _ & _ & Hc & _). lia.
  Qed.
  Lemma unfold_c n i j (rs : list (wrule R)) c r b rs' ix c' :
    (forall r, r ∈ rs -> good_rule r) -> rs !! i = Some r -> wbody r !! j = Some (Goal b) -> item_query b ->
    (forall v k, v ∈ wvars r -> c <= k -> v <> al k) ->
    unfold al ord is_input minf is_one eqr n i j rs c = Ok (rs', ix, c') -> c <= c'.
  Proof.
    intros Hg Hr Hb Hq Hf E. unfold TransModel.unfold, unfold_by in E. rewrite Hr in E.
    destruct (remove_rule eqr r rs) as [new| |] eqn:Er; [|discriminate..]. cbn [bind] in E. rewrite Hb in E.
    destruct (negb (safe_inline is_input (Goal b))); [discriminate|].
    destruct (lookup al ord n ∅ b (p_new rs c)) as [[os P']| |] eqn:El; [|discriminate..]. cbn [bind] in E.
    destruct (inline_all al minf is_one n r j os (p_c P')) as [[us c4]| |] eqn:Ea; [|discriminate..]. cbn [bind] in E. injection E as <- <- <-.
    pose proof (lookup_c _ _ _ _ _ El) as Hc. cbn [p_new p_c] in Hc.
    apply (lookup_ok (fun _ => szero) al al Hal ord n ∅ Var b) in El.
    - destruct El as (_ & _ & Hans & _). apply inline_all_c in Ea; [lia|]. eapply Forall_impl; [exact Hans|]. intros [[k s] st]. by intros (? & ? & _ & _ & _ & ? & _).
    - by apply inv_new.
    - by apply acyclic_empty.
    - by apply resolution_empty.
    - intros ? ? ? ?. apply lookup_empty.
    - intros k Hk. split; [|split].
      + intros Hv. by apply (Hf _ k (b_vars r j b Hb _ Hv) Hk).
      + apply lookup_empty.
      + intros w t Hw. by rewrite lookup_empty in Hw.
    - by rewrite sub_Var.
  Qed.

  (** * hook *)
  Lemma drop_gen (rs ds : list (wrule R)) (base : term -> Prop) g :
    (forall s, s ∈ rs -> avoids g s) -> (forall d, d ∈ ds -> exists args, whead d = Fn (Cst (CStr g) :: args)) -> (forall x, base x -> ~ has_fn g x) ->
    forall d, wderives True rs base d <-> wderives True (rs ++ ds) base d /\ forall x, wroot d = Goal x -> ~ has_fn g x.
  Proof.
    intros Hav Hds Hbase.
    assert (Hroot : forall d, wderives True rs base d -> forall x, wroot d = Goal x -> ~ has_fn g x).
    { intros d Hd x Ex. destruct Hd as [v|z Hz|k0 s z ts Hs Hin _ _]; [done|injection Ex as <-; by apply Hbase|]. injection Ex as <-.
      eapply avoids_head; [|exact Hin]. apply Hav. by eapply elem_of_list_lookup_2. }
    assert (Hdrop : forall d, (forall x, wroot d = Goal x -> ~ has_fn g x \/ exists z, d = TLeaf z) -> wderives True (rs ++ ds) base d <-> wderives True rs base d).
    { apply (drop_meaning rs ds base (fun x => ~ has_fn g x)).
      - intros s x fs Hs Hin. split; [by eapply avoids_head; [apply Hav|]|]. destruct Hin as (σ & _ & _ & <-). rewrite Forall2_fmap_r.
        apply Forall_Forall2_diag, Forall_forall. intros b Hb z Ez. destruct b as [v|b]; [done|]. cbn [fsub] in Ez. injection Ez as <-.
        destruct (proj2 (Hav s Hs) b) as [[v ->]|[[a ->]|(a & as' & -> & Ha)]].
        + apply elem_of_list_omap. by exists (Goal b).
        + left. by exists v.
        + right. by intros [? [=]].
        + right. intros [? E]. cbn [sub map] in E. injection E as -> _. done.
      - intros d x fs Hd (σ & _ & E & _) Hx. destruct (Hds d Hd) as [args Ea]. apply Hx. rewrite <- E, Ea. by eexists. }
    intros d. split.
    - intros Hd. pose proof (Hroot d Hd) as Hx. split; [|done]. apply Hdrop; [|done]. intros x Ex. left. by apply Hx.
    - intros [Hd Hx]. apply Hdrop; [|done]. intros x Ex. left. by apply Hx.
  Qed.

  Section hook.
  Context (n i : nat) (js : list nat) (rs : list (wrule R)) (c : nat) (r tmp : wrule R) (name : String.string).
  Context (Hr : rs !! i = Some r) (Htmp : hooked r js name tmp) (Hjs : js <> []).
  Context (Hprog : program al c rs) (Hav : forall s, s ∈ rs -> avoids name s).
  Notation rest := (without js (wbody r) 0).
  Notation rev_rule := (WRule (whead r) (Goal (whead tmp) :: rest)).
  Notation new := (rev_rule :: delete i rs ++ [tmp]).

  Lemma hook_del : delete i (rs ++ [tmp]) = delete i rs ++ [tmp].
  Proof.
    rewrite !delete_take_drop. pose proof (lookup_lt_Some _ _ _ Hr) as Hl. rewrite take_app_le, drop_app_le by lia. by rewrite app_assoc.
  Qed.
  Lemma hook_tmp_vars v : v ∈ wvars tmp -> In v (fvars (wbody r)).
  Proof.
    destruct Htmp as (out & fs & -> & Hp & _ & Hout). rewrite wvars_iff. cbn [whead wbody].
    assert (Hfs : In v (fvars fs) -> In v (fvars (wbody r))) by (intros Hv; eapply fvars_sub; [|exact Hv]; intros f Hf; by eapply pick_elem).
    intros [Hv|Hv]; [|by apply Hfs]. cbn in Hv. rewrite in_flat_map in Hv. destruct Hv as (x & Hx & Hv). apply in_map_iff in Hx as (u & <- & Hu).
    destruct Hv as [<-|[]]. apply Hfs, Hout. by apply elem_of_list_In.
  Qed.
  Lemma hook_head_vars v : In v (vars (whead tmp)) -> In v (fvars (wbody tmp)) /\ (In v (fvars rest) \/ In v (vars (whead r))).
  Proof.
    destruct Htmp as (out & fs & -> & Hp & _ & Hout). cbn [whead wbody]. intros Hv. cbn in Hv. rewrite in_flat_map in Hv.
    destruct Hv as (x & Hx & Hv). apply in_map_iff in Hx as (u & <- & Hu). destruct Hv as [<-|[]]. apply Hout. by apply elem_of_list_In.
  Qed.
  Lemma hook_rev_vars v : v ∈ wvars rev_rule -> v ∈ wvars r.
  Proof.
    rewrite !wvars_iff. cbn [whead wbody]. rewrite !fvars_elem. intros [Hv|(b & Hb & Hv)]; [by left|]. apply elem_of_cons in Hb as [[= ->]|Hb].
    - right. rewrite <- fvars_elem. apply hook_tmp_vars. apply wvars_iff. by left.
    - right. exists b. split; [by eapply without_elem|done].
  Qed.
  Lemma hook_head : exists args, whead tmp = Fn (Cst (CStr name) :: args).
  Proof. destruct Htmp as (out & fs & -> & _). by eexists. Qed.
  Lemma hook_in s : s ∈ new -> s = rev_rule \/ s = tmp \/ s ∈ rs.
  Proof.
    intros [->|Hs]%elem_of_cons; [by left|]. apply elem_of_app in Hs as [Hs|Hs%elem_of_list_singleton]; [|by right; left].
    right; right. rewrite delete_take_drop in Hs. apply elem_of_app in Hs as [Hs|Hs].
    - rewrite <- (take_drop i rs). apply elem_of_app. by left.
    - rewrite <- (take_drop (S i) rs). apply elem_of_app. by right.
  Qed.
  Lemma hook_r : r ∈ rs.
  Proof. by eapply elem_of_list_lookup_2. Qed.
  Lemma hook_program c' : c <= c' -> program al c' new.
  Proof.
    intros Hc. destruct Hprog as [Hg Hf]. split.
    - intros s [->|[->|Hs]]%hook_in.
      + split; [done|]. apply (Hg r hook_r).
      + destruct hook_head as [args Eh]. split; [|rewrite Eh; by eexists _, _]. destruct Htmp as (out & fs & -> & Hp & _). cbn [wbody].
        apply pick_length in Hp. intros ->. by destruct js.
      + by apply Hg.
    - intros s v k Hs Hv Hk. apply hook_in in Hs as [->|[->|Hs]].
      + apply hook_rev_vars in Hv. apply (Hf r v k hook_r Hv). lia.
      + apply hook_tmp_vars in Hv. apply (Hf r v k hook_r); [|lia]. apply wvars_iff. by right.
      + apply (Hf s v k Hs Hv). lia.
  Qed.
  Lemma hook_avoids s y σ τ : s ∈ new -> s <> tmp -> sub σ (whead tmp) = y -> sub τ (whead s) = y -> False.
  Proof.
    intros Hs Hne E1 E2. destruct hook_head as [args Eh]. rewrite Eh in E1. cbn [sub map] in E1.
    assert (Ha : exists a args, whead s = Fn (Cst a :: args) /\ a <> CStr name).
    { apply hook_in in Hs as [->|[->|Hs]]; [|done|by apply Hav]. apply (Hav r hook_r). }
    destruct Ha as (a & args' & E & Hn). rewrite E in E2. cbn [sub map] in E2. rewrite <- E1 in E2. injection E2 as -> _. done.
  Qed.
  Lemma hook_kept s : s ∈ new -> kept rev_rule s 0.
  Proof.
    intros Hs. destruct (decide (whead s = whead tmp)) as [Eh|Hne].
    - assert (s = tmp) as ->.
      { destruct hook_head as [args E]. rewrite E in Eh. apply hook_in in Hs as [->|[->|Hs]]; [|done|].
        - exfalso. cbn in Eh. destruct (Hav r hook_r) as [(a & args' & E' & Hn) _]. rewrite E' in Eh. injection Eh as -> _. done.
        - exfalso. destruct (Hav s Hs) as [(a & args' & E' & Hn) _]. rewrite E' in Eh. injection Eh as -> _. done. }
      apply (C29_kept R rev_rule tmp 0 (whead tmp)). left. intros v Hv. by apply hook_head_vars.
    - intros x L Q zs y y' HL (σ & _ & _ & E) (τ & _ & E' & _) _ _. exfalso. destruct L; [|done]. cbn [wbody map app fsub] in E. injection E as E _.
      eapply (hook_avoids s y σ τ); try done. by intros ->.
  Qed.
  Lemma hook_values s : s ∈ new -> values_kept rev_rule s (whead tmp).
  Proof.
    intros Hs (σ & τ & E). destruct (decide (whead s = whead tmp)) as [Eh|Hne].
    - exists Var, Var. rewrite Eh. split; [done|]. split; intros v _; by eexists.
    - exfalso. eapply (hook_avoids s _ σ τ); [done| |done|by symmetry]. by intros ->.
  Qed.

  Lemma hook_fold (base : term -> Prop) new' c' : (forall x, base x -> ~ has_fn name x) ->
    basic_fold al ord is_input minf is_one eqr eqp n rev_rule 0 [i] (rs ++ [tmp]) c = Ok (new', c') ->
    new' = new /\ same_meaning (wderives True rs base) (fun d => wderives True new' base d /\ forall x, wroot d = Goal x -> ~ has_fn name x).
  Proof.
    intros Hbase E. destruct hook_head as [args Eh]. pose proof (hook_program c (le_n _)) as [Hg Hf].
    assert (Ew : without [i] (rs ++ [tmp]) 0 = delete i rs ++ [tmp]) by (rewrite <- hook_del; exact (without_delete i _ 0)).
    apply (fold_ok True n rev_rule 0 [i] (rs ++ [tmp]) c (whead tmp) base) in E; rewrite ?Ew.
    - rewrite Ew in E. destruct E as [-> Hm]. split; [done|].
      apply (same_meaning_root _ _ (fun f => forall x, f = Goal x -> ~ has_fn name x)) in Hm.
      refine (same_meaning_iff _ _ _ _ _ (fun d => iff_refl _) Hm). intros d. symmetry. apply drop_gen; [done| |done].
      intros s ->%elem_of_list_singleton. by exists args.
    - intros s [->|Hs]%elem_of_cons; [apply Hg; left|]. apply elem_of_app in Hs as [Hs| ->%elem_of_list_singleton].
      + by apply Hprog.
      + apply Hg. right. apply elem_of_app. right. by apply elem_of_list_singleton.
    - done.
    - rewrite Eh. right. by eexists _, _.
    - intros v k Hv Hk. apply hook_rev_vars in Hv. by apply (proj2 Hprog r v k hook_r).
    - intros s Hs. by apply hook_kept.
    - intros σ _ Hb. apply Hbase in Hb. apply Hb. rewrite Eh. by eexists.
    - intros _. split; [by rewrite Eh|]. intros s Hs. by apply hook_values.
  Qed.

  (** the unfolded rule is the old one again *)
  Lemma pick_without {A} (l : list A) ks fs : NoDup ks -> pick l ks = Ok fs -> fs ++ without ks l 0 ≡ₚ l.
  Proof.
    revert fs. induction ks as [|k ks IH]; intros fs Hn Hp; cbn [pick] in Hp.
    - injection Hp as <-. rewrite without_none; [done|]. by intros j ?%elem_of_nil.
    - apply NoDup_cons in Hn as [Hk Hn]. destruct (l !! k) as [a|] eqn:Ea; [|done]. destruct (pick l ks) as [fs'| |]; [|done..].
      injection Hp as <-. rewrite <- (IH fs' Hn eq_refl) at 2. cbn [app]. rewrite Permutation_middle. apply Permutation_app_head.
      assert (Hg : forall l m, l !! k = Some a -> k + m ∉ ks -> a :: without ((k + m) :: map (fun x => x) ks) l m ≡ₚ without (map (fun x => x) ks) l m).
      { clear. intros l. rewrite map_id. induction k as [|k IHk] in l |- *; intros m Hl Hk; (destruct l as [|b l]; [done|]); cbn [without].
        - injection Hl as ->. rewrite (decide_True (P := m ∈ _)) by (left; lia). rewrite decide_False by done.
          constructor. assert (Hw : forall (l : list A) p, m < p -> without ((0 + m) :: ks) l p = without ks l p).
          { clear. intros l. induction l as [|b l IH]; intros p Hp; cbn [without]; [done|]. rewrite IH by lia.
            destruct (decide (p ∈ ks)) as [H|H]; [rewrite decide_True by (by right); done|]. rewrite decide_False; [done|].
            intros [->|?]%elem_of_cons; [lia|done]. }
          by rewrite Hw by lia.
        - specialize (IHk l (S m)). replace (S k + m) with (k + S m) by lia. replace (S k + m) with (k + S m) in Hk by lia. specialize (IHk Hl Hk).
          destruct (decide (m ∈ ks)) as [H|H].
          + rewrite decide_True by (by right). done.
          + rewrite decide_False by (intros [?|?]%elem_of_cons; [lia|done]). rewrite <- IHk. constructor. }
      specialize (Hg l 0 Ea). rewrite map_id, Nat.add_0_r in Hg. apply Hg. done.
  Qed.
  Lemma wvariant_refl (s : wrule R) : wvariant s s.
  Proof. exists id. split; [done|]. rewrite sub_Var. split; [done|]. rewrite fsub_Var. done. Qed.

  Lemma hook_rev (Hnd : NoDup js) rev ix c' : unfold al ord is_input minf is_one eqr n 0 0 new c = Ok (rev, ix, c') ->
    RuleSpec.aligned wvariant rev (rs ++ [tmp]) /\
    exists t ρ, rev = delete i rs ++ [tmp] ++ [t] /\ wbody t = map (fsub (fun v => Var (ρ v))) (wbody tmp ++ rest).
  Proof.
    intros E. pose proof (hook_program c (le_n _)) as [Hg Hf]. destruct hook_head as [args Eh].
    pose proof (lookup_lt_Some _ _ _ Hr) as Hil.
    assert (Hb : wbody rev_rule !! 0 = Some (Goal (whead tmp))) by done.
    assert (Hfv : forall v k, v ∈ wvars rev_rule -> c <= k -> v <> al k) by (intros v k; apply Hf; left).
    assert (Hld : length (delete i rs) = pred (length rs)) by (rewrite length_delete by (by eexists); lia).
    assert (Hnt : new !! (length rs) = Some tmp).
    { destruct (length rs) as [|m] eqn:El; [lia|]. cbn. apply list_lookup_middle. lia. }
    unfold TransModel.unfold, unfold_by in E. change (new !! 0) with (Some rev_rule) in E. cbn [remove_rule] in E. rewrite (proj2 (Heq _ _) eq_refl) in E. cbn [bind] in E.
    change (wbody rev_rule !! 0) with (Some (Goal (R := R) (whead tmp))) in E. cbv beta iota in E.
    destruct (negb (safe_inline is_input (Goal (R := R) (whead tmp)))); [discriminate|].
    destruct (lookup al ord n ∅ (whead tmp) (p_new new c)) as [[os P']| |] eqn:El; [|done..]. cbn [bind] in E.
    destruct (inline_all al minf is_one n rev_rule 0 os (p_c P')) as [[us c4]| |] eqn:Ea; [|done..]. cbn [bind] in E. injection E as <- <- <-.
    apply (lookup_ok (fun _ => szero) al al Hal ord n ∅ Var (whead tmp)) in El.
    2: { by apply inv_new. }
    2: { by apply acyclic_empty. }
    2: { by apply resolution_empty. }
    2: { intros ? ? ? ?. apply lookup_empty. }
    2: { intros k Hc. split; [|split].
         - intros Hv. apply (Hfv _ k (b_vars rev_rule 0 (whead tmp) Hb _ Hv) Hc). done.
         - apply lookup_empty.
         - intros w t Hw. by rewrite lookup_empty in Hw. }
    2: { rewrite sub_Var, Eh. right. by eexists _, _. }
    cbn [p_rules p_new p_c] in El. destruct El as (Hsort & Hmeet & Hans & _).
    assert (Hone : map (fun o => fst (fst o)) os = [length rs]).
    { assert (Hm : forall k, k ∈ map (fun o : nat * wrule R * store => fst (fst o)) os <-> k = length rs).
      { intros k. rewrite Hmeet. split.
        - intros (s & σ & τ & Hs & _ & E). destruct (decide (k = length rs)) as [|Hne]; [done|]. exfalso.
          assert (Hne' : s <> tmp).
          { intros ->. destruct k as [|k]; cbn in Hs.
            - injection Hs as Hs. assert (whead tmp = whead r) as Hw by (by rewrite <- Hs). rewrite Eh in Hw.
              destruct (Hav r hook_r) as [(a & args' & E' & Hn) _]. rewrite E' in Hw. injection Hw as <- _. done.
            - apply lookup_app_Some in Hs as [Hs|[Hge Hs]].
              + assert (Hin : tmp ∈ rs) by (apply elem_of_list_lookup_2 in Hs; rewrite delete_take_drop in Hs; apply elem_of_app in Hs as [Hs|Hs];
                  [rewrite <- (take_drop i rs)|rewrite <- (take_drop (S i) rs)]; apply elem_of_app; [by left|by right]).
                destruct (Hav tmp Hin) as [(a & args' & E' & Hn) _]. rewrite E' in Eh. injection Eh as -> _. done.
              + apply lookup_lt_Some in Hs. cbn in Hs. lia. }
          eapply (hook_avoids s _ σ τ (elem_of_list_lookup_2 _ _ _ Hs) Hne'); [reflexivity|done].
        - intros ->. exists tmp, Var, Var. split; [done|]. split; [|done]. intros v t Hv. by rewrite lookup_empty in Hv. }
      clear - Hm Hsort. destruct (map _ os) as [|a l].
      - exfalso. apply (not_elem_of_nil (length rs)). by apply Hm.
      - assert (a = length rs) as -> by (apply Hm; left). f_equal. destruct l as [|b l]; [done|]. exfalso.
        assert (b = length rs) as -> by (apply Hm; right; left). apply Sorting.Sorted.StronglySorted_inv in Hsort as [_ Hs]. apply Forall_cons in Hs as [Hs _]. lia. }
    destruct os as [|[[k s'] st] [|? ?]]; [done| |done]. injection Hone as ->. apply Forall_cons in Hans as [Hans _].
    destruct Hans as (s & ρ & Hs & Hρ & -> & Hac & Hnew & _ & Hst). rewrite Hnt in Hs. injection Hs as <-.
    cbn [inline_all] in Ea. destruct (inline al minf is_one n rev_rule 0 (rrename ρ tmp) st (p_c P')) as [[t c5]| |] eqn:Ei; [|done..]. cbn [bind] in Ea.
    injection Ea as <- <-. destruct (acyclic_resolution _ Hac) as [θ Hθ].
    assert (Hst' : forall σ, solves σ st <-> sub σ (whead (rrename ρ tmp)) = sub σ (whead tmp)).
    { intros σ. rewrite Hst. split; [tauto|]. intros H. split; [|done]. intros v u Hv. by rewrite lookup_empty in Hv. }
    destruct (inline_shape al Hal minf is_one rev_rule 0 (whead tmp) new Hb hook_kept n tmp ρ st θ _ t c5 (elem_of_list_lookup_2 _ _ _ Hnt) Hac Hθ Hst' Ei) as (_ & ρ' & -> & Hρ').
    cbn [take drop wbody app whead] in Hρ' |- *. set (t0 := WRule (whead r) (wbody (rrename ρ tmp) ++ rest)) in *.
    change (drop 0 rest) with rest. fold t0.
    (* the old rule, with the picked factors first *)
    set (T0 := WRule (whead r) (wbody tmp ++ rest)).
    assert (Htv : forall v, v ∈ wvars T0 -> v ∈ wvars r).
    { intros v. rewrite !wvars_iff. cbn [whead wbody T0]. rewrite !fvars_elem. intros [Hv|(b & Hb' & Hv)]; [by left|]. apply elem_of_app in Hb' as [Hb'|Hb'].
      - right. rewrite <- fvars_elem. apply hook_tmp_vars, wvars_iff. right. apply fvars_elem. by exists b.
      - right. exists b. split; [by eapply without_elem|done]. }
    assert (Hnot : forall v, v ∈ wvars r -> v ∉ map ρ (wvars tmp)).
    { intros v Hv H. apply elem_of_list_In, in_map_iff in H as (u & <- & Hu). apply elem_of_list_In in Hu.
      destruct (Hnew (ρ u) (s_vars tmp ρ u Hu)) as (k & Ek & Hk). by apply (proj2 Hprog r _ k hook_r Hv Hk). }
    assert (H1 : exists τ, rsub τ (rsub θ t0) = T0).
    { set (τ v := if decide (v ∈ map ρ (wvars tmp)) then Var (inv_on ρ (wvars tmp) v) else Var v).
      assert (T1 : forall v, v ∈ wvars r -> τ v = Var v) by (intros v Hv; apply decide_False; by apply Hnot).
      assert (T2 : forall v, v ∈ wvars tmp -> τ (ρ v) = Var v).
      { intros v Hv. unfold τ. rewrite decide_True by (apply elem_of_list_In, in_map; by apply elem_of_list_In). f_equal.
        apply inv_on_spec; [|by apply elem_of_list_In]. intros a a' Ha Ha'. apply Hρ; by apply elem_of_list_In. }
      assert (Hsτ : solves τ st).
      { apply Hst'. cbn [rrename rsub whead]. rewrite sub_sub. transitivity (sub Var (whead tmp)).
        - apply sub_ext. intros v Hv. cbn. apply T2. apply wvars_iff. by left.
        - apply sub_ext. intros v Hv. symmetry. apply T1. apply wvars_iff. right. apply hook_tmp_vars, wvars_iff. by left. }
      exists τ. assert (Et : forall a, sub τ (sub θ a) = sub τ a) by (by apply (resolution_most_general st)).
      unfold rsub, T0, t0. cbn [whead wbody rrename rsub]. rewrite Et. f_equal.
      - rewrite <- (sub_Var (whead r)) at 2. apply sub_ext. intros v Hv. apply T1, wvars_iff. by left.
      - rewrite !map_app, !map_map. f_equal.
        + rewrite <- (fsub_Var (wbody tmp)) at 2. apply map_ext_in. intros [v|b] Hb'; [done|]. cbn [fsub]. rewrite Et, sub_sub. f_equal. apply sub_ext.
          intros v Hv. cbn. apply T2, wvars_iff. right. apply fvars_elem. exists b. split; [by apply elem_of_list_In|done].
        + rewrite <- (fsub_Var rest) at 2. apply map_ext_in. intros [v|b] Hb'; [done|]. cbn [fsub]. rewrite Et. f_equal. apply sub_ext.
          intros v Hv. apply T1, wvars_iff. right. apply fvars_elem. exists b. split; [|done]. eapply without_elem. by apply elem_of_list_In. }
    assert (H2 : exists σ, rsub σ T0 = rsub θ t0).
    { set (σ v := if decide (In v (fvars rest) \/ In v (vars (whead r))) then θ v else θ (ρ v)).
      assert (Hout : forall v, In v (vars (whead tmp)) -> θ (ρ v) = θ v).
      { assert (E : sub θ (whead (rrename ρ tmp)) = sub θ (whead tmp)) by (apply Hst', Hθ). cbn [rrename rsub whead] in E. rewrite sub_sub in E.
        intros v Hv. exact (sub_ext_inv _ _ _ E v Hv). }
      exists σ. unfold rsub, T0, t0. cbn [whead wbody rrename rsub]. f_equal.
      - apply sub_ext. intros v Hv. apply decide_True. by right.
      - rewrite !map_app, !map_map. f_equal; apply map_ext_in; intros [v|b] Hb'; try done; cbn [fsub]; f_equal.
        + rewrite sub_sub. apply sub_ext. intros v Hv. cbn. unfold σ. case_decide as Hd; [|done]. symmetry. apply Hout.
          destruct Htmp as (out & fs & Et & Hp & _ & Ho). subst tmp. cbn [whead wbody] in *. apply elem_of_list_In in Hb'.
          assert (Hvo : v ∈ out) by (apply Ho; split; [|done]; apply fvars_elem; by exists b). cbn. apply in_flat_map. exists (Var v). split; [|by left].
          apply in_map. by apply elem_of_list_In.
        + apply sub_ext. intros v Hv. apply decide_True. left. apply fvars_elem. exists b. split; [by apply elem_of_list_In|done]. }
    destruct H1 as [τ H1], H2 as [σ H2].
    assert (Hvar : variant (rterm T0) (rterm (rsub θ t0))).
    { apply mutual_instance_variant; [exists σ|exists τ]; rewrite rterm_sub; by rewrite ?H1, ?H2. }
    destruct Hvar as (ρ2 & Hρ2 & E2).
    assert (Eσ : forall v, v ∈ wvars T0 -> σ v = Var (ρ2 v)).
    { rewrite <- H2, <- rterm_sub in E2. unfold rename in E2. intros v Hv. apply (sub_ext_inv _ _ _ E2). rewrite rterm_vars. by apply elem_of_list_In. }
    assert (ET : rsub θ t0 = rrename ρ2 T0).
    { rewrite <- H2. unfold rrename, rsub. f_equal.
      - apply sub_ext. intros v Hv. apply Eσ, wvars_iff. by left.
      - apply fsub_ext. intros v Hv. apply Eσ, wvars_iff. right. by apply elem_of_list_In. }
    assert (Hr2 : rrenames ρ2 T0).
    { intros a a' Ha Ha'. apply Hρ2; rewrite rterm_vars; by apply elem_of_list_In. }
    change (drop 0 rest) with rest in Hρ'. fold t0 in Hρ'. rewrite ET in Hρ' |- *. set (ρ3 v := ρ' (ρ2 v)).
    assert (E3 : rrename ρ' (rrename ρ2 T0) = rrename ρ3 T0).
    { unfold rrename, rsub. cbn [whead wbody]. rewrite sub_sub, fsub_fsub. done. }
    assert (Hr3 : rrenames ρ3 T0).
    { intros a a' Ha Ha' E. apply Hr2; [done..|]. apply Hρ'; [by apply s_vars..|done]. }
    rewrite E3. split.
    - exists (delete i rs ++ [tmp] ++ [r]). split.
      + rewrite <- (take_drop_middle rs i r Hr) at 1. rewrite delete_take_drop. solve_Permutation.
      + rewrite <- app_assoc. apply Forall2_app; [|constructor; [apply wvariant_refl|constructor; [|constructor]]].
        * clear. induction (delete i rs); constructor; [apply wvariant_refl|done].
        * exists (inv_on ρ3 (wvars T0)). 
          assert (Hinv : forall v, v ∈ wvars T0 -> inv_on ρ3 (wvars T0) (ρ3 v) = v).
          { intros v Hv. apply inv_on_spec; [|by apply elem_of_list_In]. intros a a' Ha Ha'. apply Hr3; by apply elem_of_list_In. }
          split; [|split].
          -- assert (Hx : forall v, v ∈ wvars (rrename ρ3 T0) -> exists u, u ∈ wvars T0 /\ v = ρ3 u).
             { intros v. rewrite wvars_iff, fvars_elem. cbn [whead wbody rrename rsub]. intros [Hv|(b & Hb' & Hv)].
               - apply vars_sub in Hv as (u & Hu & [<-|[]]). exists u. split; [apply wvars_iff; by left|done].
               - apply elem_of_list_In, in_map_iff in Hb' as ([?|b0] & E & Hb'); [done|]. injection E as <-. apply vars_sub in Hv as (u & Hu & [<-|[]]).
                 exists u. split; [|done]. apply wvars_iff. right. apply fvars_elem. exists b0. split; [by apply elem_of_list_In|done]. }
             intros v w Hv Hw E. destruct (Hx v Hv) as (u & Hu & ->), (Hx w Hw) as (u' & Hu' & ->). rewrite !Hinv in E by done. by subst.
          -- cbn [whead rrename rsub snd]. rewrite sub_sub. change (whead r) with (whead T0) at 1. rewrite <- (sub_Var (whead T0)) at 1. apply sub_ext.
             intros v Hv. cbn. rewrite Hinv; [done|]. apply wvars_iff. by left.
          -- cbn [wbody rrename rsub snd]. rewrite fsub_fsub. transitivity (wbody T0).
             ++ destruct Htmp as (out & fs & Et & Hp & _). cbn [wbody T0]. rewrite Et. cbn [wbody]. symmetry. by apply pick_without.
             ++ rewrite <- (fsub_Var (wbody T0)) at 1. apply reflexive_eq. apply fsub_ext. intros v Hv. cbn. rewrite Hinv; [done|].
                apply wvars_iff. right. by apply elem_of_list_In.
    - eexists _, ρ3. split; [by rewrite <- app_assoc|]. done.
  Qed.
  End hook.

  Lemma plain_avoids (rs : list (wrule R)) g : plain rs -> gname (S g) ∉ wsyms rs -> forall s, s ∈ rs -> avoids (gname (S g)) s.
  Proof.
    intros Hp Hn s Hs. apply (named_avoids _ _ _ (plain_named rs Hp s 0 Hs)). intros [?|(j & Hj & _)]; [done|lia].
  Qed.
  Lemma wsyms_elem (rs : list (wrule R)) f : f ∈ wsyms rs <-> exists s, s ∈ rs /\ (f ∈ fn_name (whead s) \/ exists b, Goal b ∈ wbody s /\ f ∈ fn_name b).
  Proof.
    unfold wsyms. rewrite elem_of_list_In, in_flat_map. split; intros (s & Hs & H); exists s; (split; [by apply elem_of_list_In|]).
    - apply in_app_iff in H as [H|H]; [left; by apply elem_of_list_In|]. apply in_flat_map in H as (b & Hb & H). right. exists b.
      split; [by apply elem_of_goals, elem_of_list_In|by apply elem_of_list_In].
    - apply in_app_iff. destruct H as [H|(b & Hb & H)]; [left; by apply elem_of_list_In|]. right. apply in_flat_map. exists b.
      split; [by apply elem_of_list_In, elem_of_goals|by apply elem_of_list_In].
  Qed.
  (** what the new program looks like *)
  Definition hook_result (i : nat) (js : list nat) (rs : list (wrule R)) (g : nat) (rs' : list (wrule R)) : Prop :=
    exists r tmp, rs !! i = Some r /\ hooked r js (gname (S g)) tmp /\
      rs' = WRule (whead r) (Goal (whead tmp) :: without js (wbody r) 0) :: delete i rs ++ [tmp].
  Lemma hook_result_in i js rs g rs' s : hook_result i js rs g rs' -> s ∈ rs' -> s ∈ rs \/
    exists r fs args, r ∈ rs /\ (forall f, f ∈ fs -> f ∈ wbody r) /\
      ((whead s = whead r /\ wbody s = Goal (Fn (Cst (CStr (gname (S g))) :: args)) :: fs) \/ (whead s = Fn (Cst (CStr (gname (S g))) :: args) /\ wbody s = fs)).
  Proof.
    intros (r & tmp & Hr & Ht & ->) Hs. pose proof (elem_of_list_lookup_2 _ _ _ Hr) as Hri. destruct (hook_head js r tmp _ Ht) as [args Eh].
    apply (hook_in i js rs r tmp) in Hs as [->|[->|Hs]]; [right|right|by left].
    - exists r, (without js (wbody r) 0), args. split; [done|]. split; [intros f; apply without_elem|]. left. cbn [whead wbody]. by rewrite Eh.
    - destruct Ht as (out & fs & -> & Hp & _). exists r, fs, args. split; [done|]. split; [intros f; by eapply pick_elem|]. right. done.
  Qed.
  Lemma hook_result_plain i js rs g rs' : hook_result i js rs g rs' -> plain rs -> plain rs'.
  Proof.
    intros H Hp s Hs. destruct (hook_result_in _ _ _ _ _ _ H Hs) as [Hs'|(r & fs & args & Hr & Hfs & [[E1 E2]|[E1 E2]])]; [by apply Hp|..].
    - rewrite E1. split; [by apply Hp|]. intros b Hb. apply elem_of_goals in Hb. rewrite E2 in Hb. apply elem_of_cons in Hb as [[= ->]|Hb].
      + right; right. by eexists _, _.
      + apply (Hp r Hr). apply elem_of_goals. by apply Hfs.
    - rewrite E1. split; [by eexists _, _|]. intros b Hb. apply elem_of_goals in Hb. rewrite E2 in Hb. apply (Hp r Hr). apply elem_of_goals. by apply Hfs.
  Qed.
  Lemma hook_result_syms i js rs g rs' f : hook_result i js rs g rs' -> f ∈ wsyms rs' -> f ∈ wsyms rs \/ f = gname (S g).
  Proof.
    intros H. rewrite !wsyms_elem. intros (s & Hs & Hf). destruct (hook_result_in _ _ _ _ _ _ H Hs) as [Hs'|(r & fs & args & Hr & Hfs & [[E1 E2]|[E1 E2]])].
    - left. by exists s.
    - rewrite E1, E2 in Hf. destruct Hf as [Hf|(b & Hb & Hf)]; [left; exists r; tauto|]. apply elem_of_cons in Hb as [[= ->]|Hb].
      + right. cbn in Hf. by apply elem_of_list_singleton in Hf.
      + left. exists r. split; [done|]. right. exists b. split; [by apply Hfs|done].
    - rewrite E1, E2 in Hf. destruct Hf as [Hf|(b & Hb & Hf)]; [right; cbn in Hf; by apply elem_of_list_singleton in Hf|].
      left. exists r. split; [done|]. right. exists b. split; [by apply Hfs|done].
  Qed.

  Lemma hook_ok n i js (rs : list (wrule R)) g c rs' g' c' (base : term -> Prop) :
    plain rs -> program al c rs -> js <> [] -> (forall x, base x -> ~ has_fn (gname (S g)) x) ->
    hook al ord is_input minf is_one eqr eqp n i js rs g c = Ok (rs', g', c') ->
    g' = S g /\ c <= c' /\ program al c' rs' /\ hook_result i js rs g rs' /\
    same_meaning (wderives True rs base) (fun d => wderives True rs' base d /\ forall x, wroot d = Goal x -> ~ has_fn (gname (S g)) x).
  Proof.
    intros Hp Hprog Hjs Hbase E. unfold hook in E. destruct (rs !! i) as [r|] eqn:Hr; [|done].
    destruct (prog_gen_functor (wsyms rs) "$gen" g) as [[name g1]| |] eqn:Eg; [|done..]. cbn [bind] in E. apply gen_ok in Eg as (-> & -> & Hsy & _).
    destruct (loop_absorption n r js (gname (S g))) as [tmp| |] eqn:Et; [|done..]. cbn [bind] in E. apply loop_ok in Et.
    destruct (basic_fold _ _ _ _ _ _ _ _ _ _ _ _ _) as [[new c1]| |] eqn:Eb; [|done..]. cbn [bind] in E. injection E as <- <- <-.
    pose proof (plain_avoids rs g Hp Hsy) as Hav.
    assert (Hc : c <= c1).
    { unfold basic_fold, TransModel.fold, minus in Eb. destruct (forallb _ [i]); [|done]. cbn [bind] in Eb.
      destruct (unfold _ _ _ _ _ _ _ _ _ _ _) as [[[rev ix] c2]| |] eqn:Eu; [|done..]. cbn [bind] in Eb. destruct (eqp rev (rs ++ [tmp])); [|done]. injection Eb as <- <-.
      assert (Ew : without [i] (rs ++ [tmp]) 0 = delete i rs ++ [tmp]) by (rewrite <- (hook_del i rs r tmp Hr); exact (without_delete i _ 0)).
      rewrite Ew in Eu. destruct (hook_head js r tmp _ Et) as [args Eh]. pose proof (hook_program i js rs c r tmp _ Hr Et Hjs Hprog c (le_n _)) as [Hg Hf].
      eapply unfold_c in Eu; [done|done|reflexivity|reflexivity|rewrite Eh; right; by eexists _, _|]. intros v k. apply Hf. left. }
    destruct (hook_fold n i js rs c r tmp _ Hr Et Hjs Hprog Hav base new c1 Hbase Eb) as [-> Hm].
    split; [done|]. split; [done|]. split; [by apply (hook_program i js rs c r tmp (gname (S g)))|]. split; [|done]. by exists r, tmp.
  Qed.

  (** hook returns *)
  Definition no_values (rs : list (wrule R)) : Prop := forall r v, r ∈ rs -> Goal (Var v) ∉ wbody r.
  Context (Heqp' : forall P Q, no_values P -> no_values Q -> RuleSpec.aligned wvariant P Q -> eqp P Q = true).

  Lemma pick_returns {A} (l : list A) js : (forall j, j ∈ js -> j < length l) -> exists fs, pick l js = Ok fs.
  Proof.
    induction js as [|j js IH]; intros H; [by exists []|]. cbn [pick]. destruct (lookup_lt_is_Some_2 l j) as [a ->]; [apply H; left|].
    destruct IH as [fs ->]; [intros k Hk; apply H; by right|]. by eexists.
  Qed.
  Lemma loop_settles (r : wrule R) js name : (forall j, j ∈ js -> j < length (wbody r)) -> exists tmp, settles (fun n => loop_absorption n r js name) tmp.
  Proof.
    intros H. destruct (pick_returns (wbody r) js H) as [fs Ep]. unfold loop_absorption. rewrite Ep. cbn [bind].
    eexists. eapply settles_bind; [apply (term_vars_settles ∅ Var); [apply acyclic_empty|apply resolution_empty]|].
    eapply settles_bind; [apply (term_vars_settles ∅ Var); [apply acyclic_empty|apply resolution_empty]|].
    eapply settles_bind; [apply (term_vars_settles ∅ Var); [apply acyclic_empty|apply resolution_empty]|].
    eapply settles_bind; [apply (term_vars_settles ∅ Var); [apply acyclic_empty|apply resolution_empty]|]. by exists 0.
  Qed.

  Lemma hook_settles i js (rs : list (wrule R)) g c r :
    plain rs -> no_values rs -> program al c rs -> rs !! i = Some r -> js <> [] -> NoDup js -> (forall j, j ∈ js -> j < length (wbody r)) ->
    gname (S g) ∉ wsyms rs -> (forall args, is_input (Fn (Cst (CStr (gname (S g))) :: args)) = false) ->
    exists o, settles (fun n => hook al ord is_input minf is_one eqr eqp n i js rs g c) o.
  Proof.
    intros Hp Hnv Hprog Hr Hjs Hnd Hrange Hsy Hin. unfold hook. rewrite Hr.
    assert (Eg : prog_gen_functor (wsyms rs) "$gen" g = Ok (gname (S g), S g)).
    { unfold prog_gen_functor. rewrite (surjective_pairing (gen_functor "$gen" g)). rewrite decide_False; [done|]. exact Hsy. }
    rewrite Eg. cbn [bind]. destruct (loop_settles r js (gname (S g)) Hrange) as [tmp Htmp].
    assert (Ht : hooked r js (gname (S g)) tmp) by (destruct Htmp as [n0 Htmp]; eapply loop_ok; apply (Htmp n0); lia).
    pose proof (plain_avoids rs g Hp Hsy) as Hav.
    set (rev_rule := WRule (whead r) (Goal (whead tmp) :: without js (wbody r) 0)).
    assert (Ew : without [i] (rs ++ [tmp]) 0 = delete i rs ++ [tmp]) by (rewrite <- (hook_del i rs r tmp Hr); exact (without_delete i _ 0)).
    assert (Hres : hook_result i js rs g (rev_rule :: delete i rs ++ [tmp])) by (exists r, tmp; done).
    pose proof (hook_result_plain _ _ _ _ _ Hres Hp) as Hp'.
    destruct (hook_head js r tmp _ Ht) as [args Eh]. pose proof (hook_program i js rs c r tmp _ Hr Ht Hjs Hprog c (le_n _)) as [Hg Hf].
    destruct (unfold_settles al Hal minf is_one ord is_input eqr Heq 0 0 (rev_rule :: delete i rs ++ [tmp]) c rev_rule (whead tmp)) as [[[rev ix] c2] Hu]; try done.
    { rewrite Eh. right. by eexists _, _. }
    { intros s Hs Hn. destruct (proj2 (Hp' s Hs) _ Hn) as [[? ?]|[[? ?]|(? & ? & ?)]]; done. }
    { intros v k. apply Hf. left. }
    { rewrite Eh. apply Hin. }
    assert (Hev : RuleSpec.aligned wvariant rev (rs ++ [tmp]) /\
      exists t ρ, rev = delete i rs ++ [tmp] ++ [t] /\ wbody t = map (fsub (fun v => Var (ρ v))) (wbody tmp ++ without js (wbody r) 0)).
    { destruct Hu as [n0 Hu]. eapply (hook_rev n0 i js rs c r tmp _ Hr Ht Hjs Hprog Hav Hnd). apply (Hu n0). lia. }
    destruct Hev as [Hal' (t & ρ & Erev & Etb)].
    assert (Htmpv : forall v, Goal (Var v) ∉ wbody tmp).
    { intros v Hv. destruct Ht as (out & fs & -> & Hpk & _). cbn [wbody] in Hv. eapply pick_elem in Hv; [|exact Hpk]. by apply (Hnv r v (elem_of_list_lookup_2 _ _ _ Hr)). }
    assert (He : eqp rev (rs ++ [tmp]) = true).
    { apply Heqp'; [| |done].
      - intros s v Hs. rewrite Erev in Hs. rewrite !elem_of_app, !elem_of_list_singleton in Hs. destruct Hs as [Hs|[->| ->]]; [|apply Htmpv|].
        + apply Hnv. rewrite delete_take_drop in Hs. apply elem_of_app in Hs as [Hs|Hs]; [rewrite <- (take_drop i rs)|rewrite <- (take_drop (S i) rs)]; apply elem_of_app; [by left|by right].
        + rewrite Etb. intros Hv. apply elem_of_list_In, in_map_iff in Hv as ([?|[u| |]] & E & Hv); try discriminate. apply elem_of_list_In, elem_of_app in Hv as [Hv|Hv].
          * by apply Htmpv in Hv.
          * apply without_elem in Hv. by apply (Hnv r u (elem_of_list_lookup_2 _ _ _ Hr)).
      - intros s v. rewrite elem_of_app, elem_of_list_singleton. intros [Hs| ->]; [by apply Hnv|apply Htmpv]. }
    eexists. eapply settles_bind; [exact Htmp|]. unfold basic_fold, TransModel.fold, minus.
    assert (Hfb : forallb (fun i0 => i0 <? length (rs ++ [tmp])) [i] = true).
    { cbn. rewrite andb_true_r. apply Nat.ltb_lt. rewrite app_length. apply lookup_lt_Some in Hr. lia. }
    rewrite Hfb, Ew. cbn [bind]. fold rev_rule.
    eapply settles_bind; [eapply settles_bind; [exact Hu|]; cbv beta iota; rewrite He; apply settles_ret|apply settles_ret].
  Qed.

  (** * binarize *)
  Lemma without_seq {A} (a : A) l k m : m >= length l -> without (seq (S k) m) (a :: l) k = [a].
  Proof.
    intros Hm. cbn [without]. rewrite decide_False by (rewrite elem_of_seq; lia). f_equal.
    assert (H : forall l p, k < p -> p + length l <= S k + m -> without (seq (S k) m) l p = (@nil A)).
    { clear. intros l. induction l as [|b l IH]; intros p Hp Hl; [done|]. cbn [without]. cbn in Hl. rewrite decide_True by (apply elem_of_seq; lia). apply IH; lia. }
    apply H; lia.
  Qed.

  Lemma hook_shape i K (rs : list (wrule R)) g rs' r : rs !! i = Some r -> length (wbody r) = K -> 2 < K -> hook_result i (seq 1 (K - 1)) rs g rs' ->
    exists rev tmp, rs' = rev :: delete i rs ++ [tmp] /\ length (wbody rev) = 2 /\ length (wbody tmp) = K - 1.
  Proof.
    intros Hr HK H2 (r' & tmp & Hr' & (out & fs & -> & Hp & _) & ->). rewrite Hr in Hr'. injection Hr' as <-. eexists _, _. split; [done|]. split.
    - cbn [wbody]. destruct (wbody r) as [|f l] eqn:Eb; [cbn in HK; lia|]. rewrite (without_seq f l 0); [done|]. cbn in HK. lia.
    - cbn [wbody]. apply pick_length in Hp. by rewrite Hp, seq_length.
  Qed.
  Lemma hook_drop i (rs : list (wrule R)) r rev tmp : rs !! i = Some r ->
    take (S i) (rev :: delete i rs ++ [tmp]) = rev :: take i rs /\ drop (S i) (rev :: delete i rs ++ [tmp]) = drop (S i) rs ++ [tmp].
  Proof.
    intros Hr. pose proof (lookup_lt_Some _ _ _ Hr) as Hl. rewrite delete_take_drop, <- app_assoc. cbn [take drop].
    assert (Ht : length (take i rs) = i) by (apply take_length_le; lia). split.
    - f_equal. rewrite <- Ht at 1. by rewrite take_app.
    - rewrite <- Ht at 1. by rewrite drop_app.
  Qed.

  Lemma binarize_from_ok m n : forall i (rs : list (wrule R)) g c rs' g' c' (base : term -> Prop),
    plain rs -> program al c rs -> (forall x j, base x -> g < j -> ~ has_fn (gname j) x) ->
    (forall s, s ∈ take i rs -> length (wbody s) <= 2) ->
    binarize_from al ord is_input minf is_one eqr eqp m n i rs g c = Ok (rs', g', c') ->
    g <= g' /\ (forall s, s ∈ rs' -> length (wbody s) <= 2) /\
    same_meaning (wderives True rs base) (fun d => wderives True rs' base d /\ forall x, wroot d = Goal x -> forall j, g < j <= g' -> ~ has_fn (gname j) x).
  Proof.
    induction m as [|m IH]; intros i rs g c rs' g' c' base Hp Hprog Hbase Hle E; [done|]. cbn [binarize_from] in E.
    destruct (rs !! i) as [r|] eqn:Hr.
    - destruct (2 <? length (wbody r)) eqn:EK.
      + apply Nat.ltb_lt in EK.
        destruct (hook al ord is_input minf is_one eqr eqp n i (seq 1 (length (wbody r) - 1)) rs g c) as [[[rs1 g1] c1]| |] eqn:Eh; [|done..]. cbn [bind] in E.
        apply (hook_ok _ _ _ _ _ _ _ _ _ base) in Eh as (-> & Hc & Hprog1 & Hres & Hm); [|done|done| |intros x Hx; apply Hbase; [done|lia]].
        2: { destruct (length (wbody r)) as [|[|K]]; [lia|lia|]. done. }
        destruct (hook_shape i _ rs g rs1 r Hr eq_refl EK Hres) as (rev & tmp & -> & L1 & L2).
        destruct (hook_drop i rs r rev tmp Hr) as [Et Ed].
        apply (IH _ _ _ _ _ _ _ base) in E as (Hg & Hsz & Hm').
        * split; [lia|]. split; [done|]. eapply same_meaning_trans; [exact Hm|].
          apply (same_meaning_root _ _ (fun f => forall x, f = Goal x -> ~ has_fn (gname (S g)) x)) in Hm'.
          refine (same_meaning_iff _ _ _ _ (fun d => iff_refl _) _ Hm'). intros d. split.
          -- intros [[Hd H1] H2]. split; [done|]. intros x Ex j Hj. destruct (decide (j = S g)) as [->|]; [by apply H2|]. apply H1; [done|lia].
          -- intros [Hd H1]. split; [split; [done|]|]; intros x Ex; [intros j Hj; apply H1; [done|lia]|]. apply H1; [done|lia].
        * by eapply hook_result_plain.
        * done.
        * intros x j Hx Hj. apply Hbase; [done|lia].
        * rewrite Et. intros s [->|Hs]%elem_of_cons; [lia|]. by apply Hle.
      + cbn [bind] in E. apply Nat.ltb_ge in EK. apply (IH _ _ _ _ _ _ _ base) in E; [done..|].
        intros s Hs. rewrite (take_S_r rs i r Hr) in Hs. apply elem_of_app in Hs as [Hs| ->%elem_of_list_singleton]; [by apply Hle|done].
    - injection E as <- <- <-. split; [done|]. split.
      + intros s Hs. apply Hle. rewrite take_ge; [done|]. by apply lookup_ge_None.
      + refine (same_meaning_iff _ _ _ _ (fun d => iff_refl _) _ (same_meaning_refl _)). intros d. split; [|by intros []].
        intros Hd. split; [done|]. intros x _ j Hj. lia.
  Qed.

  Lemma binarize_from_more n m : forall i (rs : list (wrule R)) g c o m',
    binarize_from al ord is_input minf is_one eqr eqp m n i rs g c = Ok o -> m <= m' ->
    binarize_from al ord is_input minf is_one eqr eqp m' n i rs g c = Ok o.
  Proof.
    induction m as [|m IH]; intros i rs g c o [|m'] E Hm; [done|done|lia|]. cbn [binarize_from] in E |- *.
    destruct (rs !! i) as [r|]; [|done].
    destruct (if 2 <? length (wbody r) then _ else _) as [[[rs1 g1] c1]| |]; [|done..]. cbn [bind] in E |- *. eapply IH; [exact E|lia].
  Qed.

  Definition todo (l : list (wrule R)) : nat := list_sum (map (fun s => S (length (wbody s))) l).
  Lemma todo_app l l' : todo (l ++ l') = todo l + todo l'.
  Proof. unfold todo. by rewrite map_app, list_sum_app. Qed.
  Lemma binarize_from_settles m : forall i (rs : list (wrule R)) g c,
    todo (drop i rs) < m -> plain rs -> no_values rs -> program al c rs -> (forall j, g < j -> gname j ∉ wsyms rs) ->
    (forall j args, g < j -> is_input (Fn (Cst (CStr (gname j)) :: args)) = false) ->
    exists o, forall m', m <= m' -> settles (fun n => binarize_from al ord is_input minf is_one eqr eqp m' n i rs g c) o.
  Proof.
    induction m as [|m IH]; intros i rs g c Hm Hp Hnv Hprog Hsy Hin; [lia|].
    destruct (rs !! i) as [r|] eqn:Hr.
    - assert (Hd : drop i rs = r :: drop (S i) rs) by (by apply drop_S).
      rewrite Hd in Hm. change (todo (r :: drop (S i) rs)) with (S (length (wbody r)) + todo (drop (S i) rs)) in Hm.
      destruct (2 <? length (wbody r)) eqn:EK.
      + apply Nat.ltb_lt in EK.
        assert (Hjs : seq 1 (length (wbody r) - 1) <> []) by (destruct (length (wbody r)) as [|[|K]]; [lia|lia|]; done).
        destruct (hook_settles i (seq 1 (length (wbody r) - 1)) rs g c r) as [[[rs1 g1] c1] Hh]; try done.
        { apply NoDup_seq. } { intros j Hj%elem_of_seq. lia. } { apply Hsy. lia. } { intros args. apply Hin. lia. }
        assert (Hok : g1 = S g /\ c <= c1 /\ program al c1 rs1 /\ hook_result i (seq 1 (length (wbody r) - 1)) rs g rs1).
        { destruct Hh as [n0 Hh]. specialize (Hh n0 (le_n _)). eapply (hook_ok _ _ _ _ _ _ _ _ _ (fun _ => False)) in Hh as (H1 & H2 & H3 & H4 & _); done. }
        destruct Hok as (-> & Hc & Hprog1 & Hres). destruct (hook_shape i _ rs g rs1 r Hr eq_refl EK Hres) as (rev & tmp & E1 & L1 & L2).
        destruct (hook_drop i rs r rev tmp Hr) as [_ Ed].
        destruct (IH (S i) rs1 (S g) c1) as [o Ho].
        * rewrite E1, Ed, todo_app. change (todo [tmp]) with (S (length (wbody tmp)) + 0). lia.
        * by eapply hook_result_plain.
        * intros s v Hs Hv. destruct (hook_result_in _ _ _ _ _ _ Hres Hs) as [Hs'|(r0 & fs & args & Hr0 & Hfs & [[_ E2]|[_ E2]])].
          -- by apply (Hnv s v).
          -- rewrite E2 in Hv. apply elem_of_cons in Hv as [?|Hv]; [done|]. apply (Hnv r0 v Hr0). by apply Hfs.
          -- rewrite E2 in Hv. apply (Hnv r0 v Hr0). by apply Hfs.
        * done.
        * intros j Hj Hf. apply (hook_result_syms _ _ _ _ _ _ Hres) in Hf as [Hf|Hf]; [apply (Hsy j); [lia|done]|]. apply gname_inj in Hf; lia.
        * intros j args Hj. apply Hin. lia.
        * exists o. intros [|m'] Hm'; [lia|]. cbn [binarize_from]. rewrite Hr. rewrite (proj2 (Nat.ltb_lt 2 (length (wbody r))) EK).
          eapply settles_bind; [exact Hh|]. cbv beta iota. apply Ho. lia.
      + destruct (IH (S i) rs g c) as [o Ho]; [lia|done..|]. exists o. intros [|m'] Hm'; [lia|]. cbn [binarize_from]. rewrite Hr, EK. cbn [bind]. apply Ho. lia.
    - eexists. intros [|m'] Hm'; [lia|]. cbn [binarize_from]. rewrite Hr. by exists 0.
  Qed.
End fold.
