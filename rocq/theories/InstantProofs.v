(** Proofs about groundings. *)
From Coq Require Import List Lia ZArith.
From stdpp Require Import gmap.
From Coq Require String Ascii.
From Verif Require Import PyBase Semiring TermModel TermSpec TermProofs UnifyProofs SetsModel SetsSpec SetsProofs FuelProofs
  CoverProofs PruneModel ProgSpec PruneSpec PruneProofs ProgProofs ChartProofs SolverSpec SolverProofs UpdateProofs UnfoldProofs
  UpdateSpec Solver2Spec Solver2Proofs SlashSpec CoarseProofs TypesModel SpecialModel SpecialSpec SpecialProofs InstantModel InstantSpec.
Import String.StringSyntax Ascii.AsciiSyntax.

Section instant.
Context (cmpf : String.string -> term -> term -> res bool)
  (is_run : nat -> store -> term -> term -> res (list store)) (is_true : term -> term -> bool) (al : nat -> nat).
Context (His : is_exact is_true is_run) (Hal : forall i j, al i = al j -> i = j).
Context (W : nat -> Prop) (c0 : nat) (HW : forall j, c0 <= j -> ~ W (al j)).
Notation gtrue := (gtrue cmpf is_true).

Lemma copies_ok n D r c rs c' : hd_ok W D -> fr al W c0 c (rvars r) -> Forall goal_ok (rbody r) ->
  (let* (sts, c) := join_heads cmpf is_run al n ∅ (rbody r) [] D c in mapSM (fun st c => fresh_at al n st r c) sts c) = Ok (rs, c') ->
  c <= c' /\ (forall r' x ys, r' ∈ rs -> ground_inst r' x ys -> ground_inst r x ys) /\
  (forall r', r' ∈ rs -> exists σ, rbody r' = map (sub σ) (rbody r) /\ rhead r' = sub σ (rhead r)) /\
  forall x ys, ground_inst r x ys -> Forall gtrue ys -> num (fun r' => ground_inst r' x ys) rs (gprod D ys).
Proof.
  intros HD Hf Hgo E.
  destruct (join_heads _ _ _ n ∅ (rbody r) [] D c) as [[sts c1]| |] eqn:Ej; [|done..]. cbn [bind] in E.
  set (V := rvars r).
  assert (HVb : Forall (in_V V) (rbody r)).
  { apply Forall_forall. intros b Hb v Hv. apply rvars_in. unfold enc. cbn [vars]. apply in_flat_map. exists b. split; [right; by apply elem_of_list_In|done]. }
  destruct (join_heads_ok cmpf is_run is_true al His Hal W c0 HW n [] D HD _ V ∅ c sts c1 (okst_nil V) Hf HVb Hgo Ej) as (Hc1 & Hsts & Hnum). clear Ej.
  assert (Hcop : c1 <= c' /\ Forall2 (fun e r' => exists θ, resolution e θ /\ variant (sub θ (enc r)) (enc r') /\ exists σ, rbody r' = map (sub σ) (rbody r) /\ rhead r' = sub σ (rhead r)) sts rs).
  { assert (Hok : forall e, e ∈ sts -> acyclic e) by (intros e He; destruct (Hsts e He) as (V' & _ & Hk & _); apply Hk).
    clear Hsts Hnum Hf HVb Hgo Hc1. revert c1 rs c' E. induction sts as [|e sts IH]; intros c1 rs c' E; cbn [mapSM] in E.
    { injection E as <- <-. split; [done|constructor]. }
    unfold fresh_at in E at 1. destruct (fresh al n e c1 (enc r)) as [[t c2]| |] eqn:Ef; [|done..]. cbn [bind] in E.
    destruct (mapSM _ sts c2) as [[rs' c3]| |] eqn:Em; [|done..]. cbn [bind] in E. injection E as <- <-.
    destruct (IH (fun e' He' => Hok e' (elem_of_list_further _ _ _ He')) _ _ _ Em) as [Hc3 HF].
    assert (Hacy : acyclic e) by (apply Hok; left). destruct (acyclic_resolution _ Hacy) as [θ Hθ].
    apply (fresh_ok e θ Hacy Hθ al Hal) in Ef as (ρ & -> & Hc & Hρ & _). split; [lia|]. constructor; [|done].
    exists θ. split; [done|]. split; [by exists ρ|]. exists (fun v => rename ρ (θ v)). unfold enc. cbn.
    split; [|unfold rename; by rewrite sub_sub]. rewrite map_map. apply map_ext. intros b. unfold rename. by rewrite sub_sub. }
  destruct Hcop as [Hc' HF].
  assert (Hiff : forall σ, groundsub σ -> forall e r', e ∈ sts ->
    (exists θ, resolution e θ /\ variant (sub θ (enc r)) (enc r') /\ exists σ, rbody r' = map (sub σ) (rbody r) /\ rhead r' = sub σ (rhead r)) ->
    (admits V σ e <-> ground_inst r' (sub σ (rhead r)) (map (sub σ) (rbody r)))).
  { intros σ Hg e r' He (θ & Hθ & Hv & _). rewrite ground_inst_enc.
    change (Fn (sub σ (rhead r) :: map (sub σ) (rbody r))) with (sub σ (enc r)).
    rewrite <- (variant_stands _ _ _ Hv).
    assert (Hacy : acyclic e) by (destruct (Hsts e He) as (V' & _ & Hk & _); apply Hk). rewrite (heap_stands e θ _ _ Hacy Hθ). split.
    - intros (τ & Hgτ & Hag & Hs). exists τ. split; [done|]. split; [done|]. apply sub_ext. intros v Hv'. apply Hag. by apply rvars_in.
    - intros (τ & Hgτ & Hs & Eq). exists τ. split; [done|]. split; [|done]. intros v Hv'. apply (sub_ext_inv τ σ (enc r)); [done|]. by apply rvars_in. }
  split; [lia|]. split; [|split].
  - intros r' x ys Hr' Hi. apply elem_of_list_lookup in Hr' as (k & Hk). destruct (Forall2_lookup_r _ _ _ _ _ HF Hk) as (e & He & θ & Hθ & Hv & _).
    apply ground_inst_enc. apply ground_inst_enc in Hi. apply (variant_stands _ _ _ Hv) in Hi.
    destruct Hi as [Hg Hi]. split; [done|]. eapply instance_of_trans; [|exact Hi]. by exists θ.
  - intros r' Hr'. apply elem_of_list_lookup in Hr' as (k & Hk). by destruct (Forall2_lookup_r _ _ _ _ _ HF Hk) as (e & He & θ & _ & _ & Hb).
  - intros x ys (σ & Hg & <- & <-) Ht. destruct (Hnum σ Hg) as (k & Hk & Ek & _); [intros v t E'; by rewrite lookup_empty in E'|done|].
    specialize (Ek eq_refl). rewrite <- Ek. specialize (Hiff σ Hg).
    clear -Hk HF Hiff. revert rs HF. induction Hk as [|e l k He Hk IH|e l k He Hk IH]; intros rs HF; inversion HF as [|? r' ? rs' Hr HF']; subst; [constructor| |].
    + apply num_yes; [apply (Hiff e r'); [left|done..]|]. apply IH; [|done]. intros e' r'' He'. apply Hiff. by right.
    + apply num_no; [intros Hi; apply He; apply (Hiff e r'); [left|done..]|]. apply IH; [|done]. intros e' r'' He'. apply Hiff. by right.
Qed.

Lemma ground_rule_ok n D r c rs c' : hd_ok W D -> (forall v j, W v -> c0 <= j -> v <> al j) -> c0 <= c -> Forall goal_ok (rbody r) ->
  ground_rule cmpf is_run al n D r c = Ok (rs, c') ->
  c <= c' /\ (forall r' x ys, r' ∈ rs -> ground_inst r' x ys -> ground_inst r x ys) /\
  (forall r', r' ∈ rs -> exists σ, rbody r' = map (sub σ) (rbody r) /\ rhead r' = sub σ (rhead r)) /\
  forall x ys, ground_inst r x ys -> Forall gtrue ys -> num (fun r' => ground_inst r' x ys) rs (gprod D ys).
Proof.
  intros HD HWa Hc Hgo E. unfold ground_rule in E. unfold fresh_at in E at 1.
  destruct (fresh al n ∅ c (enc r)) as [[t c1]| |] eqn:Ef; [|done..]. cbn [bind] in E.
  apply (fresh_ok ∅ Var acyclic_empty resolution_empty al Hal) in Ef as (ρ & -> & Hc1 & Hρ & Hv). rewrite sub_Var in *.
  set (r1 := dec (rename ρ (enc r))) in *.
  assert (Er : enc r1 = rename ρ (enc r)) by done.
  assert (Hvar : variant (enc r) (enc r1)) by (rewrite Er; by exists ρ).
  assert (Hgi : forall x ys, ground_inst r x ys <-> ground_inst r1 x ys) by (intros x ys; rewrite !ground_inst_enc; by apply variant_stands).
  assert (Hb1 : rbody r1 = map (sub (fun v => Var (ρ v))) (rbody r) /\ rhead r1 = sub (fun v => Var (ρ v)) (rhead r)) by done.
  destruct (copies_ok n D r1 c1 rs c') as (H1 & H2 & H3 & H4); [done| | |exact E|].
  - split; [lia|]. split.
    + intros j Hj Hin. apply rvars_in in Hin. rewrite Er, vars_rename in Hin. apply in_map_iff in Hin as (w & Ew & Hw).
      destruct (Hv w Hw) as (i & Ei & Hi). rewrite Ei in Ew. apply Hal in Ew. lia.
    + intros v HWv Hin. apply rvars_in in Hin. rewrite Er, vars_rename in Hin. apply in_map_iff in Hin as (w & Ew & Hw).
      destruct (Hv w Hw) as (i & Ei & Hi). apply (HWa v i HWv); [lia|]. by rewrite <- Ei.
  - destruct Hb1 as [-> _]. rewrite Forall_map. eapply Forall_impl; [exact Hgo|]. intros b [Hp Hn]. split; [by apply proper_rename|].
    intros v. destruct b as [w|k|l]; [by destruct (Hn w)|done|done].
  - split; [lia|]. split; [|split].
    + intros r' x ys Hr' Hi. apply Hgi. by apply (H2 r').
    + intros r' Hr'. destruct (H3 r' Hr') as (σ & E1 & E2). destruct Hb1 as [B1 B2]. exists (fun v => sub σ (Var (ρ v))). rewrite E1, E2, B1, B2. split.
      * rewrite map_map. apply map_ext. intros b. by rewrite sub_sub.
      * by rewrite sub_sub.
    + intros x ys Hi Ht. apply H4; [by apply Hgi|done].
Qed.
End instant.

(** * Whole programs *)
Lemma num_exactly {X} (T : X -> Prop) l : num T l 1 -> exists k, forall j, (exists e, nth_error l j = Some e /\ T e) <-> j = k.
Proof.
  intros H. destruct (num_pos T l 1 H ltac:(lia)) as (e & He & HT). apply elem_of_list_In, In_nth_error in He as [k Hk]. exists k. intros j. split.
  - intros (e' & Hj & HT'). by eapply num_unique.
  - intros ->. by exists e.
Qed.
Lemma heads_at_pos D y : 0 < heads_at D y <-> exists h, In h D /\ gr_inst h y.
Proof.
  unfold heads_at. split.
  - intros H. destruct (filter _ D) as [|h l] eqn:E; [cbn in H; lia|]. assert (Hh : h ∈ filter (fun k => stands_for k y) D) by (rewrite E; left).
    apply elem_of_list_filter in Hh as [H1 H2]. exists h. split; [by apply elem_of_list_In|done].
  - intros (h & Hh & Hg). assert (Hin : h ∈ filter (fun k => stands_for k y) D) by (apply elem_of_list_filter; split; [done|by apply elem_of_list_In]).
    destruct (filter _ D); [by apply elem_of_nil in Hin|cbn; lia].
Qed.
Lemma gprod_satisfied D ys : 0 < gprod D ys <-> forall y, In y ys -> exo y = false -> exists h, In h D /\ gr_inst h y.
Proof.
  induction ys as [|y ys IH]; [split; [by intros _ y []|cbn; lia]|]. unfold gprod in *. cbn [map fold_right].
  assert (Hm : 0 < gcnt D y * fold_right Nat.mul 1 (map (gcnt D) ys) <-> 0 < gcnt D y /\ 0 < fold_right Nat.mul 1 (map (gcnt D) ys)) by nia.
  rewrite Hm, IH. clear Hm IH. split.
  - intros [H1 H2] z [<-|Hz] He; [|by apply H2]. unfold gcnt in H1. rewrite He in H1. by apply heads_at_pos.
  - intros H. split; [|intros z Hz; apply H; by right]. unfold gcnt. destruct (exo y) eqn:Ee; [lia|]. apply heads_at_pos. apply H; [by left|done].
Qed.

Section whole.
Context (cmpf : String.string -> term -> term -> res bool)
  (is_run : nat -> store -> term -> term -> res (list store)) (is_true : term -> term -> bool) (al : nat -> nat).
Context (His : is_exact is_true is_run) (Hal : forall i j, al i = al j -> i = j).
Context (P ch : list rule) (HP : plain_program P) (Hch : wf_decls (map rhead ch)).
Notation gtrue := (gtrue cmpf is_true).

Lemma groundings_ok n c rss : chart_apart al c ch -> groundings cmpf is_run al n P ch c = Ok rss ->
  Forall2 (fun r rs => (forall r' x ys, r' ∈ rs -> ground_inst r' x ys -> ground_inst r x ys) /\
    (forall r', r' ∈ rs -> exists σ, rbody r' = map (sub σ) (rbody r) /\ rhead r' = sub σ (rhead r)) /\
    forall x ys, ground_inst r x ys -> Forall gtrue ys -> num (fun r' => ground_inst r' x ys) rs (gprod (map rhead ch) ys)) P rss.
Proof.
  intros Hap E. unfold groundings in E. destruct (mapSM _ P c) as [[rss' c2]| |] eqn:Em; [|done..]. cbn [bind] in E. injection E as ->.
  set (W := fun v => exists h, In h (map rhead ch) /\ In v (vars h)).
  assert (HWa : forall v j, W v -> c <= j -> v <> al j) by (intros v j (h & Hh & Hv) Hj; by eapply Hap).
  assert (HW : forall j, c <= j -> ~ W (al j)) by (intros j Hj Hw; by apply (HWa _ j Hw Hj)).
  assert (HD : hd_ok W (map rhead ch)).
  { intros k Hk. apply elem_of_list_In in Hk. split; [intros v Hv; by exists k|]. destruct (Hch k Hk). by apply decl_item. }
  enough (Hen : forall Q c1 rss c2, (forall r, In r Q -> In r P) -> c <= c1 -> mapSM (ground_rule cmpf is_run al n (map rhead ch)) Q c1 = Ok (rss, c2) ->
    Forall2 (fun r rs => (forall r' x ys, r' ∈ rs -> ground_inst r' x ys -> ground_inst r x ys) /\
      (forall r', r' ∈ rs -> exists σ, rbody r' = map (sub σ) (rbody r) /\ rhead r' = sub σ (rhead r)) /\
      forall x ys, ground_inst r x ys -> Forall gtrue ys -> num (fun r' => ground_inst r' x ys) rs (gprod (map rhead ch) ys)) Q rss) by (by apply (Hen P c rss c2)).
  clear rss c2 Em. induction Q as [|r Q IH]; intros c1 rss c2 HQ Hc1 Em; cbn [mapSM] in Em; [injection Em as <- <-; constructor|].
  destruct (ground_rule _ _ _ n _ r c1) as [[rs c3]| |] eqn:Er; [|done..]. cbn [bind] in Em.
  destruct (mapSM _ Q c3) as [[rss' c4]| |] eqn:Em'; [|done..]. cbn [bind] in Em. injection Em as <- <-.
  assert (Hg : Forall goal_ok (rbody r)).
  { pose proof (rule_goals P HP r (HQ r (or_introl eq_refl))) as H. by inversion H. }
  destruct (ground_rule_ok cmpf is_run is_true al His Hal W c HW n _ r c1 rs c3 HD HWa Hc1 Hg Er) as (H0 & H1 & H2 & H3).
  constructor; [done|]. apply (IH c3 rss' c4); [intros r' Hr'; apply HQ; by right|lia|done].
Qed.

Context (base : term -> Prop) (outputs : list term) (Hbase : forall y, base y -> exo y = true -> builtin_true cmpf is_true y).
Lemma groundings_copies n c rss : chart_apart al c ch -> groundings cmpf is_run al n P ch c = Ok rss ->
  Forall2 (fun r rs =>
  (forall r' x ys, r' ∈ rs -> ground_inst r' x ys -> ground_inst r x ys) /\
  (forall r' b, r' ∈ rs -> b ∈ rbody r' -> forall v, b <> Var v) /\
  forall x ys, ground_inst r x ys -> Forall (nok cmpf is_true ch) (x :: ys) ->
    exists k, num (fun r' => ground_inst r' x ys) rs k /\ 0 < k /\ (pairwise_disjoint (map rhead ch) -> k = 1)) P rss.
Proof.
  intros Hap E. pose proof (groundings_ok n c rss Hap E) as HF.
  apply Forall2_same_length_lookup. apply Forall2_same_length_lookup in HF as [Hl HF]. split; [done|]. intros i r rs Hi Hrs.
  destruct (HF i r rs Hi Hrs) as (H1 & H2 & H3). assert (Hr : In r P) by (apply elem_of_list_In; by eapply elem_of_list_lookup_2). split; [done|]. split.
  - intros r' b Hr' Hb v ->. destruct (H2 r' Hr') as (σ & Hσ & _). rewrite Hσ in Hb. apply elem_of_list_fmap in Hb as (b & E' & Hb).
    apply elem_of_list_In in Hb. destruct b as [u| |]; [by apply (proj2 HP r (Var u) Hr Hb u)|done..].
  - intros x ys Hg Hk. apply Forall_cons in Hk as [_ Hk]. exists (gprod (map rhead ch) ys). split; [|split].
    + apply H3; [done|]. eapply Forall_impl; [exact Hk|]. by intros y [? _].
    + apply gprod_satisfied. intros y Hy He. rewrite Forall_forall in Hk. apply Hk; [by apply elem_of_list_In|done].
    + intros Hd. apply gprod_one; [done|]. apply gprod_satisfied. intros y Hy He. rewrite Forall_forall in Hk. apply Hk; [by apply elem_of_list_In|done].
Qed.

(** ground charts *)
Lemma ground_chart_body n c rss i r rs r' : chart_apart al c ch -> groundings cmpf is_run al n P ch c = Ok rss ->
  (forall h, In h (map rhead ch) -> ground h) -> (forall b, In b (rbody r) -> is_builtin b = false) ->
  nth_error P i = Some r -> nth_error rss i = Some rs -> In r' rs ->
  forall b, In b (rbody r') -> ground b /\ (exo b = false -> In b (map rhead ch)).
Proof.
  intros Hap E Hgr Hnb Hi Hrs Hr' b Hb. pose proof (groundings_ok n c rss Hap E) as HF. rewrite nth_error_lookup in Hi. rewrite nth_error_lookup in Hrs.
  apply elem_of_list_In in Hr'.
  destruct (Forall2_lookup_lr _ _ _ _ _ _ HF Hi Hrs) as (H1 & H2 & H3). destruct (H2 r' Hr') as (σ & Hσ & _).
  assert (Hr : In r P) by (apply elem_of_list_In; by eapply elem_of_list_lookup_2).
  assert (Hexo : forall τ b, In b (rbody r') -> exo (sub τ b) = is_const b).
  { intros τ b' Hb'. rewrite Hσ in Hb'. apply in_map_iff in Hb' as (a & <- & Ha). destruct (proj1 HP r Hr) as (_ & _ & Hpb).
    pose proof (proj2 HP r a Hr Ha) as Hv. rewrite sub_sub. rewrite exo_sub; [|by apply Hpb|done]. unfold exo. rewrite (Hnb a Ha), orb_false_r.
    destruct a as [w|k|l]; [by destruct (Hv w)|done|done]. }
  assert (Hin : forall τ, groundsub τ -> forall b, In b (rbody r') -> is_const b = false -> In (sub τ b) (map rhead ch)).
  { intros τ Hτ b' Hb' Hcb.
    assert (Hg : ground_inst r' (sub τ (rhead r')) (map (sub τ) (rbody r'))) by (exists τ; done).
    assert (Ht : Forall gtrue (map (sub τ) (rbody r'))).
    { apply Forall_forall. intros y Hy. apply elem_of_list_fmap in Hy as (a & -> & Ha). apply elem_of_list_In in Ha. intros He. rewrite (Hexo τ a Ha) in He.
      destruct a; try done; by cbn. }
    pose proof (H3 _ _ (H1 _ _ _ Hr' Hg) Ht) as Hn.
    assert (Hp : 0 < gprod (map rhead ch) (map (sub τ) (rbody r'))).
    { destruct (gprod _ _) eqn:Ep; [|lia]. exfalso. by apply (num_zero _ _ _ Hn Hr'). }
    destruct (proj1 (gprod_satisfied _ _) Hp (sub τ b')) as (h & Hh & _ & ρ & Hρ); [by apply in_map|by rewrite (Hexo τ b' Hb')|].
    rewrite <- Hρ. rewrite sub_ground; [done|by apply Hgr]. }
  destruct (is_const b) eqn:Ecb; [destruct b; [done|by split|done]|].
  set (τ := fun (z : nat) (v : nat) => Cst (CInt (Z.of_nat z)) : term).
  assert (Hτ : forall z, groundsub (τ z)) by (intros z v; done).
  assert (Hgb : ground b).
  { unfold ground. destruct (vars b) as [|v l] eqn:Ev; [done|]. exfalso.
    assert (Hle : length (map (fun z => sub (τ z) b) (seq 0 (S (length (map rhead ch))))) <= length (map rhead ch)).
    { apply NoDup_incl_length; [|intros y Hy; apply in_map_iff in Hy as (z & <- & _); by apply Hin].
      apply FinFun.Injective_map_NoDup; [|apply seq_NoDup]. intros a a' Ea. pose proof (sub_ext_inv _ _ _ Ea v ltac:(rewrite Ev; by left)) as H. unfold τ in H. injection H as H. lia. }
    rewrite map_length, seq_length in Hle. lia. }
  split; [done|]. intros _. rewrite <- (sub_ground (τ 0) b); [by apply Hin|done].
Qed.
End whole.

(** * Groundings are found in finite time *)
Section returns.
Context (cmpf : String.string -> term -> term -> res bool)
  (is_run : nat -> store -> term -> term -> res (list store)) (al : nat -> nat).
Context (Hal : forall i j, al i = al j -> i = j).

Lemma match_heads_settles st q : acyclic st -> forall D c,
  exists rs c', settles (fun n => match_heads al n st q D c) (rs, c') /\ Forall acyclic rs.
Proof.
  intros Hac. destruct (acyclic_resolution _ Hac) as [θ Hθ]. induction D as [|h D IH]; intros c.
  { exists [], c. split; [apply settles_ret|constructor]. }
  destruct (fresh_heap st θ Hac Hθ al Hal c h) as (ρ & c1 & [n1 H1] & _).
  destruct (unify_settles st (rename ρ (sub θ h)) q Hac) as (st' & u & [n2 H2]).
  destruct (IH c1) as (rest & c2 & [n3 H3] & HF).
  pose proof (unify_ok n2 st _ q st' u Hac (H2 n2 (le_n _))) as (Hac' & _).
  exists (if u then st' :: rest else rest), c2. split.
  - exists (n1 + n2 + n3). intros n Hn. cbn [match_heads]. rewrite H1 by lia. cbn [bind]. rewrite H2 by lia. cbn [bind]. rewrite H3 by lia. done.
  - destruct u; [by constructor|done].
Qed.
Local Open Scope string_scope.
Lemma lookup_heads_settles st q D c : acyclic st -> ordinary q ->
  exists rs c', settles (fun n => lookup_heads cmpf is_run al n st q [] D c) (rs, c') /\ Forall acyclic rs.
Proof.
  intros Hac Hq. destruct q as [v|k|xs]; [done| |].
  { exists [st], c. split; [|by repeat constructor]. exists 1. intros n Hn. by destruct n; [lia|]. }
  destruct xs as [|[v|f|l] args]; [done|done| |done].
  destruct (match_heads_settles st (Fn (Cst f :: args)) Hac D c) as (rs & c' & [n0 H0] & HF). exists rs, c'. split; [|done].
  exists (S n0). intros n Hn. rewrite <- (H0 n) by lia. unfold lookup_heads.
  destruct n as [|n]; [lia|]. cbn [snap bind existsM]. destruct f as [z|f]; [done|].
  assert (Hf : forall g, g ∈ (cmps ++ ["="; "is"; "$lift"; "$not_matches"])%list -> f <> g) by (by intros g Hg ->).
  cbn [snap bind]. rewrite decide_False.
  2:{ intros H. refine (Hf f _ eq_refl). apply elem_of_app. right. apply elem_of_cons. right. apply elem_of_cons. by right. }
  assert (E1 : f <> "is") by (apply Hf; apply elem_of_app; right; rewrite !elem_of_cons; tauto).
  assert (E2 : f <> "=") by (apply Hf; apply elem_of_app; right; rewrite !elem_of_cons; tauto).
  clear H0. destruct args as [|x [|y [|z args]]]; rewrite ?(decide_False (P := f = "is")) by done; try done.
  rewrite decide_False by (intros H; refine (Hf f _ eq_refl); apply elem_of_app; by left).
  rewrite (decide_False (P := f = "=")) by done. rewrite ?(decide_False (P := f = "is")) by done. done.
Qed.
Local Close Scope string_scope.
Lemma join_heads_settles D : forall qs st c, acyclic st -> Forall ordinary qs ->
  exists rs c', settles (fun n => join_heads cmpf is_run al n st qs [] D c) (rs, c') /\ Forall acyclic rs.
Proof.
  induction qs as [|q qs IH]; intros st c Hac Hqs.
  { exists [st], c. split; [apply settles_ret|by repeat constructor]. }
  apply Forall_cons in Hqs as [Hq Hqs]. destruct (lookup_heads_settles st q D c Hac Hq) as (sts & c1 & [n1 H1] & HF).
  destruct (settles_mapSM (fun n st c => join_heads cmpf is_run al n st qs [] D c) (fun _ rs => Forall acyclic rs) sts) with (c := c1) as (rss & c2 & [n2 H2] & HF2).
  { intros e He c'. apply IH; [|done]. rewrite Forall_forall in HF. apply HF. by apply elem_of_list_In. }
  exists (concat rss), c2. split.
  - exists (n1 + n2). intros n Hn. cbn [join_heads]. rewrite H1 by lia. cbn [bind]. rewrite H2 by lia. done.
  - clear -HF2. induction HF2 as [|e rs l rss H _ IH]; [constructor|]. cbn. by apply Forall_app.
Qed.
Lemma fresh_at_settles st r c : acyclic st -> exists r' c', settles (fun n => fresh_at al n st r c) (r', c').
Proof.
  intros Hac. destruct (acyclic_resolution _ Hac) as [θ Hθ]. destruct (fresh_heap st θ Hac Hθ al Hal c (enc r)) as (ρ & c1 & [n1 H1] & _).
  eexists _, c1. exists n1. intros n Hn. unfold fresh_at. rewrite H1 by lia. done.
Qed.
Lemma ordinary_rename ρ b : ordinary b -> ordinary (rename ρ b).
Proof. destruct b as [v|k|[|[v|[z|f]|l] args]]; done. Qed.
Lemma ground_rule_settles D r c : Forall ordinary (rbody r) -> exists rs c', settles (fun n => ground_rule cmpf is_run al n D r c) (rs, c').
Proof.
  intros Hr. destruct (fresh_heap ∅ Var acyclic_empty resolution_empty al Hal c (enc r)) as (ρ & c1 & [n1 H1] & _).
  rewrite sub_Var in H1. set (r1 := dec (rename ρ (enc r))).
  destruct (join_heads_settles D (rbody r1) ∅ c1 acyclic_empty) as (sts & c2 & [n2 H2] & HF).
  { change (rbody r1) with (map (rename ρ) (rbody r)). rewrite Forall_map. eapply Forall_impl; [exact Hr|]. intros b. apply ordinary_rename. }
  destruct (settles_mapSM (fun n st c => fresh_at al n st r1 c) (fun _ _ => True) sts) with (c := c2) as (rs & c3 & [n3 H3] & _).
  { intros e He c'. destruct (fresh_at_settles e r1 c') as (r' & c'' & H); [|by exists r', c''].
    rewrite Forall_forall in HF. apply HF. by apply elem_of_list_In. }
  exists rs, c3. exists (n1 + n2 + n3). intros n Hn. unfold ground_rule. unfold fresh_at at 1. rewrite H1 by lia. cbn [bind]. fold r1. rewrite H2 by lia. cbn [bind]. by apply H3; lia.
Qed.
Lemma groundings_settles P ch c : (forall r b, In r P -> In b (rbody r) -> ordinary b) -> exists rss, settles (fun n => groundings cmpf is_run al n P ch c) rss.
Proof.
  intros HP. destruct (settles_mapSM (fun n r c => ground_rule cmpf is_run al n (map rhead ch) r c) (fun _ _ => True) P) with (c := c) as (rss & c3 & [n3 H3] & _).
  { intros r Hr c'. destruct (ground_rule_settles (map rhead ch) r c') as (rs & c'' & H); [|by exists rs, c''].
    apply Forall_forall. intros b Hb. eapply HP; [done|by apply elem_of_list_In]. }
  exists rss, n3. intros n Hn. unfold groundings. rewrite H3 by lia. done.
Qed.
End returns.
