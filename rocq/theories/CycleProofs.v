(** Proofs about the coarse-grained dependency graph. *)
From Coq Require Import List Permutation.
From stdpp Require Import gmap.
From Coq Require Import Lia.
From Verif Require Import PyBase Semiring TermModel TermSpec TermProofs SetsModel SetsSpec SetsProofs FuelProofs UnifyProofs CoverProofs UpdateProofs
  PruneModel SlashSpec CoarseProofs KleeneModel KleeneSpec KleeneProofs MagicModel CycleModel CycleSpec.
Import ListNotations.

Lemma edge_in_spec T i j : edge_in T i j = true <-> In (i, j) T.
Proof.
  unfold edge_in. rewrite existsb_exists. split.
  - intros ([a b] & H & [H1%Nat.eqb_eq H2%Nat.eqb_eq]%andb_prop). cbn in *. by subst.
  - intros H. exists (i, j). split; [done|]. cbn. by rewrite !Nat.eqb_refl.
Qed.

Lemma graph_of_wf ins es : wf_graph (graph_of ins es).
Proof.
  assert (Hmem : forall x y, In y (g_out (graph_of ins es) x) -> exists e, In e es /\ fst e = x /\ In y (snd e)).
  { intros x y H. cbn in H. apply elem_of_list_In, elem_of_remove_dups, elem_of_list_In, in_concat in H as (l & (e & <- & He)%in_map_iff & Hy).
    destruct (Nat.eqb_spec (fst e) x); [|done]. eauto. }
  assert (Hn : forall x, In x (concat (map (fun e : nat * list nat => fst e :: snd e) es)) -> In x (g_nodes (graph_of ins es))).
  { intros x H. cbn. apply elem_of_list_In, elem_of_remove_dups, elem_of_app. right. by apply elem_of_list_In. }
  split.
  - cbn. apply NoDup_ListNoDup, NoDup_remove_dups.
  - intros x y (e & He & <- & _)%Hmem. apply Hn, in_concat. eexists. split; [apply in_map_iff; by exists e|by left].
  - intros x y (e & He & _ & Hy)%Hmem. apply Hn, in_concat. eexists. split; [apply in_map_iff; by exists e|by right].
Qed.

Lemma graph_of_edge ins es i js j : In (i, js) es -> In j js -> In j (g_out (graph_of ins es) i).
Proof.
  intros H Hj. cbn. apply elem_of_list_In, elem_of_remove_dups, elem_of_list_In, in_concat. eexists. split; [apply in_map_iff; by exists (i, js)|].
  cbn. by rewrite Nat.eqb_refl.
Qed.

Lemma find_roots_run al n nodes ts is : find_roots al n nodes ts = Ok is -> forall t, t ∈ ts -> exists i, de_find al n nodes t = Ok i /\ In i is.
Proof.
  revert is. induction ts as [|t ts IH]; intros is E u Hu; [by apply elem_of_nil in Hu|]. cbn [find_roots] in E.
  destruct (de_find al n nodes t) as [i| |] eqn:Ei; [|discriminate..]. cbn [bind] in E.
  destruct (find_roots al n nodes ts) as [js| |]; [|discriminate..]. cbn [bind] in E. injection E as <-.
  apply elem_of_cons in Hu as [->|Hu]; [exists i; split; [done|by left]|].
  destruct (IH _ eq_refl u Hu) as (k & Hk & Hin). exists k. split; [done|by right].
Qed.

Lemma rule_roots_run al n nodes P es : rule_roots al n nodes P = Ok es ->
  forall r, r ∈ P -> exists i js, de_find al n nodes (rhead r) = Ok i /\ find_roots al n nodes (goals r) = Ok js /\ In (i, js) es.
Proof.
  revert es. induction P as [|s P IH]; intros es E r Hr; [by apply elem_of_nil in Hr|]. cbn [rule_roots] in E.
  destruct (de_find al n nodes (rhead s)) as [i| |] eqn:Ei; [|discriminate..]. cbn [bind] in E.
  destruct (find_roots al n nodes (goals s)) as [js| |] eqn:Ej; [|discriminate..]. cbn [bind] in E.
  destruct (rule_roots al n nodes P) as [es'| |]; [|discriminate..]. cbn [bind] in E. injection E as <-.
  apply elem_of_cons in Hr as [->|Hr]; [exists i, js; split; [done|split; [done|by left]]|].
  destruct (IH _ eq_refl r Hr) as (i' & js' & H1 & H2 & H3). exists i', js'. split; [done|split; [done|by right]].
Qed.

Lemma goals_elem r y : y ∈ goals r <-> item_goal r y.
Proof.
  unfold goals, item_goal. rewrite elem_of_list_In, filter_In, <- elem_of_list_In. destruct (is_const y), (is_builtin y); cbn; naive_solver.
Qed.
Lemma coarse_terms_head inputs P r : r ∈ P -> rhead r ∈ coarse_terms inputs P.
Proof. intros H. apply elem_of_app. right. apply elem_of_list_In, in_flat_map. exists r. split; [by apply elem_of_list_In|by left]. Qed.
Lemma coarse_terms_goal inputs P r y : r ∈ P -> y ∈ goals r -> y ∈ coarse_terms inputs P.
Proof. intros H Hy. apply elem_of_app. right. apply elem_of_list_In, in_flat_map. exists r. split; [by apply elem_of_list_In|]. right. by apply elem_of_list_In. Qed.
Lemma coarse_terms_input inputs P t : t ∈ inputs -> t ∈ coarse_terms inputs P.
Proof. intros H. apply elem_of_app. by left. Qed.

Section run.
Context (al cv : nat -> nat) (Hal : forall i j, al i = al j -> i = j) (Hcv : forall i j, cv i = cv j -> i = j) (Halcv : forall i j, al i <> cv j).

Lemma de_add_mono n m st r o : de_add al cv n st r = Ok o -> n <= m -> de_add al cv m st r = Ok o.
Proof.
  destruct st as [xs c]. unfold de_add. intros E Hle. destruct (fresh al n ∅ c r) as [[y c1]| |] eqn:Ef; [|discriminate..].
  rewrite (fresh_mono _ _ m _ _ _ _ Ef Hle). cbn [bind] in *.
  destruct (de_scan al n y c1 (rev xs) []) as [[[r' c2] kept]| |] eqn:Es; [|discriminate..].
  rewrite (de_scan_mono al _ m _ _ _ _ _ Es Hle). cbn [bind] in *.
  destruct (canonicalize cv n ∅ r') as [z| |] eqn:Ec; [|discriminate..].
  by rewrite (mono_ok _ n m _ (mono_canonicalize cv ∅ r') Hle Ec).
Qed.
Lemma de_adds_mono n m l : forall st o, de_adds al cv n st l = Ok o -> n <= m -> de_adds al cv m st l = Ok o.
Proof.
  induction l as [|r l IH]; intros st o E Hle; [done|]. cbn [de_adds] in *.
  destruct (de_add al cv n st r) as [st1| |] eqn:E1; [|discriminate..]. rewrite (de_add_mono _ m _ _ _ E1 Hle). cbn [bind] in *. by apply IH.
Qed.

Context (inputs : list term) (P : list rule) (n c : nat) (nodes : list term * nat) (g : graph).
Context (E : coarse_graph al cv n c inputs P = Ok (nodes, g)) (Hp : Forall proper (coarse_terms inputs P)).

Lemma coarse_parts : exists ins es, de_adds al cv n ([], c) (coarse_terms inputs P) = Ok nodes /\
  find_roots al n nodes inputs = Ok ins /\ rule_roots al n nodes P = Ok es /\ g = graph_of ins es.
Proof using E.
  unfold coarse_graph in E. destruct (de_adds al cv n ([], c) _) as [nodes'| |]; [|discriminate..]. cbn [bind] in E.
  destruct (find_roots al n nodes' inputs) as [ins| |] eqn:E1; [|discriminate..]. cbn [bind] in E.
  destruct (rule_roots al n nodes' P) as [es| |] eqn:E2; [|discriminate..]. cbn [bind] in E. injection E as -> <-. by exists ins, es.
Qed.

Lemma g_wf : wf_graph g.
Proof using E. destruct coarse_parts as (ins & es & _ & _ & _ & ->). apply graph_of_wf. Qed.

Lemma nodes_run : Forall (fromcv cv) (fst nodes) /\ forall t, t ∈ coarse_terms inputs P -> exists y, In y (fst nodes) /\ instance_of y t.
Proof using E Hp Hal Hcv Halcv.
  destruct coarse_parts as (_ & _ & Ed & _).
  destruct (de_adds_spec al cv Hal Hcv Halcv ([], c) (coarse_terms inputs P) [] Hp) as (st' & [n0 Hs] & _ & H2 & H3).
  { split; [constructor|]. split; [constructor|]. by intros a []. }
  pose proof (de_adds_mono _ (n + n0) _ _ _ Ed ltac:(lia)) as E2. rewrite Hs in E2 by lia. injection E2 as ->. split; [done|].
  intros t Ht. apply H3. by apply elem_of_list_In.
Qed.

Lemma find_unique t i : de_find al n nodes t = Ok i -> forall q z, fst nodes !! q = Some z -> meet z t -> q = i.
Proof using E Hp Hal Hcv Halcv.
  intros H. pose proof (proj1 nodes_run) as Hc. rewrite (surjective_pairing nodes) in H.
  exact (proj2 (de_find_run al cv Hal Halcv n (fst nodes) (snd nodes) t i H Hc)).
Qed.

Lemma root_inst t i : t ∈ coarse_terms inputs P -> de_find al n nodes t = Ok i -> exists y, fst nodes !! i = Some y /\ instance_of y t.
Proof using E Hp Hal Hcv Halcv.
  intros Ht Ei. destruct (proj2 nodes_run t Ht) as (y & Hy & Hi). apply elem_of_list_In, elem_of_list_lookup in Hy as [q Hq].
  assert (q = i) as <-; [|eauto]. apply (find_unique t i Ei q y Hq). destruct Hi as [σ <-].
  apply (meet_unify σ Var). by rewrite sub_Var.
Qed.

(** the ground term [a] is an instance of a term that has the node [i] *)
Definition belongs (a : term) (i : nat) : Prop := exists t, t ∈ coarse_terms inputs P /\ de_find al n nodes t = Ok i /\ gr_inst t a.
Lemma belongs_fun a i j : belongs a i -> belongs a j -> i = j.
Proof using E Hp Hal Hcv Halcv.
  intros (t & Ht & Ei & Ha) (u & Hu & Ej & Hb). destruct (root_inst t i Ht Ei) as (y & Hy & Hi).
  apply (find_unique u j Ej i y Hy). exists a. split; [|done]. eapply gr_instance; [exact Hi|done].
Qed.

Lemma rule_edge r σ : r ∈ P -> (forall v, ground (σ v)) -> exists i, belongs (sub σ (rhead r)) i /\ de_find al n nodes (rhead r) = Ok i /\
  forall y, y ∈ goals r -> exists j, belongs (sub σ y) j /\ de_find al n nodes y = Ok j /\ In j (g_out g i).
Proof using E.
  intros Hr Hσ. destruct coarse_parts as (ins & es & _ & _ & Er & Eg).
  destruct (rule_roots_run _ _ _ _ _ Er r Hr) as (i & js & Ei & Ej & Hin). exists i. split.
  { exists (rhead r). split; [by apply coarse_terms_head|]. split; [done|]. by apply gr_sub. }
  split; [done|]. intros y Hy. destruct (find_roots_run _ _ _ _ _ Ej y Hy) as (j & Hj & Hjj). exists j. split.
  { exists y. split; [by eapply coarse_terms_goal|]. split; [done|]. by apply gr_sub. }
  split; [done|]. rewrite Eg. eapply graph_of_edge; eauto.
Qed.

Lemma depends_edge a b : depends P a b -> exists i j, belongs a i /\ belongs b j /\ In j (g_out g i).
Proof using E.
  intros (r & σ & y & Hr & Hσ & <- & Hy%goals_elem & <-). destruct (rule_edge r σ Hr Hσ) as (i & Hi & _ & H).
  destruct (H y Hy) as (j & Hj & _ & He). eauto.
Qed.

Lemma depends_path a b : tc (depends P) a b -> exists i j, belongs a i /\ belongs b j /\ path g i j.
Proof using E Hp Hal Hcv Halcv.
  induction 1 as [a b H|a b d H _ (i & j & Hi & Hj & Hij)].
  - destruct (depends_edge _ _ H) as (i & j & Hi & Hj & Hij). exists i, j. split; [done|]. split; [done|]. by constructor.
  - destruct (depends_edge _ _ H) as (k & l & Hk & Hl & Hkl). rewrite (belongs_fun _ _ _ Hl Hi) in Hkl.
    exists k, j. split; [done|]. split; [done|]. by eapply path_step.
Qed.

Lemma acyclic_nodes : possibly_cyclic g = false -> forall i, ~ path g i i.
Proof using E.
  intros H i Hi. assert (possibly_cyclic g = true); [|congruence]. unfold possibly_cyclic. apply existsb_exists. exists i. split.
  - assert (Hs : forall i j, path g i j -> In i (g_nodes g)) by (intros ? ? [? ? H0|? ? ? H0 _]; exact (wfg_src _ g_wf _ _ H0)). by apply (Hs i i).
  - apply edge_in_spec, (closure_plus g g_wf). done.
Qed.

(** * Chains *)
Lemma chain_nodes a l i : belongs a i -> chain P a l -> exists is, length is = length l /\ Forall (fun j => path g i j) is /\
  (possibly_cyclic g = false -> NoDup (i :: is)) /\ Forall (fun j => In j (g_nodes g)) is.
Proof using E Hp Hal Hcv Halcv.
  revert a i. induction l as [|b l IH]; intros a i Ha Hc.
  { exists []. split; [done|]. split; [constructor|]. split; [|constructor]. intros _. apply NoDup_singleton. }
  destruct Hc as [Hd Hc]. destruct (depends_edge _ _ Hd) as (i' & j & Hi & Hj & Hij). rewrite (belongs_fun _ _ _ Hi Ha) in Hij.
  destruct (IH b j Hj Hc) as (is & Hl & HF & HN & Hin). exists (j :: is). split; [by cbn; rewrite Hl|]. split.
  - constructor; [by constructor|]. eapply Forall_impl; [exact HF|]. intros k Hk. by eapply path_step.
  - split.
    + intros Hac. apply NoDup_cons. split; [|auto]. intros [->|Hm]%elem_of_cons.
      * apply (acyclic_nodes Hac j). by constructor.
      * rewrite Forall_forall in HF. apply (acyclic_nodes Hac i). eapply path_step; [exact Hij|]. by apply HF.
    + constructor; [|done]. exact (wfg_dst _ g_wf _ _ Hij).
Qed.

Lemma chain_bound a l : possibly_cyclic g = false -> chain P a l -> length l <= length (g_nodes g).
Proof using E Hp Hal Hcv Halcv.
  intros Hac Hc. destruct l as [|b l]; [cbn; lia|]. pose proof Hc as [Hd _]. destruct (depends_edge _ _ Hd) as (i & j & Hi & _ & Hij).
  destruct (chain_nodes a (b :: l) i Hi Hc) as (is & Hl & _ & HN & Hin). specialize (HN Hac). rewrite <- Hl.
  apply NoDup_incl_length; [by apply NoDup_ListNoDup; inversion HN|]. intros k Hk. rewrite Forall_forall in Hin. apply Hin. by apply elem_of_list_In.
Qed.

(** * Expansion *)
Lemma exp_goals_false T x ys : forall count, exp_goals al n nodes T x ys count = Ok false ->
  count + length (List.filter (fun y => match de_find al n nodes y with Ok j => edge_in T j x | _ => false end)
                     (List.filter (fun y => negb (is_const y)) ys)) <= 1 \/ 1 < count.
Proof using.
  clear E. induction ys as [|y ys IH]; intros count H; cbn [exp_goals List.filter] in *; [cbn; lia|].
  destruct (is_const y); [by apply IH|]. cbn [negb List.filter].
  destruct (de_find al n nodes y) as [j| |]; [|discriminate..]. cbn [bind] in H. destruct (Nat.ltb_spec 1 (count + if edge_in T j x then 1 else 0)); [discriminate|].
  apply IH in H. destruct (edge_in T j x); cbn [length]; lia.
Qed.
Lemma exp_rules_false T Q : exp_rules al n nodes T Q = Ok false -> forall r, r ∈ Q -> exists x,
  de_find al n nodes (rhead r) = Ok x /\ exp_goals al n nodes T x (rbody r) 0 = Ok false.
Proof using.
  clear E Hp. induction Q as [|s Q IH]; intros H r Hr; [by apply elem_of_nil in Hr|]. cbn [exp_rules] in H.
  destruct (de_find al n nodes (rhead s)) as [x| |] eqn:Ex; [|discriminate..]. cbn [bind] in H.
  destruct (exp_goals al n nodes T x (rbody s) 0) as [b| |] eqn:Eb; [|discriminate..]. cbn [bind] in H. destruct b; [discriminate|].
  apply elem_of_cons in Hr as [->|Hr]; [eauto|by apply IH].
Qed.

Lemma rtc_edge u x i j : belongs u j -> belongs x i -> In i (g_nodes g) -> rtc (depends P) u x -> edge_in (transitive_closure g true) j i = true.
Proof using E Hp Hal Hcv Halcv.
  intros Hu Hx Hn H. apply edge_in_spec, (closure_star g g_wf). apply rtc_tc in H as [<-|H].
  - left. rewrite (belongs_fun _ _ _ Hu Hx). done.
  - right. destruct (depends_path _ _ H) as (j' & i' & Hj & Hi & Hji). by rewrite (belongs_fun _ _ _ Hu Hj), (belongs_fun _ _ _ Hx Hi).
Qed.

Lemma occurrences_app a l l' : occurrences a (l ++ l') = occurrences a l + occurrences a l'.
Proof using. clear. unfold occurrences. by rewrite List.filter_app, app_length. Qed.
Lemma occurrences_pos a l : 0 < occurrences a l -> a ∈ l.
Proof using.
  clear. unfold occurrences. intros H. destruct (List.filter _ l) as [|b l'] eqn:Ef; [cbn in H; lia|].
  assert (Hb : In b (List.filter (fun b => bool_decide (b = a)) l)) by (rewrite Ef; by left).
  apply filter_In in Hb as [Hb ->%bool_decide_eq_true]. by apply elem_of_list_In.
Qed.

Lemma items_depends r σ b : r ∈ P -> (forall v, ground (σ v)) -> b ∈ items_of σ r -> depends P (sub σ (rhead r)) b.
Proof using.
  clear. intros Hr Hσ Hb. unfold items_of in Hb. apply elem_of_list_fmap in Hb as (y & -> & Hy). exists r, σ, y.
  split; [done|]. split; [done|]. split; [done|]. split; [|done]. by apply goals_elem.
Qed.

Scheme expands_mut := Minimality for expands Sort Prop
  with expands_all_mut := Minimality for expands_all Sort Prop.
Lemma expands_reach x l : expands P x l -> forall a, a ∈ l -> rtc (depends P) x a.
Proof using.
  clear. intros H. refine (expands_mut P (fun x l => forall a, a ∈ l -> rtc (depends P) x a)
    (fun ys ls => forall a, a ∈ concat ls -> exists y, y ∈ ys /\ rtc (depends P) y a) _ _ _ _ x l H).
  - intros a b ->%elem_of_list_singleton. done.
  - intros r σ ls Hr Hσ _ IH a Ha. destruct (IH a Ha) as (y & Hy & Hya). eapply rtc_l; [|exact Hya]. by apply items_depends.
  - intros a Ha. by apply elem_of_nil in Ha.
  - intros a l' as_ ls _ IH1 _ IH2 b [Hb|Hb]%elem_of_app; [exists a; split; [apply elem_of_cons; by left|auto]|].
    destruct (IH2 b Hb) as (y & Hy & Hyb). exists y. split; [|done]. apply elem_of_cons. by right.
Qed.

Lemma expands_all_reach ys ls : expands_all P ys ls -> Forall2 (fun y l => forall a, a ∈ l -> rtc (depends P) y a) ys ls.
Proof using. clear. induction 1 as [|a l as_ ls H1 _ IH]; constructor; [by apply expands_reach|done]. Qed.

Lemma count_goals r σ a i gs ls : r ∈ P -> (forall v, ground (σ v)) -> belongs (sub σ (rhead r)) i -> In i (g_nodes g) ->
  rtc (depends P) a (sub σ (rhead r)) -> (forall y, y ∈ gs -> y ∈ goals r) ->
  Forall2 (fun y l => forall b, b ∈ l -> rtc (depends P) y b) (map (sub σ) gs) ls -> Forall (fun l => occurrences a l <= 1) ls ->
  occurrences a (concat ls) <= length (List.filter (fun y => match de_find al n nodes y with Ok j => edge_in (transitive_closure g true) j i | _ => false end) gs).
Proof using E Hp Hal Hcv Halcv.
  intros Hr Hσ Hi Hn Ha. revert ls. induction gs as [|y gs IH]; intros ls Hgs H2 H1; inversion H2 as [|? l ? ls' Hy H2']; subst; [done|].
  inversion H1 as [|? ? Hl H1']; subst. cbn [concat List.filter]. rewrite occurrences_app.
  specialize (IH ls' (fun z Hz => Hgs z (proj2 (elem_of_cons _ _ _) (or_intror Hz))) H2' H1').
  destruct (rule_edge r σ Hr Hσ) as (i' & Hi' & _ & He). destruct (He y (Hgs y (proj2 (elem_of_cons _ _ _) (or_introl eq_refl)))) as (j & Hj & Ej & _).
  rewrite Ej. destruct (Nat.eq_dec (occurrences a l) 0) as [->|Hne].
  - destruct (edge_in _ j i); cbn [length]; lia.
  - rewrite (rtc_edge (sub σ y) (sub σ (rhead r)) i j Hj Hi Hn); [cbn [length]; lia|].
    transitivity a; [apply Hy, occurrences_pos; lia|done].
Qed.

Lemma filter_le {A} (p q : A -> bool) (s : A -> bool) l : (forall x, p x = true -> q x = true) ->
  length (List.filter s (List.filter p l)) <= length (List.filter s (List.filter q l)).
Proof using.
  clear. intros H. induction l as [|x l IH]; [done|]. cbn [List.filter]. destruct (p x) eqn:Ep.
  - rewrite (H x Ep). cbn [List.filter]. destruct (s x); cbn [length]; lia.
  - destruct (q x); cbn [List.filter]; [destruct (s x); cbn [length]; lia|done].
Qed.

Lemma not_expansive : possibly_expansive al n nodes g P = Ok false -> forall x l, expands P x l -> forall a, rtc (depends P) a x -> occurrences a l <= 1.
Proof using E Hp Hal Hcv Halcv.
  intros Hx x l H. refine (expands_mut P (fun x l => forall a, rtc (depends P) a x -> occurrences a l <= 1)
    (fun ys ls => forall a, (forall y, y ∈ ys -> rtc (depends P) a y) -> Forall (fun l => occurrences a l <= 1) ls) _ _ _ _ x l H).
  - intros b a _. unfold occurrences. cbn. destruct (bool_decide (b = a)); cbn; lia.
  - intros r σ ls Hr Hσ Hall IH a Ha.
    assert (H1 : Forall (fun l => occurrences a l <= 1) ls).
    { apply IH. intros y Hy. etransitivity; [exact Ha|]. apply rtc_once. by apply items_depends. }
    destruct (rule_edge r σ Hr Hσ) as (i & Hi & Ei & He).
    destruct (exp_rules_false _ _ Hx r Hr) as (i' & Ei' & Hg). rewrite Ei in Ei'. injection Ei' as <-.
    destruct (exp_goals_false _ _ _ _ Hg) as [Hc|Hc]; [|lia].
    assert (Hn : goals r = [] \/ In i (g_nodes g)).
    { destruct (goals r) as [|y gs] eqn:Eg; [by left|right]. destruct (He y) as (j & _ & _ & Hj); [apply elem_of_cons; by left|]. exact (wfg_src _ g_wf _ _ Hj). }
    destruct Hn as [Hn|Hn].
    + unfold items_of in Hall. fold (goals r) in Hall. rewrite Hn in Hall. inversion Hall. subst. unfold occurrences. cbn. lia.
    + pose proof (count_goals r σ a i (goals r) ls Hr Hσ Hi Hn Ha (fun _ H => H) (expands_all_reach _ _ Hall) H1) as Hle.
      etransitivity; [exact Hle|]. etransitivity; [|exact Hc]. apply filter_le. intros y. by destruct (is_const y).
  - constructor.
  - intros b l' as_ ls _ IH1 _ IH2 a Ha. constructor; [apply IH1, Ha, elem_of_cons; by left|]. apply IH2. intros y Hy. apply Ha, elem_of_cons. by right.
Qed.

(** * The split *)
Lemma split_rules_in T Q Is Ds : split_rules al n nodes T inputs Q = Ok (Is, Ds) ->
  forall r, r ∈ Is -> r ∈ Q /\ exists i, de_find al n nodes (rhead r) = Ok i /\ reaches_input (fst nodes) T inputs i = false.
Proof using.
  clear. revert Is Ds. induction Q as [|s Q IH]; intros Is Ds H r Hr; cbn [split_rules] in H.
  { injection H as <- <-. by apply elem_of_nil in Hr. }
  destruct (de_find al n nodes (rhead s)) as [x| |] eqn:Ex; [|discriminate..]. cbn [bind] in H.
  destruct (split_rules al n nodes T inputs Q) as [[Is' Ds']| |]; [|discriminate..]. cbn [bind] in H.
  destruct (reaches_input (fst nodes) T inputs x) eqn:Er; injection H as <- <-.
  - destruct (IH _ _ eq_refl r Hr) as [H1 H2]. split; [|done]. apply elem_of_cons. by right.
  - apply elem_of_cons in Hr as [->|Hr]; [split; [apply elem_of_cons; by left|eauto]|].
    destruct (IH _ _ eq_refl r Hr) as [H1 H2]. split; [|done]. apply elem_of_cons. by right.
Qed.
Lemma split_rules_perm T Q Is Ds : split_rules al n nodes T inputs Q = Ok (Is, Ds) -> Permutation (Is ++ Ds) Q.
Proof using.
  clear. revert Is Ds. induction Q as [|s Q IH]; intros Is Ds H; cbn [split_rules] in H; [by injection H as <- <-|].
  destruct (de_find al n nodes (rhead s)) as [x| |] eqn:Ex; [|discriminate..]. cbn [bind] in H.
  destruct (split_rules al n nodes T inputs Q) as [[Is' Ds']| |]; [|discriminate..]. cbn [bind] in H. specialize (IH _ _ eq_refl).
  destruct (reaches_input (fst nodes) T inputs x); injection H as <- <-.
  - rewrite <- Permutation_middle. by constructor.
  - cbn. by constructor.
Qed.
Lemma split_rules_none T Q Is Ds : (forall i, reaches_input (fst nodes) T inputs i = false) -> split_rules al n nodes T inputs Q = Ok (Is, Ds) -> Is = Q /\ Ds = [].
Proof using.
  clear. intros Hf. revert Is Ds. induction Q as [|s Q IH]; intros Is Ds H; cbn [split_rules] in H; [by injection H as <- <-|].
  destruct (de_find al n nodes (rhead s)) as [x| |] eqn:Ex; [|discriminate..]. cbn [bind] in H.
  destruct (split_rules al n nodes T inputs Q) as [[Is' Ds']| |]; [|discriminate..]. cbn [bind] in H. destruct (IH _ _ eq_refl) as [-> ->].
  rewrite Hf in H. by injection H as <- <-.
Qed.

(** An item that belongs to a node with a path to the node of an input which is
    itself a node *)
Lemma independent Is Ds : split_input_dependent al n nodes g inputs P = Ok (Is, Ds) -> (forall t, t ∈ inputs -> ground t /\ t ∈ fst nodes) ->
  forall r σ b, r ∈ Is -> (forall v, ground (σ v)) -> rtc (depends P) (sub σ (rhead r)) b -> b ∉ inputs.
Proof using E Hp Hal Hcv Halcv.
  intros H Hin r σ b Hr Hσ Hb Hbi. destruct (split_rules_in _ _ _ _ H r Hr) as (HrP & i & Ei & Hf).
  destruct (Hin b Hbi) as [Hgb Hnb]. destruct coarse_parts as (ins & es & _ & Efi & Er & Eg).
  destruct (find_roots_run _ _ _ _ _ Efi b Hbi) as (j & Ej & Hj).
  assert (Hgi : gr_inst b b) by (split; [done|exists Var; by rewrite sub_Var]).
  assert (Hbj : belongs b j) by (exists b; split; [by apply coarse_terms_input|done]).
  apply elem_of_list_lookup in Hnb as [q Hq]. assert (q = j) as -> by (apply (find_unique b j Ej q b Hq); by exists b).
  assert (Hnj : In j (g_nodes g)).
  { rewrite Eg. cbn. apply elem_of_list_In, elem_of_remove_dups, elem_of_app. left. by apply elem_of_list_In. }
  destruct (rule_edge r σ HrP Hσ) as (i' & Hi & Ei' & _). rewrite Ei in Ei'. injection Ei' as <-.
  pose proof (rtc_edge _ _ j i Hi Hbj Hnj Hb) as He. apply edge_in_spec in He.
  assert (reaches_input (fst nodes) (transitive_closure g true) inputs i = true); [|congruence].
  unfold reaches_input. apply existsb_exists. exists (i, j). split; [done|]. cbn. rewrite Nat.eqb_refl, Hq. cbn. apply existsb_exists.
  exists b. split; [by apply elem_of_list_In|]. by apply term_eqb_true.
Qed.

Lemma never_dependent Is Ds : split_input_dependent al n nodes g inputs P = Ok (Is, Ds) ->
  (forall t, t ∈ inputs -> exists v, In v (vars t) /\ forall i, v <> cv i) -> Is = P /\ Ds = [].
Proof using E Hp Hal Hcv Halcv.
  intros H Hin. apply split_rules_none in H; [done|]. intros i. unfold reaches_input. apply not_true_is_false. intros Hx.
  apply existsb_exists in Hx as ([a j] & _ & [_ Hj]%andb_prop). cbn in Hj. destruct (fst nodes !! j) as [t|] eqn:Et; [|done].
  apply existsb_exists in Hj as (u & Hu & <-%term_eqb_true). destruct (Hin t) as (v & Hv & Hne); [by apply elem_of_list_In|].
  pose proof (proj1 nodes_run) as Hc. rewrite Forall_forall in Hc. destruct (Hc t (elem_of_list_lookup_2 _ _ _ Et) v Hv) as [k Hk]. by apply (Hne k).
Qed.
End run.
