(** Proofs for C58. *)
From Coq Require Import List Lia Sorted.
From stdpp Require Import list.
From Verif Require Import PyBase SearchModel SearchSpec.
Import ListNotations.

Lemma tuple_lt_ok a b : tuple_lt a b = true <-> lex_lt a b.
Proof.
  revert b. induction a as [|x a IH]; intros [|y b]; cbn [tuple_lt].
  - split; [done|]. intros [p [(y & t & _ & E)|(x & y & s & t & E & _)]]; by destruct p.
  - split; [|done]. intros _. exists []. left. by exists y, b.
  - split; [done|]. intros [p [(y & t & _ & E)|(u & y & s & t & _ & E & _)]]; by destruct p.
  - destruct (Nat.ltb_spec x y) as [H|H].
    + split; [|done]. intros _. exists []. right. by exists x, y, a, b.
    + destruct (Nat.ltb_spec y x) as [H'|H'].
      * split; [done|]. intros [p [(z & t & E1 & E2)|(u & v & s & t & E1 & E2 & Hl)]]; exfalso.
        -- subst p. injection E2 as E2 _. lia.
        -- destruct p; injection E1 as E1 _; injection E2 as E2 _; lia.
      * assert (x = y) as -> by lia. rewrite IH. split.
        -- intros [p [(z & t & E1 & E2)|(u & v & s & t & E1 & E2 & Hl)]]; exists (y :: p); subst; [left|right]; [by eexists _, _|by eexists _, _, _, _].
        -- intros [p [(z & t & E1 & E2)|(u & v & s & t & E1 & E2 & Hl)]].
           ++ subst p. injection E2 as ->. exists a. left. by exists z, t.
           ++ destruct p as [|z p]; [injection E1 as E1 _; injection E2 as E2 _; lia|]. injection E1 as -> ->. injection E2 as ->. exists p. right. by exists u, v, s, t.
Qed.
Lemma tuple_lt_irrefl a : tuple_lt a a = false.
Proof. induction a as [|x a IH]; [done|]. cbn [tuple_lt]. by rewrite Nat.ltb_irrefl. Qed.
Lemma tuple_ge_trans a b c : tuple_lt a b = false -> tuple_lt b c = false -> tuple_lt a c = false.
Proof.
  revert b c. induction a as [|x a IH]; intros [|y b] [|z c]; cbn [tuple_lt]; try done.
  destruct (Nat.ltb_spec x y), (Nat.ltb_spec y z), (Nat.ltb_spec x z); try done; try lia;
  destruct (Nat.ltb_spec y x), (Nat.ltb_spec z y), (Nat.ltb_spec z x); try done; try lia. apply IH.
Qed.
Lemma tuple_lt_asym a b : tuple_lt a b = true -> tuple_lt b a = false.
Proof.
  revert b. induction a as [|x a IH]; intros [|y b]; cbn [tuple_lt]; try done.
  destruct (Nat.ltb_spec x y), (Nat.ltb_spec y x); try done; try lia. apply IH.
Qed.

Lemma existsb_in i l : existsb (Nat.eqb i) l = true <-> i ∈ l.
Proof.
  rewrite existsb_exists. split; [intros (j & H & ->%Nat.eqb_eq); by apply elem_of_list_In|]. intros H. exists i. split; [by apply elem_of_list_In|apply Nat.eqb_refl].
Qed.
Lemma filter_not_in {A} (h : A -> nat) i l : i ∉ map h l -> List.filter (fun e => negb (Nat.eqb i (h e))) l = l.
Proof.
  induction l as [|e l IH]; [done|]. cbn. rewrite not_elem_of_cons. intros [H1 H2]. destruct (Nat.eqb_spec i (h e)); [done|]. cbn. by rewrite IH.
Qed.
Lemma filter_keys {A} (h : A -> nat) i l : map h (List.filter (fun e => negb (Nat.eqb i (h e))) l) = List.filter (fun j => negb (Nat.eqb i j)) (map h l).
Proof. induction l as [|e l IH]; [done|]. cbn. destruct (negb _); cbn; by rewrite IH. Qed.
Lemma filter_perm_nat (f : nat -> bool) l l' : l ≡ₚ l' -> List.filter f l ≡ₚ List.filter f l'.
Proof. induction 1 as [|x l l' _ IH|x y l|l l' l'' _ IH1 _ IH2]; cbn; repeat destruct (f _); try done; [by constructor|by constructor|by etrans]. Qed.
Lemma filter_in (i j : nat) l : j ∈ List.filter (fun j => negb (Nat.eqb i j)) l <-> j ∈ l /\ j <> i.
Proof.
  rewrite !elem_of_list_In, filter_In. destruct (Nat.eqb_spec i j); cbn; split; intros [H1 H2]; split; try done; congruence.
Qed.
Lemma filter_sorted (f : nat -> bool) l : StronglySorted lt l -> StronglySorted lt (List.filter f l).
Proof.
  induction 1 as [|x l _ IH H]; cbn; [constructor|]. destruct (f x); [|done]. constructor; [done|].
  rewrite List.Forall_forall in *. intros y Hy. apply filter_In in Hy as [Hy _]. by apply H.
Qed.
Lemma filter_length_in i l : NoDup l -> i ∈ l -> S (length (List.filter (fun j => negb (Nat.eqb i j)) l)) = length l.
Proof.
  induction l as [|x l IH]; intros HN Hi; [by apply elem_of_nil in Hi|]. apply NoDup_cons in HN as [Hx HN]. cbn. destruct (Nat.eqb_spec i x) as [->|Hne]; cbn.
  - f_equal. rewrite (filter_not_in (fun j => j)); [done|]. by rewrite map_id.
  - apply elem_of_cons in Hi as [->|Hi]; [done|]. by rewrite IH.
Qed.
Lemma sorted_nodup l : StronglySorted lt l -> NoDup l.
Proof.
  induction 1 as [|x l _ IH H]; constructor; [|done]. intros Hx. pose proof (proj1 (Forall_forall _ _) H x Hx) as H'. cbn in H'. lia.
Qed.
Lemma sorted_snoc l n : StronglySorted lt l -> Forall (fun i => i < n) l -> StronglySorted lt (l ++ [n]).
Proof.
  induction 1 as [|x l _ IH H]; intros Hf; cbn; [repeat constructor|]. apply Forall_cons in Hf as [Hx Hf]. constructor; [by apply IH|].
  apply List.Forall_app. split; [done|]. by repeat constructor.
Qed.

Section proofs.
Context {St Pr : Type} (prog : St -> Pr) (drive : nat -> St -> list St)
  (prio cost : Pr -> list nat) (check : Pr -> bool) (pick : list (nat * list nat) -> nat).
Context (Hpick : forall l, l <> [] -> pick l ∈ map fst l).
Context (x0 : St).
Notation fnd := (found prog drive check x0).

(** [m]: number of draws that took the oldest state; [ps]: the programs so far *)
Record inv (m : nat) (ps : list Pr) (s : search St Pr) : Prop := Inv {
  i_perm : map fst (s_agenda s) ≡ₚ s_fifo s;
  i_sort : StronglySorted lt (s_fifo s);
  i_range : Forall (fun i => m <= i < length (s_P s)) (s_fifo s);
  i_room : m + length (s_fifo s) <= length (s_P s);
  i_popped : forall i x, s_P s !! i = Some x -> i ∈ s_fifo s \/ check (prog x) = false \/ i ∈ s_chart s;
  i_nodup : NoDup (s_chart s);
  i_disj : forall i, i ∈ s_chart s -> i ∉ s_fifo s;
  i_chart : Forall2 (fun i p => exists x, s_P s !! i = Some x /\ p = prog x /\ check p = true) (s_chart s) ps;
  i_found : Forall fnd (s_P s);
  i_best_in : s_best s ∈ prog x0 :: ps;
  i_best_cost : s_best_cost s = cost (s_best s);
  i_best : forall p, p ∈ prog x0 :: ps -> tuple_lt (cost p) (s_best_cost s) = false;
  i_wait : forall i, s_wait s = Some i -> i ∈ s_chart s;
  i_closed : forall i x, i ∈ s_chart s -> s_P s !! i = Some x -> s_wait s = Some i \/ exists k, forall y, In y (drive k x) -> y ∈ s_P s;
  i_start : s_P s !! 0 = Some x0;
  i_prio : Forall (fun e => exists x, s_P s !! fst e = Some x /\ snd e = prio (prog x)) (s_agenda s) }.

Lemma push_inv m ps s y : inv m ps s -> fnd y -> inv m ps (push prog prio y s).
Proof.
  intros [] Hy. assert (Hn : existsb (Nat.eqb (length (s_P s))) (s_fifo s) = false).
  { destruct (existsb _ _) eqn:E; [|done]. apply existsb_in in E. pose proof (proj1 (Forall_forall _ _) i_range0 _ E) as H. cbn in H. lia. }
  unfold push, os_add. rewrite Hn. constructor; cbn; try done.
  - rewrite map_app. cbn. by apply Permutation_app_tail.
  - apply sorted_snoc; [done|]. eapply Forall_impl; [exact i_range0|]. intros i Hi. cbn in Hi. lia.
  - rewrite app_length. cbn. apply Forall_app. split; [eapply Forall_impl; [exact i_range0|]; intros i Hi; cbn in Hi |- *; lia|]. constructor; [lia|constructor].
  - rewrite !app_length. cbn. lia.
  - intros i x Hi. apply lookup_app_Some in Hi as [Hi|[Hl Hi]].
    + destruct (i_popped0 i x Hi) as [H|H]; [left; apply elem_of_app; by left|by right].
    + left. apply elem_of_app. right. apply elem_of_list_singleton. apply list_lookup_singleton_Some in Hi as [Hi _]. lia.
  - intros i Hi Hf. apply elem_of_app in Hf as [Hf|Hf]; [by apply (i_disj0 i)|]. apply elem_of_list_singleton in Hf as ->.
    apply elem_of_list_lookup in Hi as [j Hj]. destruct (Forall2_lookup_l _ _ _ _ _ i_chart0 Hj) as (p & _ & x & Hx & _). apply lookup_lt_Some in Hx. lia.
  - eapply Forall2_impl; [exact i_chart0|]. intros i p (x & Hx & H). exists x. split; [by apply lookup_app_l_Some|done].
  - apply Forall_app. split; [done|by repeat constructor].
  - intros i x Hi Hx. destruct (lookup_app_Some (s_P s) [y] i x) as [Hl _]. destruct (Hl Hx) as [Hx'|[Hlen _]].
    + destruct (i_closed0 i x Hi Hx') as [H|[k H]]; [by left|right]. exists k. intros z Hz. apply elem_of_app. left. by apply H.
    + exfalso. apply elem_of_list_lookup in Hi as [j Hj]. destruct (Forall2_lookup_l _ _ _ _ _ i_chart0 Hj) as (p & _ & x' & Hx' & _). apply lookup_lt_Some in Hx'. lia.
  - by apply lookup_app_l_Some.
  - apply Forall_app. split.
    + eapply Forall_impl; [exact i_prio0|]. intros e (x & Hx & H). exists x. split; [by apply lookup_app_l_Some|done].
    + constructor; [|constructor]. exists y. split; [|done]. cbn. by rewrite lookup_app_r, Nat.sub_diag.
Qed.

Lemma init_inv : inv 0 [] (search_init prog prio cost x0).
Proof.
  unfold search_init, push, os_add. constructor; cbn; try done.
  - repeat constructor.
  - repeat constructor.
  - intros i x Hi. apply list_lookup_singleton_Some in Hi as [-> _]. left. by left.
  - constructor.
  - intros i Hi. by apply elem_of_nil in Hi.
  - repeat constructor.
  - by left.
  - intros p Hp. apply elem_of_list_singleton in Hp as ->. apply tuple_lt_irrefl.
  - intros i x Hi. by apply elem_of_nil in Hi.
  - constructor; [|constructor]. by exists x0.
Qed.

Lemma pushes_keep ys (s : search St Pr) : s_chart (foldl (fun s x => push prog prio x s) s ys) = s_chart s /\ s_wait (foldl (fun s x => push prog prio x s) s ys) = s_wait s /\
  s_P (foldl (fun s x => push prog prio x s) s ys) = s_P s ++ ys.
Proof.
  revert s. induction ys as [|y ys IH]; intros s; [cbn; by rewrite app_nil_r|]. cbn [foldl]. destruct (IH (push prog prio y s)) as (-> & -> & ->). cbn. by rewrite <- app_assoc.
Qed.

Lemma resume_inv m ps s k : inv m ps s -> inv m ps (resume prog drive prio k s) /\ s_wait (resume prog drive prio k s) = None.
Proof.
  intros Hi. unfold resume. destruct (s_wait s) as [i|] eqn:Ew; [|done].
  set (s1 := Search (s_P s) (s_agenda s) (s_fifo s) (s_chart s) (s_best s) (s_best_cost s) None).
  assert (Hc : i ∈ s_chart s) by by apply (i_wait _ _ _ Hi).
  destruct (proj1 (elem_of_list_lookup _ _) Hc) as [j Hj]. destruct (Forall2_lookup_l _ _ _ _ _ (i_chart _ _ _ Hi) Hj) as (p & _ & x & Hx & -> & Hck).
  cbn [s_P s1]. rewrite Hx.
  assert (Hfx : fnd x) by (eapply Forall_lookup_1; [apply (i_found _ _ _ Hi)|exact Hx]).
  (* the invariant without the last state being closed *)
  assert (H : forall ys s2, (forall y, In y ys -> In y (drive k x)) ->
    (forall (P : Prop), inv m ps (Search (s_P s2) (s_agenda s2) (s_fifo s2) (s_chart s2) (s_best s2) (s_best_cost s2) (Some i)) ->
     inv m ps (Search (s_P (foldl (fun s x => push prog prio x s) s2 ys)) (s_agenda (foldl (fun s x => push prog prio x s) s2 ys)) (s_fifo (foldl (fun s x => push prog prio x s) s2 ys))
       (s_chart (foldl (fun s x => push prog prio x s) s2 ys)) (s_best (foldl (fun s x => push prog prio x s) s2 ys)) (s_best_cost (foldl (fun s x => push prog prio x s) s2 ys)) (Some i)))).
  { induction ys as [|y ys IH]; intros s2 Hys P H2; [done|]. cbn [foldl]. apply IH; [intros z Hz; apply Hys; by right|done|].
    apply (push_inv _ _ _ y H2). apply (found_step _ _ _ _ k x); [done|done|]. apply Hys. by left. }
  specialize (H (drive k x) s1 (fun y Hy => Hy) True).
  assert (H0 : inv m ps (Search (s_P s1) (s_agenda s1) (s_fifo s1) (s_chart s1) (s_best s1) (s_best_cost s1) (Some i))).
  { subst s1. cbn. rewrite <- Ew. by destruct s. }
  specialize (H H0). destruct (pushes_keep (drive k x) s1) as (E1 & E2 & E3).
  split; [|by rewrite E2]. destruct H. cbn in *. constructor; try done.
  - intros j' Hj'. rewrite E2 in Hj'. done.
  - intros j' x' Hj' Hx'. right. destruct (i_closed0 j' x' Hj' Hx') as [[= <-]|H]; [|done]. exists k. intros y Hy. rewrite E3 in Hx' |- *.
    apply elem_of_app. right. apply elem_of_list_In. rewrite (lookup_app_l_Some _ _ _ _ Hx) in Hx'. by injection Hx' as <-.
Qed.

(** Taking the number [i] out of both queues *)
Lemma take_inv m m' ps s i a f : inv m ps s -> s_wait s = None -> i ∈ s_fifo s -> m <= m' <= S m -> (m' = S m -> forall j, j ∈ s_fifo s -> j <> i -> S m <= j) ->
  pd_remove i (s_agenda s) = Ok a -> os_remove i (s_fifo s) = Ok f ->
  forall x, s_P s !! i = Some x ->
  (check (prog x) = false -> inv m' ps (Search (s_P s) a f (s_chart s) (s_best s) (s_best_cost s) (s_wait s))) /\
  (check (prog x) = true ->
   let s' := Search (s_P s) a f (os_add i (s_chart s)) (if tuple_lt (cost (prog x)) (s_best_cost s) then prog x else s_best s)
     (if tuple_lt (cost (prog x)) (s_best_cost s) then cost (prog x) else s_best_cost s) (Some i) in inv m' (ps ++ [prog x]) s').
Proof.
  intros [] Hw Hi Hm Hm' Ea Ef x Hx. unfold pd_remove in Ea. unfold os_remove in Ef.
  destruct (existsb _ (map fst _)); [|done]. injection Ea as <-. destruct (existsb _ _); [|done]. injection Ef as <-.
  set (f := List.filter (fun j => negb (Nat.eqb i j)) (s_fifo s)).
  assert (Hp : map fst (List.filter (fun e => negb (Nat.eqb i (fst e))) (s_agenda s)) ≡ₚ f).
  { rewrite (filter_keys fst). by apply filter_perm_nat. }
  assert (Hs : StronglySorted lt f) by by apply filter_sorted.
  assert (Hr : Forall (fun j => m' <= j < length (s_P s)) f).
  { apply Forall_forall. intros j Hj. apply filter_in in Hj as [Hj Hne]. pose proof (proj1 (Forall_forall _ _) i_range0 j Hj) as Hj'. cbn in Hj'.
    destruct (decide (m' = S m)) as [E|E]; [specialize (Hm' E j Hj Hne)|]; lia. }
  assert (Hroom : m' + length f <= length (s_P s)).
  { pose proof (filter_length_in i _ (sorted_nodup _ i_sort0) Hi) as E. fold f in E. lia. }
  assert (Hin : forall j, j ∈ s_fifo s -> j ∈ f \/ j = i).
  { intros j Hj. destruct (decide (j = i)); [by right|left]. by apply filter_in. }
  assert (Hsub : forall j, j ∈ f -> j ∈ s_fifo s) by (intros j Hj; by apply filter_in in Hj as [? _]).
  assert (Hpr : Forall (fun e => exists x, s_P s !! fst e = Some x /\ snd e = prio (prog x)) (List.filter (fun e => negb (Nat.eqb i (fst e))) (s_agenda s))).
  { apply Forall_forall. intros e He. apply elem_of_list_In, filter_In in He as [He _]. exact (proj1 (Forall_forall _ _) i_prio0 e (proj2 (elem_of_list_In _ _) He)). }
  split; intros Hc.
  - constructor; cbn; try done.
    + intros j y Hy. destruct (i_popped0 j y Hy) as [H|H]; [|by right]. destruct (Hin j H) as [H'| ->]; [by left|]. right. left. congruence.
    + intros j Hj Hf. by apply (i_disj0 j Hj), Hsub.
  - assert (Hic : i ∉ s_chart s) by (intros H; by apply (i_disj0 i H)).
    assert (Ead : os_add i (s_chart s) = s_chart s ++ [i]).
    { unfold os_add. destruct (existsb _ _) eqn:E; [|done]. by apply existsb_in in E. }
    cbn. rewrite Ead. constructor; cbn; try done.
    + intros j y Hy. destruct (i_popped0 j y Hy) as [H|[H|H]]; [|by right; left|right; right; apply elem_of_app; by left].
      destruct (Hin j H) as [H'| ->]; [by left|]. right. right. apply elem_of_app. right. by apply elem_of_list_singleton.
    + apply NoDup_app. split; [done|]. split; [|apply NoDup_singleton]. intros j Hj ->%elem_of_list_singleton. done.
    + intros j Hj Hf. apply elem_of_app in Hj as [Hj|Hj]; [by apply (i_disj0 j Hj), Hsub|]. apply elem_of_list_singleton in Hj as ->. by apply filter_in in Hf as [_ Hf].
    + apply Forall2_app; [done|]. constructor; [|constructor]. by exists x.
    + destruct (tuple_lt _ _).
      * right. apply elem_of_app. right. by apply elem_of_list_singleton.
      * apply elem_of_cons in i_best_in0 as [->|H]; [by left|]. right. apply elem_of_app. by left.
    + by destruct (tuple_lt _ _).
    + intros p Hp'. assert (Hp2 : p ∈ prog x0 :: ps \/ p = prog x).
      { apply elem_of_cons in Hp' as [->|H]; [left; by left|]. apply elem_of_app in H as [H|H]; [left; by right|right]. by apply elem_of_list_singleton in H. }
      destruct (tuple_lt (cost (prog x)) (s_best_cost s)) eqn:El.
      * destruct Hp2 as [Hp2| ->]; [|apply tuple_lt_irrefl]. eapply tuple_ge_trans; [by apply i_best0|]. by apply tuple_lt_asym.
      * destruct Hp2 as [Hp2| ->]; [by apply i_best0|done].
    + intros j [= <-]. apply elem_of_app. right. by apply elem_of_list_singleton.
    + intros j y Hj Hy. apply elem_of_app in Hj as [Hj|Hj].
      * destruct (i_closed0 j y Hj Hy) as [H|H]; [by rewrite Hw in H|by right].
      * apply elem_of_list_singleton in Hj as ->. by left.
Qed.

Lemma fifo_head_le (i j : nat) l : StronglySorted lt (i :: l) -> j ∈ i :: l -> j <> i -> i < j.
Proof.
  intros H Hj Hne. apply elem_of_cons in Hj as [?|Hj]; [done|]. apply StronglySorted_inv in H as [_ H]. exact (proj1 (Forall_forall _ _) H j Hj).
Qed.

Lemma pop_inv m ps s g : inv m ps s -> s_wait s = None -> s_agenda s <> [] ->
  exists o s', pop_one prog cost check pick g s = Ok (o, s') /\
    inv (m + (if g then 0 else 1)) (ps ++ (match o with Some p => [p] | None => [] end)) s' /\
    match o with Some p => True | None => s_wait s' = None end.
Proof.
  intros Hi Hw Ha. pose proof Hi as []. 
  assert (Hboth : forall i, i ∈ s_fifo s -> exists a f x, pd_remove i (s_agenda s) = Ok a /\ os_remove i (s_fifo s) = Ok f /\ s_P s !! i = Some x).
  { intros i Hf. unfold pd_remove, os_remove. rewrite (proj2 (existsb_in i (s_fifo s)) Hf), (proj2 (existsb_in i _)) by by rewrite i_perm0.
    pose proof (proj1 (Forall_forall _ _) i_range0 i Hf) as H. cbn in H. destruct (lookup_lt_is_Some_2 (s_P s) i) as [x Hx]; [lia|]. by eexists _, _, x. }
  unfold pop_one. destruct g.
  - assert (Hp : pick (s_agenda s) ∈ s_fifo s) by (rewrite <- i_perm0; by apply Hpick).
    destruct (Hboth _ Hp) as (a & f & x & Ea & Ef & Hx). rewrite Ea. cbn [bind]. rewrite Ef. cbn [bind s_P]. rewrite Hx.
    destruct (take_inv m m ps s _ a f Hi Hw Hp ltac:(lia) ltac:(lia) Ea Ef x Hx) as [H1 H2]. rewrite Nat.add_0_r.
    destruct (check (prog x)) eqn:Ec; cbn [negb].
    + specialize (H2 eq_refl). cbn in H2. cbn [s_chart s_best s_best_cost s_agenda s_fifo s_P].
      destruct (tuple_lt _ _); (eexists _, _; split; [done|]; by split).
    + eexists _, _. split; [done|]. rewrite app_nil_r. split; [by apply H1|done].
  - destruct (s_fifo s) as [|i l] eqn:Efi.
    { apply Permutation_sym, Permutation_nil in i_perm0. by destruct (s_agenda s). }
    assert (Hp : i ∈ s_fifo s) by (rewrite Efi; by left). rewrite <- Efi in *.
    destruct (Hboth _ Hp) as (a & f & x & Ea & Ef & Hx). rewrite Ef. cbn [bind]. rewrite Ea. cbn [bind s_P]. rewrite Hx.
    destruct (take_inv m (m + 1) ps s i a f Hi Hw Hp ltac:(lia)) with (x := x) as [H1 H2]; [|done..|].
    { intros _ j Hj Hne. pose proof (proj1 (Forall_forall _ _) i_range0 i Hp) as H. cbn in H. rewrite Efi in i_sort0, Hj. pose proof (fifo_head_le i j l i_sort0 Hj Hne). lia. }
    destruct (check (prog x)) eqn:Ec; cbn [negb].
    + specialize (H2 eq_refl). cbn in H2. cbn [s_chart s_best s_best_cost s_agenda s_fifo s_P].
      destruct (tuple_lt _ _); (eexists _, _; split; [done|]; by split).
    + eexists _, _. split; [done|]. rewrite app_nil_r. split; [by apply H1|done].
Qed.

(** the number of draws that take the oldest state *)
Notation olds gs := (length (List.filter negb gs)).

Lemma run_inv gs : forall steps k s m ps, inv m ps s ->
  match run_agenda prog drive prio cost check pick gs steps k s with
  | Ok (qs, rest, s') => exists used, gs = used ++ rest /\ inv (m + olds used) (ps ++ qs) s' /\ length qs <= steps /\
      (length qs < steps -> s_agenda s' = [] /\ s_wait s' = None)
  | Raise _ => False
  | OutOfFuel => True
  end.
Proof.
  induction gs as [|g gs IH]; intros [|steps] k s m ps Hi; cbn [run_agenda].
  1,3: exists []; cbn; rewrite Nat.add_0_r, app_nil_r; split_and!; try done; lia.
  all: destruct (resume_inv m ps s k Hi) as [Hr Hw]; destruct (s_agenda (resume prog drive prio k s)) as [|e l] eqn:Ea.
  1,3: exists []; cbn; rewrite Nat.add_0_r, app_nil_r; split_and!; try done; lia.
  - done.
  - destruct (pop_inv m ps _ g Hr Hw) as (o & s' & E & H' & Ho); [by rewrite Ea|]. rewrite E. cbn [bind]. destruct o as [p|].
    + specialize (IH steps (S k) s' _ _ H'). destruct (run_agenda _ _ _ _ _ _ gs _ _ _) as [[[qs rest] s2]| |]; cbn [bind]; [|done..].
      destruct IH as (used & -> & H2 & Hl & He). exists (g :: used). split; [done|]. rewrite <- app_assoc in H2. cbn [List.filter length]. split; [|split; [cbn; lia|]].
      * replace (m + length (if negb g then g :: List.filter negb used else List.filter negb used)) with (m + (if g then 0 else 1) + olds used); [done|]. destruct g; cbn; lia.
      * intros Hlt. apply He. cbn in Hlt. lia.
    + rewrite app_nil_r in H'. specialize (IH (S steps) (S k) s' _ _ H'). destruct (run_agenda _ _ _ _ _ _ gs _ _ _) as [[[qs rest] s2]| |]; [|done..].
      destruct IH as (used & -> & H2 & Hl & He). exists (g :: used). split; [done|]. cbn [List.filter]. split; [|by split].
      replace (m + length (if negb g then g :: List.filter negb used else List.filter negb used)) with (m + (if g then 0 else 1) + olds used); [done|]. destruct g; cbn; lia.
Qed.
End proofs.
