(** C58: the search returns a program it has found and checked, of least degrees. *)
From Coq Require Import List Lia.
From stdpp Require Import list.
From Verif Require Import PyBase SearchModel SearchSpec SearchProofs.
Import ListNotations.

(** The priority queue returns the key of an entry with the least priority. *)
Definition pops_least (pick : list (nat * list nat) -> nat) : Prop :=
  forall l, l <> [] -> exists e, e ∈ l /\ pick l = fst e /\ forall e', e' ∈ l -> ~ lex_lt (snd e') (snd e).
Lemma pops_in pick : pops_least pick -> forall l, l <> [] -> pick l ∈ map fst l.
Proof. intros H l Hl. destruct (H l Hl) as (e & He & -> & _). apply elem_of_list_fmap. by exists e. Qed.

Section C58.
(** [gs]: the random draws, true for greedy *)
Context (St Pr : Type) (prog : St -> Pr) (drive : nat -> St -> list St) (prio cost : Pr -> list nat) (check : Pr -> bool)
  (pick : list (nat * list nat) -> nat) (Hpick : pops_least pick).
Notation run gs steps x0 := (run_agenda prog drive prio cost check pick gs steps 0 (search_init prog prio cost x0)).

Lemma run_ok gs steps x0 ps rest s : run gs steps x0 = Ok (ps, rest, s) ->
  exists used, gs = used ++ rest /\ inv prog drive prio cost check x0 (length (List.filter negb used)) ps s /\ length ps <= steps /\
    (length ps < steps -> s_agenda s = [] /\ s_wait s = None).
Proof.
  intros E. pose proof (run_inv prog drive prio cost check pick (pops_in pick Hpick) x0 gs steps 0 _ 0 [] (init_inv prog drive prio cost check x0)) as H. by rewrite E in H.
Qed.

(** ** C58.  The best program is the given one or one of those the search returned, and
    none of these has lower degrees. *)
Theorem C58_best : forall gs steps x0 ps rest s, run gs steps x0 = Ok (ps, rest, s) ->
  (s_best s = prog x0 \/ In (s_best s) ps) /\ forall p, p = prog x0 \/ In p ps -> ~ lex_lt (cost p) (cost (s_best s)).
Proof.
  intros gs steps x0 ps rest s E. destruct (run_ok _ _ _ _ _ _ E) as (used & _ & Hi & _). split.
  - pose proof (i_best_in _ _ _ _ _ _ _ _ _ Hi) as H. apply elem_of_cons in H as [H|H]; [by left|right; by apply elem_of_list_In].
  - intros p Hp Hl. apply tuple_lt_ok in Hl. rewrite <- (i_best_cost _ _ _ _ _ _ _ _ _ Hi), (i_best _ _ _ _ _ _ _ _ _ Hi) in Hl; [done|].
    apply elem_of_cons. rewrite elem_of_list_In. done.
Qed.

(** It returns at most [steps] programs; each was found by driving checked states, has
    passed the check, and comes from a different state. *)
Theorem C58_found : forall gs steps x0 ps rest s, run gs steps x0 = Ok (ps, rest, s) ->
  length ps <= steps /\
  exists is xs, NoDup is /\ Forall2 (fun i x => s_P s !! i = Some x) is xs /\ ps = map prog xs /\
    Forall (fun x => found prog drive check x0 x /\ check (prog x) = true) xs.
Proof.
  intros gs steps x0 ps rest s E. destruct (run_ok _ _ _ _ _ _ E) as (used & _ & Hi & Hl & _). split; [done|]. destruct Hi. exists (s_chart s).
  clear - i_chart i_found i_nodup. cut (exists xs, Forall2 (fun i x => s_P s !! i = Some x) (s_chart s) xs /\ ps = map prog xs /\ Forall (fun x => found prog drive check x0 x /\ check (prog x) = true) xs).
  { intros (xs & H). by exists xs. }
  clear i_nodup. induction i_chart as [|i p is ps (x & Hx & -> & Hc) _ (xs & H1 & -> & H3)]; [by exists []|]. exists (x :: xs). split_and!; [by constructor|done|].
  constructor; [|done]. split; [|done]. eapply Forall_lookup_1; [exact i_found|exact Hx].
Qed.

(** What holds of the given program and is kept by moves between programs that pass the
    check (such as having the meaning of the given program) holds of the best program. *)
Theorem C58_invariant : forall (Q : Pr -> Prop) gs steps x0 ps rest s,
  Q (prog x0) -> (forall k x y, Q (prog x) -> check (prog x) = true -> In y (drive k x) -> check (prog y) = true -> Q (prog y)) ->
  run gs steps x0 = Ok (ps, rest, s) -> Q (s_best s) /\ forall p, In p ps -> Q p.
Proof.
  intros Q gs steps x0 ps rest s H0 Hstep E. destruct (C58_best _ _ _ _ _ _ E) as [Hb _]. destruct (C58_found _ _ _ _ _ _ E) as (_ & is & xs & _ & _ & -> & Hxs).
  assert (Hf : forall x, found prog drive check x0 x -> check (prog x) = true -> Q (prog x)).
  { induction 1 as [|k x y _ IH Hc Hy]; [done|]. intros Hcy. by apply (Hstep k x y); [apply IH|..]. }
  assert (Hp : forall p, In p (map prog xs) -> Q p).
  { intros p (x & <- & Hx)%in_map_iff. destruct (proj1 (Forall_forall _ _) Hxs x (proj2 (elem_of_list_In _ _) Hx)) as [H1 H2]. by apply Hf. }
  split; [|done]. destruct Hb as [->|Hb]; [done|by apply Hp].
Qed.

(** The search never fails. *)
Theorem C58_no_error : forall gs steps x0 e, run gs steps x0 <> Raise e.
Proof.
  intros gs steps x0 e E. pose proof (run_inv prog drive prio cost check pick (pops_in pick Hpick) x0 gs steps 0 _ 0 [] (init_inv prog drive prio cost check x0)) as H. by rewrite E in H.
Qed.

(** If no program fails the check, then [steps] draws are enough. *)
Theorem C58_returns : forall gs steps x0, (forall p, check p = true) -> steps <= length gs -> exists o, run gs steps x0 = Ok o.
Proof.
  intros gs steps x0 Hc. assert (H : forall gs steps k s m ps, inv prog drive prio cost check x0 m ps s -> steps <= length gs ->
    exists o, run_agenda prog drive prio cost check pick gs steps k s = Ok o).
  { clear gs steps. induction gs as [|g gs IH]; intros [|steps] k s m ps Hi Hl; cbn [run_agenda]; try by eexists.
    - cbn in Hl. lia.
    - destruct (resume_inv prog drive prio cost check x0 m ps s k Hi) as [Hr Hw]. destruct (s_agenda (resume prog drive prio k s)) as [|e l] eqn:Ea; [by eexists|].
      destruct (pop_inv prog drive prio cost check pick (pops_in pick Hpick) x0 m ps _ g Hr Hw) as (o & s' & E & H' & _); [by rewrite Ea|]. rewrite E. cbn [bind]. destruct o as [p|].
      + destruct (IH steps (S k) s' _ _ H') as [[[qs rest] s2] ->]; [cbn in Hl; lia|]. cbn [bind]. by eexists.
      + exfalso. clear - E Hc. unfold pop_one in E.
        match type of E with bind ?a _ = _ => destruct a as [[i s1]| |] end; [|done..]. cbn [bind] in E.
        destruct (s_P s1 !! i) as [x|]; [|done]. rewrite Hc in E. cbn [negb] in E. by destruct (tuple_lt _ _). }
  intros Hl. by apply (H gs steps 0 _ 0 [] (init_inv prog drive prio cost check x0)).
Qed.

(** It is fair: once more than [i] draws have taken the oldest state, the state that was
    pushed as number [i] has been returned, unless it fails the check. *)
Theorem C58_fair : forall gs steps x0 ps used rest s, run gs steps x0 = Ok (ps, rest, s) -> gs = used ++ rest ->
  forall i x, s_P s !! i = Some x -> i < length (List.filter negb used) -> check (prog x) = true -> In (prog x) ps.
Proof.
  intros gs steps x0 ps used rest s E Eg i x Hx Hl Hc. destruct (run_ok _ _ _ _ _ _ E) as (used' & Eg' & [] & _). rewrite Eg in Eg'. apply app_inv_tail in Eg' as <-.
  destruct (i_popped i x Hx) as [H|[H|H]]; [|congruence|].
  - pose proof (proj1 (Forall_forall _ _) i_range i H) as H'. cbn in H'. lia.
  - apply elem_of_list_lookup in H as [j Hj]. destruct (Forall2_lookup_l _ _ _ _ _ i_chart Hj) as (p & Hp & x' & Hx' & -> & _).
    apply elem_of_list_In, elem_of_list_lookup. exists j. congruence.
Qed.

(** It is complete: if it stops before [steps] programs have been returned, it has
    returned everything that can be found.  (Driving a state does not depend on when.) *)
Theorem C58_exhausted : forall gs steps x0 ps rest s, (forall k x, drive k x = drive 0 x) ->
  run gs steps x0 = Ok (ps, rest, s) -> length ps < steps ->
  forall x, found prog drive check x0 x -> check (prog x) = true -> In (prog x) ps.
Proof.
  intros gs steps x0 ps rest s Hd E Hl. destruct (run_ok _ _ _ _ _ _ E) as (used & _ & [] & _ & He). destruct (He Hl) as [Ha Hw].
  assert (Hf : s_fifo s = []) by (rewrite Ha in i_perm; cbn in i_perm; by apply Permutation_nil).
  assert (Hin : forall i x, s_P s !! i = Some x -> check (prog x) = true -> i ∈ s_chart s /\ In (prog x) ps).
  { intros i x Hx Hc. destruct (i_popped i x Hx) as [H|[H|H]]; [rewrite Hf in H; by apply elem_of_nil in H|congruence|]. split; [done|].
    apply elem_of_list_lookup in H as [j Hj]. destruct (Forall2_lookup_l _ _ _ _ _ i_chart Hj) as (p & Hp & x' & Hx' & -> & _).
    apply elem_of_list_In, elem_of_list_lookup. exists j. congruence. }
  assert (HP : forall x, found prog drive check x0 x -> x ∈ s_P s).
  { induction 1 as [|k x y _ IH Hc Hy]; [by apply elem_of_list_lookup_2 in i_start|].
    apply elem_of_list_lookup in IH as [i Hi]. destruct (Hin i x Hi Hc) as [Hch _]. destruct (i_closed i x Hch Hi) as [H|[k' H]]; [by rewrite Hw in H|].
    apply H. by rewrite Hd, <- (Hd k). }
  intros x Hx Hc. apply HP, elem_of_list_lookup in Hx as [i Hi]. by apply (Hin i).
Qed.

(** A greedy draw takes a program of least priority among those that wait. *)
Theorem C58_greedy : forall gs steps x0 ps rest s k o s', run gs steps x0 = Ok (ps, rest, s) ->
  s_agenda (resume prog drive prio k s) <> [] ->
  pop_one prog cost check pick true (resume prog drive prio k s) = Ok (o, s') ->
  exists i x, i ∈ s_fifo (resume prog drive prio k s) /\ i ∉ s_fifo s' /\ s_P s' !! i = Some x /\ o = (if check (prog x) then Some (prog x) else None) /\
    forall j y, j ∈ s_fifo (resume prog drive prio k s) -> s_P s' !! j = Some y -> ~ lex_lt (prio (prog y)) (prio (prog x)).
Proof.
  intros gs steps x0 ps rest s k o s' E Ha Ep. destruct (run_ok _ _ _ _ _ _ E) as (used & _ & Hi & _). apply (resume_inv _ _ _ _ _ _ _ _ _ k) in Hi as [Hi _].
  set (s1 := resume prog drive prio k s) in *. destruct (Hpick _ Ha) as (e & He & Hk & Hmin). destruct Hi.
  destruct (proj1 (Forall_forall _ _) i_prio e He) as (x & Hx & Hp). unfold pop_one in Ep. rewrite Hk in Ep.
  destruct (pd_remove _ _) as [a| |] eqn:Ea; [|done..]. cbn [bind] in Ep. destruct (os_remove _ _) as [f| |] eqn:Ef; [|done..]. cbn [bind s_P] in Ep. rewrite Hx in Ep.
  unfold os_remove in Ef. destruct (existsb _ _) eqn:Ex; [|done]. injection Ef as <-. apply existsb_in in Ex.
  assert (HP : s_P s' = s_P s1 /\ s_fifo s' = List.filter (fun j => negb (Nat.eqb (fst e) j)) (s_fifo s1) /\ o = (if check (prog x) then Some (prog x) else None)).
  { destruct (check (prog x)); cbn [negb] in Ep; [destruct (tuple_lt _ _) in Ep|]; by injection Ep as <- <-. }
  destruct HP as (HP & HF & Ho). exists (fst e), x. rewrite HP, HF. split; [done|]. split; [rewrite filter_in; naive_solver|]. split; [done|]. split; [done|].
  intros j y Hj Hy. rewrite <- Hp. rewrite <- i_perm in Hj. apply elem_of_list_fmap in Hj as (e' & -> & He'). destruct (proj1 (Forall_forall _ _) i_prio e' He') as (y' & Hy' & Hp').
  assert (y' = y) as -> by congruence. rewrite <- Hp'. by apply Hmin.
Qed.
End C58.

(** ** Witness: from 1, the programs [2 n] and [2 n + 1] are found from [n < 8]; 3 fails
    the check; the degrees of [n] are n mod 5 and n. *)
Definition h_drive (k n : nat) : list nat := if Nat.ltb n 8 then [2 * n; 2 * n + 1] else [].
Definition h_cost (n : nat) : list nat := [Nat.modulo n 5; n].
Definition h_check (n : nat) : bool := negb (Nat.eqb n 3).
Fixpoint h_least (e : nat * list nat) (l : list (nat * list nat)) : nat * list nat :=
  match l with [] => e | e' :: l => h_least (if tuple_lt (snd e') (snd e) then e' else e) l end.
Definition h_pick (l : list (nat * list nat)) : nat := match l with [] => 0 | e :: l => fst (h_least e l) end.
Lemma h_least_ok l e : h_least e l ∈ e :: l /\ forall e', e' ∈ e :: l -> tuple_lt (snd e') (snd (h_least e l)) = false.
Proof.
  revert e. induction l as [|e1 l IH]; intros e; cbn [h_least].
  - split; [by left|]. intros e' ->%elem_of_list_singleton. apply tuple_lt_irrefl.
  - destruct (tuple_lt (snd e1) (snd e)) eqn:E.
    + destruct (IH e1) as [H1 H2]. split; [by right|]. intros e' [->|He']%elem_of_cons; [|by apply H2].
      eapply tuple_ge_trans; [by apply tuple_lt_asym|]. apply H2. by left.
    + destruct (IH e) as [H1 H2]. split; [apply elem_of_cons in H1 as [->|H1]; [by left|right; by right]|]. intros e' [->|[->|He']%elem_of_cons]%elem_of_cons.
      * apply H2. by left.
      * eapply tuple_ge_trans; [exact E|]. apply H2. by left.
      * apply H2. by right.
Qed.
Definition h_run (gs : list bool) (steps : nat) := run_agenda id h_drive h_cost h_cost h_check h_pick gs steps 0 (search_init id h_cost h_cost 1).

Theorem C58_witness :
  pops_least h_pick /\ (forall k n, h_drive k n = h_drive 0 n) /\
  (exists s, h_run [true; true; false; false; true; true] 4 = Ok ([1; 2; 4; 5], [true], s) /\ s_best s = 5 /\ s_fifo s = [5; 6] /\
     s_agenda (resume id h_drive h_cost 9 s) <> []) /\
  (forall k x y, x <> 3 /\ 0 < x -> h_check x = true -> In y (h_drive k x) -> h_check y = true -> y <> 3 /\ 0 < y) /\
  (exists s, h_run (repeat true 12) 20 = Ok ([1; 2; 5; 10; 11; 4; 8; 9], repeat true 3, s) /\ s_best s = 5).
Proof.
  split; [|split; [done|split]].
  - intros [|e l] Hl; [done|]. destruct (h_least_ok l e) as [H1 H2]. exists (h_least e l). split; [done|]. split; [done|]. intros e' He' Hlt. apply tuple_lt_ok in Hlt. by rewrite H2 in Hlt.
  - eexists. by vm_compute.
  - split; [|eexists; by vm_compute]. intros k x y [Hx Hx'] _ Hy Hc. split; [by intros ->|]. unfold h_drive in Hy. destruct (Nat.ltb x 8); cbn in Hy; [|done]. lia.
Qed.

Print Assumptions C58_best.
Print Assumptions C58_found.
Print Assumptions C58_no_error.
Print Assumptions C58_fair.
Print Assumptions C58_exhausted.
Print Assumptions C58_greedy.
Print Assumptions C58_witness.
Print Assumptions C58_invariant.
Print Assumptions C58_returns.
