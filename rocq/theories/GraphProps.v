(** Properties C20, C21, C40: strongly connected components, condensation and
    hypergraph reachability. *)
From stdpp Require Import gmap relations.
From Coq Require Import Lia.
From Verif Require Import PyBase GraphModel GraphSpec GraphProofs.

Lemma size_list_to_set_le {V} `{Countable V} (l : list V) : size (list_to_set l : gset V) <= length l.
Proof.
  induction l as [|x l IH]; simpl; [reflexivity|].
  assert (size ({[x]} ∪ list_to_set l : gset V) <= 1 + size (list_to_set l : gset V)); [|lia].
  rewrite (size_union_alt {[x]}), size_singleton.
  assert (size (list_to_set l ∖ {[x]} : gset V) <= size (list_to_set l : gset V)) by (apply subseteq_size; set_solver). lia.
Qed.

(** C20.  On every finite graph (U is any finite set of nodes that contains the
    roots and is closed under successors), tarjan returns normally.  The
    components are non-empty and pairwise disjoint; together they hold exactly
    the nodes reachable from the roots; two nodes are in the same component iff
    each reaches the other; and every edge out of a component leads to it or to
    an earlier one. *)
Theorem C20_tarjan :
  forall (V : Type) (EV : EqDecision V) (CV : Countable V) (succ : V -> list V) (U : gset V) (roots : list V) (n : nat),
    (forall x y, x ∈ U -> In y (succ x) -> y ∈ U) -> (forall r, In r roots -> r ∈ U) -> size U < n ->
    exists out, tarjan succ n roots = Ok out /\
      (forall C, In C out -> C <> ∅) /\
      (forall i j C D x, nth_error out i = Some C -> nth_error out j = Some D -> x ∈ C -> x ∈ D -> i = j) /\
      (forall x, (exists C, In C out /\ x ∈ C) <-> exists r, In r roots /\ reach succ r x) /\
      (forall C x y, In C out -> x ∈ C -> (y ∈ C <-> mutually succ x y)) /\
      (forall i C x y, nth_error out i = Some C -> x ∈ C -> In y (succ x) ->
         exists j D, j <= i /\ nth_error out j = Some D /\ y ∈ D).
Proof.
  intros V EV CV succ U roots n HU Hr Hn.
  destruct (tarjan_spec succ U HU n roots Hr Hn) as (out & E & Hs & Hin).
  assert (Hsplit : forall i (C : gset V), nth_error out i = Some C ->
            exists pre post, out = pre ++ C :: post /\ length pre = i).
  { intros i C. apply nth_error_split. }
  exists out. split; [done|]. split; [|split; [|split; [|split]]].
  - intros C HC ->. apply in_split in HC as (pre & post & ->).
    destruct (Hs pre ∅ post eq_refl) as ((x & Hx) & _). set_solver.
  - assert (Hlt : forall i j C D x, i < j -> nth_error out i = Some C -> nth_error out j = Some D -> x ∈ C -> x ∈ D -> False).
    { intros i j C D x Hij Hi Hj HC HD. destruct (Hsplit j D Hj) as (pre & post & Eo & Hl).
      destruct (Hs pre D post Eo) as (_ & _ & _ & _ & Hd). apply (Hd x HD). exists C. split; [|done].
      rewrite Eo, nth_error_app1 in Hi by lia. by eapply nth_error_In. }
    intros i j C D x Hi Hj HC HD. destruct (Nat.lt_trichotomy i j) as [?|[?|?]]; [|done|]; exfalso; eauto.
  - exact Hin.
  - intros C x y HC Hx. apply in_split in HC as (pre & post & Eo).
    destruct (Hs pre C post Eo) as (_ & H1 & H2 & _). split.
    + intros Hy. split; by apply H1.
    + intros [A B]. by eapply H2.
  - intros i C x y Hi Hx Hy. destruct (Hsplit i C Hi) as (pre & post & Eo & Hl).
    destruct (Hs pre C post Eo) as (_ & _ & _ & H3 & _). destruct (H3 x y Hx Hy) as [Hy'|(D & HD & Hy')].
    + exists i, C. done.
    + apply In_nth_error in HD as [j Hj]. exists j, D.
      assert (j < length pre) by (apply nth_error_Some; congruence).
      split; [lia|]. split; [|done]. rewrite Eo, nth_error_app1 by lia. done.
Qed.

(** A graph with two cycles, a bridge between them and an isolated node. *)
Definition ex_succ (x : nat) : list nat :=
  match x with 0 => [1] | 1 => [2; 3] | 2 => [0] | 3 => [4] | 4 => [3; 5] | _ => [] end.

Example C20_witness :
  (forall x y, x ∈ (list_to_set [0; 1; 2; 3; 4; 5; 6] : gset nat) -> In y (ex_succ x) -> y ∈ (list_to_set [0; 1; 2; 3; 4; 5; 6] : gset nat)) /\
  match tarjan ex_succ 10 [6; 0; 3] with
  | Ok out => map elements out = [[6]; [5]; [3; 4]; [0; 1; 2]]
  | _ => False
  end.
Proof.
  split; [|vm_compute; reflexivity]. intros x y Hx Hy. apply elem_of_list_to_set in Hx.
  apply elem_of_list_to_set, elem_of_list_In. apply elem_of_list_In in Hx.
  simpl in Hx. destruct Hx as [<-|[<-|[<-|[<-|[<-|[<-|[<-|[]]]]]]]]; simpl in *; tauto.
Qed.

(** C40.  The condensation of a finite graph, with all its nodes as roots: its
    nodes are exactly the strongly connected components, every node is in one of
    them, there is an edge between two of them iff they are different and some
    edge of the graph crosses from one to the other, and there is no cycle. *)
Theorem C40_condensation :
  forall (V : Type) (EV : EqDecision V) (CV : Countable V) (succ : V -> list V) (nodes : list V) (n : nat),
    (forall x y, In x nodes -> In y (succ x) -> In y nodes) -> length nodes < n ->
    exists cn ce topo, condensation succ n nodes None = Ok (cn, ce, topo) /\
      (forall C, C ∈ cn <-> exists x, In x nodes /\ (forall y, y ∈ C <-> mutually succ x y)) /\
      (forall C, C ∈ cn <-> In C topo) /\
      (forall A B, (A, B) ∈ ce <-> A ∈ cn /\ B ∈ cn /\ A <> B /\ exists x y, x ∈ A /\ y ∈ B /\ In y (succ x)) /\
      (forall A, ~ tc (fun A B => (A, B) ∈ ce) A A).
Proof.
  intros V EV CV succ nodes n Hcl Hn.
  destruct (C20_tarjan V EV CV succ (list_to_set nodes) nodes n) as (out & E & H1 & H2 & H3 & H4 & H5).
  { intros x y Hx Hy. apply elem_of_list_to_set, elem_of_list_In. apply elem_of_list_to_set, elem_of_list_In in Hx. by eapply Hcl. }
  { intros r Hr. by apply elem_of_list_to_set, elem_of_list_In. }
  { pose proof (size_list_to_set_le nodes). lia. }
  destruct (tarjan_spec succ (list_to_set nodes)) with (n := n) (roots := nodes) as (out' & E' & Hs & _).
  { intros x y Hx Hy. apply elem_of_list_to_set, elem_of_list_In. apply elem_of_list_to_set, elem_of_list_In in Hx. by eapply Hcl. }
  { intros r Hr. by apply elem_of_list_to_set, elem_of_list_In. }
  { pose proof (size_list_to_set_le nodes). lia. }
  assert (out' = out) as -> by congruence. clear E'.
  unfold condensation. rewrite E. cbn [bind].
  destruct (cond_fold succ out nodes (∅, ∅) Hs) as [F1 F2].
  destruct (fold_left (fun g x => cond_node succ out x g) nodes (∅, ∅)) as [cn ce] eqn:Ef.
  simpl in F1, F2. exists cn, ce, out. split; [done|].
  (* nodes in components *)
  assert (Hnode : forall x, In x nodes -> exists C, In C out /\ x ∈ C).
  { intros x Hx. apply H3. exists x. split; [done|]. reflexivity. }
  assert (Hreach : forall x y, In x nodes -> reach succ x y -> In y nodes).
  { intros x y Hx Hr. induction Hr as [x|x z y Hz Hr IH]; [done|]. apply IH. by eapply Hcl. }
  assert (Hmem : forall C x, In C out -> x ∈ C -> In x nodes).
  { intros C x HC Hx. assert (Hex : exists C, In C out /\ x ∈ C) by eauto. apply H3 in Hex as (r & Hr & HR). by eapply Hreach. }
  assert (Hcn : forall C, C ∈ cn <-> In C out).
  { intros C. rewrite F1. split.
    - intros [Hx|(x & Hx & X & EX & [->|(y & _ & _ & Ey)])]; [set_solver| |].
      + by apply (comp_of_spec succ out x X Hs) in EX as [].
      + by apply (comp_of_spec succ out y C Hs) in Ey as [].
    - intros HC. right. destruct (set_choose_or_empty C) as [[x Hx]|Hemp].
      + exists x. split; [by eapply Hmem|]. exists C. split; [|by left]. by apply (comp_of_spec succ out _ _ Hs).
      + exfalso. apply (H1 C HC). by apply leibniz_equiv. }
  assert (Hce : forall A B, (A, B) ∈ ce <-> In A out /\ In B out /\ A <> B /\ exists x y, x ∈ A /\ y ∈ B /\ In y (succ x)).
  { intros A B. rewrite F2. split.
    - intros [Hx|(x & y & Hx & EA & Hy & Hn' & EB)]; [set_solver|].
      apply (comp_of_spec succ out x A Hs) in EA as [HA HxA]. apply (comp_of_spec succ out y B Hs) in EB as [HB HyB].
      split; [done|]. split; [done|]. split; [by intros ->|]. exists x, y. done.
    - intros (HA & HB & Hne & x & y & Hx & Hy & Hxy). right. exists x, y.
      split; [exact (Hmem A x HA Hx)|]. split; [by apply (comp_of_spec succ out _ _ Hs)|]. split; [done|]. split; [|by apply (comp_of_spec succ out _ _ Hs)].
      intros HyA. apply Hne. apply In_nth_error in HA as [i Hi]. apply In_nth_error in HB as [j Hj].
      assert (i = j) as -> by (eapply H2; eauto). congruence. }
  split; [|split; [|split]].
  - intros C. rewrite Hcn. split.
    + intros HC. destruct (set_choose_or_empty C) as [[x Hx]|Hemp].
      * exists x. split; [by eapply Hmem|]. intros y. by apply H4.
      * exfalso. apply (H1 C HC). by apply leibniz_equiv.
    + intros (x & Hx & HC). destruct (Hnode x Hx) as (D & HD & HxD).
      replace C with D; [done|]. apply set_eq. intros y. rewrite HC. by apply H4.
  - exact Hcn.
  - intros A B. rewrite Hce, !Hcn. done.
  - (* the position in topo decreases along edges *)
    assert (Hdec : forall A B i, (A, B) ∈ ce -> nth_error out i = Some A -> exists j, j < i /\ nth_error out j = Some B).
    { intros A B i HAB Hi. apply Hce in HAB as (HA & HB & Hne & x & y & Hx & Hy & Hxy).
      destruct (H5 i A x y Hi Hx Hxy) as (j & D & Hle & Hj & HyD).
      apply In_nth_error in HB as [k Hk]. assert (j = k) as -> by (eapply H2; eauto).
      exists k. split; [|done]. destruct (decide (k = i)) as [->|]; [congruence|lia]. }
    assert (Htc : forall A B i, tc (fun A B => (A, B) ∈ ce) A B -> nth_error out i = Some A ->
               exists j, j < i /\ nth_error out j = Some B).
    { intros A B i Ht. revert i. induction Ht as [A B HAB|A D B HAD HDB IH]; intros i Hi; [by eapply Hdec|].
      destruct (Hdec A D i HAD Hi) as (k & Hk & HkD). destruct (IH k HkD) as (j & Hj & HjB). exists j. split; [lia|done]. }
    intros A Ht. assert (HA : In A out).
    { inversion Ht as [? ? HAB|? D ? HAD _]; subst; [by apply Hce in HAB as [? _]|by apply Hce in HAD as [? _]]. }
    apply In_nth_error in HA as [i Hi]. destruct (Htc A A i Ht Hi) as (j & Hj & HjA).
    assert (A <> ∅) as Hne by (apply H1; by eapply nth_error_In).
    destruct (set_choose_or_empty A) as [[x Hx]|Hemp]; [|by apply Hne, leibniz_equiv].
    assert (i = j) by (eapply H2; eauto). lia.
Qed.

Example C40_witness :
  (forall x y, In x [0; 1; 2; 3; 4; 5; 6] -> In y (ex_succ x) -> In y [0; 1; 2; 3; 4; 5; 6]) /\
  match condensation ex_succ 10 [0; 1; 2; 3; 4; 5; 6] None with
  | Ok (cn, ce, topo) =>
      map elements topo = [[5]; [3; 4]; [0; 1; 2]; [6]] /\
      ({[0; 1; 2]}, {[3; 4]}) ∈ ce /\ ({[3; 4]}, {[5]}) ∈ ce /\ size ce = 2 /\ size cn = 4
  | _ => False
  end.
Proof.
  split.
  - intros x y Hx Hy. simpl in Hx. destruct Hx as [<-|[<-|[<-|[<-|[<-|[<-|[<-|[]]]]]]]]; simpl in *; tauto.
  - vm_compute. repeat split; reflexivity.
Qed.

(** C21.  For every finite hypergraph and every order in which the agenda is
    popped: reachability returns the outputs and exactly those derivable nodes
    from which an output can be reached along hyperedges through derivable
    nodes; in particular it contains every node that occurs in a derivation of
    an output. *)
Inductive leads_to {V} (E : list (V * list V)) (given outs : V -> Prop) : V -> Prop :=
| lt_out x : outs x -> leads_to E given outs x
| lt_edge x y : leads_to E given outs y -> feeds E x y -> derivable E given x -> leads_to E given outs x.

Theorem C21_reachability :
  forall (V : Type) (EV : EqDecision V) (CV : Countable V) (pick : nat -> gset V -> V)
    (E : list (V * list V)) (inputs outputs : gset V) (n : nat),
    (forall k A, A <> ∅ -> pick k A ∈ A) ->
    size inputs + length E + size outputs < n ->
    exists T, reachability pick E n inputs outputs = Ok T /\
      (forall x, x ∈ T <-> leads_to E (fun x => x ∈ inputs) (fun x => x ∈ outputs) x) /\
      (forall t, dtree_ok E (fun x => x ∈ inputs) t -> droot t ∈ outputs -> forall x, In x (dnodes t) -> x ∈ T).
Proof.
  intros V EV CV pick E inputs outputs n Hpick Hn.
  set (given := fun x : V => x ∈ inputs).
  set (C0 := list_to_set (map hhead (List.filter (fun e => match hbody e with [] => true | _ => false end) E)) ∪ inputs : gset V).
  assert (HC0 : forall x, x ∈ C0 <-> x ∈ inputs \/ In (x, []) E).
  { intros x. unfold C0. rewrite elem_of_union, elem_of_list_to_set, elem_of_list_In, in_map_iff. split.
    - intros [([h b] & <- & Hin)|?]; [|by left]. apply filter_In in Hin as [Hin Hb]. simpl in *. destruct b; [by right|done].
    - intros [?|Hin]; [by right|left]. exists (x, []). split; [done|]. apply filter_In. done. }
  assert (Hh : size (heads E) <= length E) by (unfold heads; etrans; [apply size_list_to_set_le|by rewrite map_length]).
  assert (HC0h : C0 ⊆ heads E ∪ inputs).
  { intros x Hx. apply HC0 in Hx as [?|Hin]; [set_solver|]. apply elem_of_union. left. by apply (in_heads E (x, [])). }
  assert (Hderiv : forall C', FI E given C' ∅ -> C' ⊆ heads E ∪ inputs).
  { intros C' (_ & HD & _) x Hx. apply HD in Hx. destruct Hx as [x Hx|h b He _]; [set_solver|].
    apply elem_of_union. left. by apply (in_heads E (h, b)). }
  assert (HF0 : FI E given C0 C0).
  { split; [done|]. split.
    - intros x Hx. apply HC0 in Hx as [?|Hin]; [by apply dv_given|]. apply dv_edge with []; [done|constructor].
    - intros [h b] He Hb Hw. simpl in *. destruct b as [|y b]; [apply HC0; by right|].
      exfalso. apply (Hw y); [by left|]. apply Hb. by left. }
  destruct (fwd_loop_spec E pick Hpick given n 0 C0 C0 HF0) as (C & EC & HsubC & HFC).
  { assert (size C0 + size (heads E ∖ C0) <= size (heads E ∪ inputs)).
    { rewrite <- size_union by set_solver. apply subseteq_size. set_solver. }
    assert (size (heads E ∪ inputs) <= size (heads E) + size inputs).
    { rewrite size_union_alt. assert (size (inputs ∖ heads E) <= size inputs) by (apply subseteq_size; set_solver). lia. }
    lia. }
  pose proof (FI_final E pick Hpick given C HFC) as HC.
  assert (HgC : forall x, given x -> x ∈ C) by (intros x Hx; apply HsubC, HC0; by left).
  specialize (HC HgC).
  destruct (bwd_loop_spec E pick Hpick given C (fun x => x ∈ outputs) n 0 outputs outputs) as (T & ET & HsubT & HBT).
  { split; [done|]. split; [intros x Hx; by constructor|]. intros x Hx Hnx. done. }
  { assert (size (C ∖ outputs) <= size (heads E ∪ inputs)) by (apply subseteq_size; specialize (Hderiv C HFC); set_solver).
    assert (size (heads E ∪ inputs) <= size (heads E) + size inputs).
    { rewrite size_union_alt. assert (size (inputs ∖ heads E) <= size inputs) by (apply subseteq_size; set_solver). lia. }
    lia. }
  pose proof (BI_final E pick Hpick C _ T HBT) as HT.
  assert (HoT : forall x, x ∈ outputs -> x ∈ T) by set_solver. specialize (HT HoT).
  assert (Hup : forall x, x ∈ T <-> leads_to E given (fun x => x ∈ outputs) x).
  { intros x. rewrite HT. split.
    - induction 1 as [x Hx|x y Hy IH Hf HxC]; [by constructor|]. eapply lt_edge; [done|done|]. by apply HC.
    - induction 1 as [x Hx|x y Hy IH Hf HxC]; [by constructor|]. eapply up_edge; [done|done|]. by apply HC. }
  exists T. split; [|split; [exact Hup|]].
  - unfold reachability. fold C0. rewrite EC. cbn [bind]. exact ET.
  - assert (Hder : forall t, dtree_ok E given t -> derivable E given (droot t)).
    { fix IH 1. intros [x|h ts] Hok; [by apply dv_given|]. destruct Hok as [He Hts]. simpl.
      apply dv_edge with (map droot ts); [done|]. clear He.
      induction ts as [|t ts IHts]; [constructor|]. destruct Hts as [Ht Hts]. simpl. constructor; [by apply IH|by apply IHts]. }
    assert (Hall : forall t, dtree_ok E given t -> droot t ∈ T -> forall x, In x (dnodes t) -> x ∈ T).
    { fix IH 1. intros [x|h ts] Hok HrT y Hy; [simpl in *; destruct Hy as [<-|[]]; done|].
      destruct Hok as [He Hts]. simpl in Hy, HrT. destruct Hy as [<-|Hy]; [done|].
      assert (Hch : forall b, In b (map droot ts) -> derivable E given b -> b ∈ T).
      { intros b Hb Hd. apply Hup. eapply lt_edge; [by apply Hup|by exists (map droot ts)|done]. }
      clear He HrT. induction ts as [|t ts IHts]; [done|]. destruct Hts as [Ht Hts].
      simpl in Hy. apply in_app_or in Hy as [Hy|Hy].
      - apply (IH t Ht); [|done]. apply Hch; [by left|]. by apply Hder.
      - apply IHts; [done|done|]. intros b Hb. apply Hch. by right. }
    intros t Hok Ho. apply Hall; [done|]. by apply HoT.
Qed.

Example C21_witness :
  let E := [(1, [0]); (2, [1; 9]); (3, [1; 1]); (4, []); (3, [5])] in
  dtree_ok E (fun x => x ∈ ({[0]} : gset nat)) (DEdge 3 [DEdge 1 [DLeaf 0]; DEdge 1 [DLeaf 0]]) /\
  match reachability (fun _ A => default 0 (head (elements A))) E 20 {[0]} {[3; 2]} with
  | Ok T => elements T = [0; 1; 3; 2]
  | _ => False
  end.
Proof. split; [|vm_compute; reflexivity]. simpl. set_solver. Qed.

(** The set can be larger than the set of nodes that occur in derivations of
    outputs: here 2 is an output without a derivation, and 1 is kept because it
    feeds 2 although the other premise 9 cannot be derived. *)
Theorem C21_overapproximates :
  let E := [(1, [0]); (2, [1; 9])] in
  match reachability (fun _ A => default 0 (head (elements A))) E 20 {[0]} {[2]} with
  | Ok T => elements T = [0; 1; 2] | _ => False
  end /\ forall t, dtree_ok E (fun x => x ∈ ({[0]} : gset nat)) t -> droot t <> 2.
Proof.
  split; [vm_compute; reflexivity|]. intros [x|h ts] Hok.
  - simpl in *. set_solver.
  - destruct Hok as [He Hts]. simpl. intros ->. simpl in He. destruct He as [?|[[= E]|[]]]; [congruence|].
    destruct ts as [|t1 [|t2 [|]]]; try done. injection E as E1 E2. destruct Hts as (_ & H2 & _).
    destruct t2 as [x|h2 ts2]; simpl in *; [subst; set_solver|]. subst. destruct H2 as [He _]. simpl in He. naive_solver.
Qed.

Print Assumptions C20_tarjan.
Print Assumptions C40_condensation.
Print Assumptions C21_reachability.
