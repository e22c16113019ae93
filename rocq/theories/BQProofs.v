From stdpp Require Import gmap sorting.
From Coq Require Import ZArith Lia.
From Verif Require Import PyBase BQModel BQSpec.

Section Proofs.
Context {K : Type} `{Countable K}.
Implicit Types (q : bq K) (x : K) (p n : Z).

(** Representation invariant. *)
Record bq_inv q : Prop := {
  inv_DQ : forall x p, bD q !! x = Some p <-> exists b, bQ q !! p = Some b /\ x ∈ b;
  inv_ne : forall p b, bQ q !! p = Some b -> b <> ∅;
  inv_N  : bQ q <> ∅ -> exists n, bN q = Some n /\ forall p b, bQ q !! p = Some b -> (n <= p)%Z
}.

Lemma inv_empty : bq_inv bq_empty.
Proof.
  split; simpl.
  - intros. rewrite lookup_empty. split; [done|]. intros (b&Hb&_). by rewrite lookup_empty in Hb.
  - intros p b Hb. by rewrite lookup_empty in Hb.
  - done.
Qed.

Lemma del_spec q x p :
  bq_inv q -> bD q !! x = Some p ->
  exists q', bq_del q x = Ok q' /\ bq_inv q' /\ bD q' = delete x (bD q) /\ bN q' = bN q.
Proof.
  intros I Hx. unfold bq_del. rewrite Hx.
  destruct (proj1 (inv_DQ _ I x p) Hx) as (b & Hb & Hin). rewrite Hb.
  destruct (decide (x ∈ b)) as [_|]; [|done].
  eexists. split; [reflexivity|]. split; [|done].
  set (b' := b ∖ {[x]}).
  assert (HQ : forall p' c, (if decide (b' = ∅) then delete p (bQ q) else <[p:=b']> (bQ q)) !! p' = Some c <->
     (p' = p /\ c = b' /\ b' <> ∅) \/ (p' <> p /\ bQ q !! p' = Some c)).
  { intros p' c. destruct (decide (b' = ∅)) as [E|E].
    - destruct (decide (p' = p)) as [->|Hne].
      + rewrite lookup_delete. split; [done|]. intros [(_&_&?)|(?&_)]; done.
      + rewrite lookup_delete_ne by done. naive_solver.
    - destruct (decide (p' = p)) as [->|Hne].
      + rewrite lookup_insert. naive_solver.
      + rewrite lookup_insert_ne by done. naive_solver. }
  split; simpl.
  - intros y py. split.
    + intros Hy. destruct (decide (y = x)) as [->|Hne]; [by rewrite lookup_delete in Hy|].
      rewrite lookup_delete_ne in Hy by done.
      destruct (proj1 (inv_DQ _ I y py) Hy) as (c & Hc & Hyc).
      destruct (decide (py = p)) as [->|Hpne].
      * assert (c = b) as -> by congruence.
        exists b'. split; [|set_solver]. apply HQ. left. split; [done|]. split; [done|]. set_solver.
      * exists c. split; [|done]. apply HQ. by right.
    + intros (c & Hc & Hyc). apply HQ in Hc. destruct Hc as [(->&->&_)|(Hne&Hc)].
      * rewrite lookup_delete_ne by set_solver. apply (inv_DQ _ I). exists b. split; [done|set_solver].
      * destruct (decide (y = x)) as [->|Hxy].
        { exfalso. assert (bD q !! x = Some py) by (apply (inv_DQ _ I); eauto). congruence. }
        rewrite lookup_delete_ne by done. apply (inv_DQ _ I). eauto.
  - intros p' c Hc. apply HQ in Hc. destruct Hc as [(->&->&?)|(_&Hc)]; [done|]. by eapply inv_ne.
  - intros _. destruct (inv_N _ I) as (n & Hn & Hle).
    { intros E. rewrite E in Hb. by rewrite lookup_empty in Hb. }
    exists n. split; [done|]. intros p' c Hc. apply HQ in Hc.
    destruct Hc as [(->&_&_)|(_&Hc)]; eauto.
Qed.

Lemma del_missing q x : bD q !! x = None -> bq_del q x = Raise KeyError.
Proof. unfold bq_del. by intros ->. Qed.

Lemma set_spec q x p :
  bq_inv q ->
  exists q', bq_set q x p = Ok q' /\ bq_inv q' /\ bD q' = <[x := p]> (bD q).
Proof.
  intros I.
  assert (exists q1, (match bD q !! x with Some _ => bq_del q x | None => Ok q end) = Ok q1 /\
     bq_inv q1 /\ bD q1 = delete x (bD q)) as (q1 & E1 & I1 & D1).
  { destruct (bD q !! x) as [p0|] eqn:Hx.
    - destruct (del_spec q x p0 I Hx) as (q1 & ? & ? & ? & ?). eauto.
    - exists q. split; [done|]. split; [done|]. by rewrite delete_notin. }
  unfold bq_set. rewrite E1. simpl.
  assert (Hxn : bD q1 !! x = None) by (rewrite D1; apply lookup_delete).
  assert (Hn : exists n2, (if decide (bQ q1 = ∅) then Ok (Some p)
              else match bN q1 with
                   | None => Raise TypeError
                   | Some n => Ok (if (p <? n)%Z then Some p else Some n)
                   end) = Ok (Some n2) /\ (n2 <= p)%Z /\ forall p' b, bQ q1 !! p' = Some b -> (n2 <= p')%Z).
  { destruct (decide (bQ q1 = ∅)) as [E|E].
    - exists p. split; [done|]. split; [lia|]. intros p' b. rewrite E, lookup_empty. done.
    - destruct (inv_N _ I1 E) as (n & -> & Hle).
      destruct (p <? n)%Z eqn:Hlt.
      + apply Z.ltb_lt in Hlt. exists p. split; [done|]. split; [lia|].
        intros p' b Hb. specialize (Hle _ _ Hb). lia.
      + apply Z.ltb_ge in Hlt. exists n. split; [done|]. split; [lia|]. eauto. }
  destruct Hn as (n2 & -> & Hnp & Hle). simpl.
  eexists. split; [reflexivity|]. split.
  2:{ simpl. rewrite D1. apply insert_delete_insert. }
  set (b := match bQ q1 !! p with Some b => b | None => ∅ end).
  split; simpl.
  - intros y py. destruct (decide (y = x)) as [->|Hne].
    + rewrite lookup_insert. split.
      * intros [= <-]. exists ({[x]} ∪ b). rewrite lookup_insert. set_solver.
      * intros (c & Hc & Hyc). destruct (decide (py = p)) as [->|Hp]; [done|].
        rewrite lookup_insert_ne in Hc by done. exfalso.
        assert (bD q1 !! x = Some py) by (apply (inv_DQ _ I1); eauto). congruence.
    + rewrite lookup_insert_ne by done. rewrite (inv_DQ _ I1). split.
      * intros (c & Hc & Hyc). destruct (decide (py = p)) as [->|Hp].
        -- exists ({[x]} ∪ b). rewrite lookup_insert. split; [done|]. unfold b. rewrite Hc. set_solver.
        -- exists c. rewrite lookup_insert_ne by done. done.
      * intros (c & Hc & Hyc). destruct (decide (py = p)) as [->|Hp].
        -- rewrite lookup_insert in Hc. injection Hc as <-.
           unfold b in Hyc. destruct (bQ q1 !! p) as [c|] eqn:Ec; [|set_solver].
           exists c. split; [done|set_solver].
        -- rewrite lookup_insert_ne in Hc by done. eauto.
  - intros p' c Hc. destruct (decide (p' = p)) as [->|Hp].
    + rewrite lookup_insert in Hc. injection Hc as <-. set_solver.
    + rewrite lookup_insert_ne in Hc by done. by eapply inv_ne.
  - intros _. exists n2. split; [done|]. intros p' c Hc. destruct (decide (p' = p)) as [->|Hp]; [done|].
    rewrite lookup_insert_ne in Hc by done. eauto.
Qed.

(** The inner loop reaches the least key, given fuel for the gap. *)
Lemma advance_spec (Q : gmap Z (gset K)) fuel n m :
  is_Some (Q !! m) -> (forall p b, Q !! p = Some b -> (n <= p)%Z) ->
  (Z.to_nat (m - n) < fuel)%nat ->
  exists n', bq_advance fuel Q n = Ok n' /\ is_Some (Q !! n') /\
             forall p b, Q !! p = Some b -> (n' <= p)%Z.
Proof.
  revert n. induction fuel as [|f IH]; intros n Hm Hle Hf; [lia|]. simpl.
  destruct (Q !! n) as [b|] eqn:E.
  - exists n. rewrite E. eauto.
  - assert (Hnm : n <> m) by (intros ->; rewrite E in Hm; by destruct Hm).
    destruct Hm as [bm Hm]. pose proof (Hle _ _ Hm).
    apply IH; [eauto| |lia].
    intros p b Hb. pose proof (Hle _ _ Hb). assert (p <> n) by (intros ->; congruence). lia.
Qed.

Lemma popitem_spec q :
  bq_inv q -> exists f0, forall fuel pick, (f0 <= fuel)%nat -> valid_pick pick ->
    (bD q = ∅ /\ bq_popitem fuel pick q = Ok (q, None)) \/
    (exists q' x p, bq_popitem fuel pick q = Ok (q', Some (x, p)) /\ bq_inv q' /\
        bD q !! x = Some p /\ least (bD q) p /\ bD q' = delete x (bD q)).
Proof.
  intros I. unfold bq_popitem. destruct (decide (bQ q = ∅)) as [E|E].
  - exists O. intros fuel pick _ _. left. split; [|done].
    apply map_eq. intros x. rewrite lookup_empty. destruct (bD q !! x) as [p|] eqn:Hx; [|done].
    apply (inv_DQ _ I) in Hx. destruct Hx as (b & Hb & _). rewrite E, lookup_empty in Hb. done.
  - destruct (inv_N _ I E) as (n & Hn & Hle). rewrite Hn.
    destruct (map_choose _ E) as (m & bm & Hm).
    exists (S (Z.to_nat (m - n))). intros fuel pick Hf Hpick. right.
    destruct (advance_spec (bQ q) fuel n m) as (n' & -> & [b Hb] & Hle'); [eauto|done|lia|].
    simpl. rewrite Hb.
    assert (Hin : pick b ∈ b) by (apply Hpick; by eapply inv_ne).
    set (x := pick b) in *.
    assert (Hx : bD q !! x = Some n') by (apply (inv_DQ _ I); eauto).
    assert (I' : bq_inv (BQ (bD q) (bQ q) (Some n'))).
    { split; simpl; [apply (inv_DQ _ I)|apply (inv_ne _ I)|]. intros _. eauto. }
    destruct (del_spec _ x n' I' Hx) as (q' & -> & Iq' & HD & _). simpl.
    exists q', x, n'. split; [done|]. split; [done|]. split; [done|]. split; [|done].
    intros y p' Hy. apply (inv_DQ _ I) in Hy. destruct Hy as (c & Hc & _). eauto.
Qed.

Lemma step_spec q o :
  bq_inv q -> valid_op o ->
  exists f0, forall fuel, (f0 <= fuel)%nat ->
  exists q' b, bq_step fuel q o = Ok (q', b) /\ bq_inv q' /\ agenda_step (bD q) o b (bD q').
Proof.
  intros I Ho. destruct o as [x p|x|x|x| |pick]; simpl.
  - exists O. intros _ _. destruct (set_spec q x p I) as (q' & -> & I' & HD). simpl.
    exists q', ObsUnit. rewrite HD. split; [done|]. split; [done|]. constructor.
  - exists O. intros _ _. destruct (bD q !! x) as [p|] eqn:Hx.
    + destruct (del_spec q x p I Hx) as (q' & -> & I' & HD & _).
      exists q', ObsUnit. rewrite HD. split; [done|]. split; [done|]. by econstructor.
    + rewrite (del_missing _ _ Hx). exists q, ObsKeyError. split; [done|]. split; [done|]. by constructor.
  - exists O. intros _ _. unfold bq_get. destruct (bD q !! x) as [p|] eqn:Hx.
    + exists q, (ObsInt p). split; [done|]. split; [done|]. by constructor.
    + exists q, ObsKeyError. split; [done|]. split; [done|]. by constructor.
  - exists O. intros _ _. exists q, (ObsBool (bq_contains q x)). split; [done|]. split; [done|].
    unfold bq_contains. destruct (bD q !! x) as [p|] eqn:Hx.
    + rewrite bool_decide_true by eauto. by econstructor.
    + rewrite bool_decide_false by (intros [? ?]; done). by constructor.
  - exists O. intros _ _. exists q, (ObsNat (bq_len q)). split; [done|]. split; [done|]. constructor.
  - destruct (popitem_spec q I) as (f0 & Hp). exists f0. intros fuel Hf.
    destruct (Hp fuel pick Hf Ho) as [(HD & ->)|(q' & x & p & -> & I' & Hx & Hl & HD)]; simpl.
    + exists q, (ObsPop None). split; [done|]. split; [done|]. rewrite HD. constructor.
    + exists q', (ObsPop (Some (x, p))). split; [done|]. split; [done|]. rewrite HD. by constructor.
Qed.

(** The step's result does not depend on the fuel once it is not [OutOfFuel]. *)
Lemma advance_mono (Q : gmap Z (gset K)) f f' n r :
  (f <= f')%nat -> bq_advance f Q n = Ok r -> bq_advance f' Q n = Ok r.
Proof.
  revert f' n. induction f as [|f IH]; intros f' n Hf; [done|].
  destruct f' as [|f']; [lia|]. simpl. destruct (Q !! n); [done|]. apply IH. lia.
Qed.

Lemma popitem_mono q f f' pick r :
  (f <= f')%nat -> bq_popitem f pick q = Ok r -> bq_popitem f' pick q = Ok r.
Proof.
  intros Hf. unfold bq_popitem. destruct (decide _); [done|]. destruct (bN q); [|done].
  destruct (bq_advance f (bQ q) z) eqn:E; simpl; try done.
  by rewrite (advance_mono _ _ _ _ _ Hf E).
Qed.

Lemma step_mono q f f' o r :
  (f <= f')%nat -> bq_step f q o = Ok r -> bq_step f' q o = Ok r.
Proof.
  intros Hf. destruct o as [x p|x|x|x| |pick]; simpl; try done.
  destruct (bq_popitem f pick q) as [[q' o]| |] eqn:E; simpl; try done.
  by rewrite (popitem_mono _ _ _ _ _ Hf E).
Qed.

Lemma run_spec os : forall q,
  bq_inv q -> Forall valid_op os ->
  exists f0, forall fuel, (f0 <= fuel)%nat ->
  exists q' bs, bq_run fuel q os = Ok (q', bs) /\ bq_inv q' /\ agenda_trace (bD q) os bs (bD q').
Proof.
  induction os as [|o os IH]; intros q I Hv.
  - exists O. intros fuel _. exists q, []. split; [done|]. split; [done|]. constructor.
  - inversion Hv as [|? ? Ho Hos]; subst.
    destruct (step_spec q o I Ho) as (f1 & Hs).
    destruct (Hs f1) as (q1 & b & E1 & I1 & S1); [lia|].
    destruct (IH q1 I1 Hos) as (f2 & Hr).
    exists (f1 `max` f2)%nat. intros fuel Hf.
    destruct (Hr fuel) as (q2 & bs & E2 & I2 & T2); [lia|].
    exists q2, (b :: bs). simpl. rewrite (step_mono q f1 fuel o (q1, b)) by (lia || done). simpl.
    rewrite E2. simpl. split; [done|]. split; [done|]. by econstructor.
Qed.

(** Full iteration. *)

(** A uniform fuel bound: distance from the lower bound to any upper bound. *)
Lemma popitem_spread q hi :
  bq_inv q -> (forall x p, bD q !! x = Some p -> (p <= hi)%Z) ->
  forall fuel pick, (match bN q with Some n => Z.to_nat (hi - n) | None => O end < fuel)%nat ->
  valid_pick pick ->
    (bD q = ∅ /\ bq_popitem fuel pick q = Ok (q, None)) \/
    (exists q' x p, bq_popitem fuel pick q = Ok (q', Some (x, p)) /\ bq_inv q' /\
        bD q !! x = Some p /\ least (bD q) p /\ bD q' = delete x (bD q) /\
        bN q' = Some p /\ (forall n, bN q = Some n -> (n <= p)%Z)).
Proof.
  intros I Hhi fuel pick Hf Hpick. unfold bq_popitem. destruct (decide (bQ q = ∅)) as [E|E].
  - left. split; [|done].
    apply map_eq. intros x. rewrite lookup_empty. destruct (bD q !! x) as [p|] eqn:Hx; [|done].
    apply (inv_DQ _ I) in Hx. destruct Hx as (b & Hb & _). rewrite E, lookup_empty in Hb. done.
  - right. destruct (inv_N _ I E) as (n & Hn & Hle). rewrite Hn in Hf |- *.
    destruct (map_choose _ E) as (m & bm & Hm).
    assert (Hmhi : (m <= hi)%Z).
    { pose proof (inv_ne _ I _ _ Hm) as Hbm. apply set_choose_L in Hbm as [x Hx].
      apply (Hhi x). apply (inv_DQ _ I). eauto. }
    destruct (advance_spec (bQ q) fuel n m) as (n' & -> & [b Hb] & Hle'); [eauto|done|lia|].
    simpl. rewrite Hb.
    assert (Hin : pick b ∈ b) by (apply Hpick; by eapply inv_ne).
    set (x := pick b) in *.
    assert (Hx : bD q !! x = Some n') by (apply (inv_DQ _ I); eauto).
    assert (I' : bq_inv (BQ (bD q) (bQ q) (Some n'))).
    { split; simpl; [apply (inv_DQ _ I)|apply (inv_ne _ I)|]. intros _. eauto. }
    destruct (del_spec _ x n' I' Hx) as (q' & -> & Iq' & HD & HN). simpl in HD, HN |- *.
    exists q', x, n'. split; [done|]. split; [done|]. split; [done|]. split; [|split; [done|]].
    { intros y p' Hy. apply (inv_DQ _ I) in Hy. destruct Hy as (c & Hc & _). eauto. }
    split; [done|]. intros n1 [= <-]. eauto.
Qed.

Lemma items_uniform (n : nat) (hi lo : Z) : forall q, size (bD q) = n -> bq_inv q ->
  (forall x p, bD q !! x = Some p -> (p <= hi)%Z) ->
  (forall m, bN q = Some m -> (lo <= m)%Z) ->
  forall rounds fuel pick, (n < rounds)%nat -> (Z.to_nat (hi - lo) < fuel)%nat -> valid_pick pick ->
  exists l, bq_items rounds fuel pick q = Ok l /\ Permutation l (map_to_list (bD q)) /\
            StronglySorted (fun a b => (a.2 <= b.2)%Z) l.
Proof.
  induction n as [|n IH]; intros q Hsz I Hhi Hlo rounds fuel pick Hr Hf Hp;
    (destruct rounds as [|r]; [lia|]); simpl.
  - destruct (popitem_spread q hi I Hhi fuel pick) as [(HD & ->)|(q' & x & p & _ & _ & Hx & _)]; [|done| |].
    { destruct (bN q) as [m|] eqn:E; [|lia]. specialize (Hlo _ eq_refl). lia. }
    + simpl. exists []. split; [done|]. rewrite HD, map_to_list_empty. split; constructor.
    + apply map_size_empty_iff in Hsz. rewrite Hsz, lookup_empty in Hx. done.
  - destruct (popitem_spread q hi I Hhi fuel pick) as [(HD & _)|(q' & x & p & -> & I' & Hx & Hl & HD & HN & Hmono)]; [|done| |].
    { destruct (bN q) as [m|] eqn:E; [|lia]. specialize (Hlo _ eq_refl). lia. }
    { rewrite HD, map_size_empty in Hsz. lia. }
    simpl. destruct (IH q') with (rounds := r) (fuel := fuel) (pick := pick) as (l & -> & Hperm & Hsorted); try done; try lia.
    + rewrite HD, map_size_delete_Some by eauto. lia.
    + intros y p'. rewrite HD. intros [_ Hy]%lookup_delete_Some. eauto.
    + intros m. rewrite HN. intros [= <-].
      assert (bQ q <> ∅).
      { intros E. apply (inv_DQ _ I) in Hx as (b & Hb & _). rewrite E, lookup_empty in Hb. done. }
      destruct (inv_N _ I) as (m0 & Hm0 & _); [done|]. specialize (Hmono _ Hm0). specialize (Hlo _ Hm0). lia.
    + simpl. exists ((x, p) :: l). split; [done|]. split.
      * rewrite Hperm, HD. by apply map_to_list_delete.
      * constructor; [done|]. apply Forall_forall. intros [y py] Hy. simpl.
        apply Hl with (y := y). rewrite Hperm in Hy. apply elem_of_map_to_list in Hy.
        rewrite HD in Hy. by apply lookup_delete_Some in Hy as [_ ?].
Qed.

Lemma items_spec q : bq_inv q ->
  exists r0 f0, forall rounds fuel pick, (r0 <= rounds)%nat -> (f0 <= fuel)%nat -> valid_pick pick ->
  exists l, bq_items rounds fuel pick q = Ok l /\ Permutation l (map_to_list (bD q)) /\
            StronglySorted (fun a b => (a.2 <= b.2)%Z) l.
Proof.
  intros I.
  assert (exists hi, forall x p, bD q !! x = Some p -> (p <= hi)%Z) as [hi Hhi].
  { generalize (bD q). clear. intros m. induction m as [|x p m Hx IH] using map_ind.
    - exists 0%Z. intros x p. rewrite lookup_empty. done.
    - destruct IH as [hi IH]. exists (Z.max p hi). intros y py.
      intros [[-> ->]|[? Hy]]%lookup_insert_Some; [lia|]. specialize (IH _ _ Hy). lia. }
  set (lo := match bN q with Some n => n | None => 0%Z end).
  exists (S (size (bD q))), (S (Z.to_nat (hi - lo))). intros rounds fuel pick Hr Hf Hp.
  apply (items_uniform (size (bD q)) hi lo); try done; try lia.
  intros m Hm. unfold lo. rewrite Hm. lia.
Qed.
End Proofs.
