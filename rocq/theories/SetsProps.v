(** Properties C10-C13: the collections of terms. *)
From stdpp Require Import gmap.
From Coq Require Import Lia.
From Coq Require String Ascii.
Import String.StringSyntax Ascii.AsciiSyntax.
From Verif Require Import PyBase TermModel TermSpec TermProofs UnifyProofs CoverProofs TermProps
  SetsModel SetsSpec SetsProofs.

Lemma covers_settles x y :
  disjoint_vars x y -> exists b, settles (fun n => covers n x y) b /\ (b = true <-> instance_of x y).
Proof.
  intros Hd. destruct (C05_covers_subsumption x y Hd) as (s & b & [n0 H] & Hb & _).
  exists b. split; [|done]. exists n0. intros n Hn. by apply H.
Qed.

Lemma instance_of_refl x : instance_of x x.
Proof. exists Var. apply sub_Var. Qed.

(** C10.  After any history l of add calls on an empty MostGeneralSet: no stored
    term is an instance of another one; every added term is an instance of a
    stored one; every stored term is (a renamed copy of) an added one.  A further
    add reports True exactly when the term was already subsumed, and find returns
    the position of a stored term that subsumes the query, raising KeyError
    exactly when there is none. *)
Theorem C10_most_general_set :
  forall (al : nat -> nat), (forall i j, al i = al j -> i = j) ->
  forall (l : list term),
  exists xs c, eventually (fun n => adds (mgs_add al (covers n) n) ([], 0) l = Ok (xs, c)) /\
    antichain instance_of xs /\
    (forall a, In a l -> exists x, In x xs /\ instance_of x a) /\
    (forall x, In x xs -> exists a, In a l /\ variant a x) /\
    (forall r, exists st' b, eventually (fun n => mgs_add al (covers n) n (xs, c) r = Ok (st', b)) /\
       (b = true <-> exists x, In x xs /\ instance_of x r)) /\
    (forall q, exists o, eventually (fun n => mgs_find al (covers n) n (xs, c) q = o) /\
       match o with
       | Ok i => exists x, nth_error xs i = Some x /\ instance_of x q
       | Raise e => e = KeyError /\ forall x, In x xs -> ~ instance_of x q
       | OutOfFuel => False
       end).
Proof.
  intros al Hal l.
  pose proof (mgs_add_spec al Hal covers instance_of variant_instance instance_of_trans covers_settles) as Hadd.
  destruct (adds_spec al instance_of (fun n => mgs_add al (covers n) n)) with (l := l)
    (st := (@nil term, 0)) (added := @nil term) as ([xs c] & E & Hinv).
  { intros st r added Hinv. destruct (Hadd st r added Hinv) as (st' & b & ? & ? & _). eauto. }
  { apply set_inv_nil. }
  exists xs, c. split; [done|]. pose proof Hinv as (_ & H2 & H3 & H4). simpl in *.
  split; [done|]. split; [done|]. split; [done|]. split.
  - intros r. destruct (Hadd (xs, c) r l Hinv) as (st' & b & Hs & _ & Hb). exists st', b. done.
  - intros q. eapply (mgs_find_spec al Hal covers instance_of variant_instance instance_of_trans
      covers_settles (xs, c) q l Hinv).
Qed.

(** Consequence: up to renaming, the stored terms do not depend on the order or
    the multiplicity of the additions. *)
Theorem C10_order_independent :
  forall (al : nat -> nat), (forall i j, al i = al j -> i = j) ->
  forall (l l' : list term), (forall a, In a l <-> In a l') ->
  exists xs c xs' c',
    eventually (fun n => adds (mgs_add al (covers n) n) ([], 0) l = Ok (xs, c)) /\
    eventually (fun n => adds (mgs_add al (covers n) n) ([], 0) l' = Ok (xs', c')) /\
    length xs = length xs' /\
    (forall x, In x xs -> exists y, In y xs' /\ variant x y) /\
    (forall y, In y xs' -> exists x, In x xs /\ variant x y).
Proof.
  intros al Hal l l' Hll.
  destruct (C10_most_general_set al Hal l) as (xs & c & E & A & B & C & _).
  destruct (C10_most_general_set al Hal l') as (xs' & c' & E' & A' & B' & C' & _).
  assert (Hgen : forall l l' xs xs', (forall a, In a l -> In a l') -> (forall a, In a l' -> In a l) ->
    antichain instance_of xs -> (forall a, In a l -> exists x, In x xs /\ instance_of x a) ->
    (forall x, In x xs -> exists a, In a l /\ variant a x) ->
    (forall a, In a l' -> exists x, In x xs' /\ instance_of x a) ->
    (forall x, In x xs' -> exists a, In a l' /\ variant a x) ->
    forall x, In x xs -> exists y, In y xs' /\ variant x y).
  { clear. intros l l' xs xs' H1 H2 A B C B' C' x Hx.
    destruct (C x Hx) as (a & Ha & Hax). destruct (B' a) as (y & Hy & Hya); [auto|].
    exists y. split; [done|].
    assert (Hyx : instance_of y x) by (eapply instance_of_trans; [done|by apply variant_instance]).
    destruct (C' y Hy) as (b & Hb & Hby). destruct (B b) as (z & Hz & Hzb); [auto|].
    assert (Hzy : instance_of z y) by (eapply instance_of_trans; [done|by apply variant_instance]).
    assert (z = x) as ->; [|by apply mutual_instance_variant].
    apply In_nth_error in Hx as [i Hi]. apply In_nth_error in Hz as [j Hj].
    destruct (decide (j = i)) as [->|Hne]; [congruence|].
    exfalso. apply (A j i z x Hj Hi Hne). by eapply instance_of_trans. }
  assert (F : forall x, In x xs -> exists y, In y xs' /\ variant x y).
  { apply (Hgen l l'); try done; naive_solver. }
  assert (F' : forall y, In y xs' -> exists x, In x xs /\ variant y x).
  { apply (Hgen l' l); try done; naive_solver. }
  exists xs, c, xs', c'. split; [done|]. split; [done|]. split; [|split; [done|]].
  - assert (Hlen : forall xs xs', antichain instance_of xs ->
      (forall x, In x xs -> exists y, In y xs' /\ variant x y) -> length xs <= length xs').
    { clear. intros xs. induction xs as [|x xs IH]; intros xs' A F; [simpl; lia|].
      destruct (F x ltac:(by left)) as (y & Hy & Hxy).
      apply in_split in Hy as (l1 & l2 & ->).
      assert (length xs <= length (l1 ++ l2)); [|rewrite app_length in *; simpl; lia].
      apply IH.
      - intros i j a b Hi Hj Hij. apply (A (S i) (S j)); [done|done|lia].
      - intros z Hz. destruct (F z ltac:(by right)) as (w & Hw & Hzw).
        exists w. split; [|done]. apply in_or_app. apply in_app_or in Hw as [Hw|[<-|Hw]]; [by left| |by right].
        exfalso. apply In_nth_error in Hz as [i Hi]. apply (A (S i) 0 z x Hi); [done|lia|].
        apply variant_instance. eapply variant_trans; [done|by apply variant_sym]. }
    apply Nat.le_antisymm; apply Hlen; done.
  - intros y Hy. destruct (F' y Hy) as (x & Hx & Hv). exists x. split; [done|by apply variant_sym].
Qed.

(** Adding f(X,a), f(b,c), f(Y,Y), f(U,V) and then f(b,d): everything collapses
    to f(U,V). *)
Definition f2 (x y : term) : term := Fn [sym "f"; x; y].

Example C10_witness :
  adds (mgs_add (fun j => 100 + j) (covers 20) 20) ([], 0)
    [f2 (Var 0) (sym "a"); f2 (sym "b") (sym "c"); f2 (Var 1) (Var 1)]
  = Ok ([f2 (Var 100) (sym "a"); f2 (sym "b") (sym "c"); f2 (Var 101) (Var 101)], 2) /\
  adds (mgs_add (fun j => 100 + j) (covers 20) 20) ([], 0)
    [f2 (Var 0) (sym "a"); f2 (sym "b") (sym "c"); f2 (Var 1) (Var 1); f2 (Var 0) (Var 1); f2 (sym "b") (sym "d")]
  = Ok ([f2 (Var 102) (Var 103)], 4).
Proof. split; vm_compute; reflexivity. Qed.

(** C11.  After any history of add calls on an empty NoDupsSet whose comparison
    decides an equivalence ~ (on terms without common variables, as with
    term.same): no two stored elements are equivalent, every added term has an
    equivalent stored one, every stored one is a renamed copy of an added one,
    and a further add reports True exactly for an already represented term. *)
Theorem C11_nodups_any_equivalence :
  forall (al : nat -> nat), (forall i j, al i = al j -> i = j) ->
  forall (sm : nat -> term -> term -> res bool) (R : term -> term -> Prop),
  (forall x y, R x y -> R y x) -> (forall x y z, R x y -> R y z -> R x z) ->
  (forall x y, variant x y -> R x y) ->
  (forall x y, disjoint_vars x y ->
     exists b, eventually (fun n => sm n x y = Ok b) /\ (b = true <-> R x y)) ->
  forall (l : list term),
  exists xs c, eventually (fun n => adds (nds_add al (sm n) n) ([], 0) l = Ok (xs, c)) /\
    antichain R xs /\
    (forall a, In a l -> exists i, (exists x, nth_error xs i = Some x /\ R x a) /\
       forall j x, nth_error xs j = Some x -> R x a -> j = i) /\
    (forall x, In x xs -> exists a, In a l /\ variant a x) /\
    (forall r, exists st' b, eventually (fun n => nds_add al (sm n) n (xs, c) r = Ok (st', b)) /\
       (b = true <-> exists x, In x xs /\ R x r)) /\
    (forall q, exists o, eventually (fun n => nds_find al (sm n) n (xs, c) q = o) /\
       match o with
       | Ok i => exists x, nth_error xs i = Some x /\ R x q
       | Raise e => e = KeyError /\ forall x, In x xs -> ~ R x q
       | OutOfFuel => False
       end).
Proof.
  intros al Hal sm R Rsym Rtrans Rvar Hsm l.
  pose proof (nds_add_spec al Hal sm R Rvar Rtrans Hsm Rsym) as Hadd.
  destruct (adds_spec al R (fun n => nds_add al (sm n) n)) with (l := l)
    (st := (@nil term, 0)) (added := @nil term) as ([xs c] & E & Hinv).
  { intros st r added Hinv. destruct (Hadd st r added Hinv) as (st' & b & ? & ? & _). eauto. }
  { apply set_inv_nil. }
  exists xs, c. split; [done|]. pose proof Hinv as (_ & H2 & H3 & H4). simpl in *.
  split; [done|]. split; [|split; [done|split]].
  - intros a Ha. destruct (H3 a Ha) as (x & Hx & HR). apply In_nth_error in Hx as [i Hi].
    exists i. split; [by exists x|]. intros j y Hj HRy.
    destruct (decide (j = i)) as [->|Hne]; [done|]. exfalso. apply (H2 j i y x Hj Hi Hne). eauto.
  - intros r. destruct (Hadd (xs, c) r l Hinv) as (st' & b & Hs & _ & Hb). exists st', b. done.
  - intros q. eapply (mgs_find_spec al Hal sm R Rvar Rtrans Hsm (xs, c) q l Hinv).
Qed.

(** The default comparison, term.same. *)
Theorem C11_nodups_set :
  forall (al : nat -> nat), (forall i j, al i = al j -> i = j) ->
  forall (l : list term),
  exists xs c, eventually (fun n => adds (nds_add al (same n) n) ([], 0) l = Ok (xs, c)) /\
    antichain variant xs /\
    (forall a, In a l -> exists i, (exists x, nth_error xs i = Some x /\ variant x a) /\
       forall j x, nth_error xs j = Some x -> variant x a -> j = i) /\
    (forall x, In x xs -> exists a, In a l /\ variant a x) /\
    (forall r, exists st' b, eventually (fun n => nds_add al (same n) n (xs, c) r = Ok (st', b)) /\
       (b = true <-> exists x, In x xs /\ variant x r)) /\
    (forall q, exists o, eventually (fun n => nds_find al (same n) n (xs, c) q = o) /\
       match o with
       | Ok i => exists x, nth_error xs i = Some x /\ variant x q
       | Raise e => e = KeyError /\ forall x, In x xs -> ~ variant x q
       | OutOfFuel => False
       end).
Proof.
  intros al Hal l. apply (C11_nodups_any_equivalence al Hal same variant).
  - apply variant_sym.
  - apply variant_trans.
  - done.
  - apply C06_same_variant.
Qed.

Example C11_witness :
  adds (nds_add (fun j => 100 + j) (same 20) 20) ([], 0)
    [f2 (Var 0) (sym "a"); f2 (Var 0) (Var 0); f2 (Var 1) (sym "a"); f2 (Var 0) (Var 1); f2 (Var 3) (Var 3)]
  = Ok ([f2 (Var 100) (sym "a"); f2 (Var 101) (Var 101); f2 (Var 103) (Var 104)], 6).
Proof. vm_compute; reflexivity. Qed.

(** C12.  DisjointEstimate is an upper bound: after any history of add calls,
    every added term is an instance of a stored one.  Hence for any query q that
    is an instance of an added term, the positions that find_all returns contain
    one whose element subsumes q, and when find returns a position, its element
    subsumes q.  (Variable identities: those created by Var() and those interned by
    canonicalize never coincide.) *)
Theorem C12_disjoint_estimate_upper_bound :
  forall (al cv : nat -> nat), (forall i j, al i = al j -> i = j) -> (forall i j, cv i = cv j -> i = j) ->
  (forall i j, al i <> cv j) ->
  forall (l : list term), (forall a, In a l -> proper a) ->
  exists xs c, eventually (fun n => de_adds al cv n ([], 0) l = Ok (xs, c)) /\
    (forall a, In a l -> exists x, In x xs /\ instance_of x a) /\
    (forall a q, In a l -> instance_of a q ->
       (exists is y c', eventually (fun n => fresh al n ∅ c q = Ok (y, c') /\ de_find_all n y 0 xs = Ok is) /\
          exists i x, In i is /\ nth_error xs i = Some x /\ instance_of x q) /\
       exists o, eventually (fun n => de_find al n (xs, c) q = o) /\
       match o with
       | Ok i => exists x, nth_error xs i = Some x /\ instance_of x q
       | Raise e => e = KeyError
       | OutOfFuel => False
       end).
Proof.
  intros al cv Hal Hcv Halcv l Hl.
  destruct (de_adds_spec al cv Hal Hcv Halcv ([], 0) l []) as ([xs c] & E & Hp & Hc & Hcov).
  { apply Forall_forall. intros x Hx. by apply Hl, elem_of_list_In. }
  { split; [constructor|]. split; [constructor|]. by intros ? []. }
  simpl in *. exists xs, c. split; [done|]. split; [done|].
  intros a q Ha Haq. destruct (Hcov a Ha) as (x & Hx & Hxa).
  destruct (fresh_settles al Hal c q) as (y & c' & [n1 Ef] & Hv & Hc' & Hfr).
  destruct (de_find_all_spec y 0 xs) as (is & [n2 His] & Hspec & Hnd).
  assert (Hxq : instance_of x q) by (by eapply instance_of_trans).
  apply In_nth_error in Hx as Hx'. destruct Hx' as [i Hi].
  assert (Hin : In i is).
  { apply Hspec. exists x. rewrite Nat.sub_0_r. split; [lia|]. split; [done|].
    apply instance_unifies.
    - intros v H1 H2. rewrite Forall_forall in Hc. destruct (Hc x) with v as [k Hk];
        [by apply elem_of_list_In|done|]. destruct (Hfr v H2) as (j & -> & _). by apply Halcv in Hk.
    - eapply instance_of_trans; [done|]. by apply variant_instance. }
  split.
  - exists is, y, c'. split; [|by exists i, x].
    exists (max n1 n2). intros n Hn. split; [apply Ef|apply His]; lia.
  - exists (match is with [i] => Ok i | _ => Raise KeyError end). split.
    + exists (max n1 n2). intros n Hn. unfold de_find. rewrite Ef by lia. simpl.
      rewrite His by lia. simpl. by destruct is as [|? [|]].
    + destruct is as [|k [|]]; [done| |done]. destruct Hin as [<-|[]]. by exists x.
Qed.

Definition ex_al (j : nat) : nat := 2 * j.
Definition ex_cv (i : nat) : nat := 2 * i + 1.

Example C12_witness :
  (forall i j, ex_al i = ex_al j -> i = j) /\ (forall i j, ex_cv i = ex_cv j -> i = j) /\
  (forall i j, ex_al i <> ex_cv j) /\
  Forall proper [f2 (Var 0) (sym "a"); f2 (sym "b") (Var 0); Fn [sym "g"; Var 0; Fn [sym "h"; Var 0]]] /\
  de_adds ex_al ex_cv 20 ([], 0)
    [f2 (Var 0) (sym "a"); f2 (sym "b") (Var 0); Fn [sym "g"; Var 0; Fn [sym "h"; Var 0]]]
  = Ok ([f2 (Var 1) (Var 3); Fn [sym "g"; Var 1; Fn [sym "h"; Var 1]]], 5).
Proof.
  unfold ex_al, ex_cv. split; [lia|]. split; [lia|]. split; [lia|].
  split; [repeat constructor|vm_compute; reflexivity].
Qed.

(** C13.  The documented "maintaining disjointness" does not hold: the elements
    already passed in the scan are not compared again after the new term has been
    generalized.  After adding the pairwise disjoint f(X,a) and f(b,c), adding
    f(d,Y) leaves f(b,c) and the more general f(U,V) side by side; looking up the
    stored f(b,c) then raises KeyError. *)
Theorem C13_disjointness_refuted :
  exists (l : list term),
    (forall a, In a l -> proper a) /\
    exists xs c, eventually (fun n => de_adds ex_al ex_cv n ([], 0) l = Ok (xs, c)) /\
      (exists i j x y, nth_error xs i = Some x /\ nth_error xs j = Some y /\ i <> j /\ ground x /\
         instance_of y x) /\
      exists q, In q l /\ eventually (fun n => de_find ex_al n (xs, c) q = Raise KeyError).
Proof.
  exists [f2 (Var 0) (sym "a"); f2 (sym "b") (sym "c"); f2 (sym "d") (Var 0)]. split.
  { intros a [<-|[<-|[<-|[]]]]; simpl; auto. }
  exists [f2 (sym "b") (sym "c"); f2 (Var 1) (Var 3)], 4. split.
  { exists 20. intros n Hn. replace n with (20 + (n - 20)) by lia. generalize (n - 20). intros m.
    vm_compute. reflexivity. }
  split.
  - exists 0, 1, (f2 (sym "b") (sym "c")), (f2 (Var 1) (Var 3)). split; [done|]. split; [done|].
    split; [done|]. split; [done|]. by exists (fun v => if decide (v = 1) then sym "b" else sym "c").
  - exists (f2 (sym "b") (sym "c")). split; [right; by left|].
    exists 20. intros n Hn. replace n with (20 + (n - 20)) by lia. generalize (n - 20). intros m.
    vm_compute. reflexivity.
Qed.

(** The anti-unifier itself is not an upper bound on terms that do not overlap:
    generalizer(f(a,a), f(b,c)) is f(Z,Z), which does not cover f(b,c).
    (DisjointEstimate only calls it on overlapping terms, see C12.) *)
Theorem C12_generalizer_not_upper_bound_in_general :
  exists x y z c, eventually (fun n => generalizer ex_al n 0 x y = Ok (z, c)) /\
    ground x /\ ground y /\ ~ instance_of z y.
Proof.
  exists (f2 (sym "a") (sym "a")), (f2 (sym "b") (sym "c")), (f2 (Var 0) (Var 0)), 1. split.
  { exists 10. intros n Hn. replace n with (10 + (n - 10)) by lia. generalize (n - 10). intros m.
    vm_compute. reflexivity. }
  split; [done|]. split; [done|]. intros (σ & Hσ). unfold f2 in Hσ. simpl in Hσ.
  injection Hσ as H1 H2. rewrite H1 in H2. done.
Qed.

Print Assumptions C10_most_general_set.
Print Assumptions C10_order_independent.
Print Assumptions C11_nodups_any_equivalence.
Print Assumptions C11_nodups_set.
Print Assumptions C12_disjoint_estimate_upper_bound.
Print Assumptions C12_generalizer_not_upper_bound_in_general.
Print Assumptions C13_disjointness_refuted.
