(** Induction on derivations; derivations of a program and of a part of it. *)
From stdpp Require Import gmap.
From Coq Require Import Lia.
From Verif Require Import PyBase Semiring TermModel TermSpec SetsModel ProgSpec.

Lemma deriv_ind' (Q : deriv -> Prop) :
  (forall x, Q (Leaf x)) -> (forall i x ts, Forall Q ts -> Q (Node i x ts)) -> forall t, Q t.
Proof.
  intros Hl Hn. fix IH 1. intros [x|i x ts]; [apply Hl|]. apply Hn.
  induction ts as [|t ts IHts]; constructor; [apply IH|exact IHts].
Qed.

Lemma derives_leaf_inv P base x : derives P base (Leaf x) -> base x.
Proof. by inversion 1. Qed.

Lemma derives_node_inv P base i x ts : derives P base (Node i x ts) ->
  exists r, nth_error P i = Some r /\ ground_inst r x (map root ts) /\ Forall (derives P base) ts.
Proof. inversion 1; subst. eauto. Qed.

(** Renumber the rules of a derivation. *)
Fixpoint relabel (h : nat -> nat) (t : deriv) : deriv :=
  match t with
  | Leaf x => Leaf x
  | Node i x ts => Node (h i) x (map (relabel h) ts)
  end.

Lemma root_relabel h t : root (relabel h t) = root t.
Proof. by destruct t. Qed.

Lemma roots_relabel h ts : map root (map (relabel h) ts) = map root ts.
Proof. rewrite map_map. apply map_ext. apply root_relabel. Qed.

Lemma value_relabel {S : semiring} (w : term -> S) h t : value w (relabel h t) = value w t.
Proof.
  induction t as [x|i x ts IH] using deriv_ind'; [done|]. simpl. f_equal. rewrite map_map.
  induction IH as [|t ts Ht _ IHts]; simpl; [done|]. by rewrite Ht, IHts.
Qed.

Lemma relabel_relabel h g t : uses_only (fun i => g (h i) = i) t -> relabel g (relabel h t) = t.
Proof.
  induction t as [x|i x ts IH] using deriv_ind'; [done|]. inversion 1 as [|? ? ? Hi Hts]; subst. simpl.
  rewrite Hi. f_equal. rewrite map_map. clear - IH Hts.
  induction ts as [|t ts IHts]; simpl; [done|]. inversion IH; inversion Hts; subst. f_equal; auto.
Qed.

Lemma uses_only_impl (Q R : nat -> Prop) t : (forall i, Q i -> R i) -> uses_only Q t -> uses_only R t.
Proof.
  intros HQR. induction t as [x|i x ts IH] using deriv_ind'; [constructor|]. inversion 1 as [|? ? ? Hi Hts]; subst.
  constructor; [auto|]. clear - IH Hts. induction ts as [|t ts IHts]; [constructor|].
  inversion IH; inversion Hts; subst. constructor; auto.
Qed.

Lemma uses_only_and (Q R : nat -> Prop) t : uses_only Q t -> uses_only R t -> uses_only (fun i => Q i /\ R i) t.
Proof.
  induction t as [x|i x ts IH] using deriv_ind'; [constructor|].
  inversion 1 as [|? ? ? Hi Hts]; subst. inversion 1 as [|? ? ? Hi' Hts']; subst.
  constructor; [auto|]. clear - IH Hts Hts'. induction ts as [|t ts IHts]; [constructor|].
  inversion IH; inversion Hts; inversion Hts'; subst. constructor; auto.
Qed.

Lemma uses_only_relabel (Q : nat -> Prop) h t : uses_only (fun i => Q (h i)) t -> uses_only Q (relabel h t).
Proof.
  induction t as [x|i x ts IH] using deriv_ind'; [constructor|]. inversion 1 as [|? ? ? Hi Hts]; subst.
  simpl. constructor; [auto|]. clear - IH Hts. induction ts as [|t ts IHts]; [constructor|].
  inversion IH; inversion Hts; subst. constructor; auto.
Qed.

Lemma derives_uses P base t : derives P base t -> uses_only (fun i => exists r, nth_error P i = Some r) t.
Proof.
  induction t as [x|i x ts IH] using deriv_ind'; [constructor|].
  intros (r & Hr & _ & Hts)%derives_node_inv. constructor; [eauto|]. clear - IH Hts.
  induction ts as [|t ts IHts]; [constructor|]. inversion IH; inversion Hts; subst. constructor; auto.
Qed.

Lemma derives_relabel P P' base h t :
  derives P base t -> uses_only (fun i => forall r, nth_error P i = Some r -> nth_error P' (h i) = Some r) t ->
  derives P' base (relabel h t).
Proof.
  induction t as [x|i x ts IH] using deriv_ind'.
  - intros ?%derives_leaf_inv _. by constructor.
  - intros (r & Hr & Hg & Hts)%derives_node_inv. inversion 1 as [|? ? ? Hi Hu]; subst. simpl.
    eapply D_node; [by apply Hi|by rewrite roots_relabel|]. clear - IH Hts Hu.
    induction ts as [|t ts IHts]; [constructor|]. inversion IH; inversion Hts; inversion Hu; subst.
    constructor; auto.
Qed.

Lemma values_only_relabel P P' h t :
  values_only P t -> uses_only (fun i => forall r, nth_error P i = Some r -> nth_error P' (h i) = Some r) t ->
  values_only P' (relabel h t).
Proof.
  induction t as [x|i x ts IH] using deriv_ind'; [constructor|].
  inversion 1 as [|? r ? ? Hr Hb Hts]; subst. inversion 1 as [|? ? ? Hi Hu]; subst. simpl.
  econstructor; [by apply Hi| |].
  - clear - Hb. induction Hb as [|b t bs ts Ht _ IH]; simpl; constructor; [|exact IH].
    intros Hv. destruct (Ht Hv) as [y ->]. by exists y.
  - clear - IH Hts Hu. induction ts as [|t ts IHts]; [constructor|]. inversion IH; inversion Hts; inversion Hu; subst.
    constructor; auto.
Qed.

(** The position of [k] in [ks]. *)
Fixpoint pos_of (k : nat) (ks : list nat) : nat :=
  match ks with
  | [] => 0
  | k' :: ks => if Nat.eqb k k' then 0 else S (pos_of k ks)
  end.

Lemma pos_of_spec k ks : In k ks -> nth_error ks (pos_of k ks) = Some k.
Proof.
  induction ks as [|k' ks IH]; [done|]. simpl. intros [->|Hin].
  - by rewrite Nat.eqb_refl.
  - destruct (Nat.eqb_spec k k') as [->|]; [done|]. simpl. auto.
Qed.

Lemma pos_of_nth ks j k : List.NoDup ks -> nth_error ks j = Some k -> pos_of k ks = j.
Proof.
  intros Hnd Hj. assert (Hin : In k ks) by (by eapply nth_error_In).
  pose proof (pos_of_spec k ks Hin) as Hp. rewrite NoDup_nth_error in Hnd.
  apply Hnd; [|congruence]. apply nth_error_Some. congruence.
Qed.

(** If [P'] is the list of the rules of [P] at the positions [ks] and the
    derivations of [P] that satisfy [A] use no other rules, nothing is lost. *)
Lemma subprogram_same P P' base (ks : list nat) (A : deriv -> Prop) :
  List.NoDup ks -> Forall2 (fun k r => nth_error P k = Some r) ks P' ->
  (forall t, A t -> derives P base t) ->
  (forall t, A t -> uses_only (fun i => In i ks) t) ->
  forall B : deriv -> Prop, (forall t, B t -> derives P' base t) ->
  (forall t, A t -> B (relabel (fun i => pos_of i ks) t)) ->
  (forall t, B t -> A (relabel (fun j => nth j ks 0) t)) ->
  same_derivations A B.
Proof.
  intros Hnd Hks HA Hu B HB HAB HBA.
  exists (relabel (fun i => pos_of i ks)), (relabel (fun j => nth j ks 0)). split.
  - intros t Ht. split; [auto|]. split; [|split; [apply root_relabel|intros; apply value_relabel]].
    apply relabel_relabel. eapply uses_only_impl; [|by apply Hu]. intros i Hi. simpl.
    apply nth_error_nth with (d := 0). by apply pos_of_spec.
  - intros t Ht. split; [auto|]. apply relabel_relabel. eapply uses_only_impl; [|eapply derives_uses; by apply HB].
    intros j [r Hr]. simpl. assert (Hlen : j < length ks).
    { rewrite (Forall2_length _ _ _ Hks). apply nth_error_Some. congruence. }
    apply pos_of_nth; [done|]. by apply nth_error_nth'.
Qed.

Lemma kept_fwd (P P' : list rule) ks i r : Forall2 (fun k r => nth_error P k = Some r) ks P' -> In i ks ->
  nth_error P i = Some r -> nth_error P' (pos_of i ks) = Some r.
Proof.
  induction 1 as [|k r' ks P' Hk _ IH]; [done|]. simpl. intros [->|Hin] Hr.
  - rewrite Nat.eqb_refl. simpl. congruence.
  - destruct (Nat.eqb_spec i k) as [->|]; simpl; [congruence|auto].
Qed.

Lemma kept_bwd (P P' : list rule) ks j r : Forall2 (fun k r => nth_error P k = Some r) ks P' ->
  nth_error P' j = Some r -> nth_error P (nth j ks 0) = Some r.
Proof.
  intros Hks. revert j. induction Hks as [|k r' ks P' Hk _ IH]; intros [|j] Hr; try done; simpl in *; [congruence|auto].
Qed.
