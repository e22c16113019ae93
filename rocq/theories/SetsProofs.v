(** Proofs about the term collections. *)
From stdpp Require Import gmap.
From Coq Require Import Lia.
From Verif Require Import PyBase TermModel TermSpec TermProofs UnifyProofs CoverProofs SetsModel SetsSpec.

(** The result settles once there is enough fuel. *)
Definition settles {A} (m : nat -> res A) (a : A) : Prop := exists n0, forall n, n0 <= n -> m n = Ok a.

Lemma settles_bind {A B} (m : nat -> res A) (k : nat -> A -> res B) a b :
  settles m a -> settles (fun n => k n a) b -> settles (fun n => let* x := m n in k n x) b.
Proof.
  intros [n1 H1] [n2 H2]. exists (max n1 n2). intros n Hn. rewrite H1 by lia. simpl. apply H2. lia.
Qed.

Lemma settles_ret {A} (a : A) : settles (fun _ => Ok a) a.
Proof. by exists 0. Qed.

(** * Heap-free facts *)

Lemma weighted_empty : weighted ∅ (fun _ => 1).
Proof. split; [lia|intros ? ?; by rewrite lookup_empty]. Qed.

Lemma resolution_empty : resolution ∅ Var.
Proof. split; [intros ? ?; by rewrite lookup_empty|done]. Qed.

Lemma acyclic_empty : acyclic ∅.
Proof. exists (fun _ => 0). intros ? ?. by rewrite lookup_empty. Qed.

Lemma tw_one t : tw (fun _ => 1) t = tsize t.
Proof.
  induction t as [v|c|xs IH] using term_ind'; simpl; [done|done|].
  f_equal. f_equal. apply map_ext_in. intros x Hx. rewrite Forall_forall in IH.
  by apply IH, elem_of_list_In.
Qed.

Lemma tsize_rename ρ t : tsize (rename ρ t) = tsize t.
Proof.
  unfold rename. induction t as [v|c|xs IH] using term_ind'; simpl; [done|done|].
  f_equal. f_equal. rewrite map_map. apply map_ext_in. intros x Hx. rewrite Forall_forall in IH.
  by apply IH, elem_of_list_In.
Qed.

Lemma proper_Fn xs : proper (Fn xs) -> exists c l, xs = Cst c :: l /\ Forall proper l.
Proof.
  destruct xs as [|[v|c|l] xs]; simpl; try done. intros H. exists c, xs. split; [done|].
  induction xs as [|x xs IH]; [done|]. destruct H. constructor; [done|by apply IH].
Qed.

Lemma proper_Fn_intro c l : Forall proper l -> proper (Fn (Cst c :: l)).
Proof. simpl. induction 1; simpl; auto. Qed.

Lemma proper_rename ρ t : proper t -> proper (rename ρ t).
Proof.
  induction t as [v|c|xs IH] using term_ind'; [done|done|].
  intros (c & l & -> & Hl)%proper_Fn. apply (proper_Fn_intro c). inversion IH as [|? ? _ IHl]; subst.
  clear IH. induction l as [|x l IHl']; [done|]. inversion Hl; inversion IHl; subst.
  constructor; auto.
Qed.

Section alloc.
  Variable al : nat -> nat.
  Hypothesis Hal : forall i j, al i = al j -> i = j.

  Definition from (c c' : nat) (t : term) : Prop :=
    forall v, In v (vars t) -> exists j, v = al j /\ c <= j < c'.

  Lemma fresh_empty n c x :
    tsize x <= n ->
    exists y c', fresh al n ∅ c x = Ok (y, c') /\ variant x y /\ c <= c' /\ from c c' y /\
                 tsize y = tsize x.
  Proof.
    intros Hn.
    destruct (fresh_spec al Hal ∅ (fun _ => 1) Var weighted_empty resolution_empty n c x)
      as (ρ & c' & E & Hc & Hρ & Hv).
    { by rewrite tw_one. }
    rewrite sub_Var in *. exists (rename ρ x), c'. split; [done|]. split; [by exists ρ|].
    split; [done|]. split; [|apply tsize_rename].
    intros v Hin. rewrite vars_rename in Hin. apply in_map_iff in Hin as (u & <- & Hu). by apply Hv.
  Qed.

  Lemma fresh_settles c x :
    exists y c', settles (fun n => fresh al n ∅ c x) (y, c') /\ variant x y /\ c <= c' /\ from c c' y.
  Proof.
    destruct (fresh_empty (tsize x) c x) as (y & c2 & E & Hv & Hc & Hfr & _); [done|].
    exists y, c2. split; [|done]. exists (tsize x). intros n Hn. by eapply fresh_mono.
  Qed.

  Lemma from_disjoint c0 c c' x y : from c0 c x -> from c c' y -> disjoint_vars x y.
  Proof.
    intros Hx Hy v H1 H2. destruct (Hx v H1) as (i & -> & ?), (Hy _ H2) as (j & E & ?).
    apply Hal in E. lia.
  Qed.

  Lemma from_weaken c0 c c' x : from c0 c x -> c <= c' -> from c0 c' x.
  Proof. intros H Hc v Hv. destruct (H v Hv) as (j & -> & ?). exists j. split; [done|lia]. Qed.

  (** * Generic comparisons *)
  Section generic.
    Variable cov : nat -> term -> term -> res bool.
    Variable R : term -> term -> Prop.
    Hypothesis Rvar : forall x y, variant x y -> R x y.
    Hypothesis Rtrans : forall x y z, R x y -> R y z -> R x z.
    Hypothesis cov_ok : forall x y, disjoint_vars x y ->
      exists b, settles (fun n => cov n x y) b /\ (b = true <-> R x y).

    Definition stored (c : nat) (xs : list term) : Prop := forall x, In x xs -> from 0 c x.

    Lemma disj_sym x y : disjoint_vars x y -> disjoint_vars y x.
    Proof. intros H v H1 H2. by apply (H v). Qed.

    (** ** MostGeneralSet *)

    Lemma mgs_scan_spec c c' r xs :
      stored c xs -> from c c' r ->
      exists o, settles (fun n => mgs_scan (cov n) r xs) o /\
        match o with
        | None => exists s, In s xs /\ R s r
        | Some rm => length rm = length xs /\ (forall s, In s xs -> ~ R s r) /\
            forall i s d, nth_error xs i = Some s -> nth_error rm i = Some d -> (d = true <-> R r s)
        end.
    Proof.
      induction xs as [|s xs IH]; intros Hst Hr.
      { exists (Some []). split; [apply settles_ret|]. split; [done|]. split; [done|]. by intros [|i]. }
      pose proof (Hst s ltac:(by left)) as Hs.
      destruct (cov_ok s r) as (b & Eb & Hb); [exact (from_disjoint _ _ _ _ _ Hs Hr)|].
      destruct b.
      { exists None. split; [|exists s; split; [by left|by apply Hb]].
        eapply (settles_bind (fun n => cov n s r)); [done|]. apply settles_ret. }
      destruct (cov_ok r s) as (d & Ed & Hd); [exact (disj_sym _ _ (from_disjoint _ _ _ _ _ Hs Hr))|].
      destruct IH as (o & Eo & Ho); [intros x Hx; apply Hst; by right|done|].
      exists (option_map (cons d) o). split.
      { eapply (settles_bind (fun n => cov n s r)); [done|].
        eapply (settles_bind (fun n => cov n r s)); [done|].
        eapply (settles_bind (fun n => mgs_scan (cov n) r xs)); [done|]. apply settles_ret. }
      destruct o as [rm|]; simpl.
      - destruct Ho as (H1 & H2 & H3). split; [by rewrite H1|]. split.
        + intros x [->|Hx]; [|by apply H2]. intros HR. apply Hb in HR. done.
        + intros [|i] x e; simpl; [intros [= <-] [= <-]; done|]. apply H3.
      - destruct Ho as (x & Hx & HR). exists x. split; [by right|done].
    Qed.

    Lemma delete_marked_in xs rm x :
      length rm = length xs ->
      In x (delete_marked xs rm) <-> exists i, nth_error xs i = Some x /\ nth_error rm i = Some false.
    Proof.
      revert rm. induction xs as [|y xs IH]; intros [|d rm] Hlen; try done.
      { simpl. split; [done|]. by intros ([|i] & ? & ?). }
      simpl. assert (Hl : length rm = length xs) by (simpl in Hlen; lia). destruct d.
      - rewrite (IH rm Hl). split.
        + intros (i & ? & ?). by exists (S i).
        + intros ([|i] & H1 & H2); [done|]. by exists i.
      - simpl. rewrite (IH rm Hl). split.
        + intros [->|(i & ? & ?)]; [by exists 0|by exists (S i)].
        + intros ([|i] & H1 & H2); simpl in *; [left; congruence|right; by exists i].
    Qed.

    Notation antichain := (antichain R).

    Lemma antichain_cons x xs :
      antichain (x :: xs) <-> (forall y, In y xs -> ~ R x y /\ ~ R y x) /\ antichain xs.
    Proof.
      split.
      - intros H. split.
        + intros y Hy. apply In_nth_error in Hy as [i Hi]. split.
          * apply (H 0 (S i)); done.
          * apply (H (S i) 0); done.
        + intros i j a b Hi Hj Hij. apply (H (S i) (S j)); [done|done|lia].
      - intros [H1 H2] [|i] [|j] a b Hi Hj Hij; simpl in *; [done| | |].
        + injection Hi as <-. apply H1. by eapply nth_error_In.
        + injection Hj as <-. apply H1. by eapply nth_error_In.
        + apply (H2 i j); [done|done|lia].
    Qed.

    Lemma antichain_delete xs rm : antichain xs -> antichain (delete_marked xs rm).
    Proof.
      revert rm. induction xs as [|x xs IH]; intros rm H; [by destruct rm|].
      destruct rm as [|d rm]; [done|]. apply antichain_cons in H as [H1 H2].
      simpl. destruct d; [by apply IH|]. apply antichain_cons. split; [|by apply IH].
      intros y Hy. apply H1. clear - Hy. revert rm Hy.
      induction xs as [|z xs IH]; intros [|d rm] Hy; try done.
      simpl in Hy. destruct d; [right; by eapply IH|].
      destruct Hy as [->|Hy]; [by left|right; by eapply IH].
    Qed.

    Lemma antichain_snoc xs r :
      antichain xs -> (forall s, In s xs -> ~ R s r /\ ~ R r s) -> antichain (xs ++ [r]).
    Proof.
      induction xs as [|x xs IH]; intros H1 H2.
      - apply antichain_cons. split; [done|]. by intros [|?] ? ? ? ?.
      - apply antichain_cons in H1 as [H1 H1']. simpl. apply antichain_cons. split.
        + intros y Hy. apply in_app_or in Hy as [Hy|[<-|[]]]; [by apply H1|].
          apply H2. by left.
        + apply IH; [done|]. intros s Hs. apply H2. by right.
    Qed.

    Definition set_inv (st : list term * nat) (added : list term) : Prop :=
      stored (snd st) (fst st) /\ antichain (fst st) /\
      (forall a, In a added -> exists x, In x (fst st) /\ R x a) /\
      (forall x, In x (fst st) -> exists a, In a added /\ variant a x).

    Lemma stored_weaken c c' xs : stored c xs -> c <= c' -> stored c' xs.
    Proof. intros H Hc x Hx. eapply from_weaken; [by apply H|done]. Qed.

    Lemma from_widen c c' x : from c c' x -> from 0 c' x.
    Proof. intros H v Hv. destruct (H v Hv) as (j & -> & ?). exists j. split; [done|lia]. Qed.

    Lemma mgs_add_spec st r added :
      set_inv st added ->
      exists st' b, settles (fun n => mgs_add al (cov n) n st r) (st', b) /\ set_inv st' (added ++ [r]) /\
        (b = true <-> exists x, In x (fst st) /\ R x r).
    Proof.
      intros (Hst & Hanti & Hcov & Horig). destruct st as [xs c]. simpl in *.
      destruct (fresh_settles c r) as (y & c' & E & Hvar & Hc & Hfrom).
      destruct (mgs_scan_spec c c' y xs Hst Hfrom) as (o & Eo & Ho).
      pose proof (stored_weaken c c' xs Hst Hc) as Hst'.
      set (res := match o with None => (xs, c', true) | Some rm => (delete_marked xs rm ++ [y], c', false) end).
      exists (fst res), (snd res). split.
      { eapply (settles_bind (fun n => fresh al n ∅ c r) (fun n rc => let '(r, c') := rc in
          let* o := mgs_scan (cov n) r xs in
          match o with None => Ok (xs, c', true) | Some rm => Ok (delete_marked xs rm ++ [r], c', false) end));
          [done|].
        eapply (settles_bind (fun n => mgs_scan (cov n) y xs)); [done|].
        subst res. destruct o; apply settles_ret. }
      subst res. destruct o as [rm|]; simpl.
      - destruct Ho as (H1 & H2 & H3).
        split; [split; [|split; [|split]]|]; simpl.
        + intros x Hx. apply in_app_or in Hx as [Hx|[<-|[]]].
          * apply (delete_marked_in _ _ _ H1) in Hx as (i & Hi & _).
            apply Hst'. by eapply nth_error_In.
          * by eapply from_widen.
        + apply antichain_snoc; [by apply antichain_delete|].
          intros s Hs. apply (delete_marked_in _ _ _ H1) in Hs as (i & Hi & Hd). split.
          * apply H2. by eapply nth_error_In.
          * intros HR. apply (H3 i s false Hi Hd) in HR. done.
        + intros a Ha. apply in_app_or in Ha as [Ha|[<-|[]]].
          * destruct (Hcov a Ha) as (x & Hx & HR).
            apply In_nth_error in Hx as [i Hi].
            destruct (nth_error rm i) as [[|]|] eqn:Ed.
            -- exists y. split; [apply in_or_app; right; by left|].
               eapply Rtrans; [|exact HR]. by apply (H3 i x true Hi Ed).
            -- exists x. split; [|done]. apply in_or_app. left.
               apply (delete_marked_in _ _ _ H1). by exists i.
            -- apply nth_error_None in Ed. assert (i < length xs) by (apply nth_error_Some; congruence). lia.
          * exists y. split; [apply in_or_app; right; by left|]. by apply Rvar, variant_sym.
        + intros x Hx. apply in_app_or in Hx as [Hx|[<-|[]]].
          * apply (delete_marked_in _ _ _ H1) in Hx as (i & Hi & _).
            destruct (Horig x) as (a & Ha & HR); [by eapply nth_error_In|].
            exists a. split; [apply in_or_app; by left|done].
          * exists r. split; [apply in_or_app; right; by left|done].
        + split; [done|]. intros (x & Hx & HR). exfalso. apply (H2 x Hx).
          eapply Rtrans; [exact HR|]. by apply Rvar.
      - destruct Ho as (s & Hs & HR).
        split; [split; [|split; [|split]]|]; simpl; try done.
        + intros a Ha. apply in_app_or in Ha as [Ha|[<-|[]]]; [by apply Hcov|].
          exists s. split; [done|]. eapply Rtrans; [exact HR|]. by apply Rvar, variant_sym.
        + intros x Hx. destruct (Horig x Hx) as (a & Ha & HR').
          exists a. split; [apply in_or_app; by left|done].
        + split; [|done]. intros _. exists s. split; [done|].
          eapply Rtrans; [exact HR|]. by apply Rvar, variant_sym.
    Qed.

    Lemma adds_spec add :
      (forall st r added, set_inv st added ->
         exists st' (b : bool), settles (fun n => add n st r) (st', b) /\ set_inv st' (added ++ [r])) ->
      forall st l added, set_inv st added ->
      exists st', settles (fun n => adds (add n) st l) st' /\ set_inv st' (added ++ l).
    Proof.
      intros Hadd st l. revert st. induction l as [|r l IH]; intros st added Hinv.
      { exists st. rewrite app_nil_r. split; [apply settles_ret|done]. }
      destruct (Hadd st r added Hinv) as (st1 & b & E & Hinv1).
      destruct (IH st1 (added ++ [r]) Hinv1) as (st2 & E2 & Hinv2).
      exists st2. split; [|by rewrite <- app_assoc in Hinv2].
      by eapply (settles_bind (fun n => add n st r) (fun n sb => let '(st', _) := sb in adds (add n) st' l)).
    Qed.

    Lemma set_inv_nil : set_inv ([], 0) [].
    Proof. split; [by intros x []|]. split; [by intros [|?] ? ? ? ?|]. split; by intros ? []. Qed.

    Lemma mgs_find_spec st x added :
      set_inv st added ->
      exists r, (exists n0, forall n, n0 <= n -> mgs_find al (cov n) n st x = r) /\
      match r with
      | Ok i => exists s, nth_error (fst st) i = Some s /\ R s x
      | Raise e => e = KeyError /\ forall s, In s (fst st) -> ~ R s x
      | OutOfFuel => False
      end.
    Proof.
      intros (Hst & _). destruct st as [xs c]. simpl in *.
      destruct (fresh_settles c x) as (y & c' & [n1 E] & Hvar & Hc & Hfrom).
      assert (Hgo : forall k, exists r,
        (exists n0, forall n, n0 <= n -> mgs_find_go (cov n) y k xs = r) /\ match r with
        | Ok i => exists s, k <= i /\ nth_error xs (i - k) = Some s /\ R s y
        | Raise e => e = KeyError /\ forall s, In s xs -> ~ R s y
        | OutOfFuel => False
        end).
      { clear E. induction xs as [|s xs IH]; intros k; simpl.
        { exists (Raise KeyError). split; [by exists 0|]. done. }
        destruct (cov_ok s y) as (b & [n2 Eb] & Hb).
        { eapply from_disjoint; [|exact Hfrom]. apply Hst. by left. }
        destruct b.
        - exists (Ok k). split; [exists n2; intros n Hn; by rewrite Eb|].
          exists s. rewrite Nat.sub_diag. simpl. split; [lia|]. split; [done|by apply Hb].
        - destruct (IH ltac:(intros z Hz; apply Hst; by right) (S k)) as (r & [n3 Er] & Hr).
          exists r. split.
          { exists (max n2 n3). intros n Hn. rewrite Eb by lia. apply Er. lia. }
          destruct r as [i|e|]; [|destruct Hr as [-> Hr]|done].
          + destruct Hr as (z & Hle & Hz & HR). exists z. split; [lia|].
            replace (i - k) with (S (i - S k)) by lia. done.
          + split; [done|]. intros z [<-|Hz]; [|by apply Hr]. intros HR. apply Hb in HR. done. }
      destruct (Hgo 0) as (r & [n2 Er] & Hr). exists r. split.
      { exists (max n1 n2). intros n Hn. rewrite E by lia. apply Er. lia. }
      destruct r as [i|e|]; [|destruct Hr as [-> Hr]|done].
      - destruct Hr as (s & _ & Hs & HR). rewrite Nat.sub_0_r in Hs. exists s. split; [done|].
        eapply Rtrans; [exact HR|]. by apply Rvar, variant_sym.
      - split; [done|]. intros s Hs HR. apply (Hr s Hs). eapply Rtrans; [exact HR|]. by apply Rvar.
    Qed.

    (** ** NoDupsSet (R is also symmetric here) *)
    Hypothesis Rsym : forall x y, R x y -> R y x.

    Lemma find_same_spec c c' r xs :
      stored c xs -> from c c' r ->
      exists b, settles (fun n => find_same (cov n) r xs) b /\ (b = true <-> exists s, In s xs /\ R r s).
    Proof.
      induction xs as [|s xs IH]; intros Hst Hr.
      { exists false. split; [apply settles_ret|]. split; [done|]. by intros (? & [] & ?). }
      pose proof (Hst s ltac:(by left)) as Hs.
      destruct (cov_ok r s) as (b & Eb & Hb); [exact (disj_sym _ _ (from_disjoint _ _ _ _ _ Hs Hr))|].
      destruct b.
      - exists true. split; [eapply (settles_bind (fun n => cov n r s)); [done|]; apply settles_ret|].
        split; [|done]. intros _. exists s. split; [by left|by apply Hb].
      - destruct IH as (b & E & Hb'); [intros x Hx; apply Hst; by right|done|].
        exists b. split; [by eapply (settles_bind (fun n => cov n r s))|]. rewrite Hb'. split.
        + intros (z & ? & ?). exists z. split; [by right|done].
        + intros (z & [->|Hz] & HR); [apply Hb in HR; done|]. by exists z.
    Qed.

    Lemma nds_add_spec st r added :
      set_inv st added ->
      exists st' b, settles (fun n => nds_add al (cov n) n st r) (st', b) /\ set_inv st' (added ++ [r]) /\
        (b = true <-> exists x, In x (fst st) /\ R x r).
    Proof.
      intros (Hst & Hanti & Hcov & Horig). destruct st as [xs c]. simpl in *.
      destruct (fresh_settles c r) as (y & c' & E & Hvar & Hc & Hfrom).
      destruct (find_same_spec c c' y xs Hst Hfrom) as (b & Eb & Hb).
      pose proof (stored_weaken c c' xs Hst Hc) as Hst'.
      exists (if b then (xs, c') else (xs ++ [y], c')), b. split.
      { eapply (settles_bind (fun n => fresh al n ∅ c r) (fun n rc => let '(r, c') := rc in
          let* b := find_same (cov n) r xs in
          if b then Ok (xs, c', true) else Ok (xs ++ [r], c', false))); [done|].
        eapply (settles_bind (fun n => find_same (cov n) y xs)); [done|].
        destruct b; apply settles_ret. }
      destruct b.
      - destruct (proj1 Hb eq_refl) as (s & Hs & HR).
        split; [split; [|split; [|split]]|]; simpl; try done.
        + intros a Ha. apply in_app_or in Ha as [Ha|[<-|[]]]; [by apply Hcov|].
          exists s. split; [done|]. eapply Rtrans; [apply Rsym, HR|]. by apply Rvar, variant_sym.
        + intros x Hx. destruct (Horig x Hx) as (a & Ha & HR').
          exists a. split; [apply in_or_app; by left|done].
        + split; [|done]. intros _. exists s. split; [done|].
          eapply Rtrans; [apply Rsym, HR|]. by apply Rvar, variant_sym.
      - assert (Hno : forall s, In s xs -> ~ R y s).
        { intros s Hs HR. assert (false = true) by (apply Hb; eauto). done. }
        split; [split; [|split; [|split]]|]; simpl; try done.
        + intros x Hx. apply in_app_or in Hx as [Hx|[<-|[]]]; [by apply Hst'|].
          by eapply from_widen.
        + apply antichain_snoc; [done|]. intros s Hs. split; [|by apply Hno].
          intros HR. by apply (Hno s Hs), Rsym.
        + intros a Ha. apply in_app_or in Ha as [Ha|[<-|[]]].
          * destruct (Hcov a Ha) as (x & Hx & HR). exists x. split; [apply in_or_app; by left|done].
          * exists y. split; [apply in_or_app; right; by left|]. by apply Rvar, variant_sym.
        + intros x Hx. apply in_app_or in Hx as [Hx|[<-|[]]].
          * destruct (Horig x Hx) as (a & Ha & HR). exists a. split; [apply in_or_app; by left|done].
          * exists r. split; [apply in_or_app; right; by left|done].
        + split; [done|]. intros (s & Hs & HR). exfalso. apply (Hno s Hs).
          apply Rsym. eapply Rtrans; [exact HR|]. by apply Rvar.
    Qed.
  End generic.

  (** * Anti-unification of terms that unify *)

  Lemma vars_le_occurs n v y :
    tsize y <= n -> occurs_check n ∅ v y = Ok (bool_decide (In v (vars y))).
  Proof.
    intros Hn. pose proof (occurs_check_spec ∅ (fun _ => 1) Var weighted_empty resolution_empty n v y
      (lookup_empty v)) as H. rewrite tw_one, sub_Var in H. by apply H.
  Qed.

  (** Ghost state: what each variable of the generalization stands for on the
      two sides. *)
  Notation ghost := (gmap nat (term * term)).
  Definition side1 (g : ghost) (v : nat) : term := default (Var v) (fst <$> g !! v).
  Definition side2 (g : ghost) (v : nat) : term := default (Var v) (snd <$> g !! v).

  (** The left term's variables satisfy P, the right one's Q; allocator positions
      from c0 on are in neither. *)
  Variables (P Q : nat -> Prop) (c0 : nat).
  Hypothesis HPQ : forall v, P v -> Q v -> False.
  Hypothesis HPal : forall j, c0 <= j -> P (al j) -> False.
  Hypothesis HQal : forall j, c0 <= j -> Q (al j) -> False.

  Definition ginv (s : gstate) (g : ghost) : Prop :=
    c0 <= gc s /\
    (* s1 / s2 agree with the ghost *)
    (forall v t, P v -> dget (g1 s) (Var v) = Some t ->
       fst <$> g !! v = Some (Var v) /\ ((forall u, In u (vars t) -> Q u) -> snd <$> g !! v = Some t)) /\
    (forall v t, Q v -> dget (g2 s) (Var v) = Some t ->
       snd <$> g !! v = Some (Var v) /\ ((forall u, In u (vars t) -> P u) -> fst <$> g !! v = Some t)) /\
    (forall v, P v -> is_Some (g !! v) -> dget (g1 s) (Var v) <> None) /\
    (forall v, Q v -> is_Some (g !! v) -> dget (g2 s) (Var v) <> None) /\
    (forall j, gc s <= j -> g !! al j = None).

  Definition gres (x y z : term) (s s' : gstate) (g g' : ghost) : Prop :=
    ginv s' g' /\ g ⊆ g' /\ gc s <= gc s' /\
    (forall v, In v (vars z) -> is_Some (g' !! v)) /\
    sub (side1 g') z = x /\ sub (side2 g') z = y /\
    (forall v, In v (vars z) -> P v \/ Q v \/ exists j, v = al j /\ c0 <= j < gc s').

  Lemma side_mono g g' z : g ⊆ g' -> (forall v, In v (vars z) -> is_Some (g !! v)) ->
    sub (side1 g') z = sub (side1 g) z /\ sub (side2 g') z = sub (side2 g) z.
  Proof.
    intros Hsub Hd. split; apply sub_ext; intros v Hv; destruct (Hd v Hv) as [p Hp];
      unfold side1, side2; by rewrite Hp, (lookup_weaken _ _ _ _ Hp Hsub).
  Qed.

  Lemma dget_dset d k v k' : dget (dset d k v) k' = if term_eqb k' k then Some v else dget d k'.
  Proof. done. Qed.

  (** Recording a fresh variable for the pair (x, y). *)
  Lemma gen_new1 v y s g :
    ginv s g -> P v -> (forall u, In u (vars y) -> Q u) -> is_Some (g !! v) ->
    gres (Var v) y (Var (al (gc s)))
         s (GState (dset (g1 s) (Var v) (Var (al (gc s)))) (g2 s) (S (gc s)))
         g (<[al (gc s) := (Var v, y)]> g).
  Proof.
    intros (I0 & I1 & I2 & I3 & I4 & I5) Hv Hy Hg.
    assert (Hnew : g !! al (gc s) = None) by (by apply I5).
    assert (HnP : forall u, P u -> u <> al (gc s)) by (intros u Hu ->; by eapply HPal).
    assert (HnQ : forall u, Q u -> u <> al (gc s)) by (intros u Hu ->; by eapply HQal).
    split; [split_and!; simpl|].
    - lia.
    - intros u t Hu. unfold dset. simpl. destruct (Nat.eqb_spec u v) as [->|Hne].
      + intros [= <-]. rewrite lookup_insert_ne by (apply not_eq_sym; auto). split.
        * destruct (dget (g1 s) (Var v)) as [t|] eqn:E; [|by destruct (I3 v Hv Hg)].
          by apply (I1 v t Hv E).
        * intros H. exfalso. apply (HQal (gc s)); [done|]. apply H. by left.
      + intros E. rewrite lookup_insert_ne by (apply not_eq_sym; auto). by apply I1.
    - intros u t Hu E. rewrite lookup_insert_ne by (apply not_eq_sym; auto). by apply I2.
    - intros u Hu. rewrite lookup_insert_ne by (apply not_eq_sym; auto). intros Hs.
      destruct (Nat.eqb_spec u v); [done|]. by apply I3.
    - intros u Hu. rewrite lookup_insert_ne by (apply not_eq_sym; auto). by apply I4.
    - intros j Hj. rewrite lookup_insert_ne; [apply I5; lia|]. intros E. apply Hal in E. lia.
    - split; [by apply insert_subseteq|]. split; [simpl; lia|]. split; [|split; [|split]].
      + intros u [<-|[]]. rewrite lookup_insert. eauto.
      + simpl. unfold side1. by rewrite lookup_insert.
      + simpl. unfold side2. by rewrite lookup_insert.
      + intros u [<-|[]]. right. right. exists (gc s). simpl. split; [done|lia].
  Qed.

  Lemma gen_new2 x w s g :
    ginv s g -> Q w -> (forall u, In u (vars x) -> P u) -> is_Some (g !! w) ->
    gres x (Var w) (Var (al (gc s)))
         s (GState (g1 s) (dset (g2 s) (Var w) (Var (al (gc s)))) (S (gc s)))
         g (<[al (gc s) := (x, Var w)]> g).
  Proof.
    intros (I0 & I1 & I2 & I3 & I4 & I5) Hv Hy Hg.
    assert (Hnew : g !! al (gc s) = None) by (by apply I5).
    assert (HnP : forall u, P u -> u <> al (gc s)) by (intros u Hu ->; by eapply HPal).
    assert (HnQ : forall u, Q u -> u <> al (gc s)) by (intros u Hu ->; by eapply HQal).
    split; [split_and!; simpl|].
    - lia.
    - intros u t Hu E. rewrite lookup_insert_ne by (apply not_eq_sym; auto). by apply I1.
    - intros u t Hu. unfold dset. simpl. destruct (Nat.eqb_spec u w) as [->|Hne].
      + intros [= <-]. rewrite lookup_insert_ne by (apply not_eq_sym; auto). split.
        * destruct (dget (g2 s) (Var w)) as [t|] eqn:E; [|by destruct (I4 w Hv Hg)].
          by apply (I2 w t Hv E).
        * intros H. exfalso. apply (HPal (gc s)); [done|]. apply H. by left.
      + intros E. rewrite lookup_insert_ne by (apply not_eq_sym; auto). by apply I2.
    - intros u Hu. rewrite lookup_insert_ne by (apply not_eq_sym; auto). by apply I3.
    - intros u Hu. rewrite lookup_insert_ne by (apply not_eq_sym; auto). intros Hs.
      destruct (Nat.eqb_spec u w); [done|]. by apply I4.
    - intros j Hj. rewrite lookup_insert_ne; [apply I5; lia|]. intros E. apply Hal in E. lia.
    - split; [by apply insert_subseteq|]. split; [simpl; lia|]. split; [|split; [|split]].
      + intros u [<-|[]]. rewrite lookup_insert. eauto.
      + simpl. unfold side1. by rewrite lookup_insert.
      + simpl. unfold side2. by rewrite lookup_insert.
      + intros u [<-|[]]. right. right. exists (gc s). simpl. split; [done|lia].
  Qed.

  Lemma fmap_is_Some {A B} (f : A -> B) (o : option A) b : f <$> o = Some b -> is_Some o.
  Proof. destruct o; [eauto|done]. Qed.

  Lemma gen_var1_spec n v y s g :
    ginv s g -> P v -> (forall u, In u (vars y) -> Q u) -> tsize y <= n ->
    exists z s' g', gen_var1 al n v y s = Ok (z, s') /\ gres (Var v) y z s s' g g' /\ proper z.
  Proof.
    intros Hinv Hv Hy Hn. unfold gen_var1. rewrite vars_le_occurs by done.
    rewrite bool_decide_eq_false_2 by (intros H; by eapply HPQ, Hy).
    cbn [bind]. destruct (dget (g1 s) (Var v)) as [t|] eqn:E.
    - pose proof Hinv as (I0 & I1 & I2 & I3 & I4 & I5).
      destruct (I1 v t Hv E) as [H1 H2].
      pose proof (fmap_is_Some _ _ _ H1) as Hg.
      destruct (term_eqb t y) eqn:Et.
      + apply term_eqb_true in Et as ->. exists (Var v), s, g. split; [done|]. split; [|done].
        split; [done|]. split; [done|]. split; [lia|]. specialize (H2 Hy).
        split; [intros u [<-|[]]; done|]. unfold side1, side2. simpl. rewrite H1, H2.
        split; [done|]. split; [done|]. intros u [<-|[]]. by left.
      + do 3 eexists. split; [reflexivity|]. split; [|done]. exact (gen_new1 v y s g Hinv Hv Hy Hg).
    - pose proof Hinv as (I0 & I1 & I2 & I3 & I4 & I5).
      assert (Hgn : g !! v = None).
      { destruct (g !! v) eqn:Eg; [|done]. exfalso. apply (I3 v Hv); [by rewrite Eg|done]. }
      exists (Var v), (GState (dset (g1 s) (Var v) y) (g2 s) (gc s)), (<[v := (Var v, y)]> g).
      split; [done|]. split; [|done]. split; [split_and!; simpl|].
      + done.
      + intros u t Hu. unfold dset. simpl. destruct (Nat.eqb_spec u v) as [->|Hne].
        * intros [= <-]. rewrite lookup_insert. done.
        * intros E'. rewrite lookup_insert_ne by done. by apply I1.
      + intros u t Hu E'. rewrite lookup_insert_ne by (intros ->; by eapply HPQ). by apply I2.
      + intros u Hu Hs. destruct (Nat.eqb_spec u v) as [->|Hne]; [done|].
        rewrite lookup_insert_ne in Hs by done. by apply I3.
      + intros u Hu. rewrite lookup_insert_ne by (intros ->; by eapply HPQ). by apply I4.
      + intros j Hj. rewrite lookup_insert_ne; [by apply I5|]. intros ->. eapply HPal; [|done]. lia.
      + split; [by apply insert_subseteq|]. split; [simpl; lia|]. split; [|split; [|split]].
        * intros u [<-|[]]. rewrite lookup_insert. eauto.
        * simpl. unfold side1. by rewrite lookup_insert.
        * simpl. unfold side2. by rewrite lookup_insert.
        * intros u [<-|[]]. by left.
  Qed.

  Lemma gen_var2_spec n x w s g :
    ginv s g -> Q w -> (forall u, In u (vars x) -> P u) -> tsize x <= n ->
    exists z s' g', gen_var2 al n x w s = Ok (z, s') /\ gres x (Var w) z s s' g g' /\ proper z.
  Proof.
    intros Hinv Hv Hy Hn. unfold gen_var2. rewrite vars_le_occurs by done.
    rewrite bool_decide_eq_false_2 by (intros H; by eapply HPQ, Hv; apply Hy).
    cbn [bind]. destruct (dget (g2 s) (Var w)) as [t|] eqn:E.
    - pose proof Hinv as (I0 & I1 & I2 & I3 & I4 & I5).
      destruct (I2 w t Hv E) as [H1 H2].
      pose proof (fmap_is_Some _ _ _ H1) as Hg.
      destruct (term_eqb t x) eqn:Et.
      + apply term_eqb_true in Et as ->. exists (Var w), s, g. split; [done|]. split; [|done].
        split; [done|]. split; [done|]. split; [lia|]. specialize (H2 Hy).
        split; [intros u [<-|[]]; done|]. unfold side1, side2. simpl. rewrite H1, H2.
        split; [done|]. split; [done|]. intros u [<-|[]]. right; by left.
      + do 3 eexists. split; [reflexivity|]. split; [|done]. exact (gen_new2 x w s g Hinv Hv Hy Hg).
    - pose proof Hinv as (I0 & I1 & I2 & I3 & I4 & I5).
      assert (Hgn : g !! w = None).
      { destruct (g !! w) eqn:Eg; [|done]. exfalso. apply (I4 w Hv); [by rewrite Eg|done]. }
      exists (Var w), (GState (g1 s) (dset (g2 s) (Var w) x) (gc s)), (<[w := (x, Var w)]> g).
      split; [done|]. split; [|done]. split; [split_and!; simpl|].
      + done.
      + intros u t Hu E'. rewrite lookup_insert_ne by (intros ->; by eapply HPQ). by apply I1.
      + intros u t Hu. unfold dset. simpl. destruct (Nat.eqb_spec u w) as [->|Hne].
        * intros [= <-]. rewrite lookup_insert. done.
        * intros E'. rewrite lookup_insert_ne by done. by apply I2.
      + intros u Hu. rewrite lookup_insert_ne by (intros ->; by eapply HPQ). by apply I3.
      + intros u Hu Hs. destruct (Nat.eqb_spec u w) as [->|Hne]; [done|].
        rewrite lookup_insert_ne in Hs by done. by apply I4.
      + intros j Hj. rewrite lookup_insert_ne; [by apply I5|]. intros ->. eapply HQal; [|done]. lia.
      + split; [by apply insert_subseteq|]. split; [simpl; lia|]. split; [|split; [|split]].
        * intros u [<-|[]]. rewrite lookup_insert. eauto.
        * simpl. unfold side1. by rewrite lookup_insert.
        * simpl. unfold side2. by rewrite lookup_insert.
        * intros u [<-|[]]. right; by left.
  Qed.

  Lemma gen_equal_ground x s g :
    ginv s g -> (forall u, In u (vars x) -> P u) -> (forall u, In u (vars x) -> Q u) ->
    gres x x x s s g g.
  Proof.
    intros Hinv HP HQ.
    assert (Hg : ground x).
    { unfold ground. destruct (vars x) as [|a l] eqn:E; [done|].
      exfalso. eapply (HPQ a); [apply HP|apply HQ]; by left. }
    split; [done|]. split; [done|]. split; [lia|]. rewrite Hg. split; [done|].
    rewrite !sub_ground by done. done.
  Qed.

  Lemma gen_traverse_spec n σ x y s g :
    (forall u, In u (vars x) -> P u) -> (forall u, In u (vars y) -> Q u) ->
    sub σ x = sub σ y -> proper x -> proper y -> tsize x + tsize y <= n -> ginv s g ->
    exists z s' g', gen_traverse al n x y s = Ok (z, s') /\ gres x y z s s' g g' /\ proper z.
  Proof.
    revert y s g. induction x as [v|c|xs IH] using term_ind'; intros y s g Hx Hy Hσ Hpx Hpy Hn Hinv.
    - pose proof (tsize_pos y). simpl in Hn. cbn -[term_eqb]. destruct (term_eqb (Var v) y) eqn:E.
      + apply term_eqb_true in E as <-. exists (Var v), s, g. split; [done|].
        split; [by apply gen_equal_ground|done].
      + apply gen_var1_spec; [done|apply Hx; by left|done|lia].
    - cbn -[term_eqb]. destruct (term_eqb (Cst c) y) eqn:E.
      + apply term_eqb_true in E as <-. exists (Cst c), s, g. split; [done|].
        split; [by apply gen_equal_ground|done].
      + apply term_eqb_false in E. destruct y as [u|d|ys]; simpl in Hσ; [|congruence|congruence].
        simpl in Hn. apply gen_var2_spec; [done|apply Hy; by left|done|simpl; lia].
    - destruct y as [u|d|ys].
      + cbn -[term_eqb]. cbn in Hn.
        apply gen_var2_spec; [done|apply Hy; by left|done|]. simpl. lia.
      + done.
      + cbn -[term_eqb Nat.eqb]. destruct (term_eqb (Fn xs) (Fn ys)) eqn:E.
        { apply term_eqb_true in E. rewrite <- E in *. exists (Fn xs), s, g. split; [done|].
          split; [by apply gen_equal_ground|done]. }
        apply term_eqb_false in E.
        simpl in Hσ. injection Hσ as Hσ.
        assert (Hlen : length xs = length ys).
        { rewrite <- (map_length (sub σ) xs), Hσ. by rewrite map_length. }
        rewrite Hlen, Nat.eqb_refl. simpl.
        destruct (match xs, ys with f :: _, g0 :: _ => term_eqb f g0 | _, _ => false end) eqn:Ef.
        * (* same functor: traverse the arguments *)
          assert (Hgo : forall s g, ginv s g ->
            exists zs s' g',
              (fix go (xs ys : list term) (s : gstate) : res (list term * gstate) :=
                 match xs, ys with
                 | x :: xs, y :: ys =>
                     let* (z, s1) := gen_traverse al n x y s in
                     let* (zs, s2) := go xs ys s1 in Ok (z :: zs, s2)
                 | _, _ => Ok ([], s)
                 end) xs ys s = Ok (zs, s') /\ gres (Fn xs) (Fn ys) (Fn zs) s s' g g' /\ Forall proper zs /\
              (forall c, head xs = Some (Cst c) -> head ys = Some (Cst c) -> head zs = Some (Cst c))).
          { assert (HIH : forall x, In x xs -> forall y s g,
              (forall u, In u (vars x) -> P u) -> (forall u, In u (vars y) -> Q u) ->
              sub σ x = sub σ y -> proper x -> proper y -> tsize x + tsize y <= n -> ginv s g ->
              exists z s' g', gen_traverse al n x y s = Ok (z, s') /\ gres x y z s s' g g' /\ proper z).
            { intros x Hin. rewrite Forall_forall in IH. by apply IH, elem_of_list_In. }
            clear IH E Ef Hinv s g.
            assert (Hn' : list_sum (map tsize xs) + list_sum (map tsize ys) <= n) by (simpl in Hn; lia).
            assert (Hpx' : Forall proper xs).
            { destruct (proper_Fn _ Hpx) as (? & ? & -> & ?). by constructor. }
            assert (Hpy' : Forall proper ys).
            { destruct (proper_Fn _ Hpy) as (? & ? & -> & ?). by constructor. }
            clear Hn Hpx Hpy. revert ys Hy Hσ Hlen Hn' Hpy'.
            induction xs as [|x xs IHxs]; intros [|y ys] Hy Hσ Hlen Hn' Hpy' s g Hinv; try done.
            { exists [], s, g. split; [done|]. split; [by apply gen_equal_ground|done]. }
            inversion Hpx' as [|? ? Hpx1 Hpx2]; inversion Hpy' as [|? ? Hpy1 Hpy2]; subst.
            simpl in Hσ. injection Hσ as Hσ1 Hσ2. simpl in Hn'.
            destruct (HIH x ltac:(by left) y s g) as (z & s1 & g' & E1 & Hr1 & Hpz); [| |done|done|done|lia|done|].
            { intros u Hu. apply Hx. simpl. apply in_or_app. by left. }
            { intros u Hu. apply Hy. simpl. apply in_or_app. by left. }
            destruct Hr1 as (J1 & J2 & J3 & J4 & J5 & J6 & J7).
            destruct (IHxs) with (ys := ys) (s := s1) (g := g') as (zs & s2 & g'' & E2 & Hr2 & Hpzs & _).
            { intros u Hu. apply Hx. simpl. apply in_or_app. by right. }
            { intros z' Hz'. apply HIH. by right. }
            { done. }
            { intros u Hu. apply Hy. simpl. apply in_or_app. by right. }
            { done. } { simpl in Hlen. lia. } { lia. } { done. } { done. }
            destruct Hr2 as (K1 & K2 & K3 & K4 & K5 & K6 & K7).
            exists (z :: zs), s2, g''. rewrite E1. cbn [bind]. rewrite E2. split; [done|].
            split; [|split; [by constructor|]]; [|].
            2: { intros c [= ->] [= ->]. cbn -[term_eqb] in E1.
                 assert (Eq : term_eqb (Cst c) (Cst c) = true) by (by apply term_eqb_true).
                 rewrite Eq in E1. by injection E1 as <- <-. }
            destruct (side_mono g' g'' z K2 J4) as [M1 M2].
            split; [done|]. split; [by etrans|]. split; [lia|].
            simpl in *. injection K5 as K5. injection K6 as K6.
            split; [|split; [|split]].
            - intros u Hu. apply in_app_or in Hu as [Hu|Hu].
              + destruct (J4 u Hu) as [p Hp]. exists p. by eapply lookup_weaken.
              + by apply K4.
            - by rewrite M1, J5, K5.
            - by rewrite M2, J6, K6.
            - intros u Hu. apply in_app_or in Hu as [Hu|Hu]; [|by apply K7].
              destruct (J7 u Hu) as [?|[?|(j & ? & ?)]]; [by left|right; by left|].
              right; right. exists j. split; [done|lia]. }
          destruct (Hgo s g Hinv) as (zs & s' & g' & Eg & Hr & Hpz & Hhd). rewrite Eg. simpl.
          exists (Fn zs), s', g'. split; [done|]. split; [done|].
          destruct (proper_Fn _ Hpx) as (cx & lx & -> & _), (proper_Fn _ Hpy) as (cy & ly & -> & _).
          apply term_eqb_true in Ef. injection Ef as <-. specialize (Hhd cx eq_refl eq_refl).
          destruct zs as [|z zs]; [done|]. injection Hhd as ->. inversion Hpz; subst. by apply proper_Fn_intro.
        * (* impossible: the functors are constants made equal by σ *)
          exfalso. destruct (proper_Fn _ Hpx) as (cx & lx & -> & _), (proper_Fn _ Hpy) as (cy & ly & -> & _).
          simpl in Hσ. injection Hσ as -> _.
          assert (term_eqb (Cst cy) (Cst cy) = true) by (by apply term_eqb_true). congruence.
  Qed.

  Lemma gen_traverse_fuel n m x y s :
    tsize x + tsize y <= n -> tsize x + tsize y <= m -> gen_traverse al n x y s = gen_traverse al m x y s.
  Proof.
    revert y s. induction x as [v|c|xs IH] using term_ind'; intros y s Hn Hm.
    - cbn -[term_eqb]. destruct (term_eqb (Var v) y); [done|]. unfold gen_var1. cbn in Hn, Hm.
      by rewrite !vars_le_occurs by lia.
    - cbn -[term_eqb]. destruct (term_eqb (Cst c) y); [done|]. destruct y as [w|d|ys]; [|done|done].
      unfold gen_var2. cbn in Hn, Hm. by rewrite !vars_le_occurs by (simpl; lia).
    - cbn -[term_eqb Nat.eqb]. destruct (term_eqb (Fn xs) y); [done|]. destruct y as [w|d|ys]; [|done|].
      + unfold gen_var2. cbn in Hn, Hm. by rewrite !vars_le_occurs by (simpl; lia).
      + destruct (Nat.eqb (length xs) (length ys) && _); [|done]. f_equal.
        assert (Hn' : list_sum (map tsize xs) + list_sum (map tsize ys) <= n) by (simpl in Hn; lia).
        assert (Hm' : list_sum (map tsize xs) + list_sum (map tsize ys) <= m) by (simpl in Hm; lia).
        clear Hn Hm. revert ys s Hn' Hm'. induction xs as [|x xs IHxs]; intros [|y ys] s Hn' Hm'; try done.
        inversion IH as [|? ? IH1 IH2]; subst. simpl in Hn', Hm'.
        rewrite (IH1 y s) by lia. destruct (gen_traverse al m x y s) as [[z s1]| |]; try done.
        simpl. rewrite (IHxs IH2 ys s1) by lia. done.
  Qed.

  Lemma tsize_sub σ t : tsize t <= tsize (sub σ t).
  Proof.
    induction t as [v|c|xs IH] using term_ind'; simpl; [apply tsize_pos|lia|].
    apply le_n_S. rewrite map_map. induction xs as [|x xs IHxs]; simpl; [lia|].
    inversion IH; subst. specialize (IHxs ltac:(done)). lia.
  Qed.

  Lemma generalizer_spec x y :
    (forall u, In u (vars x) -> P u) -> (forall u, In u (vars y) -> Q u) ->
    (exists σ, sub σ x = sub σ y) -> proper x -> proper y ->
    exists z c', (forall n, tsize x + tsize y <= n -> generalizer al n c0 x y = Ok (z, c')) /\
      c0 <= c' /\ proper z /\
      instance_of z x /\ instance_of z y /\ tsize z <= tsize x.
  Proof.
    intros Hx Hy (σ & Hσ) Hpx Hpy.
    destruct (gen_traverse_spec (tsize x + tsize y) σ x y (GState [] [] c0) ∅)
      as (z & s' & g' & E & Hr & Hpz); try done.
    { split_and!; simpl; try done; try lia;
      intros; rewrite lookup_empty in *; destruct_and?; try done; by destruct H0. }
    destruct Hr as (_ & _ & Hc & _ & H1 & H2 & _).
    exists z, (gc s'). split.
    { intros n Hn. unfold generalizer. rewrite (gen_traverse_fuel n (tsize x + tsize y)) by lia.
      by rewrite E. }
    split; [done|].
    split; [done|]. split; [by eexists|]. split; [by eexists|]. rewrite <- H1. apply tsize_sub.
  Qed.
End alloc.

(** * DisjointEstimate *)

Lemma unifies_settles x y :
  exists b, settles (fun n => unifies n ∅ x y) b /\ (b = true <-> exists σ, sub σ x = sub σ y).
Proof.
  destruct (ugen_computes py_eq occurs_check py_eq_ok occurs_check_ok (allvars ∅ x y) ∅ x y)
    as (n0 & st' & b & Hn0 & [Hac' _] & [Hsub _] & Hr).
  { split; [apply acyclic_empty|apply allvars_st]. } { apply allvars_x. } { apply allvars_y. }
  assert (Hno : forall σ, solves σ ∅) by (intros σ v t; by rewrite lookup_empty).
  exists b. split.
  - exists n0. intros n Hn. unfold unifies.
    pose proof (unify_cps n x y (fun s => ((fst s, true), Done)) ∅ false) as Hc.
    unfold unify_f in Hc. rewrite Hn0 in Hc by done. destruct b.
    + destruct Hc as (tr & _ & Hc). unfold body in *. simpl in *. rewrite Hc. done.
    + unfold body in *. simpl in *. rewrite Hc. done.
  - destruct b; split; try done.
    + intros _. destruct (acyclic_resolution st' Hac') as [θ Hθ]. exists θ. by apply Hr, Hθ.
    + intros (σ & H). exfalso. by apply (Hr σ).
Qed.

Section de.
  Variables (al cv : nat -> nat).
  Hypothesis Hal : forall i j, al i = al j -> i = j.
  Hypothesis Hcv : forall i j, cv i = cv j -> i = j.
  Hypothesis Halcv : forall i j, al i <> cv j.

  Definition fromcv (t : term) : Prop := forall v, In v (vars t) -> exists i, v = cv i.

  Lemma variant_instance_l x y z : variant x y -> instance_of x z -> instance_of y z.
  Proof. intros H1 H2. eapply instance_of_trans; [|done]. by apply variant_instance, variant_sym. Qed.

  Lemma variant_proper x y : variant x y -> proper x -> proper y.
  Proof. intros (ρ & _ & ->). apply proper_rename. Qed.

  Lemma de_scan_spec r c rxs kept :
    from al 0 c r -> proper r -> Forall proper rxs -> Forall fromcv rxs ->
    exists r' c' kept', settles (fun n => de_scan al n r c rxs kept) (r', c', kept') /\
      c <= c' /\ from al 0 c' r' /\ proper r' /\ instance_of r' r /\
      (forall x, In x kept -> In x kept') /\
      (forall x, In x rxs -> In x kept' \/ instance_of r' x) /\
      (forall x, In x kept' -> In x kept \/ In x rxs).
  Proof.
    revert r c kept. induction rxs as [|x rxs IH]; intros r c kept Hr Hpr Hpx Hcx.
    { exists r, c, kept. split; [apply settles_ret|]. split; [done|]. split; [done|].
      split; [done|]. split; [exists Var; apply sub_Var|]. split; [done|]. split; [done|]. tauto. }
    inversion Hpx as [|? ? Hpx1 Hpx2]; inversion Hcx as [|? ? Hcx1 Hcx2]; subst.
    destruct (unifies_settles r x) as (u & Hu & Hu'). destruct u.
    - destruct (generalizer_spec al Hal (fun v => exists j, v = al j /\ j < c) (fun v => exists i, v = cv i) c)
        with (x := r) (y := x)
        as (z & c1 & Hz & Hc1 & Hpz & Hzr & Hzx & _).
      { intros v (j & -> & _) (i & E). by apply Halcv in E. }
      { intros j Hj (i & E & ?). apply Hal in E. lia. }
      { intros j Hj (i & E). by apply Halcv in E. }
      { intros v Hv. destruct (Hr v Hv) as (j & -> & ?). exists j. split; [done|lia]. }
      { done. } { by apply Hu'. } { done. } { done. }
      assert (Hf : exists y c2, settles (fun n => fresh al n ∅ c1 z) (y, c2) /\ variant z y /\ c1 <= c2 /\
                 from al c1 c2 y).
      { destruct (fresh_empty al Hal (tsize z) c1 z) as (y & c2 & E & Hv & Hc & Hfr & _); [done|].
        exists y, c2. split; [|done]. exists (tsize z). intros n Hn. by eapply fresh_mono. }
      destruct Hf as (y & c2 & Hf & Hzy & Hc2 & Hfr).
      destruct (IH y c2 kept) as (r' & c' & kept' & Hs & H1 & H2 & H3 & H4 & H5 & H6 & H7);
        [|by eapply variant_proper|done|done|].
      { intros v Hv. destruct (Hfr v Hv) as (j & -> & ?). exists j. split; [done|lia]. }
      exists r', c', kept'. split; [|split; [lia|split; [done|split; [done|]]]].
      + simpl. eapply (settles_bind (fun n => unifies n ∅ r x)); [done|]. simpl.
        eapply (settles_bind (fun n => generalizer al n c r x)
          (fun n zc => let '(g, c1) := zc in let* (r', c2) := fresh al n ∅ c1 g in de_scan al n r' c2 rxs kept)).
        { exists (tsize r + tsize x). exact Hz. }
        simpl. eapply (settles_bind (fun n => fresh al n ∅ c1 z)
          (fun n zc => let '(r', c2) := zc in de_scan al n r' c2 rxs kept)); [done|]. done.
      + assert (Hinst : forall q, instance_of z q -> instance_of r' q).
        { intros q Hq. eapply instance_of_trans; [exact H4|]. by eapply variant_instance_l. }
        split; [by apply Hinst|]. split; [done|]. split.
        * intros q [<-|Hq]; [right; by apply Hinst|by apply H6].
        * intros q Hq. destruct (H7 q Hq); [by left|right; by right].
    - destruct (IH r c (x :: kept)) as (r' & c' & kept' & Hs & H1 & H2 & H3 & H4 & H5 & H6 & H7); try done.
      exists r', c', kept'. split; [|split; [done|split; [done|split; [done|split; [done|]]]]].
      + simpl. eapply (settles_bind (fun n => unifies n ∅ r x)); [done|]. done.
      + split; [|split].
        * intros y Hy. apply H5. by right.
        * intros y [<-|Hy]; [left; apply H5; by left|by apply H6].
        * intros y Hy. destruct (H7 y Hy) as [[<-|?]|?]; [right; by left|by left|right; by right].
  Qed.

  Lemma canonical_settles t : settles (fun n => canonicalize cv n ∅ t) (canonical cv t).
  Proof.
    exists (S (tsize t)). intros n Hn.
    rewrite (canonicalize_spec ∅ (fun _ => 1) Var); [by rewrite sub_Var|apply weighted_empty|apply resolution_empty|].
    by rewrite tw_one.
  Qed.

  Lemma canonical_fromcv t : fromcv (canonical cv t).
  Proof.
    intros v Hv. unfold canonical in Hv. rewrite vars_rename in Hv.
    apply in_map_iff in Hv as (u & <- & _). eauto.
  Qed.

  Definition de_inv (st : list term * nat) (added : list term) : Prop :=
    Forall proper (fst st) /\ Forall fromcv (fst st) /\
    forall a, In a added -> exists x, In x (fst st) /\ instance_of x a.

  Lemma de_add_spec st r added :
    proper r -> de_inv st added ->
    exists st', settles (fun n => de_add al cv n st r) st' /\ de_inv st' (added ++ [r]).
  Proof.
    intros Hpr (Hp & Hc & Hcov). destruct st as [xs c]. simpl in *.
    destruct (fresh_settles al Hal c r) as (y & c1 & Hf & Hv & Hc1 & Hfr).
    destruct (de_scan_spec y c1 (rev xs) []) as (r' & c2 & kept & Hs & H1 & H2 & H3 & H4 & H5 & H6 & H7).
    { intros v Hv'. destruct (Hfr v Hv') as (j & -> & ?). exists j. split; [done|lia]. }
    { by eapply variant_proper. }
    { apply Forall_forall. intros x Hx. rewrite Forall_forall in Hp. apply Hp.
      rewrite elem_of_list_In in *. by apply in_rev. }
    { apply Forall_forall. intros x Hx. rewrite Forall_forall in Hc. apply Hc.
      rewrite elem_of_list_In in *. by apply in_rev. }
    exists (kept ++ [canonical cv r'], c2). split.
    { eapply (settles_bind (fun n => fresh al n ∅ c r) (fun n rc => let '(r, c1) := rc in
        let* (rc, kept) := de_scan al n r c1 (rev xs) [] in
        let '(r', c2) := rc in let* z := canonicalize cv n ∅ r' in Ok (kept ++ [z], c2))); [done|].
      simpl. eapply (settles_bind (fun n => de_scan al n y c1 (rev xs) []) (fun n rk =>
        let '(rc, kept) := rk in
        let '(r', c2) := rc in let* z := canonicalize cv n ∅ r' in Ok (kept ++ [z], c2))); [done|].
      simpl. eapply (settles_bind (fun n => canonicalize cv n ∅ r')); [apply canonical_settles|].
      apply settles_ret. }
    assert (Hvar : variant r' (canonical cv r')) by (by apply canonical_variant).
    assert (Hin : forall x, In x kept -> In x xs).
    { intros x Hx. destruct (H7 x Hx) as [[]|Hx']. by apply in_rev. }
    split; [|split]; simpl.
    - apply Forall_app. split; [|constructor; [by eapply variant_proper|done]].
      apply Forall_forall. intros x Hx. rewrite Forall_forall in Hp. apply Hp.
      rewrite elem_of_list_In in *. by apply Hin.
    - apply Forall_app. split; [|constructor; [apply canonical_fromcv|done]].
      apply Forall_forall. intros x Hx. rewrite Forall_forall in Hc. apply Hc.
      rewrite elem_of_list_In in *. by apply Hin.
    - intros a Ha. apply in_app_or in Ha as [Ha|[<-|[]]].
      + destruct (Hcov a Ha) as (x & Hx & Hi). destruct (H6 x) as [Hk|Hk]; [by apply in_rev in Hx|..].
        * exists x. split; [apply in_or_app; by left|done].
        * exists (canonical cv r'). split; [apply in_or_app; right; by left|].
          eapply variant_instance_l; [done|]. by eapply instance_of_trans.
      + exists (canonical cv r'). split; [apply in_or_app; right; by left|].
        eapply variant_instance_l; [done|]. eapply instance_of_trans; [exact H4|].
        by apply variant_instance, variant_sym.
  Qed.

  Lemma de_adds_spec st l added :
    Forall proper l -> de_inv st added ->
    exists st', settles (fun n => de_adds al cv n st l) st' /\ de_inv st' (added ++ l).
  Proof.
    revert st added. induction l as [|r l IH]; intros st added Hp Hinv.
    { exists st. split; [apply settles_ret|]. by rewrite app_nil_r. }
    inversion Hp; subst.
    destruct (de_add_spec st r added) as (st1 & E1 & Hinv1); [done|done|].
    destruct (IH st1 (added ++ [r])) as (st2 & E2 & Hinv2); [done|done|].
    exists st2. split; [|by rewrite <- app_assoc in Hinv2].
    simpl. by eapply (settles_bind (fun n => de_add al cv n st r)).
  Qed.

End de.

(** The positions of the elements that overlap the query. *)
Lemma de_find_all_spec y i xs :
  exists is, settles (fun n => de_find_all n y i xs) is /\
    (forall k, In k is <-> exists x, i <= k /\ nth_error xs (k - i) = Some x /\ exists σ, sub σ y = sub σ x) /\
    List.NoDup is.
Proof.
  revert i. induction xs as [|x xs IH]; intros i.
  { exists []. split; [apply settles_ret|]. split; [|constructor]. intros k. split; [done|].
    intros (x & _ & H & _). by destruct (k - i). }
  destruct (unifies_settles y x) as (u & Hu & Hu'). destruct (IH (S i)) as (is & Hs & His & Hnd).
  assert (Hshift : forall k, In k is -> i < k).
  { intros k Hk. apply His in Hk as (? & ? & _). lia. }
  exists (if u then i :: is else is). split; [|split].
  - simpl. eapply (settles_bind (fun n => unifies n ∅ y x)); [done|].
    eapply (settles_bind (fun n => de_find_all n y (S i) xs)); [done|]. apply settles_ret.
  - intros k. transitivity ((u = true /\ k = i) \/ In k is).
    { destruct u; simpl; [|naive_solver]. split; [intros [->|?]; auto|intros [[_ ->]|?]; auto]. }
    split.
    + intros [[-> ->]|Hk].
      * exists x. rewrite Nat.sub_diag. split; [done|]. split; [done|]. by apply Hu'.
      * apply His in Hk as (z & Hle & Hz & Hσ). exists z. split; [lia|].
        replace (k - i) with (S (k - S i)) by lia. done.
    + intros (z & Hle & Hz & Hσ). destruct (decide (k = i)) as [->|Hne].
      * left. rewrite Nat.sub_diag in Hz. injection Hz as ->. split; [|done]. by apply Hu'.
      * right. apply His. exists z. replace (k - i) with (S (k - S i)) in Hz by lia.
        split; [lia|done].
  - destruct u; [|done]. constructor; [|done]. intros Hin%Hshift. lia.
Qed.

Lemma instance_unifies x y :
  disjoint_vars x y -> instance_of x y -> exists σ, sub σ y = sub σ x.
Proof.
  intros Hd (σ & Hσ). exists (fun v => if decide (In v (vars x)) then σ v else Var v).
  transitivity y.
  - rewrite <- (sub_Var y) at 2. apply sub_ext. intros v Hv.
    destruct (decide (In v (vars x))); [|done]. by destruct (Hd v).
  - rewrite <- Hσ. apply sub_ext. intros v Hv. by destruct (decide (In v (vars x))).
Qed.
