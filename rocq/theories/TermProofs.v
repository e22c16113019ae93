(** Proofs about terms, stores and unification. *)
From stdpp Require Import gmap.
From Coq Require Import Lia.
From Verif Require Import PyBase TermModel TermSpec.

(** * Induction, equality, substitution *)

Lemma term_ind' (P : term -> Prop) :
  (forall v, P (Var v)) -> (forall c, P (Cst c)) ->
  (forall xs, Forall P xs -> P (Fn xs)) -> forall t, P t.
Proof.
  intros HV HC HF. fix IH 1. intros [v|c|xs]; [apply HV|apply HC|].
  apply HF. induction xs as [|x xs IHxs]; constructor; [apply IH|apply IHxs].
Qed.

Lemma term_eqb_Fn xs ys :
  term_eqb (Fn xs) (Fn ys) =
  match xs, ys with
  | [], [] => true
  | x :: xs, y :: ys => term_eqb x y && term_eqb (Fn xs) (Fn ys)
  | _, _ => false
  end.
Proof. destruct xs, ys; reflexivity. Qed.

Lemma term_eqb_true x y : term_eqb x y = true <-> x = y.
Proof.
  revert y. induction x as [v|c|xs IH] using term_ind'; intros y.
  - destruct y; simpl; try (split; congruence).
    rewrite Nat.eqb_eq. split; congruence.
  - destruct y; simpl; try (split; congruence).
    rewrite bool_decide_eq_true. split; congruence.
  - destruct y as [w|c|ys]; try (simpl; split; congruence).
    revert ys. induction IH as [|x xs Hx _ IHxs]; intros ys; rewrite term_eqb_Fn.
    + destruct ys; split; congruence.
    + destruct ys as [|y ys]; [split; congruence|].
      rewrite andb_true_iff, Hx, IHxs. split; [intros []; congruence|].
      by intros [= -> ->].
Qed.

Lemma term_eqb_false x y : term_eqb x y = false <-> x <> y.
Proof.
  rewrite <- term_eqb_true. destruct (term_eqb x y); split; congruence.
Qed.

Lemma term_eqb_refl x : term_eqb x x = true.
Proof. by apply term_eqb_true. Qed.

Lemma term_eq_dec (x y : term) : {x = y} + {x <> y}.
Proof.
  destruct (term_eqb x y) eqn:E; [left|right];
    [by apply term_eqb_true|by apply term_eqb_false].
Defined.

#[global] Instance term_eq_decision : EqDecision term := term_eq_dec.

Lemma vars_Fn_in v x xs : In x xs -> In v (vars x) -> In v (vars (Fn xs)).
Proof. intros. simpl. apply in_flat_map. eauto. Qed.

Lemma sub_ext σ τ t : (forall v, In v (vars t) -> σ v = τ v) -> sub σ t = sub τ t.
Proof.
  induction t as [v|c|xs IH] using term_ind'; intros H; simpl; [|done|].
  - apply H. by left.
  - f_equal. apply map_ext_in. intros x Hx.
    rewrite Forall_forall in IH. apply IH; [by apply elem_of_list_In|].
    intros v Hv. apply H. by eapply vars_Fn_in.
Qed.

Lemma sub_ext_inv σ τ t : sub σ t = sub τ t -> forall v, In v (vars t) -> σ v = τ v.
Proof.
  induction t as [v|c|xs IH] using term_ind'; intros H w Hw; simpl in *.
  - destruct Hw as [->|[]]. done.
  - done.
  - injection H as H. apply in_flat_map in Hw as (x & Hx & Hw).
    rewrite Forall_forall in IH. apply (IH x); [by apply elem_of_list_In| |done].
    clear IH Hw. induction xs as [|y xs IHxs]; [done|].
    simpl in H. injection H as H1 H2. destruct Hx as [->|Hx]; auto.
Qed.

Lemma sub_sub σ τ t : sub σ (sub τ t) = sub (fun v => sub σ (τ v)) t.
Proof.
  induction t as [v|c|xs IH] using term_ind'; simpl; [done|done|].
  f_equal. rewrite map_map. apply map_ext_in. intros x Hx.
  rewrite Forall_forall in IH. apply IH. by apply elem_of_list_In.
Qed.

Lemma sub_Var t : sub Var t = t.
Proof.
  induction t as [v|c|xs IH] using term_ind'; simpl; [done|done|].
  f_equal. rewrite <- (map_id xs) at 2. apply map_ext_in. intros x Hx.
  rewrite Forall_forall in IH. apply IH. by apply elem_of_list_In.
Qed.

Lemma vars_sub σ t v : In v (vars (sub σ t)) <-> exists w, In w (vars t) /\ In v (vars (σ w)).
Proof.
  induction t as [w|c|xs IH] using term_ind'; simpl.
  - split; [eauto|]. intros (? & [->|[]] & ?); done.
  - split; [done|]. by intros (? & [] & ?).
  - rewrite Forall_forall in IH. rewrite in_flat_map. split.
    + intros (y & Hy & Hv). apply in_map_iff in Hy as (x & <- & Hx).
      apply IH in Hv as (w & Hw & Hv); [|by apply elem_of_list_In].
      exists w. split; [|done]. apply in_flat_map. eauto.
    + intros (w & Hw & Hv). apply in_flat_map in Hw as (x & Hx & Hw).
      exists (sub σ x). split; [by apply in_map|].
      apply IH; [by apply elem_of_list_In|eauto].
Qed.

Lemma sub_ground σ t : ground t -> sub σ t = t.
Proof.
  intros H. rewrite <- (sub_Var t) at 2. apply sub_ext. rewrite H. by intros v [].
Qed.

(** Size, for the occurs-check argument. *)
Fixpoint tsize (t : term) : nat :=
  match t with
  | Var _ => 1
  | Cst _ => 1
  | Fn xs => S (list_sum (map tsize xs))
  end.

Lemma list_sum_in x l : In x l -> x <= list_sum l.
Proof.
  induction l as [|y l IH]; [done|]. intros [->|H]; simpl; [lia|].
  specialize (IH H). lia.
Qed.

Lemma tsize_pos t : 1 <= tsize t.
Proof. destruct t; simpl; lia. Qed.

Lemma tsize_sub_var σ t v : In v (vars t) -> tsize (σ v) <= tsize (sub σ t).
Proof.
  induction t as [w|c|xs IH] using term_ind'; simpl.
  - intros [->|[]]. lia.
  - done.
  - intros H. apply in_flat_map in H as (x & Hx & Hv).
    rewrite Forall_forall in IH.
    specialize (IH x (proj2 (elem_of_list_In _ _) Hx) Hv).
    pose proof (list_sum_in (tsize (sub σ x)) (map tsize (map (sub σ) xs))) as Hs.
    feed specialize Hs; [apply in_map, in_map, Hx|]. lia.
Qed.

Lemma occurs_no_solution σ t v : In v (vars t) -> t <> Var v -> σ v <> sub σ t.
Proof.
  intros Hv Hne E. destruct t as [w|c|xs].
  - destruct Hv as [->|[]]. done.
  - done.
  - simpl in Hv. apply in_flat_map in Hv as (x & Hx & Hv).
    pose proof (tsize_sub_var σ x v Hv) as Hs.
    assert (tsize (σ v) = tsize (sub σ (Fn xs))) as E' by (by rewrite <- E).
    simpl in E'.
    pose proof (list_sum_in (tsize (sub σ x)) (map tsize (map (sub σ) xs))) as Hs'.
    feed specialize Hs'; [apply in_map, in_map, Hx|]. lia.
Qed.

(** * Weights and resolutions of acyclic stores *)

Fixpoint tw (w : nat -> nat) (t : term) : nat :=
  match t with
  | Var v => w v
  | Cst _ => 1
  | Fn xs => S (list_sum (map (tw w) xs))
  end.

Definition weighted (st : store) (w : nat -> nat) : Prop :=
  (forall v, 1 <= w v) /\ forall v t, st !! v = Some t -> tw w t < w v.

Lemma tw_ext w w' t : (forall v, In v (vars t) -> w v = w' v) -> tw w t = tw w' t.
Proof.
  induction t as [v|c|xs IH] using term_ind'; intros H; simpl; [|done|].
  - apply H. by left.
  - f_equal. f_equal. apply map_ext_in. intros x Hx.
    rewrite Forall_forall in IH. apply IH; [by apply elem_of_list_In|].
    intros v Hv. apply H. by eapply vars_Fn_in.
Qed.

Lemma tw_pos st w t : weighted st w -> 1 <= tw w t.
Proof. intros [H _]. destruct t; simpl; [apply H|lia|lia]. Qed.

Lemma tw_in w x xs : In x xs -> tw w x < tw w (Fn xs).
Proof. intros H. simpl. pose proof (list_sum_in (tw w x) (map (tw w) xs) (in_map _ _ _ H)). lia. Qed.

Lemma tw_var w t v : In v (vars t) -> w v <= tw w t.
Proof.
  induction t as [u|c|xs IH] using term_ind'; simpl.
  - intros [->|[]]. lia.
  - done.
  - intros H. apply in_flat_map in H as (x & Hx & Hv).
    rewrite Forall_forall in IH.
    specialize (IH x (proj2 (elem_of_list_In _ _) Hx) Hv).
    pose proof (tw_in w x xs Hx) as Hs. simpl in Hs. lia.
Qed.

Fixpoint wv (n : nat) (st : store) (v : nat) : nat :=
  match n with
  | O => 1
  | S n => match st !! v with None => 1 | Some t => S (tw (wv n st) t) end
  end.

Fixpoint θv (n : nat) (st : store) (v : nat) : term :=
  match n with
  | O => Var v
  | S n => match st !! v with None => Var v | Some t => sub (θv n st) t end
  end.

Section ranked.
  Variables (st : store) (rank : nat -> nat).
  Hypothesis Hrank : forall v t, st !! v = Some t -> forall w, In w (vars t) -> rank w < rank v.

  Lemma wv_stable r v : rank v < r -> forall m, r <= m -> wv m st v = wv r st v.
  Proof.
    revert v. induction r as [|r IH]; intros v Hv m Hm; [lia|].
    destruct m as [|m]; [lia|]. simpl.
    destruct (st !! v) as [t|] eqn:E; [|done].
    f_equal. apply tw_ext. intros u Hu.
    specialize (Hrank _ _ E _ Hu). apply IH; lia.
  Qed.

  Lemma θv_stable r v : rank v < r -> forall m, r <= m -> θv m st v = θv r st v.
  Proof.
    revert v. induction r as [|r IH]; intros v Hv m Hm; [lia|].
    destruct m as [|m]; [lia|]. simpl.
    destruct (st !! v) as [t|] eqn:E; [|done].
    apply sub_ext. intros u Hu.
    specialize (Hrank _ _ E _ Hu). apply IH; lia.
  Qed.

  Definition wfun (v : nat) := wv (S (rank v)) st v.
  Definition θfun (v : nat) := θv (S (rank v)) st v.

  Lemma wfun_weighted : weighted st wfun.
  Proof.
    split.
    - intros v. unfold wfun. simpl. destruct (st !! v); lia.
    - intros v t E. unfold wfun at 2. simpl. rewrite E.
      rewrite (tw_ext wfun (wv (rank v) st)); [lia|].
      intros u Hu. unfold wfun. symmetry. apply wv_stable; [lia|].
      specialize (Hrank _ _ E _ Hu). lia.
  Qed.

  Lemma θfun_resolution : resolution st θfun.
  Proof.
    split.
    - intros v t E. unfold θfun at 1. simpl. rewrite E. apply sub_ext.
      intros u Hu. unfold θfun. apply θv_stable; [lia|].
      specialize (Hrank _ _ E _ Hu). lia.
    - intros v E. unfold θfun. simpl. by rewrite E.
  Qed.
End ranked.

Lemma acyclic_weighted st : acyclic st -> exists w, weighted st w.
Proof. intros [rank H]. exists (wfun st rank). by apply wfun_weighted. Qed.

Lemma acyclic_resolution st : acyclic st -> exists θ, resolution st θ.
Proof. intros [rank H]. exists (θfun st rank). by apply θfun_resolution. Qed.

Lemma weighted_ind st w (P : nat -> Prop) :
  weighted st w ->
  (forall v, st !! v = None -> P v) ->
  (forall v t, st !! v = Some t -> (forall u, In u (vars t) -> P u) -> P v) ->
  forall v, P v.
Proof.
  intros Hw H0 H1 v. remember (w v) as k eqn:Hk. revert v Hk.
  induction (lt_wf k) as [k _ IH]. intros v ->.
  destruct (st !! v) as [t|] eqn:E; [|by apply H0].
  apply (H1 v t E). intros u Hu.
  apply (IH (w u)); [|done]. destruct Hw as [_ Hw]. specialize (Hw _ _ E).
  pose proof (tw_var w t u Hu). lia.
Qed.

Lemma acyclic_ind st (P : nat -> Prop) :
  acyclic st ->
  (forall v, st !! v = None -> P v) ->
  (forall v t, st !! v = Some t -> (forall u, In u (vars t) -> P u) -> P v) ->
  forall v, P v.
Proof. intros H. destruct (acyclic_weighted _ H) as [w Hw]. by eapply weighted_ind. Qed.

(** Any solution is an instance of the resolution. *)
Lemma resolution_most_general st θ σ :
  acyclic st -> resolution st θ -> solves σ st -> forall t, sub σ (sub θ t) = sub σ t.
Proof.
  intros Hac [Hθ Hθ0] Hσ t. rewrite sub_sub. apply sub_ext. intros v _. revert v.
  apply (acyclic_ind st _ Hac).
  - intros v E. by rewrite Hθ0.
  - intros v t' E IH. rewrite (Hθ _ _ E), (Hσ _ _ E), sub_sub.
    apply sub_ext. done.
Qed.

Lemma resolution_unique st θ θ' :
  acyclic st -> resolution st θ -> resolution st θ' -> forall v, θ v = θ' v.
Proof.
  intros Hac [H1 H10] [H2 H20]. apply (acyclic_ind st _ Hac).
  - intros v E. by rewrite H10, H20.
  - intros v t E IH. rewrite (H1 _ _ E), (H2 _ _ E). by apply sub_ext.
Qed.

Lemma resolution_vars_unbound st θ v u :
  acyclic st -> resolution st θ -> In u (vars (θ v)) -> st !! u = None.
Proof.
  intros Hac [H H0]. revert v u.
  refine (acyclic_ind st (fun v => forall u, In u (vars (θ v)) -> st !! u = None) Hac _ _).
  - intros v E u. rewrite H0 by done. intros [<-|[]]. done.
  - intros v t E IH u. rewrite (H _ _ E). rewrite vars_sub.
    intros (x & Hx & Hu). by eapply IH.
Qed.

Lemma resolution_sub_vars_unbound st θ t u :
  acyclic st -> resolution st θ -> In u (vars (sub θ t)) -> st !! u = None.
Proof.
  intros Hac Hθ. rewrite vars_sub. intros (x & _ & Hu).
  by eapply resolution_vars_unbound.
Qed.

Lemma resolution_idemp st θ t :
  acyclic st -> resolution st θ -> sub θ (sub θ t) = sub θ t.
Proof. intros Hac Hθ. by apply (resolution_most_general st); [| |apply Hθ]. Qed.

(** Binding an unbound variable to a term in which it does not occur. *)
Lemma acyclic_insert st θ v y :
  acyclic st -> resolution st θ -> st !! v = None -> ~ In v (vars (sub θ y)) ->
  acyclic (<[v := y]> st).
Proof.
  intros Hac Hθ Hv Hocc.
  destruct Hac as [rank Hrank].
  assert (Hdec : forall u, {In v (vars (θ u))} + {~ In v (vars (θ u))})
    by (intros; apply in_dec, Nat.eq_dec).
  set (K := S (list_sum (map rank (vars y)))).
  exists (fun u => if Hdec u then rank u + K else rank u).
  intros u t E x Hx. simpl.
  destruct (decide (u = v)) as [->|Hne].
  - rewrite lookup_insert in E. injection E as <-.
    destruct (Hdec v) as [_|Hn].
    2:{ exfalso. apply Hn. destruct Hθ as [_ H0]. rewrite H0 by done. by left. }
    destruct (Hdec x) as [Hd|_].
    { exfalso. apply Hocc. apply vars_sub. eauto. }
    pose proof (list_sum_in (rank x) (map rank (vars y)) (in_map _ _ _ Hx)).
    unfold K. lia.
  - rewrite lookup_insert_ne in E by done.
    pose proof (Hrank _ _ E _ Hx).
    destruct (Hdec x) as [Hd|_].
    + destruct (Hdec u) as [_|Hn]; [lia|].
      exfalso. apply Hn. destruct Hθ as [H1 _]. rewrite (H1 _ _ E).
      apply vars_sub. eauto.
    + destruct (Hdec u); lia.
Qed.

(** * The readers of the heap *)

#[global] Instance In_nat_decision (v : nat) (l : list nat) : Decision (In v l) :=
  in_dec Nat.eq_dec v l.
#[global] Instance ground_decision (t : term) : Decision (ground t).
Proof. unfold ground. apply _. Defined.

Section readers.
  Variables (st : store) (w : nat -> nat) (θ : nat -> term).
  Hypothesis Hw : weighted st w.
  Hypothesis Hθ : resolution st θ.

  Let Hpos t : 1 <= tw w t := tw_pos st w t Hw.

  Lemma snap_spec n x :
    tw w x <= n ->
    exists x', snap n st x = Ok x' /\ sub θ x' = sub θ x /\ tw w x' <= tw w x /\
               (forall v, x' = Var v -> st !! v = None) /\
               ((forall v, x <> Var v) -> x' = x).
  Proof.
    revert x. induction n as [|n IH]; intros x Hn.
    { pose proof (Hpos x). lia. }
    simpl. destruct x as [v|c|xs].
    - destruct (st !! v) as [t|] eqn:E.
      + pose proof (proj2 Hw) as Hw'. specialize (Hw' _ _ E). simpl in Hn.
        destruct (IH t) as (x' & H1 & H2 & H3 & H4 & H5); [lia|].
        exists x'. split; [done|]. split; [|split; [simpl; lia|split; [done|]]].
        * rewrite H2. simpl. destruct Hθ as [H _]. by rewrite (H _ _ E).
        * intros Hx. by destruct (Hx v).
      + exists (Var v). split_and!; try done. by intros ? [= <-].
    - exists (Cst c). split_and!; try done.
    - exists (Fn xs). split_and!; try done.
  Qed.

  Lemma py_eq_spec n x y :
    tw w x + tw w y <= n -> py_eq n st x y = Ok (term_eqb (sub θ x) (sub θ y)).
  Proof.
    revert x y. induction n as [|n IH]; intros x y Hn.
    { pose proof (Hpos x). lia. }
    pose proof (Hpos x). pose proof (Hpos y).
    simpl.
    destruct (snap_spec n x) as (x' & -> & Hx & Hwx & Hvx & _); [lia|].
    destruct (snap_spec n y) as (y' & -> & Hy & Hwy & Hvy & _); [lia|].
    simpl. rewrite <- Hx, <- Hy.
    pose proof (proj2 Hθ) as Hθ0.
    destruct x' as [a|a|xs], y' as [b|b|ys];
      try (specialize (Hθ0 _ (Hvx _ eq_refl)) as Ha);
      try (specialize (Hθ0 _ (Hvy _ eq_refl)) as Hb);
      simpl; rewrite ?Ha, ?Hb; try done.
    assert (Hall : forall x y, In x xs -> In y ys ->
              py_eq n st x y = Ok (term_eqb (sub θ x) (sub θ y))).
    { intros x1 y1 H1 H2. apply IH.
      pose proof (tw_in w x1 xs H1). pose proof (tw_in w y1 ys H2). lia. }
    clear - Hall. revert ys Hall.
    induction xs as [|x xs IHxs]; intros [|y ys] Hall; simpl; try done.
    rewrite Hall by (by left). simpl.
    destruct (term_eqb (sub θ x) (sub θ y)); simpl; [|done].
    apply IHxs. intros. apply Hall; by right.
  Qed.

  Lemma occurs_check_spec n v x :
    st !! v = None -> tw w x <= n ->
    occurs_check n st v x = Ok (bool_decide (In v (vars (sub θ x)))).
  Proof.
    intros Hv. revert x. induction n as [|n IH]; intros x Hn.
    { pose proof (Hpos x). lia. }
    pose proof (proj1 Hθ) as Hs. pose proof (proj2 Hθ) as Hθ0.
    simpl. destruct x as [u|c|xs].
    - destruct (Nat.eqb_spec v u) as [<-|Hne].
      + simpl. rewrite Hθ0 by done. f_equal. symmetry. apply bool_decide_eq_true. by left.
      + simpl. destruct (st !! u) as [t|] eqn:E.
        * pose proof (proj2 Hw) as Hw'. specialize (Hw' _ _ E). simpl in Hn.
          rewrite IH by lia. by rewrite (Hs _ _ E).
        * rewrite Hθ0 by done. f_equal. symmetry. apply bool_decide_eq_false.
          intros [->|[]]. done.
    - done.
    - assert (Hall : forall x, In x xs -> occurs_check n st v x = Ok (bool_decide (In v (vars (sub θ x))))).
      { intros x Hx. apply IH. pose proof (tw_in w x xs Hx). lia. }
      clear - Hall. induction xs as [|x xs IHxs]; [done|].
      simpl in *. rewrite Hall by (by left). simpl.
      rewrite IHxs by (intros; apply Hall; by right).
      destruct (decide (In v (vars (sub θ x)))) as [H1|H1].
      + rewrite (bool_decide_eq_true_2 _ H1). f_equal. symmetry.
        apply bool_decide_eq_true. apply in_or_app. by left.
      + rewrite (bool_decide_eq_false_2 _ H1). f_equal.
        apply bool_decide_ext. rewrite in_app_iff. naive_solver.
  Qed.

  Lemma mapM_ok {A B} (f : A -> res B) (g : A -> B) l :
    (forall a, In a l -> f a = Ok (g a)) -> mapM f l = Ok (map g l).
  Proof.
    induction l as [|a l IH]; intros H; [done|]. simpl.
    rewrite H by (by left). simpl. rewrite IH; [done|]. intros; apply H; by right.
  Qed.

  Lemma deref_spec n x : tw w x <= n -> deref n st x = Ok (sub θ x).
  Proof.
    revert x. induction n as [|n IH]; intros x Hn.
    { pose proof (Hpos x). lia. }
    pose proof (proj1 Hθ) as Hs. pose proof (proj2 Hθ) as Hθ0.
    simpl. destruct x as [v|c|xs].
    - simpl. destruct (st !! v) as [t|] eqn:E.
      + pose proof (proj2 Hw) as Hw'. specialize (Hw' _ _ E). simpl in Hn.
        rewrite IH by lia. by rewrite (Hs _ _ E).
      + by rewrite Hθ0.
    - done.
    - rewrite (mapM_ok _ (sub θ)); [done|].
      intros x Hx. apply IH. pose proof (tw_in w x xs Hx). lia.
  Qed.

  Lemma is_ground_spec n x : tw w x <= n -> is_ground n st x = Ok (bool_decide (ground (sub θ x))).
  Proof.
    revert x. induction n as [|n IH]; intros x Hn.
    { pose proof (Hpos x). lia. }
    pose proof (proj1 Hθ) as Hs. pose proof (proj2 Hθ) as Hθ0.
    simpl. destruct x as [v|c|xs].
    - simpl. destruct (st !! v) as [t|] eqn:E.
      + pose proof (proj2 Hw) as Hw'. specialize (Hw' _ _ E). simpl in Hn.
        rewrite IH by lia. by rewrite (Hs _ _ E).
      + by rewrite Hθ0.
    - done.
    - assert (Hall : forall x, In x xs -> is_ground n st x = Ok (bool_decide (ground (sub θ x)))).
      { intros x Hx. apply IH. pose proof (tw_in w x xs Hx). lia. }
      clear - Hall. induction xs as [|x xs IHxs]; [done|].
      simpl in *. rewrite Hall by (by left). simpl.
      rewrite IHxs by (intros; apply Hall; by right).
      destruct (decide (ground (sub θ x))) as [H1|H1].
      + rewrite (bool_decide_eq_true_2 _ H1). f_equal.
        apply bool_decide_ext. unfold ground in *. simpl. by rewrite H1.
      + rewrite (bool_decide_eq_false_2 _ H1). f_equal. symmetry.
        apply bool_decide_eq_false. unfold ground in *. simpl.
        intros E. apply app_eq_nil in E. tauto.
  Qed.

  (** Order of first occurrence. *)
  Definition collect (vs : list nat) (l : list nat) : list nat := fold_left (fun vs v => oset_add v vs) l vs.

  Lemma term_vars_spec n x vs :
    tw w x <= n -> term_vars n st x vs = Ok (collect vs (vars (sub θ x))).
  Proof.
    revert x vs. induction n as [|n IH]; intros x vs Hn.
    { pose proof (Hpos x). lia. }
    pose proof (proj1 Hθ) as Hs. pose proof (proj2 Hθ) as Hθ0.
    simpl. destruct x as [v|c|xs].
    - simpl. destruct (st !! v) as [t|] eqn:E.
      + pose proof (proj2 Hw) as Hw'. specialize (Hw' _ _ E). simpl in Hn.
        rewrite IH by lia. by rewrite (Hs _ _ E).
      + by rewrite Hθ0.
    - done.
    - assert (Hall : forall x, In x xs -> forall vs, term_vars n st x vs = Ok (collect vs (vars (sub θ x)))).
      { intros x Hx vs'. apply IH. pose proof (tw_in w x xs Hx). lia. }
      clear - Hall. revert vs. induction xs as [|x xs IHxs]; intros vs; [done|].
      simpl in *. rewrite Hall by (by left). simpl.
      rewrite IHxs by (intros; apply Hall; by right).
      unfold collect. by rewrite fold_left_app.
  Qed.
End readers.
