(** Correctness of unification: termination, most general unifiers, undoing. *)
From stdpp Require Import gmap.
From Coq Require Import Lia.
From Verif Require Import PyBase TermModel TermSpec TermProofs.

(** A first-order (non-CPS) unifier, generic in its equality test and occurs
    check; both [unify] and [mgu] are instances. *)
Section ugen.
  Variable eqf : nat -> store -> term -> term -> res bool.
  Variable ocf : nat -> store -> nat -> term -> res bool.

  Fixpoint ugen (n : nat) (st : store) (x y : term) : res (store * bool) :=
    match n with
    | O => OutOfFuel
    | S n =>
        let bind_var v y :=
          let* o := ocf n st v y in
          if o then Ok (st, false) else Ok (<[v := y]> st, true) in
        let* e := eqf n st x y in
        if e then Ok (st, true)
        else match x with
             | Var v =>
                 match st !! v with
                 | Some t => ugen n st t y
                 | None =>
                     match y with
                     | Var u => match st !! u with
                                | Some t => ugen n st x t
                                | None => bind_var v y
                                end
                     | _ => bind_var v y
                     end
                 end
             | _ =>
                 match y with
                 | Var _ => ugen n st y x
                 | Fn ys =>
                     match x with
                     | Fn xs =>
                         if Nat.eqb (length xs) (length ys) then
                           (fix go (st : store) (xs ys : list term) {struct xs} :=
                              match xs, ys with
                              | x :: xs, y :: ys =>
                                  let* (st', ok) := ugen n st x y in
                                  if ok then go st' xs ys else Ok (st', false)
                              | _, _ => Ok (st, true)
                              end) st xs ys
                         else Ok (st, false)
                     | _ => Ok (st, false)
                     end
                 | _ => Ok (st, false)
                 end
             end
    end.

  Fixpoint ugenN (n : nat) (st : store) (xs ys : list term) {struct xs} : res (store * bool) :=
    match xs, ys with
    | x :: xs, y :: ys =>
        let* (st', ok) := ugen n st x y in
        if ok then ugenN n st' xs ys else Ok (st', false)
    | _, _ => Ok (st, true)
    end.

  (** What the two parameters must satisfy. *)
  Definition eq_ok := forall st θ x y, acyclic st -> resolution st θ ->
    exists n0 b, (forall n, n0 <= n -> eqf n st x y = Ok b) /\
                 (b = true -> sub θ x = sub θ y) /\ (b = false -> x <> y).
  Definition oc_ok := forall st θ v y, acyclic st -> resolution st θ -> st !! v = None ->
    exists n0, forall n, n0 <= n -> ocf n st v y = Ok (bool_decide (In v (vars (sub θ y)))).

  Hypothesis Heq : eq_ok.
  Hypothesis Hoc : oc_ok.

  Variable V : gset nat.

  Definition in_V (t : term) := forall v, In v (vars t) -> v ∈ V.
  Definition closed_V (st : store) := forall v t, st !! v = Some t -> in_V t.
  Definition free_in_V (st : store) := size (V ∖ dom st).

  Definition extends (st st' : store) :=
    st ⊆ st' /\ forall v, v ∉ V -> st' !! v = st !! v.

  Lemma extends_trans a b c : extends a b -> extends b c -> extends a c.
  Proof.
    intros [H1 H2] [H3 H4]. split; [by etrans|]. intros v Hv. rewrite H4, H2; done.
  Qed.

  Lemma extends_free st st' : extends st st' -> st' = st \/ free_in_V st' < free_in_V st.
  Proof.
    intros [Hsub Hout].
    destruct (decide (V ∖ dom st' = V ∖ dom st)) as [E|E].
    - left. apply map_eq. intros v.
      destruct (st !! v) as [t|] eqn:Ev.
      + by eapply lookup_weaken.
      + destruct (decide (v ∈ V)) as [Hv|Hv]; [|by rewrite Hout].
        assert (v ∈ V ∖ dom st) as Hin.
        { apply elem_of_difference. split; [done|]. by apply not_elem_of_dom. }
        rewrite <- E in Hin. apply elem_of_difference in Hin as [_ Hin].
        by apply not_elem_of_dom in Hin.
    - right. unfold free_in_V. apply subset_size. split.
      + apply subseteq_dom in Hsub. set_solver.
      + intros Hc. apply E. apply subseteq_dom in Hsub. set_solver.
  Qed.

  Definition good (st : store) := acyclic st /\ closed_V st.

  Definition result (st : store) (x y : term) (st' : store) (b : bool) :=
    good st' /\ extends st st' /\
    if b then forall σ, solves σ st' <-> solves σ st /\ sub σ x = sub σ y
    else forall σ, solves σ st -> sub σ x <> sub σ y.

  Definition computes (st : store) (x y : term) :=
    exists n0 st' b, (forall n, n0 <= n -> ugen n st x y = Ok (st', b)) /\ result st x y st' b.

  Lemma extends_refl st : extends st st.
  Proof. by split. Qed.

  Definition swapped (x y : term) : nat :=
    match x, y with Var _, _ => 0 | _, Var _ => 1 | _, _ => 0 end.

  Lemma solves_insert σ st v y :
    st !! v = None -> solves σ (<[v := y]> st) <-> solves σ st /\ σ v = sub σ y.
  Proof.
    intros Hv. split.
    - intros H. split; [|apply H; by rewrite lookup_insert].
      intros u t E. apply H. rewrite lookup_insert_ne; [done|congruence].
    - intros [H1 H2] u t E. destruct (decide (u = v)) as [->|Hne].
      + rewrite lookup_insert in E. congruence.
      + rewrite lookup_insert_ne in E by done. by apply H1.
  Qed.

  Lemma bind_case st v y :
    good st -> in_V (Var v) -> in_V y -> st !! v = None -> Var v <> y ->
    (forall u t, y = Var u -> st !! u = Some t -> False) ->
    exists n0 st' b,
      (forall n, n0 <= n ->
         (let* o := ocf n st v y in if o then Ok (st, false) else Ok (<[v := y]> st, true))
         = Ok (st', b)) /\ result st (Var v) y st' b.
  Proof.
    intros [Hac Hcl] Hv Hy E Hne Hyu.
    destruct (acyclic_resolution _ Hac) as [θ Hθ].
    destruct (Hoc st θ v y Hac Hθ E) as [n0 Hn0].
    destruct (decide (In v (vars (sub θ y)))) as [Hin|Hin].
    - exists n0, st, false. split.
      { intros n Hn. rewrite (Hn0 n Hn), (bool_decide_eq_true_2 _ Hin). done. }
      split; [done|]. split; [apply extends_refl|].
      intros σ Hσ Heq1. simpl in Heq1.
      rewrite <- (resolution_most_general st θ σ Hac Hθ Hσ y) in Heq1.
      revert Heq1. apply occurs_no_solution; [done|].
      intros Ey. destruct y as [u|c|ys]; simpl in Ey; [|done|done].
      destruct (st !! u) as [t|] eqn:Eu; [by eapply Hyu|].
      destruct Hθ as [_ H0]. rewrite (H0 _ Eu) in Ey. congruence.
    - exists n0, (<[v := y]> st), true. split.
      { intros n Hn. rewrite (Hn0 n Hn), (bool_decide_eq_false_2 _ Hin). done. }
      split; [split|split; [split|]].
      + by eapply acyclic_insert.
      + intros u t Eu. destruct (decide (u = v)) as [->|Hn].
        * rewrite lookup_insert in Eu. by injection Eu as <-.
        * rewrite lookup_insert_ne in Eu by done. by eapply Hcl.
      + by apply insert_subseteq.
      + intros u Hu. apply lookup_insert_ne. intros ->. apply Hu, Hv. by left.
      + intros σ. simpl. by apply solves_insert.
  Qed.

  Lemma result_sym st x y st' b : result st x y st' b -> result st y x st' b.
  Proof.
    intros (H1 & H2 & H3). split; [done|]. split; [done|].
    destruct b; intros σ; [rewrite H3; naive_solver|naive_solver].
  Qed.

  Lemma result_var_l st v t y st' b :
    st !! v = Some t -> result st t y st' b -> result st (Var v) y st' b.
  Proof.
    intros E (H1 & H2 & H3). split; [done|]. split; [done|].
    destruct b; intros σ; simpl.
    - rewrite H3. split; intros [Hs Hx]; split; try done.
      + by rewrite (Hs _ _ E).
      + by rewrite <- (Hs _ _ E).
    - intros Hs. rewrite (Hs _ _ E). by apply H3.
  Qed.

  Lemma ugenN_spec st0 xs ys :
    (forall st x y, In x xs -> In y ys -> good st -> extends st0 st -> computes st x y) ->
    length xs = length ys -> forall st, good st -> extends st0 st ->
    exists n0 st' b, (forall n, n0 <= n -> ugenN n st xs ys = Ok (st', b)) /\
                     result st (Fn xs) (Fn ys) st' b.
  Proof.
    revert ys. induction xs as [|x xs IH]; intros [|y ys] Hall Hlen st Hg Hext; try done.
    - exists 0, st, true. split; [done|]. split; [done|]. split; [apply extends_refl|].
      naive_solver.
    - destruct (Hall st x y) as (n1 & st1 & b1 & Hn1 & Hr1); try done; try by left.
      destruct b1.
      + destruct (IH ys) with (st := st1) as (n2 & st2 & b2 & Hn2 & Hr2).
        * intros. apply Hall; try done; by right.
        * simpl in Hlen. lia.
        * apply Hr1.
        * eapply extends_trans; [done|apply Hr1].
        * exists (max n1 n2), st2, b2. split.
          { intros n Hn. simpl. rewrite Hn1 by lia. simpl. apply Hn2. lia. }
          destruct Hr1 as (Hg1 & He1 & Hs1), Hr2 as (Hg2 & He2 & Hs2).
          split; [done|]. split; [by eapply extends_trans|].
          destruct b2; intros σ.
          -- rewrite Hs2, Hs1. simpl. split; [intros [[? ?] ?]|intros [? [= ? ?]]]; split; try done; congruence.
          -- intros Hσ Heq1. simpl in Heq1. injection Heq1 as Heq1 Heq2.
             apply (Hs2 σ); [by apply Hs1|]. simpl. congruence.
      + exists n1, st1, false. split.
        { intros n Hn. simpl. rewrite Hn1 by lia. done. }
        destruct Hr1 as (Hg1 & He1 & Hs1). split; [done|]. split; [done|].
        intros σ Hσ Heq1. apply (Hs1 σ Hσ). simpl in Heq1. congruence.
  Qed.

  Lemma ugen_computes st x y : good st -> in_V x -> in_V y -> computes st x y.
  Proof.
    remember (free_in_V st) as u eqn:Hu. revert st x y Hu.
    induction (lt_wf u) as [u _ IHu]. intros st x y Hu Hg.
    destruct (acyclic_weighted st (proj1 Hg)) as [w Hw].
    remember (2 * (tw w x + tw w y) + swapped x y) as m eqn:Hm.
    revert x y Hm. induction (lt_wf m) as [m _ IHm]. intros x y Hm Hx Hy.
    destruct (acyclic_resolution st (proj1 Hg)) as [θ Hθ].
    destruct (Heq st θ x y (proj1 Hg) Hθ) as (n0 & e & Hn0 & He1 & He2).
    assert (Hlift : forall (A : nat -> res (store * bool)) st' b n1,
       (forall n, n1 <= n -> A n = Ok (st', b)) ->
       e = false ->
       (forall n, n0 <= n -> ugen (S n) st x y = A n) ->
       result st x y st' b -> computes st x y).
    { intros A st' b n1 HA _ HB Hr. exists (S (max n0 n1)), st', b. split; [|done].
      intros n Hn. destruct n as [|n]; [lia|]. rewrite HB by lia. apply HA. lia. }
    destruct e.
    { exists (S n0), st, true. split.
      - intros [|n] Hn; [lia|]. simpl. rewrite Hn0 by lia. done.
      - split; [done|]. split; [apply extends_refl|]. intros σ.
        split; [|by intros []]. intros Hσ. split; [done|].
        rewrite <- (resolution_most_general st θ σ (proj1 Hg) Hθ Hσ x).
        rewrite <- (resolution_most_general st θ σ (proj1 Hg) Hθ Hσ y).
        by rewrite He1. }
    specialize (He2 eq_refl).
    pose proof (proj2 Hw) as Hwb.
    destruct x as [v|c|xs].
    - destruct (st !! v) as [t|] eqn:Ev.
      + specialize (Hwb _ _ Ev).
        destruct (IHm (2 * (tw w t + tw w y) + swapped t y)) with (x := t) (y := y)
          as (n1 & st' & b & Hn1 & Hr); try done.
        { subst m. simpl. unfold swapped. destruct t, y; simpl in *; lia. }
        { by apply (proj2 Hg v). }
        eapply (Hlift (fun n => ugen n st t y)); [exact Hn1|done| |by eapply result_var_l].
        intros n Hn. simpl. rewrite Hn0 by lia. simpl. by rewrite Ev.
      + assert (Hy' : (exists u t, y = Var u /\ st !! u = Some t) \/
                      (forall u t, y = Var u -> st !! u = Some t -> False)).
        { destruct y as [u'|c|ys]; [|right; congruence|right; congruence].
          destruct (st !! u') as [t|] eqn:Eu; [left; eauto|right].
          intros ? ? [= <-]. congruence. }
        destruct Hy' as [(u' & t & -> & Eu)|Hy'].
        * specialize (Hwb _ _ Eu).
          destruct (IHm (2 * (tw w (Var v) + tw w t) + swapped (Var v) t)) with (x := Var v) (y := t)
            as (n1 & st' & b & Hn1 & Hr); try done.
          { subst m. simpl in *. lia. }
          { by apply (proj2 Hg u'). }
          eapply (Hlift (fun n => ugen n st (Var v) t)); [exact Hn1|done| |].
          { intros n Hn. simpl. rewrite Hn0 by lia. simpl. by rewrite Ev, Eu. }
          apply result_sym. eapply result_var_l; [done|]. by apply result_sym.
        * destruct (bind_case st v y) as (n1 & st' & b & Hn1 & Hr); try done.
          eapply Hlift; [exact Hn1|done| |done].
          intros n Hn. simpl. rewrite Hn0 by lia. simpl. rewrite Ev.
          destruct y as [u'|c|ys]; [|done|done].
          destruct (st !! u') as [t|] eqn:Eu; [|done]. exfalso. by eapply Hy'.
    - destruct y as [u'|d|ys].
      + destruct (IHm (2 * (tw w (Var u') + tw w (Cst c)) + swapped (Var u') (Cst c)))
          with (x := Var u') (y := Cst c) as (n1 & st' & b & Hn1 & Hr); try done.
        { subst m. simpl. lia. }
        eapply Hlift; [exact Hn1|done| |by apply result_sym].
        intros n Hn. simpl. rewrite Hn0 by lia. done.
      + apply (Hlift (fun n => Ok (st, false)) st false 0); try done.
        intros n Hn. simpl. by rewrite Hn0 by lia.
      + apply (Hlift (fun n => Ok (st, false)) st false 0); try done.
        intros n Hn. simpl. by rewrite Hn0 by lia.
    - destruct y as [u'|d|ys].
      + destruct (IHm (2 * (tw w (Var u') + tw w (Fn xs)) + swapped (Var u') (Fn xs)))
          with (x := Var u') (y := Fn xs) as (n1 & st' & b & Hn1 & Hr); try done.
        { subst m. simpl. lia. }
        eapply Hlift; [exact Hn1|done| |by apply result_sym].
        intros n Hn. simpl. rewrite Hn0 by lia. done.
      + apply (Hlift (fun n => Ok (st, false)) st false 0); try done.
        intros n Hn. simpl. by rewrite Hn0 by lia.
      + destruct (Nat.eqb_spec (length xs) (length ys)) as [Hlen|Hlen].
        2:{ apply (Hlift (fun n => Ok (st, false)) st false 0); try done.
            - intros n Hn. simpl. rewrite Hn0 by lia. simpl.
              destruct (Nat.eqb_spec (length xs) (length ys)); done.
            - split; [done|]. split; [apply extends_refl|]. intros σ _ Heq1.
              simpl in Heq1. injection Heq1 as Heq1. apply Hlen.
              rewrite <- (map_length (sub σ) xs), Heq1. by rewrite map_length. }
        destruct (ugenN_spec st xs ys) with (st := st) as (n1 & st' & b & Hn1 & Hr).
        * intros st1 x y Hinx Hiny Hg1 Hex.
          assert (in_V x) by (intros ? ?; apply Hx; by eapply vars_Fn_in).
          assert (in_V y) by (intros ? ?; apply Hy; by eapply vars_Fn_in).
          destruct (extends_free _ _ Hex) as [->|Hlt].
          -- eapply IHm; [|reflexivity|done|done].
             pose proof (tw_in w x xs Hinx). pose proof (tw_in w y ys Hiny).
             subst m. unfold swapped. destruct x, y; lia.
          -- eapply IHu; [|reflexivity|done|done|done]. lia.
        * done.
        * done.
        * apply extends_refl.
        * eapply (Hlift (fun n => ugenN n st xs ys)); [exact Hn1|done| |done].
          intros n Hn. simpl. rewrite Hn0 by lia. simpl.
          destruct (Nat.eqb_spec (length xs) (length ys)); [|done].
          clear. revert st ys. induction xs as [|x xs IH]; intros st [|y ys]; try done.
          simpl. destruct (ugen n st x y) as [[st1 [|]]| |]; try done. simpl. apply IH.
  Qed.
End ugen.

(** A finite set containing all variables of a store and of two terms. *)
Definition allvars (st : store) (x y : term) : gset nat :=
  list_to_set (vars x ++ vars y ++ flat_map (fun p => vars (snd p)) (map_to_list st)).

Lemma allvars_x st x y : in_V (allvars st x y) x.
Proof.
  intros v Hv. unfold allvars. rewrite elem_of_list_to_set, elem_of_list_In.
  rewrite !in_app_iff. auto.
Qed.
Lemma allvars_y st x y : in_V (allvars st x y) y.
Proof.
  intros v Hv. unfold allvars. rewrite elem_of_list_to_set, elem_of_list_In.
  rewrite !in_app_iff. auto.
Qed.
Lemma allvars_st st x y : closed_V (allvars st x y) st.
Proof.
  intros u t E v Hv. unfold allvars. rewrite elem_of_list_to_set, elem_of_list_In.
  rewrite !in_app_iff. right. right. apply in_flat_map. exists (u, t).
  split; [|done]. apply elem_of_list_In. by apply elem_of_map_to_list.
Qed.

(** * Instances *)

Lemma py_eq_ok : eq_ok py_eq.
Proof.
  intros st θ x y Hac Hθ. destruct (acyclic_weighted _ Hac) as [w Hw].
  exists (tw w x + tw w y), (term_eqb (sub θ x) (sub θ y)). split; [|split].
  - intros n Hn. by eapply py_eq_spec.
  - apply term_eqb_true.
  - intros E ->. rewrite term_eqb_refl in E. done.
Qed.

Lemma occurs_check_ok : oc_ok occurs_check.
Proof.
  intros st θ v y Hac Hθ Hv. destruct (acyclic_weighted _ Hac) as [w Hw].
  exists (tw w y). intros n Hn. by eapply occurs_check_spec.
Qed.

Lemma term_eqb_ok : eq_ok (fun _ _ x y => Ok (term_eqb x y)).
Proof.
  intros st θ x y Hac Hθ. exists 0, (term_eqb x y). split; [done|]. split.
  - intros H. apply term_eqb_true in H. by subst.
  - by apply term_eqb_false.
Qed.

Lemma occur_check_occurs_check n s v x : occur_check n s v x = occurs_check n s v x.
Proof.
  revert x. induction n as [|n IH]; intros x; [done|].
  cbn -[Nat.eqb term_eqb]. destruct x as [u|c|xs]; try done.
  - cbn -[Nat.eqb]. destruct (Nat.eqb v u); [done|]. destruct (s !! u); [apply IH|done].
  - simpl. induction xs as [|x xs IHxs]; [done|]. simpl. rewrite IH.
    destruct (occurs_check n s v x) as [[|]| |]; done.
Qed.

Lemma occur_check_ok : oc_ok occur_check.
Proof.
  intros st θ v y Hac Hθ Hv. destruct (occurs_check_ok st θ v y Hac Hθ Hv) as [n0 H].
  exists n0. intros n Hn. rewrite occur_check_occurs_check. by apply H.
Qed.

(** The first-order reading of the generator [unify]. *)
Definition unify_f := ugen py_eq occurs_check.

Lemma mgu_ugen n s x y : mgu n s x y = ugen (fun _ _ x y => Ok (term_eqb x y)) occur_check n s x y.
Proof.
  revert s x y. induction n as [|n IH]; intros s x y; [done|].
  cbn -[term_eqb Nat.eqb]. destruct (term_eqb x y); [done|]. cbn -[term_eqb Nat.eqb].
  destruct x as [v|c|xs].
  - destruct (s !! v); [apply IH|]. destruct y as [u|d|ys]; [|done|done].
    destruct (s !! u); [apply IH|done].
  - destruct y as [u|d|ys]; [apply IH|done|done].
  - destruct y as [u|d|ys]; [apply IH|done|].
    destruct (Nat.eqb (length xs) (length ys)); [|done].
    revert s ys. induction xs as [|x xs IHxs]; intros s [|y ys]; done.
Qed.

(** * The generator *)

Lemma fin_undo st v (y : term) : st !! v = None -> restore (<[v := y]> st) v (st !! v) = st.
Proof. intros E. rewrite E. simpl. by apply delete_insert. Qed.

Definition undo_all (trail : list nat) (st : store) : store := foldr (fun v s => delete v s) st trail.

Lemma unify_cps {T} n x y (k : body T) st t :
  match unify_f n st x y with
  | Ok (st', false) => unify n x y k (st, t) = ((st, t), Done)
  | Ok (st', true) =>
      exists trail, undo_all trail st' = st /\
        unify n x y k (st, t) =
        let '((s, t'), o) := k (st', t) in ((undo_all trail s, t'), o)
  | _ => True
  end.
Proof.
  revert x y k st t. induction n as [|n IH]; intros x y k st t; [done|].
  unfold unify_f in *. cbn -[Nat.eqb].
  assert (Hbind : forall v y, st !! v = None ->
    match (let* o := occurs_check n st v y in if o then Ok (st, false) else Ok (<[v:=y]> st, true)) with
    | Ok (st', true) => exists trail, undo_all trail st' = st /\
        match occurs_check n st v y with
        | Ok true => (st, t, Done)
        | Ok false => let '(st', t', o) := k (<[v:=y]> st, t) in (restore st' v None, t', o)
        | Raise e => (st, t, Exc e)
        | OutOfFuel => (st, t, Fuel)
        end = let '((s, t'), o) := k (st', t) in ((undo_all trail s, t'), o)
    | Ok (st', false) =>
        match occurs_check n st v y with
        | Ok true => (st, t, Done)
        | Ok false => let '(st', t', o) := k (<[v:=y]> st, t) in (restore st' v None, t', o)
        | Raise e => (st, t, Exc e)
        | OutOfFuel => (st, t, Fuel)
        end = (st, t, Done)
    | _ => True end).
  { intros v y0 Ev. destruct (occurs_check n st v y0) as [[|]| |]; cbn; try done.
    exists [v]. cbn. split; [by apply delete_insert|].
    destruct (k (<[v:=y0]> st, t)) as [[s t'] o]. done. }
  destruct (py_eq n st x y) as [[|]| |]; cbn -[Nat.eqb]; try done.
  { exists []. split; [done|]. destruct (k (st, t)) as [[s t'] o]. done. }
  destruct x as [v|c|xs].
  - destruct (st !! v) as [tm|] eqn:Ev; [apply IH|].
    destruct y as [u|d|ys]; [|by apply Hbind|by apply Hbind].
    destruct (st !! u) as [tm|] eqn:Eu; [apply IH|by apply Hbind].
  - destruct y as [u|d|ys]; [apply IH|done|done].
  - destruct y as [u|d|ys]; [apply IH|done|].
    destruct (Nat.eqb_spec (length xs) (length ys)) as [Hlen|]; [|done].
    revert ys Hlen k st t Hbind. clear -IH.
    induction xs as [|x xs IHxs]; intros [|y ys] Hlen k st t _; try done.
    { exists []. split; [done|]. destruct (k (st, t)) as [[s t'] o]. done. }
    match goal with |- context [unify n x y ?k' (st, t)] => pose proof (IH x y k' st t) as H1 end.
    destruct (ugen py_eq occurs_check n st x y) as [[st1 [|]]| |]; cbn -[Nat.eqb]; try done.
    destruct H1 as (tr1 & Hu1 & ->).
    specialize (IHxs ys ltac:(simpl in Hlen; lia) k st1 t).
    feed specialize IHxs; [|].
    { intros v y0 Ev. destruct (occurs_check n st1 v y0) as [[|]| |]; cbn; try done.
      exists [v]. cbn. split; [by apply delete_insert|].
      destruct (k (<[v:=y0]> st1, t)) as [[s t'] o]. done. }
    revert IHxs.
    match goal with |- match ?e with _ => _ end -> _ => destruct e as [[st2 [|]]| |] end; try done.
    + intros (tr2 & Hu2 & ->). exists (tr1 ++ tr2). split.
      * unfold undo_all in *. rewrite foldr_app. by rewrite Hu2.
      * destruct (k (st2, t)) as [[s t'] o]. unfold undo_all. by rewrite foldr_app.
    + intros ->. by rewrite Hu1.
Qed.

(** Undoing: whatever the body does in its own state and however it ends, if it
    leaves the bindings as it found them then so does the loop. *)
Lemma unify_restores {T} n x y (k : body T) :
  (forall s, fst (fst (k s)) = fst s) ->
  forall s, fst (fst (unify n x y k s)) = fst s.
Proof.
  revert x y k. induction n as [|n IH]; intros x y k Hk [st t]; [done|].
  cbn -[Nat.eqb].
  assert (Hbind : forall v y, st !! v = None ->
    fst (fst match occurs_check n st v y with
        | Ok true => (st, t, Done)
        | Ok false => let '(st', t', o) := k (<[v:=y]> st, t) in (restore st' v None, t', o)
        | Raise e => (st, t, Exc e)
        | OutOfFuel => (st, t, Fuel)
        end) = st).
  { intros v y0 Ev. destruct (occurs_check n st v y0) as [[|]| |]; try done.
    specialize (Hk (<[v:=y0]> st, t)).
    destruct (k (<[v:=y0]> st, t)) as [[s t'] o]. cbn in *. subst s. simpl. by apply delete_insert. }
  destruct (py_eq n st x y) as [[|]| |]; try done; [apply Hk|].
  destruct x as [v|c|xs].
  - destruct (st !! v) as [tm|] eqn:Ev; [by apply (IH _ _ _ Hk (st, t))|].
    destruct y as [u|d|ys]; [|by apply Hbind|by apply Hbind].
    destruct (st !! u) as [tm|] eqn:Eu; [by apply (IH _ _ _ Hk (st, t))|by apply Hbind].
  - destruct y as [u|d|ys]; [by apply (IH _ _ _ Hk (st, t))|done|done].
  - destruct y as [u|d|ys]; [by apply (IH _ _ _ Hk (st, t))|done|].
    destruct (Nat.eqb (length xs) (length ys)); [|done].
    clear Hbind. revert ys k Hk st t.
    induction xs as [|x xs IHxs]; intros [|y ys] k Hk st t; try done.
    { apply (Hk (st, t)). }
    match goal with |- context [unify n x y ?k' (st, t)] => apply (IH x y k') end.
    intros [st1 t1]. apply IHxs. done.
Qed.
