(** fresh, canonicalize, cover: renaming and matching. *)
From stdpp Require Import gmap.
From Coq Require Import Lia.
From Verif Require Import PyBase TermModel TermSpec TermProofs.

(** * Renaming *)

Lemma rename_ext ρ ρ' t : (forall v, In v (vars t) -> ρ v = ρ' v) -> rename ρ t = rename ρ' t.
Proof. intros H. apply sub_ext. intros v Hv. by rewrite H. Qed.

Lemma vars_rename ρ t : vars (rename ρ t) = map ρ (vars t).
Proof.
  unfold rename. induction t as [v|c|xs IH] using term_ind'; simpl; [done|done|].
  rewrite Forall_forall in IH. induction xs as [|x xs IHxs]; [done|]. simpl.
  rewrite map_app. f_equal; [apply IH; by left|]. apply IHxs. intros; apply IH; by right.
Qed.

Lemma rename_rename ρ ρ' t : rename ρ (rename ρ' t) = rename (fun v => ρ (ρ' v)) t.
Proof. unfold rename. by rewrite sub_sub. Qed.

Lemma rename_id t : rename (fun v => v) t = t.
Proof. apply sub_Var. Qed.

(** A one-to-one renaming can be undone. *)
Fixpoint inv_on (ρ : nat -> nat) (l : list nat) (w : nat) : nat :=
  match l with
  | [] => w
  | v :: l => if Nat.eqb (ρ v) w then v else inv_on ρ l w
  end.

Lemma inv_on_spec ρ l v :
  (forall a b, In a l -> In b l -> ρ a = ρ b -> a = b) -> In v l -> inv_on ρ l (ρ v) = v.
Proof.
  induction l as [|u l IH]; intros H Hv; [done|]. simpl.
  destruct (Nat.eqb_spec (ρ u) (ρ v)) as [E|E].
  - apply H; [by left|done|done].
  - destruct Hv as [->|Hv]; [done|]. apply IH; [|done].
    intros a b ? ?. apply H; by right.
Qed.

Lemma rename_inverse ρ t :
  renames ρ t -> rename (inv_on ρ (vars t)) (rename ρ t) = t.
Proof.
  intros H. rewrite rename_rename. rewrite <- (rename_id t) at 2.
  apply rename_ext. intros v Hv. by apply inv_on_spec.
Qed.

Lemma renames_inv ρ t : renames ρ t -> renames (inv_on ρ (vars t)) (rename ρ t).
Proof.
  intros H a b Ha Hb. rewrite vars_rename in Ha, Hb.
  apply in_map_iff in Ha as (a' & <- & Ha'), Hb as (b' & <- & Hb').
  rewrite !inv_on_spec by done. congruence.
Qed.

Lemma variant_refl x : variant x x.
Proof. exists (fun v => v). split; [by intros ? ? ? ?|]. by rewrite rename_id. Qed.

Lemma variant_sym x y : variant x y -> variant y x.
Proof.
  intros (ρ & H & ->). exists (inv_on ρ (vars x)). split; [by apply renames_inv|].
  by rewrite rename_inverse.
Qed.

Lemma variant_trans x y z : variant x y -> variant y z -> variant x z.
Proof.
  intros (ρ & H & ->) (ρ' & H' & ->). exists (fun v => ρ' (ρ v)). split.
  - intros v w Hv Hw E. apply H; [done|done|]. apply H'; [| |done];
      rewrite vars_rename; by apply in_map.
  - apply rename_rename.
Qed.

(** * fresh *)

Section fresh.
  Variable al : nat -> nat.
  Hypothesis Hal : forall i j, al i = al j -> i = j.

  (** Every new variable is [al j] for an allocator position j in [c0, c). *)
  Definition memo_ok (c0 : nat) (s : gmap nat nat * nat) : Prop :=
    c0 <= snd s /\
    (forall v w, fst s !! v = Some w -> exists j, w = al j /\ c0 <= j < snd s) /\
    (forall v v' w, fst s !! v = Some w -> fst s !! v' = Some w -> v = v').

  Definition memo_rho (m : gmap nat nat) (v : nat) : nat := default v (m !! v).

  Variables (st : store) (w : nat -> nat) (θ : nat -> term).
  Hypothesis Hw : weighted st w.
  Hypothesis Hθ : resolution st θ.

  Lemma fresh_go_spec c0 n x s :
    tw w x <= n -> memo_ok c0 s ->
    exists s', fresh_go al n st x s = Ok (rename (memo_rho (fst s')) (sub θ x), s') /\
      memo_ok c0 s' /\ snd s <= snd s' /\ fst s ⊆ fst s' /\
      (forall v, In v (vars (sub θ x)) -> is_Some (fst s' !! v)).
  Proof.
    revert x s. induction n as [|n IH]; intros x s Hn Hs.
    { pose proof (tw_pos st w x Hw). lia. }
    pose proof (proj1 Hθ) as Hθs. pose proof (proj2 Hθ) as Hθ0.
    simpl. destruct x as [v|c|xs].
    - simpl. destruct (st !! v) as [t|] eqn:E.
      + pose proof (proj2 Hw _ _ E). simpl in Hn.
        rewrite (Hθs _ _ E). apply IH; [lia|done].
      + destruct s as [m c]. rewrite Hθ0 by done. simpl.
        destruct Hs as (H1 & H2 & H3). simpl in *.
        destruct (m !! v) as [u|] eqn:Em.
        * exists (m, c). simpl. unfold rename, memo_rho. simpl. rewrite Em. simpl.
          split; [done|]. split; [done|]. split; [done|]. split; [done|].
          intros ? [<-|[]]. eauto.
        * exists (<[v := al c]> m, S c). simpl. unfold rename, memo_rho. simpl.
          rewrite lookup_insert. simpl. split; [done|]. split; [|split; [lia|split]].
          -- split; [simpl; lia|]. simpl. split.
             ++ intros a b Hab. destruct (decide (a = v)) as [->|Hne].
                ** rewrite lookup_insert in Hab. injection Hab as <-. exists c. split; [done|lia].
                ** rewrite lookup_insert_ne in Hab by done.
                   destruct (H2 _ _ Hab) as (j & -> & ?). exists j. split; [done|lia].
             ++ intros a b d Ha Hb.
                destruct (decide (a = v)) as [->|Hne], (decide (b = v)) as [->|Hne']; [done| | |].
                ** rewrite lookup_insert in Ha. injection Ha as <-.
                   rewrite lookup_insert_ne in Hb by done.
                   destruct (H2 _ _ Hb) as (j & Hj & ?). apply Hal in Hj. lia.
                ** rewrite lookup_insert in Hb. injection Hb as <-.
                   rewrite lookup_insert_ne in Ha by done.
                   destruct (H2 _ _ Ha) as (j & Hj & ?). apply Hal in Hj. lia.
                ** rewrite lookup_insert_ne in Ha by done. rewrite lookup_insert_ne in Hb by done.
                   by eapply H3.
          -- by apply insert_subseteq.
          -- intros ? [<-|[]]. rewrite lookup_insert. eauto.
    - exists s. simpl. split_and!; try done.
    - assert (Hall : forall x, In x xs -> forall s, memo_ok c0 s ->
        exists s', fresh_go al n st x s = Ok (rename (memo_rho (fst s')) (sub θ x), s') /\
          memo_ok c0 s' /\ snd s <= snd s' /\ fst s ⊆ fst s' /\
          (forall v, In v (vars (sub θ x)) -> is_Some (fst s' !! v))).
      { intros x Hx s1 Hs1. apply IH; [|done]. pose proof (tw_in w x xs Hx). lia. }
      enough (exists s', mapSM (fresh_go al n st) xs s =
                   Ok (map (fun x => rename (memo_rho (fst s')) (sub θ x)) xs, s') /\
                memo_ok c0 s' /\ snd s <= snd s' /\ fst s ⊆ fst s' /\
                (forall v, In v (vars (sub θ (Fn xs))) -> is_Some (fst s' !! v)))
        as (s' & Hm & H).
      { exists s'. rewrite Hm. simpl. split; [|done]. unfold rename. simpl. by rewrite map_map. }
      clear - Hall Hs. revert s Hs. induction xs as [|x xs IHxs]; intros s Hs.
      { exists s. split_and!; done. }
      destruct (Hall x ltac:(by left) s Hs) as (s1 & E1 & Hs1 & Hc1 & Hm1 & Hv1).
      destruct (IHxs ltac:(intros; apply Hall; [by right|done]) s1 Hs1)
        as (s2 & E2 & Hs2 & Hc2 & Hm2 & Hv2).
      exists s2. simpl. rewrite E1. simpl. rewrite E2. simpl.
      split; [|split; [done|split; [lia|split; [by etrans|]]]].
      + f_equal. f_equal. f_equal. apply rename_ext. intros v Hv.
        destruct (Hv1 v Hv) as [u Hu]. unfold memo_rho.
        rewrite Hu. by rewrite (lookup_weaken _ _ _ _ Hu Hm2).
      + intros v Hv. simpl in Hv. apply in_app_or in Hv as [Hv|Hv].
        * destruct (Hv1 v Hv) as [u Hu]. exists u. by eapply lookup_weaken.
        * by apply Hv2.
  Qed.

  Lemma fresh_spec n c x :
    tw w x <= n ->
    exists ρ c', fresh al n st c x = Ok (rename ρ (sub θ x), c') /\ c <= c' /\
      renames ρ (sub θ x) /\
      (forall v, In v (vars (sub θ x)) -> exists j, ρ v = al j /\ c <= j < c').
  Proof.
    intros Hn. destruct (fresh_go_spec c n x (∅, c) Hn) as (s' & E & Hs & Hc & _ & Hv).
    { split; [simpl; lia|]. split; simpl; intros ? ?; [|intros ?]; by rewrite lookup_empty. }
    exists (memo_rho (fst s')), (snd s'). unfold fresh. rewrite E. simpl.
    split; [done|]. split; [done|].
    destruct Hs as (H1 & H2 & H3). split.
    - intros a b Ha Hb. unfold memo_rho.
      destruct (Hv a Ha) as [a' Ea], (Hv b Hb) as [b' Eb]. rewrite Ea, Eb. simpl.
      intros ->. by eapply H3.
    - intros v Hin. destruct (Hv v Hin) as [u Hu]. unfold memo_rho. rewrite Hu. simpl. by eapply H2.
  Qed.
End fresh.

Lemma fresh_mono al n m st c x r : fresh al n st c x = Ok r -> n <= m -> fresh al m st c x = Ok r.
Proof.
  assert (Hmono : forall n m x s r, fresh_go al n st x s = Ok r -> n <= m -> fresh_go al m st x s = Ok r).
  { clear. induction n as [|n IH]; intros m x s r; [done|]. intros H Hm.
    destruct m as [|m]; [lia|]. revert H. simpl. destruct x as [v|d|xs].
    - destruct (st !! v); [|done]. intros H. eapply IH; [done|lia].
    - done.
    - assert (forall s r, mapSM (fresh_go al n st) xs s = Ok r -> mapSM (fresh_go al m st) xs s = Ok r) as Hl.
      { clear r s. induction xs as [|x xs IHxs]; intros s r; [done|]. simpl.
        destruct (fresh_go al n st x s) as [[b s1]| |] eqn:E1; [|done|done].
        rewrite (IH m _ _ _ E1) by lia. simpl.
        destruct (mapSM (fresh_go al n st) xs s1) as [[bs s2]| |] eqn:E2; [|done|done].
        by rewrite (IHxs _ _ E2). }
      destruct (mapSM (fresh_go al n st) xs s) as [[bs s2]| |] eqn:E2; [|done|done].
      by rewrite (Hl _ _ E2). }
  unfold fresh. intros E Hn.
  destruct (fresh_go al n st x (∅, c)) as [[y s]| |] eqn:E1; [|done|done].
  by rewrite (Hmono _ _ _ _ _ E1 Hn).
Qed.

Section canon.
  Variables (st : store) (w : nat -> nat) (θ : nat -> term).
  Hypothesis Hw : weighted st w.
  Hypothesis Hθ : resolution st θ.

  (** * canonicalize *)

  Definition idx (vs : list nat) (v : nat) : nat :=
    match list_find (eq v) vs with Some (i, _) => i | None => 0 end.

  Lemma list_find_eq_app (vs vs' : list nat) (v : nat) i u :
    list_find (eq v) vs = Some (i, u) -> list_find (eq v) (vs ++ vs') = Some (i, u).
  Proof.
    revert i. induction vs as [|a vs IH]; intros i; simpl; [done|].
    destruct (decide (v = a)); [done|].
    destruct (list_find (eq v) vs) as [[j b]|]; simpl; [|done].
    intros [= <- <-]. by rewrite (IH j).
  Qed.

  Lemma list_find_eq_In (vs : list nat) v : In v vs -> exists i, list_find (eq v) vs = Some (i, v).
  Proof.
    induction vs as [|a vs IH]; simpl; [done|].
    destruct (decide (v = a)) as [->|Hne]; [eauto|].
    intros [->|H]; [done|]. destruct (IH H) as [i ->]. simpl. eauto.
  Qed.

  Lemma list_find_eq_None (vs : list nat) v : list_find (eq v) vs = None -> ~ In v vs.
  Proof.
    intros E H. destruct (list_find_eq_In _ _ H) as [i Hi]. congruence.
  Qed.

  Lemma list_find_eq_snd (vs : list nat) v i u : list_find (eq v) vs = Some (i, u) -> u = v /\ In v vs.
  Proof.
    revert i. induction vs as [|a vs IH]; intros i; simpl; [done|].
    destruct (decide (v = a)) as [->|]; [intros [= <- <-]; auto|].
    destruct (list_find (eq v) vs) as [[j b]|]; simpl; [|done].
    intros [= <- <-]. destruct (IH j eq_refl) as [-> ?]. auto.
  Qed.

  Lemma list_find_eq_new (vs : list nat) v : ~ In v vs -> list_find (eq v) (vs ++ [v]) = Some (length vs, v).
  Proof.
    induction vs as [|a vs IH]; simpl; [by rewrite decide_True|].
    intros H. rewrite decide_False by naive_solver.
    rewrite IH by naive_solver. done.
  Qed.

  Lemma oset_add_find v vs :
    oset_add v vs = match list_find (eq v) vs with Some _ => vs | None => vs ++ [v] end.
  Proof.
    unfold oset_add. destruct (list_find (eq v) vs) as [[i u]|] eqn:E.
    - apply list_find_eq_snd in E as [_ Hin].
      replace (existsb (Nat.eqb v) vs) with true; [done|].
      symmetry. apply existsb_exists. exists v. split; [done|]. apply Nat.eqb_refl.
    - apply list_find_eq_None in E.
      replace (existsb (Nat.eqb v) vs) with false; [done|].
      symmetry. apply not_true_iff_false. rewrite existsb_exists.
      intros (u & Hu & Heq). apply Nat.eqb_eq in Heq. by subst.
  Qed.

  Lemma collect_prefix l vs : exists vs', collect vs l = vs ++ vs'.
  Proof.
    revert vs. induction l as [|v l IH]; intros vs; simpl; [exists []; by rewrite app_nil_r|].
    destruct (IH (oset_add v vs)) as [vs' E]. rewrite E. rewrite oset_add_find.
    destruct (list_find (eq v) vs); [eauto|]. exists (v :: vs'). by rewrite <- app_assoc.
  Qed.

  Lemma collect_In l vs v : In v (collect vs l) <-> In v vs \/ In v l.
  Proof.
    revert vs. induction l as [|u l IH]; intros vs; simpl; [naive_solver|].
    rewrite IH, oset_add_find. destruct (list_find (eq u) vs) as [[i a]|] eqn:E.
    - apply list_find_eq_snd in E as [_ ?]. naive_solver.
    - rewrite in_app_iff. simpl. naive_solver.
  Qed.

  Lemma collect_NoDup l vs : List.NoDup vs -> List.NoDup (collect vs l).
  Proof.
    revert vs. induction l as [|u l IH]; intros vs H; simpl; [done|].
    apply IH. rewrite oset_add_find. destruct (list_find (eq u) vs) as [[i a]|] eqn:E; [done|].
    apply list_find_eq_None in E. apply NoDup_ListNoDup. apply NoDup_ListNoDup in H.
    apply NoDup_app. split; [done|]. split; [|apply NoDup_singleton].
    intros x Hx Hy. apply elem_of_list_singleton in Hy as ->. by apply E, elem_of_list_In.
  Qed.

  Lemma idx_app vs vs' v : In v vs -> idx (vs ++ vs') v = idx vs v.
  Proof.
    intros H. destruct (list_find_eq_In _ _ H) as [i Hi]. unfold idx.
    by rewrite Hi, (list_find_eq_app _ _ _ _ _ Hi).
  Qed.

  Lemma canon_go_spec cv n x vs :
    tw w x <= n ->
    canon_go cv (S n) st x vs =
      Ok (rename (fun v => cv (idx (collect vs (vars (sub θ x))) v)) (sub θ x),
          collect vs (vars (sub θ x))).
  Proof.
    remember (S n) as n1 eqn:En1. intros Hn0.
    assert (Hn : S (tw w x) <= n1) by lia. clear Hn0 En1 n. revert Hn.
    revert x vs. induction n1 as [|n IH]; intros x vs Hn; [lia|].
    simpl. pose proof (tw_pos st w x Hw).
    destruct (snap_spec st w θ Hw Hθ n x) as (x' & -> & Hx & Hwx & Hvx & _); [lia|].
    simpl. rewrite <- Hx.
    destruct x' as [v|c|xs].
    - simpl. rewrite (proj2 Hθ) by auto. simpl. rewrite oset_add_find.
      unfold rename. simpl. unfold idx.
      destruct (list_find (eq v) vs) as [[i u]|] eqn:E; [by rewrite E|].
      by rewrite list_find_eq_new by (by apply list_find_eq_None).
    - done.
    - assert (Hall : forall x, In x xs -> forall vs, canon_go cv n st x vs =
        Ok (rename (fun v => cv (idx (collect vs (vars (sub θ x))) v)) (sub θ x),
            collect vs (vars (sub θ x)))).
      { intros y Hy vs'. apply IH. pose proof (tw_in w y xs Hy). lia. }
      enough (mapSM (canon_go cv n st) xs vs =
         Ok (map (fun x => rename (fun v => cv (idx (collect vs (vars (sub θ (Fn xs)))) v)) (sub θ x)) xs,
             collect vs (vars (sub θ (Fn xs))))) as ->.
      { simpl. unfold rename. simpl. by rewrite map_map. }
      clear - Hall. revert vs. induction xs as [|x xs IHxs]; intros vs; [done|].
      simpl. rewrite Hall by (by left). simpl.
      rewrite IHxs by (intros; apply Hall; by right). simpl.
      assert (Hc : collect vs (vars (sub θ x) ++ flat_map vars (map (sub θ) xs)) =
                   collect (collect vs (vars (sub θ x))) (flat_map vars (map (sub θ) xs))).
      { unfold collect. by rewrite fold_left_app. }
      rewrite Hc. f_equal. f_equal. f_equal.
      apply rename_ext. intros v Hv. f_equal.
      destruct (collect_prefix (flat_map vars (map (sub θ) xs)) (collect vs (vars (sub θ x)))) as [vs' ->].
      symmetry. apply idx_app. apply collect_In. by right.
  Qed.
End canon.

Definition canonical (cv : nat -> nat) (t : term) : term :=
  rename (fun v => cv (idx (collect [] (vars t)) v)) t.

Lemma canonicalize_spec st w θ cv n x :
  weighted st w -> resolution st θ -> S (tw w x) <= n ->
  canonicalize cv n st x = Ok (canonical cv (sub θ x)).
Proof.
  intros Hw Hθ Hn. unfold canonicalize. destruct n as [|n]; [lia|].
  rewrite (canon_go_spec st w θ Hw Hθ) by lia. done.
Qed.

Lemma idx_inj vs a b : In a vs -> In b vs -> idx vs a = idx vs b -> a = b.
Proof.
  intros Ha Hb. unfold idx.
  destruct (list_find_eq_In _ _ Ha) as [i Hi], (list_find_eq_In _ _ Hb) as [j Hj].
  rewrite Hi, Hj. intros ->.
  apply list_find_Some in Hi as (H1 & _), Hj as (H2 & _). congruence.
Qed.

Lemma canonical_variant cv t : (forall i j, cv i = cv j -> i = j) -> variant t (canonical cv t).
Proof.
  intros Hcv. eexists. split; [|reflexivity]. intros a b Ha Hb E. apply Hcv in E.
  apply (idx_inj (collect [] (vars t))); [apply collect_In; by right..|done].
Qed.

Lemma list_find_map_inj (ρ : nat -> nat) (vs : list nat) v :
  (forall a, In a vs -> ρ v = ρ a -> v = a) ->
  list_find (eq (ρ v)) (map ρ vs) = (fun p => (fst p, ρ (snd p))) <$> list_find (eq v) vs.
Proof.
  induction vs as [|a vs IH]; intros H; simpl; [done|].
  destruct (decide (v = a)) as [->|Hne]; [by rewrite decide_True|].
  rewrite decide_False by (intros E; apply Hne, H; [by left|done]).
  rewrite IH by (intros; apply H; [by right|done]).
  destruct (list_find (eq v) vs) as [[i u]|]; done.
Qed.

Lemma collect_map ρ l vs :
  (forall a b, In a (vs ++ l) -> In b (vs ++ l) -> ρ a = ρ b -> a = b) ->
  collect (map ρ vs) (map ρ l) = map ρ (collect vs l).
Proof.
  revert vs. induction l as [|v l IH]; intros vs H; simpl; [done|].
  rewrite !oset_add_find.
  rewrite list_find_map_inj.
  2:{ intros a Ha. apply H; rewrite in_app_iff; simpl; auto. }
  destruct (list_find (eq v) vs) as [[i u]|] eqn:E; simpl.
  - apply IH. intros a b Ha Hb. apply H; rewrite in_app_iff in *; simpl; naive_solver.
  - replace (map ρ vs ++ [ρ v]) with (map ρ (vs ++ [v])) by (by rewrite map_app). apply IH.
    intros a b Ha Hb. apply H; rewrite !in_app_iff in *; simpl in *; naive_solver.
Qed.

Lemma canonical_complete cv x y : variant x y -> canonical cv x = canonical cv y.
Proof.
  intros (ρ & H & ->). unfold canonical. rewrite rename_rename. apply rename_ext.
  intros v Hv. f_equal. rewrite vars_rename. 
  change [] with (map ρ []) at 2. rewrite (collect_map ρ (vars x) []) by apply H.
  unfold idx. rewrite list_find_map_inj.
  - destruct (list_find _ _) as [[i u]|]; done.
  - intros a Ha. apply collect_In in Ha as [[]|Ha]. by apply H.
Qed.

Lemma canonical_iff cv x y :
  (forall i j, cv i = cv j -> i = j) -> canonical cv x = canonical cv y <-> variant x y.
Proof.
  intros Hcv. split; [|apply canonical_complete]. intros E.
  eapply variant_trans; [by apply (canonical_variant cv)|]. rewrite E.
  apply variant_sym. by apply canonical_variant.
Qed.

Lemma canonical_idemp cv t :
  (forall i j, cv i = cv j -> i = j) -> canonical cv (canonical cv t) = canonical cv t.
Proof.
  intros H. apply canonical_iff; [done|]. apply variant_sym. by apply canonical_variant.
Qed.

(** * cover *)

Definition agrees (σ : nat -> term) (s : subst) : Prop :=
  forall v t, s !! v = Some t -> σ v = t.

Lemma agrees_insert σ s v y :
  s !! v = None -> agrees σ (<[v := y]> s) <-> agrees σ s /\ σ v = y.
Proof.
  intros Hv. split.
  - intros H. split; [|apply H; by rewrite lookup_insert].
    intros u t E. apply H. rewrite lookup_insert_ne; [done|congruence].
  - intros [H1 H2] u t E. destruct (decide (u = v)) as [->|Hne].
    + rewrite lookup_insert in E. congruence.
    + rewrite lookup_insert_ne in E by done. by apply H1.
Qed.

Lemma occur_check_free n s v y :
  tsize y <= n -> (forall u, In u (vars y) -> s !! u = None) ->
  occur_check n s v y = Ok (bool_decide (In v (vars y))).
Proof.
  revert y. induction n as [|n IH]; intros y Hn Hf.
  { pose proof (tsize_pos y). lia. }
  cbn -[Nat.eqb term_eqb].
  destruct (term_eqb (Var v) y) eqn:E.
  { apply term_eqb_true in E as <-. f_equal. symmetry. apply bool_decide_eq_true. by left. }
  apply term_eqb_false in E.
  destruct y as [u|c|xs].
  - rewrite Hf by (by left). f_equal. symmetry. apply bool_decide_eq_false.
    intros [->|[]]. done.
  - done.
  - assert (Hall : forall x, In x xs -> occur_check n s v x = Ok (bool_decide (In v (vars x)))).
    { intros x Hx. apply IH.
      - simpl in Hn. pose proof (list_sum_in (tsize x) (map tsize xs) (in_map _ _ _ Hx)). lia.
      - intros u Hu. apply Hf. by eapply vars_Fn_in. }
    clear - Hall. induction xs as [|x xs IHxs]; [done|].
    simpl in *. rewrite Hall by (by left). simpl.
    rewrite IHxs by (intros; apply Hall; by right).
    destruct (decide (In v (vars x))) as [H1|H1].
    + rewrite (bool_decide_eq_true_2 _ H1). f_equal. symmetry.
      apply bool_decide_eq_true. apply in_or_app. by left.
    + rewrite (bool_decide_eq_false_2 _ H1). f_equal.
      apply bool_decide_ext. rewrite in_app_iff. naive_solver.
Qed.

Fixpoint coverN (n : nat) (s : subst) (xs ys : list term) {struct xs} : res (subst * bool) :=
  match xs, ys with
  | x :: xs, y :: ys =>
      let* (s', ok) := cover n s x y in
      if ok then coverN n s' xs ys else Ok (s', false)
  | _, _ => Ok (s, true)
  end.

Lemma cover_Fn n s xs ys :
  cover n s (Fn xs) (Fn ys) =
  if term_eqb (Fn xs) (Fn ys) then Ok (s, true)
  else if Nat.eqb (length xs) (length ys) then coverN n s xs ys else Ok (s, false).
Proof.
  cbn -[Nat.eqb term_eqb]. destruct (term_eqb (Fn xs) (Fn ys)); [done|].
  destruct (Nat.eqb (length xs) (length ys)); [|done].
  revert s ys. induction xs as [|x xs IH]; intros s [|y ys]; try done.
  cbn. destruct (cover n s x y) as [[s' [|]]| |]; try done. cbn. apply IH.
Qed.

Lemma cover_mono n m s x y r : cover n s x y = Ok r -> n <= m -> cover m s x y = Ok r.
Proof.
  intros H Hnm. revert s y r H.
    induction x as [v|c|xs IH] using term_ind'; intros s y r.
    - cbn -[term_eqb]. destruct (term_eqb (Var v) y); [done|].
      destruct (s !! v); [done|].
      assert (Hoc : forall n m z b, occur_check n s v z = Ok b -> n <= m -> occur_check m s v z = Ok b).
      { clear. induction n as [|n IH]; intros m z b; [done|]. intros H Hm.
        destruct m as [|m]; [lia|]. revert H. cbn -[term_eqb Nat.eqb].
        destruct (term_eqb (Var v) z); [done|]. destruct z as [u|c|xs]; [|done|].
        - destruct (s !! u); [|done]. intros H. eapply IH; [done|lia].
        - induction xs as [|x xs IHxs]; [done|]. simpl.
          destruct (occur_check n s v x) as [a| |] eqn:E; [|done|done].
          rewrite (IH m x a E) by lia. simpl. destruct a; [done|]. apply IHxs. }
      destruct (occur_check n s v y) as [o| |] eqn:Eo; [|done|done].
      by rewrite (Hoc _ _ _ _ Eo Hnm).
    - done.
    - destruct y as [u|d|ys]; [done|done|]. rewrite !cover_Fn.
      destruct (term_eqb (Fn xs) (Fn ys)); [done|].
      destruct (Nat.eqb (length xs) (length ys)); [|done].
      revert s ys r. induction IH as [|x xs IHx _ IHxs]; intros s [|y ys] r; try done.
      simpl. destruct (cover n s x y) as [[s1 b1]| |] eqn:E1; [|done|done].
      rewrite (IHx _ _ _ E1). simpl. destruct b1; [|done]. apply IHxs.
Qed.

Section cover.
  (** Pattern variables and target variables are kept apart. *)
  Variable P : nat -> Prop.
  Hypothesis Pdec : forall v, {P v} + {~ P v}.

  Definition pat (t : term) := forall v, In v (vars t) -> P v.
  Definition tgt (t : term) := forall v, In v (vars t) -> ~ P v.
  Definition cover_dom (s : subst) := forall v t, s !! v = Some t -> P v /\ tgt t.

  Definition cover_result (s : subst) (x y : term) (s' : subst) (b : bool) :=
    s ⊆ s' /\ cover_dom s' /\
    if b then (forall σ, agrees σ s' <-> agrees σ s /\ sub σ x = y) /\
              (forall v, is_Some (s' !! v) <-> is_Some (s !! v) \/ In v (vars x))
    else forall σ, agrees σ s -> sub σ x <> y.

  Lemma cover_spec n s x y :
    tsize y <= n -> pat x -> tgt y -> cover_dom s ->
    exists s' b, cover n s x y = Ok (s', b) /\ cover_result s x y s' b.
  Proof.
    revert s y. induction x as [v|c|xs IH] using term_ind'; intros s y Hn Hx Hy Hs.
    - cbn -[term_eqb].
      destruct (term_eqb (Var v) y) eqn:E.
      { apply term_eqb_true in E as <-. exfalso. apply (Hy v); [by left|].
        apply Hx. by left. }
      destruct (s !! v) as [t|] eqn:Ev.
      + exists s, (term_eqb t y). split; [done|]. split; [done|]. split; [done|].
        destruct (term_eqb t y) eqn:Et.
        * apply term_eqb_true in Et as ->. split.
          -- intros σ. simpl. split; [|by intros []]. intros Ha. split; [done|]. by apply Ha.
          -- intros u. simpl. split; [auto|]. intros [?|[<-|[]]]; eauto.
        * apply term_eqb_false in Et. intros σ Ha Heq. apply Et.
          simpl in Heq. rewrite (Ha _ _ Ev) in Heq. done.
      + rewrite occur_check_free; [|done|].
        2:{ intros u Hu. destruct (s !! u) as [t|] eqn:Eu; [|done].
            exfalso. apply (Hy u Hu). by apply (Hs _ _ Eu). }
        rewrite bool_decide_eq_false_2.
        2:{ intros Hin. apply (Hy v Hin). apply Hx. by left. }
        simpl. exists (<[v := y]> s), true. split; [done|]. split; [by apply insert_subseteq|].
        split.
        { intros u t Eu. destruct (decide (u = v)) as [->|Hne].
          - rewrite lookup_insert in Eu. injection Eu as <-. split; [apply Hx; by left|done].
          - rewrite lookup_insert_ne in Eu by done. by apply Hs. }
        split; [intros σ; by apply agrees_insert|].
        intros u. rewrite lookup_insert_is_Some. simpl.
        destruct (decide (v = u)) as [->|Hne]; naive_solver.
    - cbn -[term_eqb]. destruct (term_eqb (Cst c) y) eqn:E.
      + apply term_eqb_true in E as <-. exists s, true. split; [done|].
        split; [done|]. split; [done|]. split; [naive_solver|]. simpl. naive_solver.
      + apply term_eqb_false in E. exists s, false. split; [done|].
        split; [done|]. split; [done|]. intros σ _. done.
    - destruct y as [u|d|ys].
      + exists s, false. split; [done|]. split; [done|]. split; [done|]. intros σ _. done.
      + exists s, false. split; [done|]. split; [done|]. split; [done|]. intros σ _. done.
      + rewrite cover_Fn. destruct (term_eqb (Fn xs) (Fn ys)) eqn:E.
        { apply term_eqb_true in E. rewrite <- E in *.
          assert (Hg : forall v, ~ In v (vars (Fn xs))).
          { intros v Hv. apply (Hy v Hv), (Hx v Hv). }
          exists s, true. split; [done|]. split; [done|]. split; [done|]. split.
          - intros σ. split; [|by intros []]. intros Ha. split; [done|].
            apply sub_ground. unfold ground. destruct (vars (Fn xs)) as [|a l]; [done|].
            destruct (Hg a). by left.
          - intros v. specialize (Hg v). naive_solver. }
        clear E. destruct (Nat.eqb_spec (length xs) (length ys)) as [Hlen|Hlen].
        2:{ exists s, false. split; [done|]. split; [done|]. split; [done|]. intros σ _ Heq.
            simpl in Heq. injection Heq as Heq. apply Hlen. rewrite <- Heq. by rewrite map_length. }
        assert (Hn' : forall y, In y ys -> tsize y <= n).
        { intros y Hiny. simpl in Hn.
          pose proof (list_sum_in (tsize y) (map tsize ys) (in_map _ _ _ Hiny)). lia. }
        clear Hn. revert s ys Hlen Hn' Hy Hs.
        induction IH as [|x xs IHx _ IHxs]; intros s [|y ys] Hlen Hn' Hy Hs; try done.
        { exists s, true. split; [done|]. split; [done|]. split; [done|].
          split; simpl; naive_solver. }
        destruct (IHx s y) as (s1 & b1 & E1 & Hsub1 & Hd1 & Hr1).
        { apply Hn'. by left. }
        { intros v Hv. apply Hx. simpl. apply in_or_app. by left. }
        { intros v Hv. apply Hy. simpl. apply in_or_app. by left. }
        { done. }
        simpl. rewrite E1. simpl. destruct b1.
        * destruct Hr1 as [Hr1 Hr1'].
          destruct (IHxs) with (s := s1) (ys := ys) as (s2 & b2 & E2 & Hsub2 & Hd2 & Hr2).
          { intros v Hv. apply Hx. simpl. apply in_or_app. by right. }
          { simpl in Hlen. lia. }
          { intros; apply Hn'. by right. }
          { intros v Hv. apply Hy. simpl. apply in_or_app. by right. }
          { done. }
          exists s2, b2. split; [done|]. split; [by etrans|]. split; [done|].
          destruct b2.
          -- destruct Hr2 as [Hr2 Hr2']. split.
             ++ intros σ. rewrite Hr2, Hr1. simpl. split.
                ** intros [[? ?] ?]. split; [done|]. congruence.
                ** intros [? [= ? ?]]. split; [done|]. congruence.
             ++ intros v. rewrite Hr2', Hr1'. simpl. rewrite in_app_iff. tauto.
          -- intros σ Ha Heq. simpl in Heq. injection Heq as Heq1 Heq2.
             apply (Hr2 σ); [by apply Hr1|]. simpl. congruence.
        * exists s1, false. split; [done|]. split; [done|]. split; [done|].
          intros σ Ha Heq. simpl in Heq. injection Heq as Heq1 Heq2. by apply (Hr1 σ).
  Qed.
End cover.

(** The substitution function of a finite map. *)
Definition msub (s : subst) (v : nat) : term := default (Var v) (s !! v).

Lemma msub_agrees s : agrees (msub s) s.
Proof. intros v t E. unfold msub. by rewrite E. Qed.

Lemma covers_spec n x y :
  disjoint_vars x y -> tsize y <= n ->
  exists s b, cover n ∅ x y = Ok (s, b) /\ (b = true <-> instance_of x y) /\
              (b = true -> sub (msub s) x = y).
Proof.
  intros Hd Hn.
  destruct (cover_spec (fun v => In v (vars x)) n ∅ x y) as (s & b & E & Hsub & Hdom & Hr).
  - done.
  - by intros v.
  - intros v Hv Hx. by apply (Hd v).
  - intros v t. by rewrite lookup_empty.
  - exists s, b. split; [done|]. destruct b.
    + destruct Hr as [Hr _].
      assert (sub (msub s) x = y) by (apply (Hr (msub s)), msub_agrees).
      split; [|done]. split; [|done]. intros _. by exists (msub s).
    + split; [|done]. split; [done|]. intros [σ Hσ]. exfalso. apply (Hr σ); [|done].
      intros v t. by rewrite lookup_empty.
Qed.

(** Mutual instances are variants. *)
Lemma instance_of_trans x y z : instance_of x y -> instance_of y z -> instance_of x z.
Proof. intros [σ <-] [τ <-]. exists (fun v => sub τ (σ v)). by rewrite sub_sub. Qed.

Lemma variant_instance x y : variant x y -> instance_of x y.
Proof. intros (ρ & _ & ->). by exists (fun v => Var (ρ v)). Qed.

Lemma mutual_instance_variant x y : instance_of x y -> instance_of y x -> variant x y.
Proof.
  intros [σ Hσ] [τ Hτ].
  assert (Hid : forall v, In v (vars x) -> sub τ (σ v) = Var v).
  { apply sub_ext_inv. rewrite <- sub_sub, Hσ, Hτ. by rewrite sub_Var. }
  assert (Hvar : forall v, In v (vars x) -> exists u, σ v = Var u).
  { intros v Hv. specialize (Hid v Hv). destruct (σ v); simpl in Hid; eauto; done. }
  exists (fun v => match σ v with Var u => u | _ => 0 end). split.
  - intros a b Ha Hb. destruct (Hvar a Ha) as [a' Ea], (Hvar b Hb) as [b' Eb].
    pose proof (Hid a Ha) as Ia. pose proof (Hid b Hb) as Ib.
    rewrite Ea in *. rewrite Eb in *. intros ->. simpl in *. congruence.
  - rewrite <- Hσ. apply sub_ext. intros v Hv. destruct (Hvar v Hv) as [u Eu]. by rewrite Eu.
Qed.
