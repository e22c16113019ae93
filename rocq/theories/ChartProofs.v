(** Proofs about the chart and its indexes. *)
From stdpp Require Import gmap.
From Coq Require Import Lia Permutation.
From Verif Require Import PyBase TermModel TermSpec TermProofs UnifyProofs SetsProofs FuelProofs SolverModel ChartSpec.

(** * Readers of the heap, at any fuel that gives a result *)
Section readers.
  Context (st : store) (θ : nat -> term) (Hac : acyclic st) (Hθ : resolution st θ).

  Lemma deref_settles x : settles (fun n => deref n st x) (sub θ x).
  Proof. destruct (acyclic_weighted _ Hac) as [w Hw]. exists (tw w x). intros n Hn. by apply (deref_spec st w θ Hw Hθ). Qed.

  Lemma deref_ok n x y : deref n st x = Ok y -> y = sub θ x.
  Proof. intros E. exact (mono_settles _ n y _ (mono_deref st x) E (deref_settles x)). Qed.

  Lemma is_ground_settles x : settles (fun n => is_ground n st x) (bool_decide (ground (sub θ x))).
  Proof. destruct (acyclic_weighted _ Hac) as [w Hw]. exists (tw w x). intros n Hn. by apply (is_ground_spec st w θ Hw Hθ). Qed.

  Lemma is_ground_ok n x b : is_ground n st x = Ok b -> b = bool_decide (ground (sub θ x)).
  Proof. intros E. exact (mono_settles _ n b _ (mono_is_ground st x) E (is_ground_settles x)). Qed.

  Lemma py_eq_settles x y : settles (fun n => py_eq n st x y) (term_eqb (sub θ x) (sub θ y)).
  Proof. destruct (acyclic_weighted _ Hac) as [w Hw]. exists (tw w x + tw w y). intros n Hn. by apply (py_eq_spec st w θ Hw Hθ). Qed.

  Lemma py_eq_val n x y b : py_eq n st x y = Ok b -> b = term_eqb (sub θ x) (sub θ y).
  Proof. intros E. exact (mono_settles _ n b _ (mono_py_eq st x y) E (py_eq_settles x y)). Qed.

  Lemma snap_settles x : exists x', settles (fun n => snap n st x) x' /\ sub θ x' = sub θ x /\
      (forall v, x' = Var v -> st !! v = None) /\ ((forall v, x <> Var v) -> x' = x).
  Proof.
    destruct (acyclic_weighted _ Hac) as [w Hw].
    destruct (snap_spec st w θ Hw Hθ (tw w x) x) as (x' & E & H1 & _ & H2 & H3); [lia|].
    exists x'. split; [|done]. exists (tw w x). intros n Hn. exact (mono_ok _ _ n _ (mono_snap st x) Hn E).
  Qed.

  Lemma snap_ok n x x' : snap n st x = Ok x' ->
    sub θ x' = sub θ x /\ (forall v, x' = Var v -> st !! v = None) /\ ((forall v, x <> Var v) -> x' = x).
  Proof.
    intros E. destruct (snap_settles x) as (x'' & Hs & H). by rewrite (mono_settles _ n x' _ (mono_snap st x) E Hs).
  Qed.

  Lemma mapM_deref_settles xs : settles (fun n => mapM (deref n st) xs) (map (sub θ) xs).
  Proof.
    induction xs as [|x xs IH]; [apply settles_ret|]. simpl.
    eapply (settles_bind (fun n => deref n st x)); [apply deref_settles|].
    eapply (settles_bind (fun n => mapM (deref n st) xs)); [done|]. apply settles_ret.
  Qed.

  Lemma mapM_deref_ok n xs ys : mapM (deref n st) xs = Ok ys -> ys = map (sub θ) xs.
  Proof.
    revert ys. induction xs as [|x xs IH]; intros ys E; simpl in E; [by injection E as <-|].
    destruct (deref n st x) as [y| |] eqn:E1; try done. simpl in E.
    destruct (mapM (deref n st) xs) as [zs| |] eqn:E2; try done. injection E as <-.
    simpl. f_equal; [by eapply deref_ok|by apply IH].
  Qed.

  Lemma forallM_ground_ok n xs b : forallM (is_ground n st) xs = Ok b -> (b = true <-> forall x, In x xs -> ground (sub θ x)).
  Proof.
    revert b. induction xs as [|x xs IH]; intros b E; simpl in E; [injection E as <-; naive_solver|].
    destruct (is_ground n st x) as [g| |] eqn:E1; try done. apply is_ground_ok in E1. simpl in E.
    destruct g.
    - symmetry in E1. apply bool_decide_eq_true in E1. rewrite (IH _ E). simpl. naive_solver.
    - injection E as <-. symmetry in E1. apply bool_decide_eq_false in E1. simpl. naive_solver.
  Qed.
End readers.

(** * Unification, at any fuel that gives a result *)
Definition okst (V : gset nat) (st : store) : Prop := acyclic st /\ closed_V V st /\ dom st ⊆ V.

Lemma okst_empty V : okst V ∅.
Proof.
  split; [|split].
  - exists (fun _ => 0). intros v t H. by rewrite lookup_empty in H.
  - intros v t H. by rewrite lookup_empty in H.
  - set_solver.
Qed.

Lemma unify_V_ok V n st x y st' b :
  okst V st -> in_V V x -> in_V V y -> unify_f n st x y = Ok (st', b) ->
  okst V st' /\ st ⊆ st' /\
  if b then forall σ, solves σ st' <-> solves σ st /\ sub σ x = sub σ y
  else forall σ, solves σ st -> sub σ x <> sub σ y.
Proof.
  intros (Hac & Hcl & Hdom) Hx Hy E.
  destruct (ugen_computes py_eq occurs_check py_eq_ok occurs_check_ok V st x y) as (n0 & st2 & b2 & Hs & Hr); [by split|done|done|].
  pose proof (mono_settles _ n _ _ (mono_unify_f st x y) E (ex_intro _ n0 Hs)) as [= <- <-].
  destruct Hr as ([Hac' Hcl'] & [Hsub Hout] & H). split; [|done]. split; [done|]. split; [done|].
  intros v Hv. destruct (decide (v ∈ V)) as [|Hn]; [done|]. apply elem_of_dom in Hv. rewrite (Hout v Hn) in Hv.
  apply Hdom. by apply elem_of_dom.
Qed.

Lemma unify_ok n st x y st' b :
  acyclic st -> unify_f n st x y = Ok (st', b) ->
  acyclic st' /\ st ⊆ st' /\
  if b then forall σ, solves σ st' <-> solves σ st /\ sub σ x = sub σ y
  else forall σ, solves σ st -> sub σ x <> sub σ y.
Proof.
  intros Hac E. set (V := allvars st x y).
  destruct (ugen_computes py_eq occurs_check py_eq_ok occurs_check_ok V st x y) as (n0 & st2 & b2 & Hs & Hr);
    [split; [done|apply allvars_st]|apply allvars_x|apply allvars_y|].
  pose proof (mono_settles _ n _ _ (mono_unify_f st x y) E (ex_intro _ n0 Hs)) as [= <- <-].
  destruct Hr as ([Hac' Hcl'] & [Hsub Hout] & H). done.
Qed.

Lemma unify_settles st x y : acyclic st -> exists st' b, settles (fun n => unify_f n st x y) (st', b).
Proof.
  intros Hac. set (V := allvars st x y).
  destruct (ugen_computes py_eq occurs_check py_eq_ok occurs_check_ok V st x y) as (n0 & st2 & b2 & Hs & Hr);
    [split; [done|apply allvars_st]|apply allvars_x|apply allvars_y|].
  exists st2, b2. exists n0. exact Hs.
Qed.

Lemma solves_mono σ st st' : st ⊆ st' -> solves σ st' -> solves σ st.
Proof. intros Hs H v t E. apply H. by eapply lookup_weaken. Qed.

(** Bindings without cycles have a ground solution. *)
Definition groundsub (σ : nat -> term) : Prop := forall v, ground (σ v).

Lemma ground_solution st θ : acyclic st -> resolution st θ ->
  let σ := fun v => sub (fun _ => Cst (CInt 0)) (θ v) in solves σ st /\ groundsub σ.
Proof.
  intros Hac Hθ. split.
  - intros v t E. simpl. destruct Hθ as [H _]. rewrite (H v t E), sub_sub. done.
  - intros v. unfold ground. destruct (vars (sub _ (θ v))) as [|u l] eqn:E; [done|].
    assert (Hu : In u (vars (sub (fun _ => Cst (CInt 0)) (θ v)))) by (rewrite E; by left).
    apply vars_sub in Hu as (? & _ & []).
Qed.

Lemma ground_sub_eq σ τ t : ground (sub τ t) -> (forall v, In v (vars t) -> σ v = sub σ (τ v)) -> sub σ t = sub τ t.
Proof.
  intros Hg H. transitivity (sub σ (sub τ t)); [|by apply sub_ground].
  rewrite sub_sub. apply sub_ext. intros v Hv. by apply H.
Qed.

(** * Indexes *)
Definition sig_of (x : term) (fa : term * nat) (args : list term) : Prop :=
  exists f, x = Fn (f :: args) /\ fa = (f, length args).

Definition index_for (fa : term * nat) (m : list nat) (D : gset term) (ix : hindex) : Prop :=
  forall k, NoDup (default [] (ix !! k)) /\
    forall x, x ∈ default [] (ix !! k) <-> x ∈ D /\ exists args, sig_of x fa args /\ args_at m args = k.

Lemma ix_add_for fa m D ix x args :
  index_for fa m D ix -> x ∉ D -> sig_of x fa args -> index_for fa m ({[x]} ∪ D) (ix_add (args_at m args) x ix).
Proof.
  intros Hix Hx Hsig k. destruct (Hix k) as [Hnd Hin]. unfold ix_add, hindex in *.
  destruct (decide (args_at m args = k)) as [Hk|Hk].
  - rewrite Hk, lookup_insert. simpl. split.
    + apply NoDup_cons. split; [|done]. intros Hc. apply Hin in Hc as [? _]. done.
    + intros y. rewrite elem_of_cons, elem_of_union, elem_of_singleton, Hin. split.
      * intros [->|[HD H]]; [split; [by left|]; eauto|]. split; [by right|done].
      * intros [[->|HD] H]; [by left|]. by right.
  - rewrite lookup_insert_ne by done. split; [done|]. intros y. rewrite Hin, elem_of_union, elem_of_singleton. split.
    + intros [? ?]. split; [by right|done].
    + intros [[->|HD] (args' & (f' & E1 & E2) & E3)]; [|split; [done|]].
      * destruct Hsig as (f & E4 & E5). rewrite E4 in E1. injection E1 as _ <-. congruence.
      * exists args'. split; [by exists f'|done].
Qed.

Lemma ix_other fa m D ix x : index_for fa m D ix -> (forall args, ~ sig_of x fa args) -> index_for fa m ({[x]} ∪ D) ix.
Proof.
  intros Hix Hx k. destruct (Hix k) as [Hnd Hin]. split; [done|]. intros y.
  rewrite Hin, elem_of_union, elem_of_singleton. split.
  - intros [? ?]. split; [by right|done].
  - intros [[->|?] (args & H1 & H2)]; [by destruct (Hx args)|]. split; [done|]. eauto.
Qed.

Lemma build_index_for {A} fa m (d : gmap term A) : index_for fa m (dom d) (build_index fa m d).
Proof.
  unfold build_index.
  assert (Hl : NoDup (map fst (map_to_list d))) by apply NoDup_fst_map_to_list.
  replace (dom d) with (list_to_set (map fst (map_to_list d)) : gset term).
  2:{ apply set_eq. intros x. rewrite elem_of_list_to_set, elem_of_dom. rewrite elem_of_list_fmap. split.
      - intros ([y v] & -> & Hy). apply elem_of_map_to_list in Hy. by eexists.
      - intros [v Hv]. exists (x, v). split; [done|]. by apply elem_of_map_to_list. }
  induction (map fst (map_to_list d)) as [|x l IH]; simpl.
  { intros k. unfold hindex. rewrite lookup_empty. simpl. split; [constructor|]. intros x. split; [intros H; by apply elem_of_nil in H|]. set_solver. }
  apply NoDup_cons in Hl as [Hx Hl]. specialize (IH Hl).
  assert (Hx' : x ∉ (list_to_set l : gset term)) by (by rewrite elem_of_list_to_set).
  destruct x as [v|c|[|f args]].
  - apply ix_other; [done|]. by intros args (? & ? & _).
  - apply ix_other; [done|]. by intros args (? & ? & _).
  - apply ix_other; [done|]. by intros args (? & ? & _).
  - destruct (decide ((f, length args) = fa)) as [E|E].
    + apply ix_add_for; [done|done|]. by exists f.
    + apply ix_other; [done|]. intros args' (f' & E1 & E2). injection E1 as -> ->. congruence.
Qed.

Definition index_ok {A} (ch : chart A) : Prop :=
  forall fa avail m ix, c_index ch !! fa = Some avail -> avail !! m = Some ix -> index_for fa m (dom (c_dict ch)) ix.

Lemma index_ok_empty {A} : index_ok (chart_empty : chart A).
Proof. intros fa avail m ix H. simpl in H. by rewrite lookup_empty in H. Qed.

Lemma chart_set_ok {A} x (v : A) ch ch' : index_ok ch -> chart_set x v ch = Ok ch' ->
  index_ok ch' /\ c_dict ch' = <[x := v]> (c_dict ch) /\ (is_Some (c_dict ch !! x) \/ exists f args, x = Fn (f :: args)).
Proof.
  intros Hok E. unfold chart_set, update_index in E.
  destruct (decide (x ∈ dom (c_dict ch))) as [Hin|Hin].
  - simpl in E. injection E as <-. simpl. split; [|split; [done|left; by apply elem_of_dom]]. intros fa avail m ix H1 H2. simpl in *.
    rewrite dom_insert_L. replace ({[x]} ∪ dom (c_dict ch)) with (dom (c_dict ch)) by set_solver. by eapply Hok.
  - destruct x as [u|c|[|f args]]; try done. simpl in E.
    set (fa := (f, length args)) in *.
    assert (Hsig : sig_of (Fn (f :: args)) fa args) by (by exists f).
    assert (Hother : forall fa' args', fa' <> fa -> ~ sig_of (Fn (f :: args)) fa' args').
    { intros fa' args' Hne (f' & E1 & E2). injection E1 as -> ->. by apply Hne. }
    destruct (c_index ch !! fa) as [avail0|] eqn:Efa; simpl in E; injection E as <-; simpl;
      (split; [|split; [done|right; eauto]]); intros fa' avail m ix H1 H2; simpl in *; rewrite dom_insert_L.
    + destruct (decide (fa' = fa)) as [->|Hne].
      * rewrite lookup_insert in H1. injection H1 as <-. rewrite map_lookup_imap in H2.
        destruct (avail0 !! m) as [ix0|] eqn:Em; simpl in H2; [|done]. injection H2 as <-.
        apply ix_add_for; [by eapply Hok|done|done].
      * rewrite lookup_insert_ne in H1 by done. apply ix_other; [by eapply Hok|]. intros args'. by apply Hother.
    + apply ix_other; [by eapply Hok|]. intros args'. apply Hother. intros ->. congruence.
Qed.

(** * Lookups *)
Lemma bound_at_ok n st θ i args m : acyclic st -> resolution st θ -> bound_at n st i args = Ok m ->
  forall j, j ∈ m -> exists a, i <= j /\ args !! (j - i) = Some a /\ ground (sub θ a).
Proof.
  intros Hac Hθ. revert i m. induction args as [|x args IH]; intros i m E j Hj; simpl in E.
  { injection E as <-. by apply elem_of_nil in Hj. }
  destruct (is_ground n st x) as [b| |] eqn:E1; try done. simpl in E.
  destruct (bound_at n st (S i) args) as [m'| |] eqn:E2; try done. injection E as <-.
  assert (Hrest : j ∈ m' -> exists a, i <= j /\ (x :: args) !! (j - i) = Some a /\ ground (sub θ a)).
  { intros Hm. destruct (IH (S i) m' E2 j Hm) as (a & H1 & H2 & H3). exists a. split; [lia|]. split; [|done].
    replace (j - i) with (S (j - S i)) by lia. done. }
  destruct b; [|by apply Hrest]. apply elem_of_cons in Hj as [->|Hj]; [|by apply Hrest].
  exists x. split; [lia|]. rewrite Nat.sub_diag. split; [done|].
  apply (is_ground_ok st θ Hac Hθ) in E1. symmetry in E1. by apply bool_decide_eq_true in E1.
Qed.

Lemma bound_at_settles st θ i args : acyclic st -> resolution st θ -> exists m, settles (fun n => bound_at n st i args) m.
Proof.
  intros Hac Hθ. revert i. induction args as [|x args IH]; intros i; [exists []; apply settles_ret|].
  destruct (IH (S i)) as [m Hm]. eexists. simpl.
  eapply (settles_bind (fun n => is_ground n st x)); [by apply is_ground_settles|].
  eapply (settles_bind (fun n => bound_at n st (S i) args)); [done|]. apply settles_ret.
Qed.

Lemma args_at_sub σ m args : args_at m (map (sub σ) args) = map (sub σ) (args_at m args).
Proof.
  induction m as [|i m IH]; [done|]. unfold args_at in *. simpl.
  replace (map (sub σ) args !! i) with (sub σ <$> args !! i) by (symmetry; apply (list_lookup_fmap (sub σ) args i)).
  destruct (args !! i); simpl; [f_equal|]; exact IH.
Qed.

Lemma args_at_in m args a : a ∈ args_at m args -> exists j, j ∈ m /\ args !! j = Some a.
Proof. unfold args_at. rewrite elem_of_list_omap. intros (j & Hj & E). eauto. Qed.

(** What [match_items] returns for a list of ground items. *)
Definition matched {A} (d : gmap term A) (st : store) (q : term) (x : term) (r : store * A) : Prop :=
  d !! x = Some (snd r) /\ acyclic (fst r) /\ forall σ, solves σ (fst r) <-> solves σ st /\ sub σ q = x.

Lemma match_items_ok {A} n st (d : gmap term A) q xs rs :
  acyclic st -> (forall x, x ∈ xs -> ground x) -> match_items n st d q xs = Ok rs ->
  exists ys, ys `sublist_of` xs /\ (forall x, x ∈ ys <-> x ∈ xs /\ exists σ, solves σ st /\ sub σ q = x) /\
    Forall2 (matched d st q) ys rs.
Proof.
  intros Hac. revert rs. induction xs as [|x xs IH]; intros rs Hg E; simpl in E.
  { injection E as <-. exists []. split; [done|]. split; [|constructor]. intros x. split; [intros H; by apply elem_of_nil in H|]. intros [H _]. by apply elem_of_nil in H. }
  destruct (unify_f n st x q) as [[st' b]| |] eqn:Eu; try done. simpl in E.
  destruct (unify_ok n st x q st' b Hac Eu) as (Hac' & Hsub & Hb).
  assert (Hgx : ground x) by (apply Hg; by left).
  destruct b.
  - destruct (deref n st' q) as [y| |] eqn:Ed; try done. simpl in E.
    destruct (acyclic_resolution _ Hac') as [θ' Hθ'].
    apply (deref_ok st' θ' Hac' Hθ') in Ed.
    assert (Hy : y = x).
    { destruct Hθ' as [Hs _]. apply Hb in Hs as [_ He]. rewrite Ed, <- He. by apply sub_ground. }
    rewrite Hy in *. destruct (d !! x) as [v|] eqn:Ev; try done. simpl in E.
    destruct (match_items n st d q xs) as [rest| |] eqn:Er; try done. simpl in E. injection E as <-.
    destruct (IH rest) as (ys & H1 & H2 & H3); [intros; apply Hg; by right|done|].
    exists (x :: ys). split; [by constructor|]. split.
    + intros z. rewrite !elem_of_cons, H2. split.
      * intros [->|[? ?]]; [|by split; [right|]]. split; [by left|]. exists θ'. destruct Hθ' as [Hs _].
        apply Hb in Hs as [Hs He]. split; [done|]. rewrite <- He. by apply sub_ground.
      * intros [[->|?] ?]; [by left|by right].
    + constructor; [|done]. split; [done|]. split; [done|]. intros σ. rewrite Hb. rewrite (sub_ground σ x Hgx). naive_solver.
  - simpl in E. destruct (match_items n st d q xs) as [rest| |] eqn:Er; try done. simpl in E. injection E as <-.
    destruct (IH rest) as (ys & H1 & H2 & H3); [intros; apply Hg; by right|done|].
    exists ys. split; [by constructor|]. split; [|done]. intros z. rewrite H2, elem_of_cons. split; [naive_solver|].
    intros [[->|?] (σ & Hs & He)]; [|naive_solver]. exfalso. apply (Hb σ Hs). rewrite (sub_ground σ x Hgx). done.
Qed.

Lemma match_items_settles {A} st (d : gmap term A) q xs :
  acyclic st -> (forall x, x ∈ xs -> ground x /\ is_Some (d !! x)) -> exists rs, settles (fun n => match_items n st d q xs) rs.
Proof.
  intros Hac. induction xs as [|x xs IH]; intros Hg; [exists []; apply settles_ret|].
  destruct IH as [rest Hrest]; [intros; apply Hg; by right|].
  destruct (Hg x) as [Hgx [v Hv]]; [by left|].
  destruct (unify_settles st x q Hac) as (st' & b & Hu). 
  assert (Hok : acyclic st' /\ st ⊆ st' /\ if b then forall σ, solves σ st' <-> solves σ st /\ sub σ x = sub σ q else forall σ, solves σ st -> sub σ x <> sub σ q).
  { destruct Hu as [n0 Hu]. apply (unify_ok n0 st x q st' b Hac). by apply Hu. }
  destruct Hok as (Hac' & _ & Hb).
  assert (Hhere : exists here, settles (fun n => (if b then let* y := deref n st' q in match d !! y with Some v => Ok [(st', v)] | None => Raise KeyError end else Ok [])) here).
  { destruct b; [|exists []; apply settles_ret]. destruct (acyclic_resolution _ Hac') as [θ' Hθ'].
    exists [(st', v)]. eapply (settles_bind (fun n => deref n st' q)); [by apply deref_settles|].
    assert (Hy : sub θ' q = x).
    { destruct Hθ' as [Hs _]. apply Hb in Hs as [_ He]. rewrite <- He. by apply sub_ground. }
    rewrite Hy, Hv. apply settles_ret. }
  destruct Hhere as [here Hhere]. exists (here ++ rest). simpl.
  eapply (settles_bind (fun n => unify_f n st x q) (fun n p => let '(st', b) := p in _)); [done|]. cbv beta iota.
  eapply (settles_bind (fun n => if b then _ else _)); [done|].
  eapply (settles_bind (fun n => match_items n st d q xs)); [done|]. apply settles_ret.
Qed.

Lemma sublist_NoDup {A} (l k : list A) : l `sublist_of` k -> NoDup k -> NoDup l.
Proof.
  induction 1 as [|x l k H IH|x l k H IH]; intros Hn; [constructor|..]; apply NoDup_cons in Hn as [Hx Hn]; [|by apply IH].
  apply NoDup_cons. split; [|by apply IH]. intros Hc. apply Hx. eapply elem_of_submseteq; [done|]. by apply sublist_submseteq.
Qed.

Lemma ground_in_V V x : ground x -> in_V V x.
Proof. intros Hg v Hv. unfold ground in Hg. rewrite Hg in Hv. destruct Hv. Qed.

Lemma match_items_V {A} V n st (d : gmap term A) q xs rs :
  okst V st -> in_V V q -> (forall x, x ∈ xs -> ground x) -> match_items n st d q xs = Ok rs ->
  forall r, r ∈ rs -> okst V (fst r) /\ st ⊆ fst r.
Proof.
  intros Hst Hq. revert rs. induction xs as [|x xs IH]; intros rs Hg E r Hr; simpl in E.
  { injection E as <-. by apply elem_of_nil in Hr. }
  destruct (unify_f n st x q) as [[st' b]| |] eqn:Eu; try done. simpl in E.
  destruct (unify_V_ok V n st x q st' b Hst (ground_in_V V x (Hg x ltac:(by left))) Hq Eu) as (Hst' & Hsub & _).
  destruct (if b then _ else _) as [here| |] eqn:Eh; try done. simpl in E.
  destruct (match_items n st d q xs) as [rest| |] eqn:Er; try done. simpl in E. injection E as <-.
  apply elem_of_app in Hr as [Hr|Hr]; [|by eapply IH; [intros; apply Hg; by right|..]].
  destruct b; [|injection Eh as <-; by apply elem_of_nil in Hr].
  destruct (deref n st' q) as [y| |]; try done. simpl in Eh. destruct (d !! y) as [v|]; try done.
  injection Eh as <-. apply elem_of_list_singleton in Hr as ->. done.
Qed.

Section get.
  Context {A : Type} (ord : list term -> list term) (Hord : forall l, Permutation (ord l) l).

  Lemma chart_get_gen n st q (ch : chart A) rs ch' f args :
    index_ok ch -> (forall x, is_Some (c_dict ch !! x) -> ground x) -> acyclic st ->
    q = Fn (f :: args) -> chart_get ord n st q ch = Ok (rs, ch') ->
    exists f', snap n st f = Ok f' /\ index_ok ch' /\ c_dict ch' = c_dict ch /\
      exists ys, NoDup ys /\ Forall2 (matched (c_dict ch) st q) ys rs /\
        (forall x, x ∈ ys -> exists xargs, x = Fn (f' :: xargs)) /\
        forall c, f' = Cst c -> forall x, x ∈ ys <-> is_Some (c_dict ch !! x) /\ exists σ, solves σ st /\ sub σ q = x.
  Proof.
    intros Hok Hg Hac Hq E. unfold chart_get in E.
    destruct (query_mode n st q) as [[fa m]| |] eqn:Em; try done. simpl in E.
    destruct (fn_args q) as [[f0 args']| |] eqn:Ef; try done. simpl in E.
    unfold query_mode in Em. rewrite Ef in Em. simpl in Em. rewrite Hq in Ef. injection Ef as <- <-.
    destruct (acyclic_resolution _ Hac) as [θ Hθ].
    destruct (snap n st f) as [f'| |] eqn:Es; try done. simpl in Em.
    exists f'. split; [done|].
    destruct (bound_at n st 0 args) as [m'| |] eqn:Eb; try done. simpl in Em. injection Em as <- <-.
    set (fa := (f', length args)) in *.
    set (avail := default ∅ (c_index ch !! fa)) in *.
    set (ix := match avail !! m' with Some ix => ix | None => build_index fa m' (c_dict ch) end) in *.
    assert (Hix : index_for fa m' (dom (c_dict ch)) ix).
    { unfold ix. destruct (avail !! m') as [ix0|] eqn:Ea; [|apply build_index_for].
      unfold avail in Ea. destruct (c_index ch !! fa) as [av|] eqn:Efa; simpl in Ea; [by eapply Hok|by rewrite lookup_empty in Ea]. }
    destruct (mapM (deref n st) (args_at m' args)) as [k| |] eqn:Ek; try done. simpl in E.
    apply (mapM_deref_ok st θ Hac Hθ) in Ek.
    destruct (match_items n st (c_dict ch) q (ord (default [] (ix !! k)))) as [rs'| |] eqn:Er; try done.
    simpl in E. injection E as <- <-.
    destruct (Hix k) as [Hnd Hin].
    assert (Hoin : forall x, x ∈ ord (default [] (ix !! k)) <-> x ∈ default [] (ix !! k)).
    { intros x. rewrite !elem_of_list_In. split; apply Permutation_in; [apply Hord|symmetry; apply Hord]. }
    apply match_items_ok in Er as (ys & Hsl & Hys & Hf); [|done|].
    2:{ intros x Hx. apply Hoin, Hin in Hx as [Hx _]. by apply Hg, elem_of_dom. }
    split; [|split; [done|]].
    - intros fa' avail' m'' ix' H1 H2. simpl in *. destruct (decide (fa' = fa)) as [->|Hne].
      + rewrite lookup_insert in H1. injection H1 as <-. destruct (decide (m'' = m')) as [->|Hne'].
        * rewrite lookup_insert in H2. by injection H2 as <-.
        * rewrite lookup_insert_ne in H2 by done. unfold avail in H2.
          destruct (c_index ch !! fa) as [av|] eqn:Efa; simpl in H2; [by eapply Hok|by rewrite lookup_empty in H2].
      + rewrite lookup_insert_ne in H1 by done. by eapply Hok.
    - exists ys. split; [|split; [done|split]].
      + apply (sublist_NoDup ys _ Hsl). apply NoDup_ListNoDup. eapply Permutation_NoDup; [symmetry; apply Hord|]. by apply NoDup_ListNoDup.
      + intros x Hx. apply Hys in Hx as [Hx _]. apply Hoin, Hin in Hx as (_ & xargs & (f0 & -> & Ef) & _).
        injection Ef as <- _. by exists xargs.
      + intros c Hc x. rewrite Hys, Hoin, Hin, elem_of_dom. split; [naive_solver|].
        intros [Hx (σ & Hs & He)]. split; [|eauto]. split; [done|].
        apply (snap_ok st θ Hac Hθ) in Es as (Es & _ & _).
        assert (Hf0 : sub σ f = Cst c).
        { rewrite <- (resolution_most_general st θ σ Hac Hθ Hs f), <- Es, Hc. done. }
        rewrite Hq in He. change (sub σ (Fn (f :: args))) with (Fn (sub σ f :: map (sub σ) args)) in He. rewrite Hf0 in He.
        exists (map (sub σ) args). split.
        { exists (Cst c). split; [done|]. by rewrite map_length, <- Hc. }
        rewrite args_at_sub, Ek. apply map_ext_in. intros a Ha.
        apply elem_of_list_In, args_at_in in Ha as (j & Hj & Ej).
        destruct (bound_at_ok n st θ 0 args m' Hac Hθ Eb j Hj) as (a' & _ & Ej' & Hga).
        rewrite Nat.sub_0_r in Ej'. assert (a' = a) as -> by congruence.
        rewrite <- (resolution_most_general st θ σ Hac Hθ Hs a). by apply sub_ground.
  Qed.

  Lemma chart_get_ok n st q (ch : chart A) rs ch' c args :
    index_ok ch -> (forall x, is_Some (c_dict ch !! x) -> ground x) -> acyclic st ->
    q = Fn (Cst c :: args) -> chart_get ord n st q ch = Ok (rs, ch') ->
    index_ok ch' /\ c_dict ch' = c_dict ch /\ exact_matches (c_dict ch) st q rs.
  Proof.
    intros Hok Hg Hac Hq E.
    destruct (chart_get_gen n st q ch rs ch' (Cst c) args Hok Hg Hac Hq E) as (f' & Es & H1 & H2 & ys & H3 & H4 & _ & H5).
    destruct (acyclic_resolution _ Hac) as [θ Hθ].
    apply (snap_ok st θ Hac Hθ) in Es as (_ & _ & Es). rewrite Es in H5 by done.
    split; [done|]. split; [done|]. exists ys. split; [done|]. split; [by apply (H5 c)|done].
  Qed.

  Lemma chart_get_V V n st q (ch : chart A) rs ch' :
    index_ok ch -> (forall x, is_Some (c_dict ch !! x) -> ground x) -> okst V st -> in_V V q ->
    chart_get ord n st q ch = Ok (rs, ch') -> forall r, r ∈ rs -> okst V (fst r) /\ st ⊆ fst r.
  Proof.
    intros Hok Hg Hst Hq E. unfold chart_get in E.
    destruct (query_mode n st q) as [[fa m]| |] eqn:Em; try done. simpl in E.
    destruct (fn_args q) as [[f0 args']| |] eqn:Ef; try done. simpl in E.
    set (avail := default ∅ (c_index ch !! fa)) in *.
    set (ix := match avail !! m with Some ix => ix | None => build_index fa m (c_dict ch) end) in *.
    assert (Hix : index_for fa m (dom (c_dict ch)) ix).
    { unfold ix. destruct (avail !! m) as [ix0|] eqn:Ea; [|apply build_index_for].
      unfold avail in Ea. destruct (c_index ch !! fa) as [av|] eqn:Efa; simpl in Ea; [by eapply Hok|by rewrite lookup_empty in Ea]. }
    destruct (mapM (deref n st) (args_at m args')) as [k| |] eqn:Ek; try done. simpl in E.
    destruct (match_items n st (c_dict ch) q (ord (default [] (ix !! k)))) as [rs'| |] eqn:Er; try done.
    simpl in E. injection E as <- _. eapply match_items_V; [done|done|..|done].
    intros x Hx. assert (Hx' : x ∈ default [] (ix !! k)).
    { apply elem_of_list_In. eapply Permutation_in; [apply Hord|]. by apply elem_of_list_In. }
    destruct (Hix k) as [_ Hin]. apply Hin in Hx' as [Hx' _]. by apply Hg, elem_of_dom.
  Qed.

  Lemma chart_get_settles st q (ch : chart A) c args :
    index_ok ch -> (forall x, is_Some (c_dict ch !! x) -> ground x) -> acyclic st ->
    q = Fn (Cst c :: args) -> exists rs ch', settles (fun n => chart_get ord n st q ch) (rs, ch').
  Proof.
    intros Hok Hg Hac Hq. destruct (acyclic_resolution _ Hac) as [θ Hθ].
    destruct (bound_at_settles st θ 0 args Hac Hθ) as [m Hm].
    destruct (snap_settles st θ Hac Hθ (Cst c)) as (f' & Hf & _ & _ & Hf').
    rewrite Hf' in Hf by done. clear Hf' f'.
    set (fa := (Cst c, length args)).
    set (avail := default ∅ (c_index ch !! fa)).
    set (ix := match avail !! m with Some ix => ix | None => build_index fa m (c_dict ch) end).
    assert (Hix : index_for fa m (dom (c_dict ch)) ix).
    { unfold ix. destruct (avail !! m) as [ix0|] eqn:Ea; [|apply build_index_for].
      unfold avail in Ea. destruct (c_index ch !! fa) as [av|] eqn:Efa; simpl in Ea; [by eapply Hok|by rewrite lookup_empty in Ea]. }
    set (k := map (sub θ) (args_at m args)).
    destruct (match_items_settles st (c_dict ch) q (ord (default [] (ix !! k))) Hac) as [rs Hrs].
    { intros x Hx. assert (Hx' : x ∈ default [] (ix !! k)).
      { apply elem_of_list_In. eapply Permutation_in; [apply Hord|]. by apply elem_of_list_In. }
      destruct (Hix k) as [_ Hin]. apply Hin in Hx' as [Hx' _]. apply elem_of_dom in Hx'. split; [by apply Hg|done]. }
    eexists _, _. unfold chart_get.
    eapply (settles_bind (fun n => query_mode n st q) (fun n p => let '(fa, m) := p in _)) with (a := (fa, m)).
    { unfold query_mode. rewrite Hq. simpl.
      eapply (settles_bind (fun n => snap n st (Cst c))); [done|].
      eapply (settles_bind (fun n => bound_at n st 0 args)); [done|]. apply settles_ret. }
    cbv beta iota. rewrite Hq in Hrs |- *. cbn [fn_args bind].
    eapply (settles_bind (fun n => mapM (deref n st) (args_at m args))); [by apply mapM_deref_settles|]. cbv beta.
    fold avail ix k.
    eapply (settles_bind (fun n => match_items n st (c_dict ch) (Fn (Cst c :: args)) (ord (default [] (ix !! k))))); [done|]. apply settles_ret.
  Qed.
End get.
