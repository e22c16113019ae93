(** Facts about the nodes of the coarse graph, and about unifiability. *)
From Coq Require Import List.
From stdpp Require Import gmap.
From Coq Require Import Lia.
From Verif Require Import PyBase Semiring TermModel TermSpec TermProofs ChartProofs SetsModel SetsSpec SetsProofs FuelProofs UnifyProofs SolverProofs CoverProofs
  PruneModel NamesModel UpdateModel UpdateSpec UpdateProofs TransSpec TransProofs TransModel UnfoldProofs LinearProofs SlashSpec SlashModel.
Import ListNotations.

(** * Results at any fuel *)
Lemma unifies_unify n st x y b : unifies n st x y = Ok b -> exists st', unify_f n st x y = Ok (st', b).
Proof.
  intros H. pose proof (unify_bad n x y (fun s => ((fst s, true), Done)) st false) as Hbad.
  pose proof (unify_cps n x y (fun s => ((fst s, true), Done)) st false) as Hc.
  destruct (unify_f n st x y) as [[st' b1]| |] eqn:Ef.
  - exists st'. do 2 f_equal. unfold unifies, body in *. destruct b1.
    + destruct Hc as (? & _ & Hc). rewrite Hc in H. cbn in H. congruence.
    + rewrite Hc in H. congruence.
  - exfalso. unfold unifies, body in *. destruct (unify n x y _ _) as [[? ?] []]; cbn in *; done.
  - exfalso. unfold unifies, body in *. destruct (unify n x y _ _) as [[? ?] []]; cbn in *; done.
Qed.
Lemma unify_unifies n st x y st' b : unify_f n st x y = Ok (st', b) -> unifies n st x y = Ok b.
Proof.
  intros H. pose proof (unify_cps n x y (fun s => ((fst s, true), Done)) st false) as Hc. rewrite H in Hc. unfold unifies, body in *. destruct b.
  - destruct Hc as (? & _ & Hc). by rewrite Hc.
  - by rewrite Hc.
Qed.
Lemma unifies_mono n m st x y b : unifies n st x y = Ok b -> n <= m -> unifies m st x y = Ok b.
Proof.
  intros H Hle. apply unifies_unify in H as [st' H]. eapply unify_unifies. exact (mono_ok _ n m _ (mono_unify_f st x y) Hle H).
Qed.
Lemma unifies_heap n st x y b : acyclic st -> unifies n st x y = Ok b -> (b = true <-> exists σ, solves σ st /\ sub σ x = sub σ y).
Proof.
  intros Hac H. apply unifies_unify in H as [st' H]. destruct (unify_ok n st x y st' b Hac H) as (Hac' & _ & Hb). destruct b.
  - split; [intros _|done]. destruct (acyclic_resolution st' Hac') as [θ Hθ]. exists θ. apply Hb, Hθ.
  - split; [done|]. intros (σ & H1 & H2). by destruct (Hb σ H1).
Qed.
Lemma occurs_check_mono n m v x b : occurs_check n ∅ v x = Ok b -> n <= m -> occurs_check m ∅ v x = Ok b.
Proof. intros H Hle. exact (mono_ok _ n m _ (mono_occurs_check ∅ v x) Hle H). Qed.

Section de.
  Context (al cv : nat -> nat) (Hal : forall i j, al i = al j -> i = j) (Hcv : forall i j, cv i = cv j -> i = j) (Halcv : forall i j, al i <> cv j).
  Lemma gen_var1_mono n m x y s r : gen_var1 al n x y s = Ok r -> n <= m -> gen_var1 al m x y s = Ok r.
  Proof.
    unfold gen_var1. intros H Hle. destruct (occurs_check n ∅ x y) as [o| |] eqn:E; [|discriminate..].
    by rewrite (occurs_check_mono _ _ _ _ _ E Hle).
  Qed.
  Lemma gen_var2_mono n m x y s r : gen_var2 al n x y s = Ok r -> n <= m -> gen_var2 al m x y s = Ok r.
  Proof.
    unfold gen_var2. intros H Hle. destruct (occurs_check n ∅ y x) as [o| |] eqn:E; [|discriminate..].
    by rewrite (occurs_check_mono _ _ _ _ _ E Hle).
  Qed.
  Lemma gen_traverse_mono n m x y s r : gen_traverse al n x y s = Ok r -> n <= m -> gen_traverse al m x y s = Ok r.
  Proof.
    intros H Hle. revert y s r H. induction x as [v|k|xs IH] using term_ind'; intros y s r H; cbn [gen_traverse] in *.
    - destruct (term_eqb (Var v) y); [done|]. by eapply gen_var1_mono.
    - destruct (term_eqb (Cst k) y); [done|]. destruct y; [by eapply gen_var2_mono|done..].
    - destruct (term_eqb (Fn xs) y); [done|]. destruct y as [w|k|ys]; [by eapply gen_var2_mono|done|].
      destruct (Nat.eqb (length xs) (length ys) && _); [|done].
      match goal with H : (let* _ := ?F xs ys s in _) = _ |- (let* _ := ?G xs ys s in _) = _ =>
        assert (Hgo : forall xs ys s r, Forall (fun x => forall y s r, gen_traverse al n x y s = Ok r -> gen_traverse al m x y s = Ok r) xs ->
          F xs ys s = Ok r -> G xs ys s = Ok r) end.
      { clear. induction xs as [|x xs IHx]; intros [|y ys] s r HF E; try done. inversion HF; subst.
        destruct (gen_traverse al n x y s) as [[z s1]| |] eqn:E1; [|discriminate..]. cbn [bind] in E.
        rewrite (H1 _ _ _ E1). cbn [bind].
        match goal with H : (let* _ := ?F xs ys s1 in _) = _ |- _ => destruct (F xs ys s1) as [[zs s2]| |] eqn:E2; [|discriminate..] end.
        cbn [bind] in E. rewrite (IHx _ _ _ H2 E2). done. }
      match goal with H : (let* _ := ?F xs ys s in _) = _ |- _ => destruct (F xs ys s) as [[zs s1]| |] eqn:E1; [|discriminate..] end.
      rewrite (Hgo _ _ _ _ IH E1). done.
  Qed.
  Lemma generalizer_mono n m c x y r : generalizer al n c x y = Ok r -> n <= m -> generalizer al m c x y = Ok r.
  Proof.
    unfold generalizer. intros H Hle. destruct (gen_traverse al n x y _) as [[z s]| |] eqn:E; [|discriminate..].
    by rewrite (gen_traverse_mono _ _ _ _ _ _ E Hle).
  Qed.
  Lemma de_scan_mono n m r c rxs kept o : de_scan al n r c rxs kept = Ok o -> n <= m -> de_scan al m r c rxs kept = Ok o.
  Proof.
    intros H Hle. revert r c kept H. induction rxs as [|x rxs IH]; intros r c kept H; [done|]. cbn [de_scan] in *.
    destruct (unifies n ∅ r x) as [u| |] eqn:Eu; [|discriminate..]. rewrite (unifies_mono _ _ _ _ _ _ Eu Hle). cbn [bind] in *.
    destruct u; [|by apply IH]. destruct (generalizer al n c r x) as [[g c1]| |] eqn:Eg; [|discriminate..].
    rewrite (generalizer_mono _ _ _ _ _ _ Eg Hle). cbn [bind] in *.
    destruct (fresh al n ∅ c1 g) as [[r' c2]| |] eqn:Ef; [|discriminate..]. rewrite (fresh_mono _ _ _ _ _ _ _ Ef Hle). cbn [bind] in *. by apply IH.
  Qed.
  Lemma de_find_all_mono n m x i xs is : de_find_all n x i xs = Ok is -> n <= m -> de_find_all m x i xs = Ok is.
  Proof.
    intros H Hle. revert i is H. induction xs as [|y xs IH]; intros i is H; [done|]. cbn [de_find_all] in *.
    destruct (unifies n ∅ x y) as [u| |] eqn:Eu; [|discriminate..]. rewrite (unifies_mono _ _ _ _ _ _ Eu Hle). cbn [bind] in *.
    destruct (de_find_all n x (S i) xs) as [l| |] eqn:El; [|discriminate..]. by rewrite (IH _ _ El).
  Qed.

  (** * Signatures *)
  Definition sig (t : term) : option (const * nat) := match t with Fn (Cst f :: args) => Some (f, length args) | _ => None end.
  Lemma sig_item t : item_head t <-> exists s, sig t = Some s.
  Proof.
    split; [intros (f & args & ->); eexists; reflexivity|]. intros [s H]. destruct t as [|?|[|[|f|?] args]]; try done. by exists f, args.
  Qed.
  Lemma sig_sub σ t s : sig t = Some s -> sig (sub σ t) = Some s.
  Proof. destruct t as [|?|[|[|f|?] args]]; try done. cbn. intros [= <-]. by rewrite map_length. Qed.
  Lemma sig_unify σ τ a b s s' : sig a = Some s -> sig b = Some s' -> sub σ a = sub τ b -> s = s'.
  Proof. intros Ha Hb E. apply (sig_sub σ) in Ha. apply (sig_sub τ) in Hb. congruence. Qed.
  Lemma gen_item n c x y z c' : item_head x -> item_head y -> (exists σ, sub σ x = sub σ y) -> generalizer al n c x y = Ok (z, c') -> item_head z.
  Proof.
    intros (f & xs & ->) (g & ys & ->) [σ Hσ] E. cbn in Hσ. injection Hσ as -> Hσ. unfold generalizer in E.
    destruct (gen_traverse al n _ _ _) as [[z' s]| |] eqn:Eg; [|discriminate..]. injection E as -> _. cbn [gen_traverse] in Eg.
    destruct (term_eqb (Fn (Cst g :: xs)) (Fn (Cst g :: ys))); [injection Eg as <- <-; by exists g, xs|].
    apply (f_equal length) in Hσ. rewrite !map_length in Hσ. cbn [length] in Eg. rewrite Hσ, Nat.eqb_refl in Eg. cbn [andb] in Eg.
    assert (Ec : term_eqb (Cst g) (Cst g) = true) by (by apply term_eqb_true).
    rewrite Ec in Eg. cbn [bind] in Eg.
    match type of Eg with (let* _ := (let* _ := ?X in _) in _) = _ => destruct X as [[zs s2]| |]; [|discriminate..] end.
    cbn [bind] in Eg. injection Eg as <- _. by exists g, zs.
  Qed.

  (** * Adding terms *)
  Lemma rename_item ρ t : item_head t -> item_head (rename ρ t).
  Proof. intros (f & args & ->). unfold rename. cbn. by eexists _, _. Qed.
  Lemma variant_sig x y : variant x y -> sig x = sig y.
  Proof.
    intros (ρ & _ & ->). destruct x as [|?|[|[|f|?] args]]; try done. unfold rename. cbn. by rewrite map_length.
  Qed.
  Lemma fresh_run n c x y c' : fresh al n ∅ c x = Ok (y, c') -> variant x y /\ c <= c' /\ from al c c' y.
  Proof.
    intros E. destruct (fresh_settles al Hal c x) as (y0 & c0 & Hs & Hv & Hc & Hf).
    destruct Hs as [n0 Hs]. pose proof (fresh_mono _ _ (n + n0) _ _ _ _ E ltac:(lia)) as E1. rewrite Hs in E1 by lia. by injection E1 as <- <-.
  Qed.
  Lemma de_scan_item n r c rxs kept r' c' kept' : de_scan al n r c rxs kept = Ok (r', c', kept') -> item_head r -> Forall item_head rxs -> item_head r'.
  Proof.
    revert r c kept. induction rxs as [|x rxs IH]; intros r c kept E Hr HF; cbn [de_scan] in E; [by injection E as <- <- <-|].
    inversion HF as [|? ? Hx HF']; subst. destruct (unifies n ∅ r x) as [u| |] eqn:Eu; [|discriminate..]. cbn [bind] in E.
    destruct u; [|by eapply IH]. destruct (generalizer al n c r x) as [[g c1]| |] eqn:Eg; [|discriminate..]. cbn [bind] in E.
    destruct (fresh al n ∅ c1 g) as [[r1 c2]| |] eqn:Ef; [|discriminate..]. cbn [bind] in E. eapply IH; [exact E| |done].
    apply fresh_run in Ef as [Hv _]. apply sig_item. rewrite <- (variant_sig _ _ Hv). apply sig_item.
    eapply gen_item; [exact Hr|exact Hx| |exact Eg]. exact (proj1 (unifies_ok n r x true Eu) eq_refl).
  Qed.
  Definition nodes_ok (st : list term * nat) (added : list term) : Prop :=
    de_inv cv st added /\ Forall item_head (fst st) /\ forall y, y ∈ fst st -> exists t, t ∈ added /\ sig t = sig y.
  Lemma instance_sig x y : item_head x -> instance_of x y -> sig x = sig y.
  Proof. intros [s Hs]%sig_item [σ <-]. by rewrite (sig_sub σ x s Hs). Qed.
  Lemma de_add_run n st r st' added : de_add al cv n st r = Ok st' -> proper r -> item_head r -> nodes_ok st added ->
    nodes_ok st' (added ++ [r]) /\ snd st <= snd st'.
  Proof.
    intros E Hp Hi (Hinv & Hit & Hsig). destruct st as [xs c], st' as [xs' c'].
    destruct (de_add_spec al cv Hal Hcv Halcv (xs, c) r added Hp Hinv) as (st2 & [n0 Hs] & Hinv').
    unfold de_add in E. destruct (fresh al n ∅ c r) as [[y c1]| |] eqn:Ef; [|discriminate..]. cbn [bind] in E.
    destruct (de_scan al n y c1 (rev xs) []) as [[[r' c2] kept]| |] eqn:Es; [|discriminate..]. cbn [bind] in E.
    destruct (canonicalize cv n ∅ r') as [z| |] eqn:Ec; [|discriminate..]. cbn [bind] in E. injection E as <- <-.
    assert (E2 : st2 = (kept ++ [z], c2)).
    { specialize (Hs (n + n0) ltac:(lia)). unfold de_add in Hs.
      rewrite (fresh_mono _ _ (n + n0) _ _ _ _ Ef ltac:(lia)) in Hs. cbn [bind] in Hs.
      rewrite (de_scan_mono _ (n + n0) _ _ _ _ _ Es ltac:(lia)) in Hs. cbn [bind] in Hs.
      rewrite (mono_ok _ n (n + n0) _ (mono_canonicalize cv ∅ r') ltac:(lia) Ec) in Hs. cbn [bind] in Hs. by injection Hs as <-. }
    subst st2. pose proof (fresh_run _ _ _ _ _ Ef) as (Hv & Hc & Hfr).
    assert (Hy : item_head y) by (apply sig_item; rewrite <- (variant_sig _ _ Hv); by apply sig_item).
    assert (Hrev : Forall item_head (rev xs)).
    { apply Forall_forall. intros x Hx. rewrite Forall_forall in Hit. apply Hit. rewrite elem_of_list_In in *. by apply in_rev. }
    pose proof (de_scan_item _ _ _ _ _ _ _ _ Es Hy Hrev) as Hr'.
    destruct Hinv as (Hpx & Hcx & _). cbn [fst snd] in *.
    destruct (de_scan_spec al cv Hal Halcv y c1 (rev xs) []) as (r2 & c3 & kept2 & Hs2 & H1 & H2 & H3 & H4 & H5 & H6 & H7).
    { intros v Hv'. destruct (Hfr v Hv') as (j & -> & ?). exists j. split; [done|lia]. }
    { by eapply variant_proper. }
    { apply Forall_forall. intros x Hx. rewrite Forall_forall in Hpx. apply Hpx. rewrite elem_of_list_In in *. by apply in_rev. }
    { apply Forall_forall. intros x Hx. rewrite Forall_forall in Hcx. apply Hcx. rewrite elem_of_list_In in *. by apply in_rev. }
    destruct Hs2 as [n1 Hs2]. pose proof (de_scan_mono _ (n + n1) _ _ _ _ _ Es ltac:(lia)) as Es2. rewrite Hs2 in Es2 by lia. injection Es2 as -> -> ->.
    assert (Hk : forall x, x ∈ kept -> x ∈ xs).
    { intros x Hx. apply elem_of_list_In in Hx. destruct (H7 x Hx) as [[]|Hx']. apply elem_of_list_In. by apply in_rev. }
    assert (Hz : sig z = sig r').
    { destruct (canonical_settles cv r') as [n2 Hs3]. pose proof (mono_ok _ n (n + n2) _ (mono_canonicalize cv ∅ r') ltac:(lia) Ec) as Ec2.
      cbn beta in Ec2. rewrite Hs3 in Ec2 by lia. injection Ec2 as <-. symmetry. apply variant_sig. by apply canonical_variant. }
    split; [|lia]. split; [exact Hinv'|]. cbn [fst]. split.
    - apply Forall_app. split; [|constructor; [|done]].
      + apply Forall_forall. intros x Hx. rewrite Forall_forall in Hit. by apply Hit, Hk.
      + apply sig_item. rewrite Hz. by apply sig_item.
    - intros x [Hx|Hx]%elem_of_app.
      + destruct (Hsig x (Hk x Hx)) as (t & Ht & Et). exists t. split; [|done]. apply elem_of_app. by left.
      + apply elem_of_list_singleton in Hx as ->. exists r. split; [apply elem_of_app; right; by apply elem_of_list_singleton|].
        rewrite Hz. rewrite (variant_sig _ _ Hv). symmetry. by apply instance_sig.
  Qed.
  Lemma de_adds_run n st l st' added : de_adds al cv n st l = Ok st' -> Forall proper l -> Forall item_head l -> nodes_ok st added ->
    nodes_ok st' (added ++ l) /\ snd st <= snd st'.
  Proof.
    revert st added. induction l as [|r l IH]; intros st added E Hp Hi Hok; cbn [de_adds] in E.
    - injection E as <-. rewrite app_nil_r. auto.
    - destruct (de_add al cv n st r) as [st1| |] eqn:E1; [|discriminate..]. cbn [bind] in E. inversion Hp; inversion Hi; subst.
      destruct (de_add_run _ _ _ _ _ E1 ltac:(done) ltac:(done) Hok) as [Hok1 Hc1].
      destruct (IH _ _ E ltac:(done) ltac:(done) Hok1) as [Hok2 Hc2]. rewrite <- app_assoc in Hok2. split; [done|lia].
  Qed.

  (** * Common ground instances *)
  Definition meet (a b : term) : Prop := exists g, gr_inst a g /\ gr_inst b g.
  Definition z0 (_ : nat) : term := Cst (CInt 0).
  Lemma meet_unify σ τ a b : sub σ a = sub τ b -> meet a b.
  Proof.
    intros E. exists (sub z0 (sub σ a)). split; (split; [by apply ground_sub_all|]).
    - exists (fun v => sub z0 (σ v)). by rewrite sub_sub.
    - exists (fun v => sub z0 (τ v)). rewrite E. by rewrite sub_sub.
  Qed.
  Lemma unify_meet a b : disjoint_vars a b -> meet a b -> exists σ, sub σ a = sub σ b.
  Proof.
    intros Hd (g & [_ [σ <-]] & [_ [τ E]]). exists (fun v => if decide (In v (vars a)) then σ v else τ v).
    transitivity (sub σ a).
    - apply sub_ext. intros v Hv. by rewrite decide_True.
    - rewrite <- E. apply sub_ext. intros v Hv. rewrite decide_False; [done|]. intros Ha. by apply (Hd v).
  Qed.
  Lemma gr_sub σ a : (forall v, ground (σ v)) -> gr_inst a (sub σ a).
  Proof. intros H. split; [by apply ground_sub_all|eauto]. Qed.
  Lemma gr_matches a g : gr_inst a g -> exists σ, (forall v, ground (σ v)) /\ sub σ a = g.
  Proof.
    intros [Hg [σ <-]]. exists (fun v => sub z0 (σ v)). split; [intros v; by apply ground_sub_all|].
    rewrite <- sub_sub. by apply sub_ground.
  Qed.
  Lemma gr_instance a b g : instance_of a b -> gr_inst b g -> gr_inst a g.
  Proof. intros [σ <-] [Hg [τ <-]]. split; [done|]. exists (fun v => sub τ (σ v)). by rewrite sub_sub. Qed.
  Lemma gr_variant a b g : variant a b -> gr_inst a g <-> gr_inst b g.
  Proof. intros Hv. split; apply gr_instance; apply variant_instance; [by apply variant_sym|done]. Qed.
  Lemma gr_sig a g : item_head a -> gr_inst a g -> sig g = sig a.
  Proof. intros [s Hs]%sig_item [_ [σ <-]]. by rewrite (sig_sub σ a s Hs). Qed.
  Lemma gr_dec a g : ground g -> {gr_inst a g} + {~ gr_inst a g}.
  Proof.
    intros Hg. destruct (matches_dec a g Hg) as [H|H]; [left|right].
    - split; [done|]. destruct H as (σ & _ & E). eauto.
    - intros Hm. apply H. by apply gr_matches in Hm.
  Qed.
  Lemma gr_var v g : ground g -> gr_inst (Var v) g.
  Proof. intros Hg. split; [done|]. by exists (fun _ => g). Qed.

  (** * The nodes of a program *)
  Section prog.
  Context {R : semiring} (inputs : list term) (rs : list (wrule R)).
  Lemma de_find_run n nodes c t i : de_find al n (nodes, c) t = Ok i -> Forall (fromcv cv) nodes ->
    (exists y, nodes !! i = Some y /\ meet y t) /\ forall q z, nodes !! q = Some z -> meet z t -> q = i.
  Proof.
    intros E Hc. unfold de_find in E. destruct (fresh al n ∅ c t) as [[t' c']| |] eqn:Ef; [|discriminate..]. cbn [bind] in E.
    destruct (de_find_all n t' 0 nodes) as [is| |] eqn:Ei; [|discriminate..]. cbn [bind] in E.
    destruct is as [|k [|? ?]]; try discriminate. injection E as ->. apply fresh_run in Ef as (Hv & _ & Hf).
    destruct (de_find_all_spec t' 0 nodes) as (is & [n0 Hs] & Hiff & _). pose proof (de_find_all_mono _ (n + n0) _ _ _ _ Ei ltac:(lia)) as E2.
    rewrite Hs in E2 by lia. injection E2 as ->.
    assert (Hl : forall q, nth_error nodes q = nodes !! q) by (intros q; revert q; clear; induction nodes as [|a l IH]; intros [|q]; cbn; [done|done|done|apply IH]).
    split.
    - destruct (proj1 (Hiff i) (or_introl eq_refl)) as (y & _ & Hy & [σ Hσ]). rewrite Nat.sub_0_r in Hy. rewrite Hl in Hy.
      exists y. split; [done|]. destruct (meet_unify σ σ t' y Hσ) as (g & H1 & H2). exists g. split; [done|]. by apply (gr_variant t t' g Hv).
    - intros q z Hz (g & H1 & H2). destruct (proj2 (Hiff q)) as [->|[]]; [|done].
      exists z. rewrite Nat.sub_0_r, Hl. split; [lia|]. split; [done|]. apply unify_meet.
      + intros v Hv1 Hv2. destruct (Hf v Hv1) as (j & -> & _). rewrite Forall_forall in Hc.
        destruct (Hc z (elem_of_list_lookup_2 _ _ _ Hz) _ Hv2) as [k Hk]. by apply Halcv in Hk.
      + exists g. split; [|done]. by apply (gr_variant t t' g Hv).
  Qed.
  Lemma all_roots_run n nodes ts : all_roots al n nodes ts = Ok tt -> forall t, t ∈ ts -> exists i, de_find al n nodes t = Ok i.
  Proof.
    induction ts as [|t ts IH]; intros E u Hu; [by apply elem_of_nil in Hu|]. cbn [all_roots] in E.
    destruct (de_find al n nodes t) as [i| |] eqn:Ei; [|discriminate..]. cbn [bind] in E.
    apply elem_of_cons in Hu as [->|Hu]; [by exists i|by apply IH].
  Qed.
  Lemma coarse_nodes_run n c nodes c' : coarse_nodes al cv inputs n rs c = Ok (nodes, c') ->
    Forall proper (node_terms inputs rs) -> Forall item_head (node_terms inputs rs) ->
    c <= c' /\ Forall (fromcv cv) nodes /\ Forall item_head nodes /\
    (forall y, y ∈ nodes -> exists t, t ∈ node_terms inputs rs /\ sig t = sig y) /\
    (forall t, t ∈ node_terms inputs rs -> exists p y, nodes !! p = Some y /\ instance_of y t /\ forall q z, nodes !! q = Some z -> meet z t -> q = p).
  Proof.
    intros E Hp Hi. unfold coarse_nodes in E. destruct (de_adds al cv n ([], c) (node_terms inputs rs)) as [[nodes0 c0]| |] eqn:Ed; [|discriminate..].
    cbn [bind] in E. destruct (all_roots al n _ _) as [[]| |] eqn:Ea; [|discriminate..]. cbn [bind] in E. injection E as -> ->.
    destruct (de_adds_run _ _ _ _ [] Ed Hp Hi) as [[[_ [Hc Hcov]] [Hit Hsig]] Hle].
    { split; [|split; [constructor|by intros y ?%elem_of_nil]]. split; [constructor|]. split; [constructor|]. by intros a []. }
    cbn [fst snd app] in *. split; [done|]. split; [done|]. split; [done|]. split; [done|].
    intros t Ht. destruct (Hcov t) as (y & Hy & Hyt); [by apply elem_of_list_In|].
    apply elem_of_list_In, elem_of_list_lookup in Hy as [p Hpy]. exists p, y. split; [done|]. split; [done|].
    destruct (all_roots_run _ _ _ Ea t Ht) as [i Hfi]. destruct (de_find_run _ _ _ _ _ Hfi Hc) as [_ Hu].
    intros q z Hz Hm. rewrite (Hu q z Hz Hm). symmetry. apply (Hu p y Hpy).
    destruct Hyt as [σ Hσ]. apply (meet_unify σ Var). by rewrite sub_Var.
  Qed.
  End prog.
End de.
