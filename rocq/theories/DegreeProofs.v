(** Proofs for C59. *)
From Coq Require Import List Lia Sorted.
From stdpp Require Import gmap.
From Verif Require Import PyBase Semiring TermModel TermSpec TermProofs SetsModel UnifyProofs CoverProofs UpdateModel UpdateSpec UpdateProofs TransModel TransSpec TransProofs UnfoldProofs SetsProofs 
  DegreeModel DegreeSpec.
Import ListNotations.

Lemma mem_ok v l : mem v l = true <-> v ∈ l.
Proof.
  unfold mem. rewrite existsb_exists. split; [intros (j & H & ->%Nat.eqb_eq); by apply elem_of_list_In|]. intros H. exists v. split; [by apply elem_of_list_In|apply Nat.eqb_refl].
Qed.
Lemma term_vars_set n x vs : term_vars n ∅ x [] = Ok vs -> NoDup vs /\ forall v, v ∈ vs <-> In v (vars x).
Proof.
  intros E. apply (term_vars_ok ∅ Var n x vs acyclic_empty resolution_empty) in E as ->. rewrite sub_Var. split.
  - apply NoDup_ListNoDup, collect_NoDup. constructor.
  - intros v. rewrite elem_of_list_In, collect_In. naive_solver.
Qed.

Fixpoint assigns (dom : list term) (vs : list nat) : list (list term) :=
  match vs with [] => [[]] | _ :: vs => flat_map (fun t => map (cons t) (assigns dom vs)) dom end.
Lemma assigns_length dom vs : length (assigns dom vs) = length dom ^ length vs.
Proof.
  induction vs as [|v vs IH]; [done|]. cbn. rewrite <- IH. generalize (assigns dom vs). intros A. clear. induction dom as [|t dom IHd]; [done|]. cbn. rewrite app_length, map_length, IHd. done.
Qed.
Lemma assigns_in dom vs xs : xs ∈ assigns dom vs <-> length xs = length vs /\ Forall (fun t => t ∈ dom) xs.
Proof.
  revert xs. induction vs as [|v vs IH]; intros xs; cbn.
  - rewrite elem_of_list_singleton. split; [by intros ->|]. intros [H _]. by destruct xs.
  - rewrite elem_of_list_In, in_flat_map. split.
    + intros (t & Ht & (ys & <- & Hy)%in_map_iff). apply elem_of_list_In, IH in Hy as [H1 H2]. split; [cbn; by rewrite H1|]. constructor; [by apply elem_of_list_In|done].
    + intros [Hl Hf]. destruct xs as [|t xs]; [done|]. apply Forall_cons in Hf as [Ht Hf]. exists t. split; [by apply elem_of_list_In|]. apply in_map, elem_of_list_In, IH. split; [by injection Hl|done].
Qed.

Lemma prod_nodup (dom : list term) (A : list (list term)) : NoDup dom -> NoDup A -> NoDup (flat_map (fun t => map (cons t) A) dom).
Proof.
  intros Hd HA. induction Hd as [|t dom Ht Hd IH]; cbn; [constructor|]. apply NoDup_app. split; [|split; [|done]].
  - by apply (NoDup_fmap_2 (cons t)).
  - intros xs Hx Hy. apply elem_of_list_In, in_map_iff in Hx as (ys & <- & _). apply elem_of_list_In, in_flat_map in Hy as (u & Hu & (zs & [= -> _] & _)%in_map_iff). by apply elem_of_list_In in Hu.
Qed.
Lemma assigns_nodup dom vs : NoDup dom -> NoDup (assigns dom vs).
Proof. intros Hd. induction vs as [|v vs IH]; cbn; [apply NoDup_singleton|by apply prod_nodup]. Qed.
Lemma NoDup_map_in {A B} (f : A -> B) l : (forall x y, x ∈ l -> y ∈ l -> f x = f y -> x = y) -> NoDup l -> NoDup (map f l).
Proof.
  intros Hf HN. induction HN as [|x l Hx HN IH]; cbn; [constructor|]. constructor.
  - intros H. apply elem_of_list_In, in_map_iff in H as (y & E & Hy). apply elem_of_list_In in Hy. rewrite (Hf y x) in Hy; [done|by right|by left|done].
  - apply IH. intros a b Ha Hb. apply Hf; by right.
Qed.
Lemma not_all_in (f : nat -> bool) l : ~ (forall x, In x l -> f x = true) -> exists x, In x l /\ f x <> true.
Proof.
  intros H. induction l as [|y l IH]; [by exfalso; apply H|]. destruct (f y) eqn:E; [|exists y; split; [by left|congruence]].
  destruct IH as (x & Hx & Hf); [|exists x; split; [by right|done]]. intros Ha. apply H. intros x [<-|Hx]; [done|by apply Ha].
Qed.

(** the assignment of [xs] to [vs] *)
Fixpoint assign (vs : list nat) (xs : list term) (v : nat) : term :=
  match vs, xs with w :: vs, x :: xs => if Nat.eqb v w then x else assign vs xs v | _, _ => Var v end.
Lemma assign_map vs σ v : v ∈ vs -> assign vs (map σ vs) v = σ v.
Proof.
  induction vs as [|w vs IH]; intros H; [by apply elem_of_nil in H|]. cbn. destruct (Nat.eqb_spec v w) as [->|Hne]; [done|]. apply elem_of_cons in H as [->|H]; [done|by apply IH].
Qed.
Lemma map_assign vs xs : NoDup vs -> length xs = length vs -> map (assign vs xs) vs = xs.
Proof.
  revert xs. induction vs as [|w vs IH]; intros [|x xs] HN Hl; try done. apply NoDup_cons in HN as [Hw HN]. cbn. rewrite Nat.eqb_refl. f_equal.
  etrans; [|apply (IH xs HN); by injection Hl]. apply map_ext_in. intros v Hv. destruct (Nat.eqb_spec v w) as [->|]; [|done]. by apply elem_of_list_In in Hv.
Qed.

Section proofs.
Context {R : semiring}.
Lemma wvars_goal (r : wrule R) b v : Goal b ∈ wbody r -> In v (vars b) -> v ∈ wvars r.
Proof.
  intros Hb Hv. unfold wvars. apply elem_of_app. right. apply elem_of_list_In, in_flat_map. exists b. split; [|done]. apply elem_of_list_In, elem_of_list_omap. by exists (Goal b).
Qed.
Lemma rsub_ext (r : wrule R) σ τ : rsub σ r = rsub τ r <-> forall v, v ∈ wvars r -> σ v = τ v.
Proof.
  unfold rsub. split.
  - intros E v Hv. injection E as Eh Eb. unfold wvars in Hv. apply elem_of_app in Hv as [Hv|Hv].
    + apply (sub_ext_inv σ τ (whead r)); [done|by apply elem_of_list_In].
    + apply elem_of_list_In, in_flat_map in Hv as (b & Hb & Hv). apply elem_of_list_In, elem_of_list_omap in Hb as ([w|b'] & Hb & [= ->]).
      apply (sub_ext_inv σ τ b); [|done]. clear - Eb Hb. induction (wbody r) as [|f fs IH]; [by apply elem_of_nil in Hb|]. cbn in Eb. injection Eb as E1 E2.
      apply elem_of_cons in Hb as [<-|Hb]; [by injection E1|by apply IH].
  - intros H. f_equal; [apply sub_ext; intros v Hv; apply H; unfold wvars; apply elem_of_app; left; by apply elem_of_list_In|].
    apply map_ext_in. intros [w|b] Hb; [done|]. cbn. f_equal. apply sub_ext. intros v Hv. apply H. by apply (wvars_goal r b); [apply elem_of_list_In|].
Qed.

Lemma count_instances (r : wrule R) vs dom : NoDup vs -> (forall v, v ∈ vs <-> v ∈ wvars r) -> NoDup dom -> count_is (instance_over dom r) (length dom ^ length vs).
Proof.
  intros HN Hvs Hd. exists (map (fun xs => rsub (assign vs xs) r) (assigns dom vs)). split; [|split].
  - apply NoDup_map_in; [|by apply assigns_nodup]. intros xs ys Hx Hy E. apply assigns_in in Hx as [Hx _], Hy as [Hy _].
    rewrite <- (map_assign vs xs HN Hx), <- (map_assign vs ys HN Hy). apply map_ext_in. intros v Hv. apply (proj1 (rsub_ext r _ _) E), Hvs. by apply elem_of_list_In.
  - by rewrite map_length, assigns_length.
  - intros s. rewrite elem_of_list_In, in_map_iff. split.
    + intros (xs & <- & Hx). apply elem_of_list_In, assigns_in in Hx as [Hl Hx]. exists (assign vs xs). split; [|done]. intros v Hv. apply Hvs in Hv.
      rewrite <- (map_assign vs xs HN Hl) in Hx. apply (proj1 (Forall_forall _ _) Hx). apply elem_of_list_In, in_map. by apply elem_of_list_In.
    + intros (σ & Hσ & ->). exists (map σ vs). split.
      * apply rsub_ext. intros v Hv. by apply assign_map, Hvs.
      * apply elem_of_list_In, assigns_in. split; [by rewrite map_length|]. apply Forall_forall. intros t Ht. apply elem_of_list_In, in_map_iff in Ht as (v & <- & Hv).
        by apply Hσ, Hvs, elem_of_list_In.
Qed.

Lemma analyze_ok n (r : wrule R) a : analyze n r = Ok a ->
  (exists vs, NoDup vs /\ (forall v, v ∈ vs <-> v ∈ wvars r) /\ a_degree a = length vs) /\
  (forall v, v ∈ a_local a <-> v ∈ wvars r /\ ~ In v (vars (whead r))) /\
  (forall v, v ∈ a_elim a <-> v ∈ a_local a /\ exists b, Goal b ∈ wbody r /\ vars b <> [] /\ ~ In v (vars b)).
Proof.
  unfold analyze. intros E. destruct (term_vars n ∅ (whead r) []) as [out| |] eqn:E1; [|done..]. cbn [bind] in E. destruct (term_vars n ∅ (rterm r) []) as [vs| |] eqn:E2; [|done..]. cbn [bind] in E.
  destruct (body_vars n (wbody r)) as [fv| |] eqn:E3; [|done..]. cbn [bind] in E. injection E as <-. cbn [a_degree a_local a_elim].
  apply term_vars_set in E1 as [_ H1]. apply term_vars_set in E2 as [HN H2]. rewrite rterm_vars in H2.
  assert (H2' : forall v, v ∈ vs <-> v ∈ wvars r) by (intros v; by rewrite H2, elem_of_list_In).
  split; [by exists vs|]. split.
  - intros v. rewrite elem_of_list_In, filter_In, <- elem_of_list_In, H2', <- H1, negb_true_iff, <- not_true_iff_false, mem_ok. done.
  - assert (Hfv : length fv = length (wbody r) /\ forall i f, wbody r !! i = Some f -> forall v, v ∈ nth i fv [] <-> exists b, f = Goal b /\ In v (vars b)).
    { clear - E3. revert fv E3. induction (wbody r) as [|f fs IH]; intros fv E; cbn in E; [injection E as <-; by split|].
      destruct (factor_vars n f) as [ws| |] eqn:Ef; [|done..]. cbn [bind] in E. destruct (body_vars n fs) as [vss| |] eqn:Eb; [|done..]. cbn [bind] in E. injection E as <-.
      destruct (IH vss eq_refl) as [Hl Hi]. split; [cbn; by rewrite Hl|]. intros [|i] g Hg v; cbn in Hg |- *; [|by apply Hi]. injection Hg as <-. destruct f as [w|b]; cbn in Ef.
      - injection Ef as <-. split; [intros H; by apply elem_of_nil in H|]. by intros (b & ? & _).
      - apply term_vars_set in Ef as [_ Ef]. rewrite Ef. naive_solver. }
    destruct Hfv as [Hl Hi]. intros v. rewrite elem_of_list_In, filter_In, <- elem_of_list_In. apply and_iff_compat_l. rewrite andb_true_iff, negb_true_iff. unfold subset at 2.
    rewrite <- not_true_iff_false, forallb_forall. split.
    + intros [_ Hn]. apply not_all_in in Hn as (i & Hin & Hm). apply filter_In in Hin as [Hin Hne]. apply in_seq in Hin.
      destruct (lookup_lt_is_Some_2 (wbody r) i) as [f Hf]; [lia|]. destruct (nth i fv []) as [|w l] eqn:Ew; [done|].
      destruct (proj1 (Hi i f Hf w)) as (b & -> & Hb); [rewrite Ew; by left|]. exists b. split; [by eapply elem_of_list_lookup_2|]. split; [by intros Hz; rewrite Hz in Hb|].
      intros Hv. apply Hm. apply mem_ok, elem_of_list_In, filter_In. split; [apply in_seq; lia|]. apply mem_ok. apply (Hi i _ Hf). by exists b.
    + intros (b & Hb & Hne & Hv). split.
      * unfold subset. apply forallb_forall. intros i Hin. apply filter_In in Hin as [Hin Hm]. apply mem_ok, elem_of_list_In, filter_In. split; [done|].
        apply mem_ok in Hm. destruct (nth i fv []); [by apply elem_of_nil in Hm|done].
      * apply elem_of_list_lookup in Hb as [i Hb]. pose proof (lookup_lt_Some _ _ _ Hb) as Hlt. intros H. specialize (H i). 
        assert (Hw : In i (List.filter (fun i => negb (Nat.eqb (length (nth i fv [])) 0)) (seq 0 (length fv)))).
        { apply filter_In. split; [apply in_seq; lia|]. destruct (vars b) as [|w l] eqn:Evb; [done|]. assert (Hwin : w ∈ nth i fv []) by (apply (Hi i _ Hb); exists b; split; [done|rewrite Evb; by left]).
          destruct (nth i fv []); [by apply elem_of_nil in Hwin|done]. }
        specialize (H Hw). apply mem_ok, elem_of_list_In, filter_In in H as [_ H]. apply mem_ok, (Hi i _ Hb) in H as (b' & [= <-] & H). done.
Qed.

Lemma rule_degrees_ok n (rs : list (wrule R)) ds : rule_degrees n rs = Ok ds -> Forall2 (fun r d => exists a, analyze n r = Ok a /\ a_degree a = d) rs ds.
Proof.
  revert ds. induction rs as [|r rs IH]; intros ds E; cbn in E; [injection E as <-; constructor|]. destruct (analyze n r) as [a| |] eqn:Ea; [|done..]. cbn [bind] in E.
  destruct (rule_degrees n rs) as [ds'| |]; [|done..]. cbn [bind] in E. injection E as <-. constructor; [by exists a|by apply IH].
Qed.
End proofs.

Lemma insert_down_perm x l : insert_down x l ≡ₚ x :: l.
Proof. induction l as [|y l IH]; [done|]. cbn. destruct (Nat.leb y x); [done|]. rewrite IH. constructor. Qed.
Lemma sort_down_perm l : sort_down l ≡ₚ l.
Proof. induction l as [|x l IH]; [done|]. cbn. by rewrite insert_down_perm, IH. Qed.
Lemma insert_down_sorted x l : StronglySorted ge l -> StronglySorted ge (insert_down x l).
Proof.
  induction 1 as [|y l Hs IH Hf]; cbn [insert_down]; [repeat constructor|]. destruct (Nat.leb_spec y x) as [H|H].
  - constructor; [by constructor|]. constructor; [lia|]. eapply Forall_impl; [exact Hf|]. intros z Hz. cbn in Hz |- *. lia.
  - constructor; [done|]. apply Forall_forall. intros z Hz. rewrite insert_down_perm in Hz. apply elem_of_cons in Hz as [->|Hz]; [lia|]. exact (proj1 (Forall_forall _ _) Hf z Hz).
Qed.
Lemma sort_down_sorted l : StronglySorted ge (sort_down l).
Proof. induction l as [|x l IH]; cbn; [constructor|by apply insert_down_sorted]. Qed.
Lemma sorted_perm_eq (l l' : list nat) : StronglySorted ge l -> StronglySorted ge l' -> l ≡ₚ l' -> l = l'.
Proof.
  intros Hs. revert l'. induction Hs as [|x l Hs IH Hf]; intros l' Hs' Hp; [by apply Permutation_nil in Hp|].
  destruct Hs' as [|y l' Hs' Hf']; [by apply Permutation_sym, Permutation_nil in Hp|].
  assert (x = y) as ->.
  { assert (Hx : x ∈ y :: l') by (rewrite <- Hp; by left). assert (Hy : y ∈ x :: l) by (rewrite Hp; by left).
    apply elem_of_cons in Hx as [?|Hx]; [done|]. apply elem_of_cons in Hy as [?|Hy]; [done|].
    pose proof (proj1 (Forall_forall _ _) Hf' x Hx). pose proof (proj1 (Forall_forall _ _) Hf y Hy). cbn in *. lia. }
  f_equal. apply IH; [done|]. by apply Permutation_cons_inv in Hp.
Qed.
