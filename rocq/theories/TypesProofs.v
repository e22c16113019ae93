(** Proofs about the type analysis. *)
From Coq Require Import List Permutation.
From stdpp Require Import gmap.
From Coq Require Import Lia.
From Coq Require String Ascii.
From Verif Require Import PyBase TermModel TermSpec TermProofs CoverProofs ChartProofs SetsModel SetsProofs FuelProofs UnifyProofs SolverProofs PruneModel
  TruncModel SlashModel SlashRules UnfoldProofs PropagateModel TypesModel TypesSpec PropagateProofs RewriteProofs.
Import String.StringSyntax Ascii.AsciiSyntax.
Import ListNotations.
Local Open Scope string_scope.
Local Open Scope list_scope.
Local Open Scope nat_scope.

Lemma ordinary_plain b : ordinary b -> plain_constraint b /\ no_kw b.
Proof.
  intros (f & args & -> & H1 & H2 & H3). split; [exists (CStr f), args; split; [done|congruence]|].
  split; cbn [has_fn]; apply String.eqb_neq; congruence.
Qed.
Lemma ordinary_sub τ b : ordinary b -> ordinary (sub τ b).
Proof. intros (f & args & -> & H). by exists f, (map (sub τ) args). Qed.
Lemma ordinary_eq b : ordinary b -> has_fn "=" b = false.
Proof. intros (f & args & -> & H & _). cbn [has_fn]. apply String.eqb_neq. congruence. Qed.

(** * What the rewrites return *)
Section shape.
Context (ord : list term -> list term) (pick : list term -> nat) (Hord : any_order ord).
Context (chk : term -> res checked) (ready : term -> bool).
Context (I : term -> Prop) (rules : list rule) (Hchk : chk_right I chk) (Hnum : chk_numbers chk).
Context (Hplain : forall r, r ∈ rules -> plain_rule r) (Hord' : forall r, r ∈ rules -> ordinary (rhead r)).
(** the variables of the other terms *)
Context (L : nat -> Prop) (HL : forall r v, r ∈ rules -> In v (rule_vars r) -> ~ L v) (Ldec : forall v, L v \/ ~ L v).

Definition live (t : term) : Prop := forall v, In v (vars t) -> L v.
Definition shp (x : term) : Prop := live x /\ (ordinary x \/ exists v z, x = t_eq (Var v) (Cst (CInt z))).
Definition sst (s : cpstate) : Prop :=
  (forall x, x ∈ cp_chart s -> shp x) /\ (forall x, x ∈ cp_agenda s -> x ∈ cp_chart s) /\
  (forall X Y, (X, Y) ∈ cp_bindings s -> exists v z, X = Var v /\ Y = Cst (CInt z)).

Lemma live_tgt t : live t <-> tgt (fun v => ~ L v) t.
Proof. split; intros H v Hv; [intros Hn; by apply Hn, H|]. destruct (Ldec v) as [|Hn]; [done|]. by destruct (H v Hv). Qed.

Lemma sst_update x s : shp x -> sst s -> sst (cp_update x s).
Proof.
  intros Hx (H1 & H2 & H3). destruct (cp_update_rest x s) as [E1 E2]. split; [|split].
  - intros y Hy. apply cp_update_chart in Hy as [->|Hy]; auto.
  - intros y Hy. apply cp_update_chart. apply cp_update_agenda in Hy as [->|Hy]; auto.
  - by rewrite E1.
Qed.

Lemma cp_join_shape n (k : subst -> cpstate -> res (option cpstate)) xs : forall σ s o,
  cover_dom (fun v => ~ L v) σ -> (forall x, x ∈ xs -> pat (fun v => ~ L v) x) ->
  (forall σ' s' o, σ ⊆ σ' -> cover_dom (fun v => ~ L v) σ' ->
     (forall x, x ∈ xs -> forall v, In v (vars x) -> is_Some (σ' !! v)) ->
     sst s' -> k σ' s' = Ok o -> post True sst o) ->
  sst s -> cp_join ord n xs σ k s = Ok o -> post True sst o.
Proof.
  induction xs as [|x xs IH]; intros σ s o Hσ Hp Hk Hs E; cbn [cp_join] in E.
  - eapply (Hk σ s); [done|done| |done|exact E]. intros x Hx. by apply elem_of_nil in Hx.
  - assert (Hg : forall y, y ∈ ord (cp_chart s) -> shp y) by (intros y Hy; apply Hs; by apply Hord).
    eapply each_post in E; [exact E| |exact Hs]. clear E. intros y s1 o1 Hy Hs1 E1. specialize (Hg y Hy).
    destruct (cover n σ x y) as [[σ1 b]| |] eqn:Ec; try done. cbn [bind] in E1.
    destruct (cover_spec (fun v => ~ L v) (n + tsize y) σ x y) as (σ2 & b2 & Ec2 & Hr); [lia|apply Hp; by left|apply live_tgt, Hg|done|].
    apply (cover_mono _ (n + tsize y)) in Ec; [|lia]. rewrite Ec in Ec2. injection Ec2 as <- <-.
    destruct Hr as (Hsub & Hd & Hr). destruct b; [|by injection E1 as <-]. destruct Hr as [Ha Hdom].
    eapply (IH σ1); [done|intros; apply Hp; by right| |exact Hs1|exact E1].
    intros σ' s' o' Hs2 Hd2 Hx Hinv Ek. eapply (Hk σ'); [by transitivity σ1|done| |exact Hinv|exact Ek].
    intros z Hz. apply elem_of_cons in Hz as [->|Hz]; [|by apply Hx].
    intros v Hv. destruct (proj2 (Hdom v) (or_intror Hv)) as [t Ht]. exists t. by eapply lookup_weaken.
Qed.

Lemma fire_shape n r σ s o : r ∈ rules -> cover_dom (fun v => ~ L v) σ ->
  (forall x, x ∈ rbody r -> forall v, In v (vars x) -> is_Some (σ !! v)) ->
  sst s -> fire n (rhead r) σ s = Ok o -> post True sst o.
Proof.
  intros Hr Hd Hb Hs E. unfold fire in E. destruct (sapply n σ (rhead r)) as [h| |] eqn:Eh; try done. cbn [bind] in E.
  apply (sapply_sub σ (msub σ)) in Eh; [|by eapply follows_msub].
  destruct (term_eqb h t_fail) eqn:Ef; injection E as <-; [done|].
  cbn [post]. apply sst_update; [|done]. destruct (Hplain r Hr) as (Hrr & _ & _). split.
  - intros v Hv. rewrite Eh in Hv. apply vars_sub in Hv as (w & Hw & Hv). apply Hrr in Hw.
    apply in_flat_map in Hw as (b & Hbb & Hw). apply elem_of_list_In in Hbb.
    destruct (Hb b Hbb w Hw) as [t Ht]. unfold msub in Hv. rewrite Ht in Hv. simpl in Hv. destruct (Hd w t Ht) as [_ Htg].
    apply live_tgt in Htg. by apply Htg.
  - left. rewrite Eh. by apply ordinary_sub, Hord'.
Qed.

Lemma body_pat r b : r ∈ rules -> b ∈ rbody r -> pat (fun v => ~ L v) b.
Proof.
  intros Hr Hb v Hv. eapply HL; [exact Hr|]. unfold rule_vars. apply in_app_iff. right. apply in_flat_map.
  exists b. split; [by apply elem_of_list_In|done].
Qed.

Lemma cp_init_shape n s o : sst s -> cp_init ord n rules s = Ok o -> post True sst o.
Proof.
  intros Hs E. eapply each_post in E; [exact E| |exact Hs]. clear E Hs. intros r s1 o1 Hr Hs E.
  eapply cp_join_shape; [apply cover_dom_empty| | |exact Hs|exact E].
  - intros x Hx. by eapply body_pat.
  - intros σ s2 o2 _ Hd Hx Hs2 Ef. by eapply fire_shape.
Qed.

Lemma drive_shape n d s o : shp d -> sst s -> drive ord n rules d s = Ok o -> post True sst o.
Proof.
  intros Hg Hs E.
  eapply each_post in E; [exact E| |exact Hs]. clear E Hs. intros r s1 o1 Hr Hs E.
  eapply each_post in E; [exact E| |exact Hs]. clear E Hs. intros k s2 o2 Hk Hs E.
  destruct (rbody r !! k) as [b|] eqn:Eb; try done. destruct (cover n ∅ b d) as [[σ ok]| |] eqn:Ec; try done. cbn [bind] in E.
  assert (Hb : b ∈ rbody r) by by eapply elem_of_list_lookup_2.
  destruct (cover_spec (fun v => ~ L v) (n + tsize d) ∅ b d) as (σ2 & b2 & Ec2 & Hres); [lia|by eapply body_pat|apply live_tgt, Hg|apply cover_dom_empty|].
  apply (cover_mono _ (n + tsize d)) in Ec; [|lia]. rewrite Ec in Ec2. injection Ec2 as <- <-.
  destruct Hres as (_ & Hdm & Hres). destruct ok; [|by injection E as <-]. destruct Hres as [Ha Hdom].
  assert (Hbody : forall x, x ∈ rbody r <-> x = b \/ x ∈ take k (rbody r) ++ drop (S k) (rbody r)).
  { intros x. rewrite <- (take_drop_middle (rbody r) k b Eb) at 1. set_solver. }
  eapply cp_join_shape; [exact Hdm| | |exact Hs|exact E].
  - intros x Hx. eapply body_pat; [done|]. apply Hbody. by right.
  - intros σ' s' o' Hsub Hd' Hx Hs' Ef. eapply fire_shape; [done|exact Hd'| |exact Hs'|exact Ef].
    intros x Hxb. apply Hbody in Hxb as [->|Hxb]; [|by apply Hx].
    intros v Hv. destruct (proj2 (Hdom v) (or_intror Hv)) as [t Ht]. exists t. by eapply lookup_weaken.
Qed.

Lemma check_shape d s o : shp d -> sst s -> check_driver chk d s = Ok o -> post True sst o.
Proof.
  intros Hg Hs E. unfold check_driver in E.
  destruct (check chk d) as [c| |] eqn:Ec; try done. cbn [bind] in E. unfold check in Ec.
  destruct (has_fn "ks" d || has_fn "ws" d) eqn:Ek.
  { injection Ec as <-. injection E as <-. exact Hs. }
  destruct (has_fn "<" d || has_fn ">" d || has_fn "<=" d || has_fn ">=" d || has_fn "is" d) eqn:Eb.
  2:{ injection Ec as <-. by injection E as <-. }
  pose proof (Hchk d) as Hc. rewrite Ec in Hc. destruct c as [| |l]; injection E as <-; [done|done|].
  destruct Hc as [Hl _]. cbn [post]. apply (fold_left_inv sst); [|exact Hs].
  intros s1 [k v] Hkv Hs1. cbn [fst snd]. destruct (Hl k v Hkv) as [(u & -> & Hu) _]. destruct (Hnum d l (Var u) v Ec Hkv) as [z ->].
  apply sst_update; [|done]. split; [|right; eauto]. intros w [<-|[]]. by apply Hg.
Qed.

Lemma replace_ordinary x X Y : ordinary x -> (forall f, X <> Cst (CStr f)) -> (forall xs, X <> Fn xs) -> ordinary (replace_in_expr x X Y).
Proof.
  intros (f & args & -> & H) HX HF. cbn [replace_in_expr].
  destruct (term_eqb (Fn (Cst (CStr f) :: args)) X) eqn:E; [apply term_eqb_true in E; by destruct (HF _ (eq_sym E))|]. cbn [map replace_in_expr].
  destruct (term_eqb (Cst (CStr f)) X) eqn:E2; [apply term_eqb_true in E2; by destruct (HX f)|]. by eexists f, _.
Qed.

Lemma equate_shape d s o : shp d -> sst s -> equate ord ready d s = Ok o -> post True sst o.
Proof.
  intros Hg Hs E. unfold equate in E. destruct Hg as [Hl [Ho|(v & z & ->)]].
  { rewrite (ordinary_eq _ Ho) in E. by injection E as <-. }
  cbn [t_eq is_Var negb andb has_fn String.eqb Ascii.eqb Bool.eqb] in E. injection E as <-.
  set (s1 := CP (cp_chart s) (cp_agenda s) (cp_bindings s) (set_add (t_eq (Var v) (Cst (CInt z))) (cp_checked s))).
  assert (H1 : sst s1) by exact Hs.
  assert (H2 : sst (if term_eqb (Var v) (Cst (CInt z)) then s1 else replace_all ord (Var v) (Cst (CInt z)) s1)).
  { destruct (term_eqb (Var v) (Cst (CInt z))); [done|]. unfold replace_all. apply (fold_left_inv sst); [|done].
    intros s2 x Hx H2. apply elem_of_list_In, filter_In in Hx as [Hx Hf]. apply elem_of_list_In in Hx. apply (proj1 (Hord _ _)) in Hx.
    apply H1 in Hx as [Hlx Hsx]. apply andb_true_iff in Hf as [_ Hf]. apply negb_true_iff in Hf.
    destruct Hsx as [Hox|(u & z' & ->)]; [|done].
    apply sst_update; [|apply sst_update; [|done]]; (split; [|left; by apply replace_ordinary]); intros u Hu; apply replace_vars in Hu as [Hu|Hu].
    - by apply Hlx.
    - destruct Hu as [<-|[]]. apply Hl. simpl. auto.
    - by apply Hlx.
    - destruct Hu. }
  change (sst (let s := if term_eqb (Var v) (Cst (CInt z)) then s1 else replace_all ord (Var v) (Cst (CInt z)) s1 in
    CP (cp_chart s) (fold_left (fun ag x => if has_fn "is" x && ready x then set_add x ag else ag) (cp_chart s) (cp_agenda s))
       (cp_bindings s ++ [(Var v, Cst (CInt z))]) (cp_checked s))).
  revert H2. generalize (if term_eqb (Var v) (Cst (CInt z)) then s1 else replace_all ord (Var v) (Cst (CInt z)) s1). clear H1 Hs. clear s1. clear s. intros s (H1 & H2 & H3).
  cbv zeta. split; [exact H1|]. split; cbn [cp_agenda cp_chart cp_bindings].
  - apply (fold_left_inv (fun ag => forall x, x ∈ ag -> x ∈ cp_chart s)); [|done].
    intros ag x Hx Hag y Hy. destruct (has_fn "is" x && ready x); [|by apply Hag]. apply set_add_elem in Hy as [->|Hy]; auto.
  - intros X Y HXY. apply elem_of_app in HXY as [HXY|HXY]; [by apply H3|]. apply elem_of_list_singleton in HXY as [= -> ->]. eauto.
Qed.

Lemma hook_shape d s : shp d -> sst s -> sst (hook_bound d s).
Proof.
  intros Hg Hs. unfold hook_bound. destruct (has_fn "$bound" d); [|done].
  apply (rec_bound_inv sst live); [| |apply Hg|done].
  - intros x s1 Hx Hs1. apply sst_update; [|done]. split; [intros v Hv; simpl in Hv; rewrite app_nil_r in Hv; by apply Hx|].
    left. by exists "$bound", [x].
  - intros f args y Hx Hy v Hv. apply Hx. apply (vars_Fn_in v y); [|done]. right. by apply elem_of_list_In.
Qed.

Lemma cp_loop_shape n k : forall s o, sst s -> cp_loop ord pick chk ready n rules k s = Ok o -> post True sst o.
Proof.
  induction k as [|k IH]; intros s o Hs E; [done|]. cbn [cp_loop] in E.
  destruct (cp_agenda s) as [|a ag] eqn:Ea; [by injection E as <-|].
  set (i := pick (a :: ag) mod length (a :: ag)) in E. set (d := nth i (a :: ag) a) in E.
  set (s0 := CP (cp_chart s) (take i (a :: ag) ++ drop (S i) (a :: ag)) (cp_bindings s) (cp_checked s)) in E.
  assert (Hd : d ∈ cp_chart s) by (apply Hs; rewrite Ea; apply nth_elem).
  assert (H0 : sst s0).
  { destruct Hs as (H1 & H2 & H3). split; [done|]. split; [|done]. intros x Hx. apply H2. rewrite Ea. exact (take_drop_sub i _ x Hx). }
  clearbody d s0. assert (Hd0 : shp d) by by apply Hs. clear Hs Hd Ea.
  destruct (check_driver chk d s0) as [o1| |] eqn:E1; try done. cbn [bind] in E. eapply check_shape in E1 as H1; [|exact Hd0|exact H0].
  destruct o1 as [s1|]; [|by injection E as <-]. cbn [post] in H1.
  destruct (equate ord ready d s1) as [o2| |] eqn:E2; try done. cbn [bind] in E. eapply equate_shape in E2 as H2; [|exact Hd0|exact H1].
  destruct o2 as [s2|]; [|by injection E as <-]. cbn [post] in H2.
  destruct (drive ord n rules d s2) as [o3| |] eqn:E3; try done. cbn [bind] in E. eapply drive_shape in E3 as H3; [|exact Hd0|exact H2].
  destruct o3 as [s3|]; [|by injection E as <-]. cbn [post] in H3. eapply IH; [|exact E]. by apply hook_shape.
Qed.

Lemma propagate_shape n D o : (forall x, x ∈ D -> shp x) -> propagate ord pick chk ready n rules D = Ok o -> post True sst o.
Proof.
  intros HD E. unfold propagate in E.
  assert (H0 : sst (fold_left (fun s x => cp_update x s) D (CP [] [] [] []))).
  { apply (fold_left_inv sst); [intros s1 x Hx H1; apply sst_update; auto|].
    split; [|split]; cbn; intros; match goal with H : _ ∈ [] |- _ => by apply elem_of_nil in H end. }
  destruct (cp_init ord n rules _) as [o1| |] eqn:E1; try done. cbn [bind] in E. eapply cp_init_shape in E1; [|exact H0].
  destruct o1 as [s1|]; [|by injection E as <-]. eapply cp_loop_shape; [exact E1|exact E].
Qed.

Lemma rw_subst_ints bs : forall σ σ', (forall v t, σ !! v = Some t -> exists z, t = Cst (CInt z)) ->
  (forall X Y, (X, Y) ∈ bs -> exists v z, X = Var v /\ Y = Cst (CInt z)) -> rw_subst bs σ = Ok σ' ->
  forall v t, σ' !! v = Some t -> exists z, t = Cst (CInt z).
Proof.
  induction bs as [|[X Y] bs IH]; intros σ σ' Hσ Hb E; cbn [rw_subst] in E; [by injection E as <-|].
  destruct (Hb X Y ltac:(left)) as (v & z & -> & ->). eapply IH; [| |exact E].
  - intros u t Eu. destruct (decide (u = v)) as [->|Hn]; [rewrite lookup_insert in Eu; injection Eu as <-; eauto|].
    rewrite lookup_insert_ne in Eu by done. by eapply Hσ.
  - intros X' Y' HX. apply Hb. by right.
Qed.
Lemma sapply_vars σ n : (forall v t, σ !! v = Some t -> exists z, t = Cst (CInt z)) ->
  forall x y, sapply n σ x = Ok y -> incl (vars y) (vars x).
Proof.
  intros Hσ. induction n as [|n IH]; [done|]. intros [v|c|xs] y E; cbn [sapply] in E.
  - destruct (σ !! v) as [t|] eqn:Ev; [|injection E as <-; apply incl_refl]. destruct (Hσ v t Ev) as [z ->]. destruct n; [done|].
    cbn [sapply] in E. injection E as <-. intros w [].
  - injection E as <-. apply incl_refl.
  - destruct (mapM (sapply n σ) xs) as [ys| |] eqn:Em; try done. injection E as <-. apply mapM_Forall2 in Em.
    intros u Hu. simpl in Hu. apply in_flat_map in Hu as (y & Hy & Hu). apply elem_of_list_In in Hy.
    eapply Forall2_elem_r in Hy as (x & Hx & E); [|done]. apply (vars_Fn_in u x); [by apply elem_of_list_In|]. by apply (IH _ _ E).
Qed.

Lemma rw_call_shape n fv R t dc ui :
  (forall b, b ∈ rbody R -> ordinary b /\ live b) -> live (rhead R) ->
  rw_call ord pick chk ready rules fv n R dc ui true = Ok (Some t) ->
  live (rhead t) /\ forall b, b ∈ rbody t -> ordinary b /\ live b.
Proof.
  intros HR Hhd E. unfold rw_call in E.
  destruct (propagate ord pick chk ready n rules (rbody R)) as [o1| |] eqn:E1; try done. cbn [bind] in E.
  apply propagate_shape in E1; [|intros x Hx; split; [by apply HR|left; by apply HR]].
  destruct o1 as [s|]; [|done]. destruct E1 as (H1 & _ & H3).
  destruct (rw_subst (cp_bindings s) ∅) as [σ| |] eqn:Es; try done. cbn [bind] in E.
  pose proof (rw_subst_ints _ _ _ (fun v t Ev => ltac:(by rewrite lookup_empty in Ev)) H3 Es) as Hσ.
  destruct (mapM (sapply n σ) (List.filter (fun x => is_Term x && negb (has_fn "=" x)) (ord (cp_chart s)))) as [ch| |] eqn:Em; try done.
  cbn [bind] in E.
  assert (Hch : forall y, y ∈ remove_dups ch -> ordinary y /\ live y).
  { intros y Hy. apply (proj1 (elem_of_remove_dups _ _)) in Hy. apply mapM_Forall2 in Em. eapply Forall2_elem_r in Em as (x & Hx & Ex); [|exact Hy].
    apply elem_of_list_In, filter_In in Hx as [Hx Hf]. apply elem_of_list_In in Hx. apply (proj1 (Hord _ _)) in Hx.
    destruct (H1 x Hx) as [Hl [Ho|(v & z & ->)]]; [|done]. split.
    - rewrite (sapply_stau n σ n (le_n _) _ _ Ex). by apply ordinary_sub.
    - intros w Hw. apply Hl. by apply (sapply_vars σ n Hσ _ _ Ex). }
  revert E. generalize dependent (remove_dups ch). intros chart Hch E. clear Em ch.
  destruct (sapply n σ (rhead R)) as [h| |] eqn:Eh; try done. cbn [bind] in E.
  assert (Hh : live h) by (intros w Hw; apply Hhd; by apply (sapply_vars σ n Hσ _ _ Eh)).
  assert (Hfin : forall dr, Ok (Some (Rule h (ord (List.filter (fun x => negb (mem x dr)) chart)))) = Ok (Some t) ->
    live (rhead t) /\ forall b, b ∈ rbody t -> ordinary b /\ live b).
  { intros dr [= <-]. split; [exact Hh|]. cbn [rbody]. intros b Hb. apply (proj1 (Hord _ _)) in Hb.
    apply elem_of_list_In, filter_In in Hb as [Hb _]. apply elem_of_list_In in Hb. by apply Hch. }
  destruct ui; [|by eapply Hfin].
  destruct (insts_of "$bound" chart) as [bv| |] eqn:Ebv; try done. cbn [bind] in E.
  destruct (insts_of "$free" chart) as [fvs| |] eqn:Efv; try done. cbn [bind] in E.
  destruct (mapM _ fvs) as [used| |]; try done. cbn [bind] in E. by eapply Hfin.
Qed.
End shape.

(** * Loops with a counter *)
Lemma mapSM_run {A B} (f : A -> nat -> res (B * nat)) l : forall s bs s',
  (forall a s1 b s2, a ∈ l -> s <= s1 -> f a s1 = Ok (b, s2) -> s1 <= s2) ->
  mapSM f l s = Ok (bs, s') ->
  s <= s' /\ Forall2 (fun a b => exists s1 s2, s <= s1 /\ s1 <= s2 /\ s2 <= s' /\ f a s1 = Ok (b, s2)) l bs.
Proof.
  induction l as [|a l IH]; intros s bs s' Hf E; cbn [mapSM] in E; [injection E as <- <-; split; [done|constructor]|].
  destruct (f a s) as [[b s1]| |] eqn:Ef; try done. cbn [bind] in E.
  destruct (mapSM f l s1) as [[bs1 s2]| |] eqn:El; try done. cbn [bind] in E. injection E as <- <-.
  assert (H1 : s <= s1) by (eapply Hf; [left|done|exact Ef]).
  destruct (IH s1 bs1 s2) as [H2 H3]; [intros; eapply Hf; [by right|lia|done]|done|].
  split; [lia|]. constructor; [exists s, s1; repeat split; try lia; done|].
  eapply Forall2_impl; [exact H3|]. intros a' b' (t1 & t2 & ? & ? & ? & ?). exists t1, t2. repeat split; try lia; done.
Qed.

(** * Truncation *)
Lemma trunc_den D n : forall x c t c', truncate_term D n ∅ x c = Ok (t, c') ->
  c <= c' /\ (forall v, In v (vars t) -> In v (vars x) \/ c <= v < c') /\
  forall θ, gsub θ -> (forall v, In v (vars x) -> v < c) ->
    exists θ', gsub θ' /\ (forall v, ~ (c <= v < c') -> θ' v = θ v) /\ sub θ' t = sub θ x.
Proof.
  induction D as [|D IH]; intros x c t c' E; cbn [truncate_term] in E.
  - destruct (snap n ∅ x) as [x'| |]; try done. cbn [bind] in E. injection E as <- <-. split; [lia|]. split; [intros v [<-|[]]; lia|].
    intros θ Hθ Hx. exists (fun v => if decide (v = c) then sub θ x else θ v). split; [|split].
    + intros v. destruct (decide (v = c)); [by apply gsub_ground|done].
    + intros v Hv. rewrite decide_False; [done|lia].
    + cbn [sub]. by rewrite decide_True.
  - assert (Hsn : forall y y', snap n ∅ y = Ok y' -> y' = y).
    { intros y y' Ey. destruct n; [done|]. cbn [snap] in Ey. destruct y; [rewrite lookup_empty in Ey|..]; congruence. }
    destruct (snap n ∅ x) as [x'| |] eqn:Ex; try done. apply Hsn in Ex as ->. cbn [bind] in E.
    assert (Hsame : forall y, c <= c /\ (forall v, In v (vars y) -> In v (vars y) \/ c <= v < c) /\
      forall θ, gsub θ -> (forall v, In v (vars y) -> v < c) -> exists θ', gsub θ' /\ (forall v, ~ (c <= v < c) -> θ' v = θ v) /\ sub θ' y = sub θ y).
    { intros y. split; [done|]. split; [auto|]. intros θ Hθ _. exists θ. done. }
    destruct x as [v|k|[|f args]]; [injection E as <- <-; apply Hsame|injection E as <- <-; apply Hsame|done|].
    destruct (snap n ∅ f) as [f'| |] eqn:Ef; try done. apply Hsn in Ef as ->. cbn [bind] in E.
    destruct (mapSM (truncate_term D n ∅) args c) as [[ts c1]| |] eqn:Em; try done. cbn [bind] in E. injection E as <- <-.
    assert (H : c <= c1 /\ (forall v, In v (flat_map vars ts) -> In v (flat_map vars args) \/ c <= v < c1) /\
      forall θ, gsub θ -> (forall v, In v (flat_map vars args) -> v < c) ->
        exists θ', gsub θ' /\ (forall v, ~ (c <= v < c1) -> θ' v = θ v) /\ map (sub θ') ts = map (sub θ) args).
    { clear Hsame. revert c ts c1 Em. induction args as [|a args IHa]; intros c ts c1 Em; cbn [mapSM] in Em.
      - injection Em as <- <-. split; [done|]. split; [by intros v []|]. intros θ Hθ _. by exists θ.
      - destruct (truncate_term D n ∅ a c) as [[b c2]| |] eqn:Ea; try done. cbn [bind] in Em.
        destruct (mapSM (truncate_term D n ∅) args c2) as [[bs c3]| |] eqn:Eb; try done. cbn [bind] in Em. injection Em as <- <-.
        destruct (IH _ _ _ _ Ea) as (A1 & A2 & A3). destruct (IHa _ _ _ Eb) as (B1 & B2 & B3). split; [lia|]. split.
        + intros v Hv. cbn [flat_map] in *. apply in_app_iff in Hv as [Hv|Hv].
          * apply A2 in Hv as [Hv|Hv]; [left; apply in_app_iff; auto|right; lia].
          * apply B2 in Hv as [Hv|Hv]; [left; apply in_app_iff; auto|right; lia].
        + intros θ Hθ Hv. destruct (A3 θ Hθ) as (θ1 & G1 & O1 & E1); [intros v Hin; apply Hv; cbn [flat_map]; apply in_app_iff; auto|].
          destruct (B3 θ1 G1) as (θ2 & G2 & O2 & E2).
          { intros v Hin. enough (v < c) by lia. apply Hv. cbn [flat_map]. apply in_app_iff. auto. }
          exists θ2. split; [done|]. split; [intros v Hn; rewrite O2 by lia; apply O1; lia|]. cbn [map]. f_equal.
          * rewrite <- E1. apply sub_ext. intros v Hin. apply O2. apply A2 in Hin as [Hin|Hin]; [|lia].
            enough (v < c) by lia. apply Hv. cbn [flat_map]. apply in_app_iff. auto.
          * rewrite E2. apply map_ext_in. intros y Hy. apply sub_ext. intros v Hin. apply O1.
            enough (v < c) by lia. apply Hv. cbn [flat_map]. apply in_app_iff. right. apply in_flat_map. eauto. }
    destruct H as (H1 & H2 & H3). split; [done|]. split.
    + intros v Hv. cbn [vars flat_map] in *. apply in_app_iff in Hv as [Hv|Hv]; [left; apply in_app_iff; auto|].
      apply H2 in Hv as [Hv|Hv]; [left; apply in_app_iff; auto|auto].
    + intros θ Hθ Hv. destruct (H3 θ Hθ) as (θ' & G & O & Es).
      { intros v Hin. apply Hv. cbn [vars flat_map]. apply in_app_iff. auto. }
      exists θ'. split; [done|]. split; [done|]. cbn [sub map]. rewrite Es. do 2 f_equal. apply sub_ext. intros v Hin. apply O.
      enough (v < c) by lia. apply Hv. cbn [vars flat_map]. apply in_app_iff. auto.
Qed.

(** * The analysis *)
Section analysis.
Context (ord : list term -> list term) (pick : list term -> nat) (Hord : any_order ord).
Context (chk : term -> res checked) (ready : term -> bool) (rules : list rule) (fv : nat).
Context (inputs : list term) (max_depth : nat) (use_insts : bool).
Context (I : term -> Prop) (HI : model_of I rules) (Hchk : chk_right I chk) (Hnum : chk_numbers chk).
Context (Hplain : forall r, r ∈ rules -> plain_rule r) (Hrules : forall r, r ∈ rules -> ordinary (rhead r)).
Context (Hin : forall d, d ∈ inputs -> whole d /\ ordinary d).
(** the variables of rules and declarations, and the first new variable *)
Context (B : list nat) (c0 : nat) (HBr : forall r v, r ∈ rules -> In v (rule_vars r) -> In v B).
Context (HBi : forall d v, d ∈ inputs -> In v (vars d) -> In v B) (HBc : forall v, In v B -> v < c0).

Definition lv (c : nat) (v : nat) : Prop := v < c /\ ~ In v B.
Definition lvt (c : nat) (t : term) : Prop := forall v, In v (vars t) -> lv c v.
Definition wft (c : nat) (r : rule) : Prop := lvt c (rhead r) /\ forall b, b ∈ rbody r -> ordinary b /\ lvt c b.
Definition VV (c : nat) : gset nat := list_to_set (List.filter (fun v => negb (existsb (Nat.eqb v) B)) (seq 0 c)).

Lemma VV_elem c v : v ∈ VV c <-> lv c v.
Proof.
  unfold VV, lv. rewrite elem_of_list_to_set, elem_of_list_In, filter_In, in_seq, negb_true_iff.
  assert (H : existsb (Nat.eqb v) B = false <-> ~ In v B).
  { rewrite <- not_true_iff_false, existsb_exists. split.
    - intros Hn Hv. apply Hn. exists v. split; [done|apply Nat.eqb_refl].
    - intros Hn (u & Hu & ->%Nat.eqb_eq). done. }
  rewrite H. split; intros [? ?]; (split; [lia|done]).
Qed.
Lemma lv_dec c v : lv c v \/ ~ lv c v.
Proof. rewrite <- !VV_elem. destruct (decide (v ∈ VV c)); auto. Qed.
Lemma lv_mono c c' v : c <= c' -> lv c v -> lv c' v.
Proof. intros ? []. split; [lia|done]. Qed.
Lemma lvt_mono c c' t : c <= c' -> lvt c t -> lvt c' t.
Proof. intros Hc H v Hv. eapply lv_mono; [done|by apply H]. Qed.
Lemma wft_mono c c' r : c <= c' -> wft c r -> wft c' r.
Proof. intros Hc [H1 H2]. split; [by eapply lvt_mono|]. intros b Hb. destruct (H2 b Hb). split; [done|by eapply lvt_mono]. Qed.
Lemma lv_new c c' v : c0 <= c -> c <= v < c' -> lv c' v.
Proof. intros H1 H2. split; [lia|]. intros Hb. apply HBc in Hb. lia. Qed.
Lemma okst_mono c c' st : c <= c' -> okst (VV c) st -> okst (VV c') st.
Proof.
  intros Hc (H1 & H2 & H3). split; [done|]. split.
  - intros v t E u Hu. apply VV_elem. eapply lv_mono; [done|]. apply VV_elem. by eapply H2.
  - intros v Hv. apply VV_elem. eapply lv_mono; [done|]. apply VV_elem. by apply H3.
Qed.
Lemma lvt_in_V c t : lvt c t <-> in_V (VV c) t.
Proof. split; intros H v Hv; [apply VV_elem|apply VV_elem]; by apply H. Qed.
Lemma wft_apart c r b : wft c r -> b ∈ rbody r -> plain_constraint b /\ no_kw b /\ apart rules b.
Proof.
  intros [_ H] Hb. destruct (H b Hb) as [Ho Hl]. destruct (ordinary_plain b Ho). split; [done|]. split; [done|].
  intros q v Hq Hv Hin'. apply (Hl v Hin'). by eapply HBr.
Qed.

Lemma dec_enc r : dec (enc r) = r.
Proof. by destruct r. Qed.

Lemma fresh_r_ok n c r r' c' : c0 <= c -> fresh_r n c r = Ok (r', c') ->
  c <= c' /\ ((forall b, b ∈ rbody r -> ordinary b) -> wft c' r') /\
  (forall x, denotes I r x <-> denotes I r' x) /\
  (forall θ x, gsub θ -> denotes I r x -> exists θ', gsub θ' /\ (forall v, v < c -> θ' v = θ v) /\ sub θ' (rhead r') = x /\ forall b, b ∈ rbody r' -> I (sub θ' b)).
Proof.
  intros Hc E. unfold fresh_r in E. destruct (fresh (fun j => j) n ∅ c (enc r)) as [[t c1]| |] eqn:Ef; try done. cbn [bind] in E.
  injection E as <- <-. apply fresh_ok in Ef as (Hcc & ρ & Hρ & -> & Hran). unfold enc. cbn [rename sub map dec].
  assert (Hb : forall b, b ∈ rbody r -> incl (vars b) (vars (enc r))).
  { intros b Hb v Hv. apply (vars_Fn_in v b); [right; by apply elem_of_list_In|done]. }
  assert (Hh : incl (vars (rhead r)) (vars (enc r))).
  { intros v Hv. apply (vars_Fn_in v (rhead r)); [by left|done]. }
  assert (Hg : forall θ x, gsub θ -> denotes I r x -> exists θ', gsub θ' /\ (forall v, v < c -> θ' v = θ v) /\
    sub θ' (rename ρ (rhead r)) = x /\ forall b, b ∈ map (rename ρ) (rbody r) -> I (sub θ' b)).
  { intros θ x Hθ (η & Hη & Hx & Hbs). destruct (reground ρ (enc r) η θ Hρ Hη Hθ) as (θ' & G & Hs & Ho). exists θ'. split; [done|]. split.
    - intros v Hv. apply Ho. intros u Hu. specialize (Hran u Hu). lia.
    - split; [by rewrite Hs|]. intros b Hin'. apply elem_of_list_In, in_map_iff in Hin' as (a & <- & Ha). apply elem_of_list_In in Ha.
      rewrite Hs by (by apply Hb). by apply Hbs. }
  split; [done|]. split; [|split; [|exact Hg]].
  - intros Hor. split; cbn [rhead rbody].
    + intros v Hv. apply vars_sub in Hv as (w & Hw & [<-|[]]). eapply lv_new; [done|]. apply Hran. by apply Hh.
    + intros b Hin'. apply elem_of_list_In, in_map_iff in Hin' as (a & <- & Ha). apply elem_of_list_In in Ha.
      split; [by apply ordinary_sub, Hor|]. intros v Hv. apply vars_sub in Hv as (w & Hw & [<-|[]]). eapply lv_new; [done|]. apply Hran. by apply (Hb a).
  - intros x. split.
    + intros Hd. destruct (Hg (fun _ => Cst (CInt 0)) x ltac:(done) Hd) as (θ' & G & _ & H1 & H2). by exists θ'.
    + intros (θ & Hθ & Hx & Hbs). cbn [rhead rbody] in *. exists (fun v => θ (ρ v)). split; [intros v; apply Hθ|]. split.
      * rewrite <- Hx. rewrite sub_sub. done.
      * intros b Hin'. replace (sub (fun v => θ (ρ v)) b) with (sub θ (rename ρ b)) by (unfold rename; by rewrite sub_sub).
        apply Hbs. apply elem_of_list_In, in_map_iff. exists b. split; [done|by apply elem_of_list_In].
Qed.

Lemma relax_ok n R c o c' : c0 <= c -> wft c R ->
  relax ord pick chk ready rules fv max_depth use_insts n R c = Ok (o, c') ->
  c <= c' /\ (forall t, o = Some t -> wft c' t) /\ forall x, denotes I R x -> exists t, o = Some t /\ denotes I t x.
Proof.
  intros Hc HR E. unfold relax in E.
  destruct (rw_call ord pick chk ready rules fv n R false use_insts true) as [o1| |] eqn:E1; try done. cbn [bind] in E.
  assert (Hs : forall x, denotes I R x -> exists t, o1 = Some t /\ denotes I t x).
  { intros x (θ & Hθ & Hx & Hb).
    destruct (rw_call_sound ord pick Hord chk ready rules fv I Hchk n R false use_insts true θ o1 HI Hplain (or_introl eq_refl) Hθ) as (t & -> & Ht & Hbt); [|exact E1|].
    - intros b Hb'. destruct (wft_apart c R b HR Hb') as (H1 & _ & H2). apply good_plain; [by apply Hb|done|done].
    - exists t. split; [done|]. exists θ. split; [done|]. split; [by rewrite Ht|done]. }
  destruct o1 as [r|].
  2:{ injection E as <- <-. split; [done|]. split; [done|]. intros x Hx. by destruct (Hs x Hx) as (t & ? & _). }
  assert (Hr : wft c r).
  { destruct HR as [HR1 HR2].
    assert (HL : forall q v, q ∈ rules -> In v (rule_vars q) -> ~ lv c v) by (intros q v Hq Hv [_ Hn]; apply Hn; by eapply HBr).
    pose proof (rw_call_shape ord pick Hord chk ready I rules Hchk Hnum Hplain Hrules (lv c) HL (lv_dec c) n fv R r false use_insts HR2 HR1 E1) as [G1 G2].
    by split. }
  destruct (truncate_term max_depth n ∅ (rhead r) c) as [[h c1]| |] eqn:Et; try done. cbn [bind] in E.
  destruct (term_vars n ∅ h []) as [hv| |] eqn:Ehv; try done. cbn [bind] in E.
  match type of E with context [mapM ?f (rbody r)] => destruct (mapM f (rbody r)) as [l| |] eqn:Em; try done end. cbn [bind] in E.
  injection E as <- <-. apply trunc_den in Et as (Hcc & Hv & Hden).
  assert (Hl : forall b, b ∈ ord (remove_dups (map fst (List.filter snd l))) -> b ∈ rbody r).
  { intros b Hb. apply (proj1 (Hord _ _)), (proj1 (elem_of_remove_dups _ _)), elem_of_list_In, in_map_iff in Hb as ([b' k] & <- & Hb).
    apply filter_In in Hb as [Hb _]. apply elem_of_list_In in Hb. apply mapM_Forall2 in Em. eapply Forall2_elem_r in Em as (a & Ha & Ea); [|exact Hb].
    destruct (term_vars n ∅ a []) as [vs| |]; try done. cbn [bind] in Ea. injection Ea as <- _. exact Ha. }
  split; [done|]. split.
  - intros t [= <-]. split; cbn [rhead rbody].
    + intros v Hin'. apply Hv in Hin' as [Hin'|Hin']; [eapply lv_mono; [done|by apply Hr]|by eapply lv_new].
    + intros b Hb. apply Hl in Hb. destruct Hr as [_ Hr]. destruct (Hr b Hb). split; [done|by eapply lvt_mono].
  - intros x Hx. destruct (Hs x Hx) as (t & [= <-] & (θ & Hθ & Hh & Hb)). eexists. split; [reflexivity|].
    destruct (Hden θ Hθ) as (θ' & G & O & Es); [intros v Hin'; by apply Hr|]. exists θ'. split; [done|]. cbn [rhead rbody]. split; [by rewrite Es|].
    intros b Hb'. apply Hl in Hb'. replace (sub θ' b) with (sub θ b); [by apply Hb|]. apply sub_ext. intros v Hin'. symmetry. apply O.
    destruct Hr as [_ Hr]. destruct (Hr b Hb') as [_ Hlb]. destruct (Hlb v Hin'). lia.
Qed.

(** ** Looking up and joining *)
Definition Den (chart : list term) (x : term) : Prop := exists t, t ∈ chart /\ denotes I (dec t) x.
Definition atom (q : term) : Prop := is_const q = true \/ exists f args, q = Fn (Cst f :: args).
Definition sat (D : term -> Prop) (θ : nat -> term) (q : term) : Prop :=
  is_const q = true \/ (is_instance inputs (sub θ q) /\ I (sub θ q)) \/ (~ is_instance inputs (sub θ q) /\ D (sub θ q)).
(** a join result and how a solution extends to it *)
Definition rok (c' : nat) (p : list term * store) : Prop :=
  okst (VV c') (snd p) /\ forall b, b ∈ fst p -> ordinary b /\ lvt c' b.
Definition ext (c : nat) (θ : nat -> term) (p : list term * store) : Prop :=
  exists θ', gsub θ' /\ (forall v, v < c -> θ' v = θ v) /\ solves θ' (snd p) /\ forall b, b ∈ fst p -> I (sub θ' b).
Definition ord_chart (chart : list term) : Prop := forall t, t ∈ chart -> forall b, b ∈ rbody (dec t) -> ordinary b.

Lemma rok_mono c c' p : c <= c' -> rok c p -> rok c' p.
Proof. intros Hc [H1 H2]. split; [by eapply okst_mono|]. intros b Hb. destruct (H2 b Hb). split; [done|by eapply lvt_mono]. Qed.

Lemma match_types_ok n st q : forall chart c l c',
  c0 <= c -> okst (VV c) st -> lvt c q -> ord_chart chart -> match_types n st q chart c = Ok (l, c') ->
  c <= c' /\ (forall p, p ∈ l -> rok c' p) /\
  forall θ, gsub θ -> solves θ st -> Den chart (sub θ q) -> exists p, p ∈ l /\ ext c θ p.
Proof.
  induction chart as [|t chart IH]; intros c l c' Hc Hst Hq Hch E; cbn [match_types] in E.
  - injection E as <- <-. split; [done|]. split; [intros p Hp; by apply elem_of_nil in Hp|]. intros θ _ _ (t & Ht & _). by apply elem_of_nil in Ht.
  - destruct (fresh_r n c (dec t)) as [[r c1]| |] eqn:Ef; try done. cbn [bind] in E.
    apply fresh_r_ok in Ef as (Hc1 & Hw & _ & Hden); [|done].
    assert (Hwr : wft c1 r) by (apply Hw; intros b Hb; eapply Hch; [left|exact Hb]).
    destruct (unify_f n st (rhead r) q) as [[st' b]| |] eqn:Eu; try done. cbn [bind] in E.
    destruct (match_types n st q chart c1) as [[rest c2]| |] eqn:Em; try done. cbn [bind] in E. injection E as <- <-.
    pose proof (okst_mono c c1 st Hc1 Hst) as Hst1.
    eapply (unify_V_ok (VV c1)) in Eu as (Hst' & Hsub & Hu); [|exact Hst1|apply lvt_in_V; exact (proj1 Hwr)|apply lvt_in_V; by eapply lvt_mono].
    apply IH in Em as (Hc2 & Hrest & Hfind); [|lia|done|by eapply lvt_mono|intros t' Ht'; apply Hch; by right].
    split; [lia|]. split.
    + intros p Hp. destruct b; [|by apply Hrest]. apply elem_of_cons in Hp as [->|Hp]; [|by apply Hrest].
      eapply rok_mono; [exact Hc2|]. split; [done|]. intros b Hb. cbn [fst] in Hb. by apply Hwr.
    + intros θ Hθ Hs (t' & Ht' & Hd). apply elem_of_cons in Ht' as [->|Ht'].
      * destruct (Hden θ _ Hθ Hd) as (θ' & G & O & Hh & Hb).
        assert (Hs' : solves θ' st).
        { eapply solves_agree; [exact Hst| |exact Hs]. intros v Hv. symmetry. apply O. by apply VV_elem in Hv as [? _]. }
        assert (Eq : sub θ' q = sub θ q) by (apply sub_ext; intros v Hv; apply O; by apply Hq).
        destruct b; [|exfalso; apply (Hu θ' Hs'); congruence].
        eexists. split; [left|]. exists θ'. split; [done|]. split; [done|]. split; [|done]. cbn [snd]. apply Hu. split; [done|congruence].
      * destruct (Hfind θ Hθ Hs) as (p & Hp & θ' & G & O & H1 & H2); [by exists t'|]. exists p. split; [destruct b; [by right|done]|].
        exists θ'. split; [done|]. split; [intros v Hv; apply O; lia|done].
Qed.

Lemma any_unifies_inputs n st q c f args b :
  okst (VV c) st -> lvt c q -> q = Fn (Cst f :: args) -> any_unifies n st inputs q = Ok b ->
  if b then ordinary q /\ forall θ, is_instance inputs (sub θ q) else forall θ, solves θ st -> ~ is_instance inputs (sub θ q).
Proof.
  intros Hst Hq Eq E. pose proof Hst as (Hac & Hcl & Hdm). apply any_unifies_run in E; [|done]. destruct b.
  - destruct (proj1 E eq_refl) as (d & Hd & σ & Hs & Es). destruct (Hin d Hd) as [(g & vs & Ed & Hnd) (g' & args' & Ed' & Hg)].
    rewrite Ed' in Ed. injection Ed as <- ->. rewrite Ed', Eq in Es. cbn [sub map] in Es. injection Es as <- Es. split; [by exists g', args; rewrite Eq|].
    intros θ. exists d. split; [done|]. rewrite Ed', Eq. cbn [sub map].
    assert (Hlen : length vs = length args) by (apply (f_equal length) in Es; by rewrite !map_length in Es).
    clear -Hnd Hlen. assert (H : exists τ, map (fun v => τ v) vs = map (sub θ) args).
    { revert args Hlen. induction Hnd as [|v vs Hv Hnd IH]; intros [|a args] Hlen; try done; [by exists Var|].
      cbn [length] in Hlen. injection Hlen as Hlen. destruct (IH args Hlen) as [τ Hτ].
      exists (fun u => if decide (u = v) then sub θ a else τ u). cbn [map]. rewrite decide_True by done. f_equal. rewrite <- Hτ.
      apply map_ext_in. intros u Hu. rewrite decide_False; [done|]. congruence. }
    destruct H as [τ Hτ]. exists τ. cbn [sub map]. do 2 f_equal. rewrite map_map. exact Hτ.
  - intros θ Hs (d & Hd & τ & Eτ). assert (false = true); [|done]. apply E. exists d. split; [done|].
    exists (fun v => if decide (In v B) then τ v else θ v). split.
    + eapply solves_agree; [exact Hst| |exact Hs]. intros v Hv. apply VV_elem in Hv as [_ Hv]. by rewrite decide_False.
    + transitivity (sub τ d); [apply sub_ext; intros v Hv; rewrite decide_True; [done|by eapply HBi]|].
      rewrite Eτ. apply sub_ext. intros v Hv. rewrite decide_False; [done|]. by apply Hq.
Qed.

Lemma lookup_types_ok n st q chart c l c' :
  c0 <= c -> okst (VV c) st -> lvt c q -> atom q -> ord_chart chart ->
  lookup_types inputs n st q chart c = Ok (l, c') ->
  c <= c' /\ (forall p, p ∈ l -> rok c' p) /\
  forall θ, gsub θ -> solves θ st -> sat (Den chart) θ q -> exists p, p ∈ l /\ ext c θ p.
Proof.
  intros Hc Hst Hq Ha Hch E. unfold lookup_types in E. destruct (snap n st q) as [q'| |] eqn:Es; try done. cbn [bind] in E.
  assert (q' = q) as ->.
  { destruct n as [|n]; [done|]. cbn [snap] in Es. destruct Ha as [Hk|(f & args & ->)]; [|by injection Es as <-].
    destruct q; try done. by injection Es as <-. }
  destruct q as [v|k|xs].
  - exfalso. destruct Ha as [?|(f & args & ?)]; done.
  - injection E as <- <-. split; [done|]. split.
    + intros p Hp. apply elem_of_list_singleton in Hp as ->. split; [done|]. intros b Hb. by apply elem_of_nil in Hb.
    + intros θ Hθ Hs _. eexists. split; [left|]. exists θ. split; [done|]. split; [done|]. split; [done|]. intros b Hb. by apply elem_of_nil in Hb.
  - destruct Ha as [?|(f & args & Eq)]; [done|].
    destruct (any_unifies n st inputs (Fn xs)) as [i| |] eqn:Ei; try done. cbn [bind] in E.
    apply (any_unifies_inputs n st _ c f args i Hst Hq Eq) in Ei. destruct i.
    + injection E as <- <-. destruct Ei as [Ho Hi]. split; [done|]. split.
      * intros p Hp. apply elem_of_list_singleton in Hp as ->. split; [done|]. intros b Hb. by apply elem_of_list_singleton in Hb as ->.
      * intros θ Hθ Hs Hsat. eexists. split; [left|]. exists θ. split; [done|]. split; [done|]. split; [done|].
        intros b Hb. apply elem_of_list_singleton in Hb as ->. destruct Hsat as [?|[[_ ?]|[Hn _]]]; [done|done|]. by destruct (Hn (Hi θ)).
    + destruct (is_builtin (Fn xs)); [done|]. apply match_types_ok in E as (H1 & H2 & H3); [|done..]. split; [done|]. split; [done|].
      intros θ Hθ Hs Hsat. apply H3; [done|done|]. destruct Hsat as [?|[[Hi _]|[_ ?]]]; [done| |done]. by destruct (Ei θ Hs).
Qed.

Lemma join_types_ok n : forall qs chart st c l c',
  c0 <= c -> okst (VV c) st -> (forall q, q ∈ qs -> lvt c q /\ atom q) -> ord_chart chart ->
  join_types inputs n qs chart st c = Ok (l, c') ->
  c <= c' /\ (forall p, p ∈ l -> rok c' p) /\
  forall θ, gsub θ -> solves θ st -> (forall q, q ∈ qs -> sat (Den chart) θ q) -> exists p, p ∈ l /\ ext c θ p.
Proof.
  induction qs as [|q qs IH]; intros chart st c l c' Hc Hst Hq Hch E; cbn [join_types] in E.
  - injection E as <- <-. split; [done|]. split.
    + intros p Hp. apply elem_of_list_singleton in Hp as ->. split; [done|]. intros b Hb. by apply elem_of_nil in Hb.
    + intros θ Hθ Hs _. eexists. split; [left|]. exists θ. split; [done|]. split; [done|]. split; [done|]. intros b Hb. by apply elem_of_nil in Hb.
  - destruct (lookup_types inputs n st q chart c) as [[l1 c1]| |] eqn:E1; try done. cbn [bind] in E.
    match type of E with context [mapSM ?f l1 c1] => set (g := f) in E end.
    destruct (mapSM g l1 c1) as [[ls c2]| |] eqn:E2; try done. cbn [bind] in E. injection E as <- <-.
    apply lookup_types_ok in E1 as (Hc1 & Hr1 & Hf1); [|done|done|apply Hq; left|apply Hq; left|done].
    assert (Hg : forall p s1 m s2, p ∈ l1 -> c1 <= s1 -> g p s1 = Ok (m, s2) ->
      s1 <= s2 /\ (forall p', p' ∈ m -> rok s2 p') /\
      forall θ, gsub θ -> solves θ (snd p) -> (forall q, q ∈ qs -> sat (Den chart) θ q) -> (forall b, b ∈ fst p -> I (sub θ b)) -> exists p', p' ∈ m /\ ext s1 θ p').
    { intros p s1 m s2 Hp Hs1 Eg. unfold g in Eg. destruct (join_types inputs n qs chart (snd p) s1) as [[m' s3]| |] eqn:Ej; try done.
      cbn [bind] in Eg. injection Eg as <- <-. destruct (Hr1 p Hp) as [Ho Hb].
      apply IH in Ej as (H1 & H2 & H3); [|lia|by eapply okst_mono|intros q' Hq'; destruct (Hq q' ltac:(by right)); split; [eapply lvt_mono; [|done]; lia|done]|done].
      split; [done|]. split.
      - intros p' Hp'. apply elem_of_list_In, in_map_iff in Hp' as (a & <- & Ha). apply elem_of_list_In in Ha. destruct (H2 a Ha) as [G1 G2].
        split; [done|]. cbn [fst]. intros b Hb'. apply elem_of_app in Hb' as [Hb'|Hb']; [|by apply G2].
        destruct (Hb b Hb'). split; [done|]. eapply lvt_mono; [|done]. lia.
      - intros θ Hθ Hs Hsat HIb. destruct (H3 θ Hθ Hs Hsat) as (a & Ha & θ' & G & O & Hs' & HI').
        eexists. split; [apply elem_of_list_In, in_map_iff; exists a; split; [reflexivity|by apply elem_of_list_In]|].
        exists θ'. split; [done|]. split; [done|]. split; [done|]. cbn [fst]. intros b Hb'. apply elem_of_app in Hb' as [Hb'|Hb']; [|by apply HI'].
        replace (sub θ' b) with (sub θ b); [by apply HIb|]. apply sub_ext. intros v Hv. symmetry. apply O.
        destruct (Hb b Hb') as [_ Hl]. destruct (Hl v Hv). lia. }
    apply mapSM_run in E2 as [Hc2 Hall]; [|intros a s1 b s2 Ha Hs1 Ea; by eapply Hg].
    split; [lia|]. split.
    + intros p Hp. apply elem_of_list_In, in_concat in Hp as (m & Hm & Hp). apply elem_of_list_In in Hm. apply elem_of_list_In in Hp.
      eapply Forall2_elem_r in Hall as (a & Ha & s1 & s2 & ? & ? & ? & Ea); [|exact Hm]. destruct (Hg _ _ _ _ Ha ltac:(done) Ea) as (_ & H2 & _).
      eapply rok_mono; [|by apply H2]. done.
    + intros θ Hθ Hs Hsat. destruct (Hf1 θ Hθ Hs) as (a & Ha & θ1 & G1 & O1 & S1 & I1); [apply Hsat; left|].
      eapply Forall2_elem_l in Hall as (m & Hm & s1 & s2 & ? & ? & ? & Ea); [|exact Ha]. destruct (Hg _ _ _ _ Ha ltac:(done) Ea) as (_ & _ & H3).
      destruct (H3 θ1 G1 S1) as (p & Hp & θ2 & G2 & O2 & S2 & I2); [|done|].
      * intros q' Hq'. assert (Eq : sub θ1 q' = sub θ q').
        { apply sub_ext. intros v Hv. apply O1. destruct (Hq q' ltac:(by right)) as [Hl _]. by apply Hl. }
        unfold sat. rewrite Eq. apply Hsat. by right.
      * exists p. split; [apply elem_of_list_In, in_concat; exists m; by split; apply elem_of_list_In|].
        exists θ2. split; [done|]. split; [intros v Hv; rewrite O2 by lia; by apply O1|done].
Qed.

Lemma deref_rule_ok n c st h bs R : okst (VV c) st -> lvt c h -> (forall b, b ∈ bs -> ordinary b /\ lvt c b) ->
  deref_rule n st h bs = Ok R ->
  wft c R /\ forall θ, gsub θ -> solves θ st -> (forall b, b ∈ bs -> I (sub θ b)) -> denotes I R (sub θ h).
Proof.
  intros Hst Hh Hb E. unfold deref_rule in E. destruct (deref n st h) as [h'| |] eqn:Eh; try done. cbn [bind] in E.
  destruct (mapM (deref n st) bs) as [bs'| |] eqn:Em; try done. cbn [bind] in E. injection E as <-. apply mapM_Forall2 in Em.
  assert (Hin_V : forall m x y, lvt c x -> deref m st x = Ok y -> lvt c y).
  { destruct Hst as (_ & Hcl & _). clear -Hcl. induction m as [|m IH]; [done|]. intros [v|k|xs] y Hx E; cbn [deref] in E.
    - destruct (st !! v) as [t|] eqn:Ev; [|by injection E as <-]. eapply IH; [|exact E]. apply lvt_in_V. by eapply Hcl.
    - by injection E as <-.
    - destruct (mapM (deref m st) xs) as [ys| |] eqn:Em; try done. injection E as <-. apply mapM_Forall2 in Em.
      intros u Hu. simpl in Hu. apply in_flat_map in Hu as (y & Hy & Hu). apply elem_of_list_In in Hy.
      eapply Forall2_elem_r in Hy as (x & Hx' & E); [|done]. eapply IH; [|exact E|exact Hu]. intros w Hw. apply Hx. apply (vars_Fn_in w x); [by apply elem_of_list_In|done]. }
  split.
  - split; cbn [rhead rbody]; [by eapply Hin_V|]. intros b Hb'. eapply Forall2_elem_r in Em as (a & Ha & Ea); [|exact Hb'].
    destruct (Hb a Ha) as [Ho Hl]. split; [|by eapply Hin_V]. destruct Hst as (Hac & _). destruct (acyclic_resolution _ Hac) as [θ Hθ].
    apply (deref_ok st θ Hac Hθ) in Ea. rewrite Ea. by apply ordinary_sub.
  - intros θ Hθ Hs HIb. exists θ. split; [done|]. cbn [rhead rbody]. split; [by eapply deref_sub|]. intros b Hb'.
    eapply Forall2_elem_r in Em as (a & Ha & Ea); [|exact Hb']. rewrite (deref_sub _ _ _ _ _ θ Hst Ea Hs). by apply HIb.
Qed.

(** ** Adding to the chart *)
Definition wfchart (c : nat) (xs : list term) : Prop := forall t, t ∈ xs -> (exists r, t = enc r) /\ wft c (dec t).
Lemma wfchart_mono c c' xs : c <= c' -> wfchart c xs -> wfchart c' xs.
Proof. intros Hc H t Ht. destruct (H t Ht). split; [done|by eapply wft_mono]. Qed.
Lemma wfchart_ord c xs : wfchart c xs -> ord_chart xs.
Proof. intros H t Ht b Hb. destruct (H t Ht) as [_ [_ H2]]. by apply H2. Qed.

Notation cv := (cov ord pick chk ready rules fv).
Lemma cov_sound n c x y : wft c (dec x) -> wft c (dec y) -> cv n x y = Ok true -> forall z, denotes I (dec y) z -> denotes I (dec x) z.
Proof.
  intros Hx Hy E. eapply (rw_covers_sound ord pick Hord chk ready rules fv I Hchk); [done|done| | |exact E].
  - intros b Hb. by destruct (wft_apart c _ b Hy Hb) as (? & ? & ?).
  - intros b Hb. by destruct (wft_apart c _ b Hx Hb) as (? & ? & ?).
Qed.

Lemma mgs_scan_none n r xs : mgs_scan (cv n) r xs = Ok None -> exists s, s ∈ xs /\ cv n s r = Ok true.
Proof.
  induction xs as [|s xs IH]; intros E; cbn [mgs_scan] in E; [done|]. destruct (cv n s r) as [b| |] eqn:Eb; try done. cbn [bind] in E.
  destruct b; [exists s; split; [left|done]|]. destruct (cv n r s) as [d| |]; try done. cbn [bind] in E.
  destruct (mgs_scan (cv n) r xs) as [[rest|]| |]; try done. destruct (IH eq_refl) as (z & Hz & Ez). exists z. split; [by right|done].
Qed.
Lemma mgs_scan_some n r xs : forall rm, mgs_scan (cv n) r xs = Ok (Some rm) ->
  (forall x, x ∈ delete_marked xs rm -> x ∈ xs) /\ forall x, x ∈ xs -> x ∈ delete_marked xs rm \/ cv n r x = Ok true.
Proof.
  induction xs as [|s xs IH]; intros rm E; cbn [mgs_scan] in E.
  - injection E as <-. split; [done|]. intros x Hx. by apply elem_of_nil in Hx.
  - destruct (cv n s r) as [b| |] eqn:Eb; try done. cbn [bind] in E.
    destruct b; [done|]. destruct (cv n r s) as [d| |] eqn:Ed; try done. cbn [bind] in E.
    destruct (mgs_scan (cv n) r xs) as [[rest|]| |]; try done. cbn [bind option_map] in E. injection E as <-.
    destruct (IH _ eq_refl) as [H1 H2]. cbn [delete_marked]. destruct d.
    + split; [intros x Hx; right; by apply H1|]. intros x Hx. apply elem_of_cons in Hx as [->|Hx]; [by right|by apply H2].
    + split.
      * intros x Hx. apply elem_of_cons in Hx as [->|Hx]; [left|right; by apply H1].
      * intros x Hx. apply elem_of_cons in Hx as [->|Hx]; [left; left|]. destruct (H2 x Hx); [left; by right|by right].
Qed.

Lemma mgs_add_den n xs c r xs' c' dup :
  c0 <= c -> wfchart c xs -> wft c r -> mgs_add (fun j => j) (cv n) n (xs, c) (enc r) = Ok (xs', c', dup) ->
  c <= c' /\ wfchart c' xs' /\ forall x, Den xs' x <-> Den xs x \/ denotes I r x.
Proof.
  intros Hc Hxs Hr E. unfold mgs_add in E.
  destruct (fresh (fun j => j) n ∅ c (enc r)) as [[t c1]| |] eqn:Ef; try done. cbn [bind] in E.
  assert (Efr : fresh_r n c r = Ok (dec t, c1)) by (unfold fresh_r; by rewrite Ef).
  assert (Ht : t = enc (dec t)) by (apply fresh_ok in Ef as (_ & ρ & _ & -> & _); done).
  apply fresh_r_ok in Efr as (Hc1 & Hw & Hd & _); [|done].
  assert (Hwt : wft c1 (dec t)) by (apply Hw; intros b Hb; destruct Hr as [_ Hr]; by apply Hr).
  pose proof (wfchart_mono c c1 xs Hc1 Hxs) as Hxs1.
  destruct (mgs_scan (cv n) t xs) as [[rm|]| |] eqn:Es; try done; cbn [bind] in E; injection E as <- <- <-.
  - apply mgs_scan_some in Es as [H1 H2]. split; [done|]. split.
    + intros x Hx. apply elem_of_app in Hx as [Hx|Hx]; [by apply Hxs1, H1|]. apply elem_of_list_singleton in Hx as ->. split; [by exists (dec t)|done].
    + intros x. split.
      * intros (y & Hy & Hyx). apply elem_of_app in Hy as [Hy|Hy]; [left; exists y; split; [by apply H1|done]|].
        apply elem_of_list_singleton in Hy as ->. right. by apply Hd.
      * assert (Hnew : denotes I (dec t) x -> Den (delete_marked xs rm ++ [t]) x).
        { intros H. exists t. split; [apply elem_of_app; right; by apply elem_of_list_singleton|done]. }
        intros [(y & Hy & Hyx)|H]; [|apply Hnew; by apply Hd]. destruct (H2 y Hy) as [Hm|Hcv].
        { exists y. split; [apply elem_of_app; by left|done]. }
        apply Hnew. eapply (cov_sound n c1 t y); [done|by apply Hxs1|exact Hcv|done].
  - apply mgs_scan_none in Es as (s & Hs & Ecv). split; [done|]. split; [done|]. intros x. split; [auto|]. intros [H|H]; [done|].
    exists s. split; [done|]. eapply (cov_sound n c1 s t); [by apply Hxs1|done|exact Ecv|by apply Hd].
Qed.

Lemma adds_den n : forall rs xs c xs' c',
  c0 <= c -> wfchart c xs -> (forall r, r ∈ rs -> wft c r) -> adds (mgs_add (fun j => j) (cv n) n) (xs, c) (map enc rs) = Ok (xs', c') ->
  c <= c' /\ wfchart c' xs' /\ forall x, Den xs' x <-> Den xs x \/ exists r, r ∈ rs /\ denotes I r x.
Proof.
  induction rs as [|r rs IH]; intros xs c xs' c' Hc Hxs Hrs E; cbn [map adds] in E.
  - injection E as <- <-. split; [done|]. split; [done|]. intros x. split; [auto|]. intros [?|(r & Hr & _)]; [done|by apply elem_of_nil in Hr].
  - destruct (mgs_add (fun j => j) (cv n) n (xs, c) (enc r)) as [[[xs1 c1] dup]| |] eqn:Ea; try done. cbn [bind] in E.
    apply mgs_add_den in Ea as (Hc1 & Hw1 & Hd1); [|done|done|apply Hrs; left].
    apply IH in E as (Hc2 & Hw2 & Hd2); [|lia|done|intros q Hq; eapply wft_mono; [done|]; apply Hrs; by right].
    split; [lia|]. split; [done|]. intros x. rewrite Hd2, Hd1. split.
    + intros [[?|?]|(q & Hq & ?)]; [auto|right; exists r; split; [left|done]|right; exists q; split; [by right|done]].
    + intros [?|(q & Hq & ?)]; [auto|]. apply elem_of_cons in Hq as [->|Hq]; [auto|eauto].
Qed.

(** ** The loop *)
Definition DA (ag : list rule) (x : term) : Prop := exists a, a ∈ ag /\ denotes I a x.
Definition wfs (s : tstate) : Prop :=
  c0 <= ts_c s /\ wfchart (ts_c s) (ts_chart s) /\ forall a, a ∈ ts_agenda s -> wft (ts_c s) a.
Record grow (s s' : tstate) : Prop := {
  gr_c : ts_c s <= ts_c s';
  gr_wf : wfs s';
  gr_chart : forall x, Den (ts_chart s) x -> Den (ts_chart s') x;
  gr_agenda : forall x, DA (ts_agenda s) x -> DA (ts_agenda s') x;
  gr_new : forall x, Den (ts_chart s') x -> Den (ts_chart s) x \/ DA (ts_agenda s') x;
  gr_pushed : forall x, DA (ts_agenda s') x -> DA (ts_agenda s) x \/ Den (ts_chart s') x }.
Lemma grow_refl s : wfs s -> grow s s.
Proof. intros H. split; auto. Qed.
Lemma grow_trans s1 s2 s3 : grow s1 s2 -> grow s2 s3 -> grow s1 s3.
Proof.
  intros [A1 A2 A3 A4 A5 A6] [B1 B2 B3 B4 B5 B6]. split; [lia|done|auto|auto| |].
  - intros x Hx. destruct (B5 x Hx) as [H|H]; [|auto]. destruct (A5 x H); auto.
  - intros x Hx. destruct (B6 x Hx) as [H|H]; [|auto]. destruct (A6 x H); auto.
Qed.
Lemma grow_c s c' : wfs s -> ts_c s <= c' -> grow s (TS (ts_chart s) (ts_agenda s) c').
Proof.
  intros (H1 & H2 & H3) Hc. split; cbn [ts_c ts_chart ts_agenda]; auto. split; cbn [ts_c ts_chart ts_agenda]; [lia|].
  split; [by eapply wfchart_mono|]. intros a Ha. eapply wft_mono; [done|by apply H3].
Qed.

Lemma mgs_add_dup n xs c t xs' c' : mgs_add (fun j => j) (cv n) n (xs, c) t = Ok (xs', c', true) -> xs' = xs.
Proof.
  unfold mgs_add. destruct (fresh (fun j => j) n ∅ c t) as [[u c1]| |]; try done. cbn [bind].
  destruct (mgs_scan (cv n) u xs) as [[rm|]| |]; cbn [bind]; intros H; try discriminate. by injection H as <- <-.
Qed.

Lemma add_type_ok n r s s' : wfs s -> wft (ts_c s) r ->
  add_type ord pick chk ready rules fv n r s = Ok s' -> grow s s' /\ forall x, denotes I r x -> Den (ts_chart s') x.
Proof.
  intros (H1 & H2 & H3) Hr E. unfold add_type in E.
  destruct (fresh_r n (ts_c s) r) as [[x c]| |] eqn:Ef; try done. cbn [bind] in E.
  apply fresh_r_ok in Ef as (Hc & Hw & Hd & _); [|done].
  assert (Hx : wft c x) by (apply Hw; intros b Hb; destruct Hr as [_ Hr]; by apply Hr).
  destruct (mgs_add (fun j => j) (cv n) n (ts_chart s, c) (enc x)) as [[[xs c1] dup]| |] eqn:Ea; try done. cbn [bind] in E. injection E as <-.
  assert (Hdup : dup = true -> xs = ts_chart s) by (intros ->; by eapply mgs_add_dup).
  apply mgs_add_den in Ea as (Hc1 & Hw1 & Hd1); [|lia|by eapply wfchart_mono|done].
  split.
  - split; cbn [ts_c ts_chart ts_agenda].
    + lia.
    + split; cbn [ts_c ts_chart ts_agenda]; [lia|]. split; [done|]. intros a Ha.
      assert (Ha' : a ∈ ts_agenda s \/ a = x).
      { destruct dup; [by left|]. apply elem_of_app in Ha as [Ha|Ha]; [by left|right; by apply elem_of_list_singleton in Ha]. }
      destruct Ha' as [Ha'| ->]; [eapply wft_mono; [|by apply H3]; lia|by eapply wft_mono].
    + intros y Hy. apply Hd1. by left.
    + intros y (a & Ha & Hy). exists a. split; [|done]. destruct dup; [done|apply elem_of_app; by left].
    + intros y Hy. destruct dup; [left; by rewrite <- Hdup|]. apply Hd1 in Hy as [Hy|Hy]; [by left|].
      right. exists x. split; [apply elem_of_app; right; by apply elem_of_list_singleton|done].
    + intros y (a & Ha & Hy). destruct dup; [left; by exists a|]. apply elem_of_app in Ha as [Ha|Ha]; [left; by exists a|].
      apply elem_of_list_singleton in Ha as ->. right. apply Hd1. by right.
  - intros y Hy. cbn [ts_chart]. apply Hd1. right. by apply Hd.
Qed.

(** a rule of the type program *)
Definition pok (r : rule) : Prop := lvt c0 (rhead r) /\ forall b, b ∈ rbody r -> lvt c0 b /\ atom b.

Notation drive1 := (drive_type ord pick chk ready rules fv inputs max_depth use_insts).
Lemma drive_type_ok n d r k s s' : wfs s -> pok r -> wft (ts_c s) d -> drive1 n d r k s = Ok s' ->
  grow s s' /\
  forall θ b, gsub θ -> rbody r !! k = Some b -> sub θ b = sub θ (rhead d) -> (forall b', b' ∈ rbody d -> I (sub θ b')) ->
    (forall q, q ∈ rbody r -> sat (Den (ts_chart s)) θ q) -> Den (ts_chart s') (sub θ (rhead r)).
Proof.
  intros Hwf [Hh Hb] Hd E. pose proof Hwf as (Hc & Hch & Hag). unfold drive_type in E.
  destruct (rbody r !! k) as [b|] eqn:Ek; [|done].
  destruct (unify_f n ∅ b (rhead d)) as [[st u]| |] eqn:Eu; try done. cbn [bind] in E.
  assert (H0 : okst (VV (ts_c s)) ∅) by apply okst_empty.
  assert (Hbl : lvt (ts_c s) b) by (eapply lvt_mono; [exact Hc|]; apply Hb; by eapply elem_of_list_lookup_2).
  apply (unify_V_ok (VV (ts_c s))) in Eu as (Hst & _ & Hu); [|done|by apply lvt_in_V|apply lvt_in_V; exact (proj1 Hd)].
  destruct u.
  2:{ injection E as <-. split; [by apply grow_refl|]. intros θ b' _ [= <-] Eθ _ _. exfalso. apply (Hu θ); [by apply solves_empty|done]. }
  match type of E with context [join_types inputs n ?q _ _ _] => set (qs := q) in E end.
  destruct (join_types inputs n qs (ts_chart s) st (ts_c s)) as [[js c]| |] eqn:Ej; try done. cbn [bind] in E.
  assert (Hqs : forall q, q ∈ qs -> q ∈ rbody r).
  { intros q Hq. by eapply take_drop_sub. }
  apply join_types_ok in Ej as (Hcj & Hrj & Hfj); [|done|done| |by eapply wfchart_ord].
  2:{ intros q Hq. destruct (Hb q (Hqs q Hq)). split; [by eapply lvt_mono|done]. }
  (** the fold over the results of the join *)
  assert (Hfold : forall js s0 s1, wfs s0 -> c <= ts_c s0 -> (forall p, p ∈ js -> rok c p) ->
    foldM (fun bs s =>
          let* R := deref_rule n (snd bs) (rhead r) (fst bs ++ rbody d) in
          let* (o, c) := relax ord pick chk ready rules fv max_depth use_insts n R (ts_c s) in
          let s := TS (ts_chart s) (ts_agenda s) c in
          match o with None => Ok s | Some t => add_type ord pick chk ready rules fv n t s end) js s0 = Ok s1 ->
    grow s0 s1 /\ forall p θ, p ∈ js -> gsub θ -> solves θ (snd p) -> (forall b', b' ∈ fst p ++ rbody d -> I (sub θ b')) -> Den (ts_chart s1) (sub θ (rhead r))).
  { clear E Hrj Hfj js. induction js as [|p js IH]; intros s0 s1 Hw0 Hc0 Hjs E; cbn [foldM] in E.
    - injection E as <-. split; [by apply grow_refl|]. intros p θ Hp. by apply elem_of_nil in Hp.
    - destruct (deref_rule n (snd p) (rhead r) (fst p ++ rbody d)) as [R| |] eqn:Er; try done. cbn [bind] in E.
      destruct (Hjs p ltac:(left)) as [Hp1 Hp2].
      apply (deref_rule_ok n (ts_c s0)) in Er as [HR HRd].
      + destruct (relax ord pick chk ready rules fv max_depth use_insts n R (ts_c s0)) as [[o c2]| |] eqn:Ex; try done. cbn [bind] in E.
        apply relax_ok in Ex as (Hc2 & Ho & Hod); [|by destruct Hw0|done].
        pose proof (grow_c s0 c2 Hw0 Hc2) as G0.
        match type of E with context [foldM ?f js] => set (g := f) in E end.
        match type of E with context [bind ?m _] => destruct m as [s2| |] eqn:Em; try done end. cbn [bind] in E.
        assert (G1 : grow s0 s2 /\ forall x, denotes I R x -> Den (ts_chart s2) x).
        { destruct o as [t|].
          - apply add_type_ok in Em as [G1 G2]; [|by apply gr_wf in G0|by apply Ho]. split; [by eapply grow_trans|].
            intros x Hx. destruct (Hod x Hx) as (t' & [= <-] & Ht). by apply G2.
          - injection Em as <-. split; [done|]. intros x Hx. by destruct (Hod x Hx) as (t' & ? & _). }
        destruct G1 as [G1 G2]. apply IH in E as [G3 G4]; [|by apply gr_wf in G1|apply gr_c in G1; lia|intros p' Hp'; apply Hjs; by right].
        split; [by eapply grow_trans|]. intros p' θ Hp' Hθ Hs HIb. apply elem_of_cons in Hp' as [->|Hp'].
        * apply (gr_chart _ _ G3), G2, HRd; done.
        * by eapply G4.
      + by eapply okst_mono.
      + eapply lvt_mono; [|exact Hh]. destruct Hw0; lia.
      + intros b' Hb'. apply elem_of_app in Hb' as [Hb'|Hb'].
        * destruct (Hp2 b' Hb'). split; [done|by eapply lvt_mono].
        * destruct Hd as [_ Hd]. destruct (Hd b' Hb'). split; [done|]. eapply lvt_mono; [|done]. lia. }
  pose proof (grow_c s c Hwf Hcj) as G0.
  apply Hfold in E as [G1 G2]; [|by apply gr_wf in G0|done|done]. split; [by eapply grow_trans|].
  intros θ b' Hθ [= <-] Eθ HId Hsat.
  destruct (Hfj θ Hθ) as (p & Hp & θ' & Gθ' & O & Hs & HIb); [apply Hu; split; [by apply solves_empty|done]|intros q Hq; by apply Hsat, Hqs|].
  replace (sub θ (rhead r)) with (sub θ' (rhead r)); [|apply sub_ext; intros v Hv; apply O; destruct (Hh v Hv); lia].
  apply (G2 p θ' Hp Gθ' Hs). intros b' Hb'. apply elem_of_app in Hb' as [Hb'|Hb']; [by apply HIb|].
  replace (sub θ' b') with (sub θ b'); [by apply HId|]. apply sub_ext. intros v Hv. symmetry. apply O.
  destruct Hd as [_ Hd]. destruct (Hd b' Hb') as [_ Hl]. by apply Hl.
Qed.

Lemma sat_mono (D D' : term -> Prop) θ q : (forall x, D x -> D' x) -> sat D θ q -> sat D' θ q.
Proof. intros H [?|[?|[? ?]]]; [by left|by right; left|right; right; auto]. Qed.

Lemma foldM_grow {A} (f : A -> tstate -> res tstate) (Q : A -> term -> Prop) s0 : forall l s s1,
  (forall a s s', a ∈ l -> grow s0 s -> f a s = Ok s' -> grow s s' /\ forall x, Q a x -> Den (ts_chart s') x) ->
  grow s0 s -> foldM f l s = Ok s1 -> grow s s1 /\ forall a x, a ∈ l -> Q a x -> Den (ts_chart s1) x.
Proof.
  induction l as [|a l IH]; intros s s1 Hf Hs E; cbn [foldM] in E.
  - injection E as <-. split; [apply grow_refl; by apply gr_wf in Hs|]. intros a x Ha. by apply elem_of_nil in Ha.
  - destruct (f a s) as [s2| |] eqn:Ea; try done. cbn [bind] in E. destruct (Hf a s s2 ltac:(left) Hs Ea) as [G1 G2].
    apply IH in E as [G3 G4]; [|intros a' s' s'' Ha'; apply Hf; by right|by eapply grow_trans].
    split; [by eapply grow_trans|]. intros a' x Ha' Hx. apply elem_of_cons in Ha' as [->|Ha']; [by apply (gr_chart _ _ G3), G2|by eapply G4].
Qed.

Lemma drive_all_ok n d P s0 s1 : wfs s0 -> (forall r, r ∈ P -> pok r) -> wft (ts_c s0) d ->
  foldM (fun r s => foldM (fun j s => drive1 n d r j s) (seq 0 (length (rbody r))) s) P s0 = Ok s1 ->
  grow s0 s1 /\
  forall r θ b, r ∈ P -> gsub θ -> b ∈ rbody r -> sub θ b = sub θ (rhead d) -> (forall b', b' ∈ rbody d -> I (sub θ b')) ->
    (forall q, q ∈ rbody r -> sat (Den (ts_chart s0)) θ q) -> Den (ts_chart s1) (sub θ (rhead r)).
Proof.
  intros Hw HP Hd E.
  set (Q := fun (r : rule) (k : nat) (x : term) => exists θ b, x = sub θ (rhead r) /\ gsub θ /\ rbody r !! k = Some b /\
    sub θ b = sub θ (rhead d) /\ (forall b', b' ∈ rbody d -> I (sub θ b')) /\ forall q, q ∈ rbody r -> sat (Den (ts_chart s0)) θ q).
  assert (HQ : forall r s s', r ∈ P -> grow s0 s -> foldM (fun j s => drive1 n d r j s) (seq 0 (length (rbody r))) s = Ok s' ->
    grow s s' /\ forall x, (exists k, k < length (rbody r) /\ Q r k x) -> Den (ts_chart s') x).
  { intros r s s' Hr Hs Er.
    assert (Hk : forall k s2 s3, k ∈ seq 0 (length (rbody r)) -> grow s0 s2 -> drive1 n d r k s2 = Ok s3 ->
      grow s2 s3 /\ forall x, Q r k x -> Den (ts_chart s3) x).
    { intros k s2 s3 _ Hs2 Ek. apply drive_type_ok in Ek as [G1 G2]; [|by apply gr_wf in Hs2|by apply HP|eapply wft_mono; [|done]; by apply gr_c in Hs2].
      split; [done|]. intros x (θ & b & -> & Hθ & Hk & E1 & E2 & E3). apply (G2 θ b); [done..|].
      intros q Hq. eapply sat_mono; [|by apply E3]. intros y. apply (gr_chart _ _ Hs2). }
    destruct (foldM_grow _ (Q r) s0 _ s s' Hk Hs Er) as [G1 G2].
    split; [done|]. intros x (k & Hlt & HQx). apply (G2 k); [|done]. apply elem_of_list_In, in_seq. lia. }
  destruct (foldM_grow _ _ s0 P s0 s1 HQ (grow_refl _ Hw) E) as [G1 G2].
  split; [done|]. intros r θ b Hr Hθ Hb E1 E2 E3. apply (G2 r _ Hr). apply elem_of_list_lookup_1 in Hb as [k Hk].
  exists k. split; [by eapply lookup_lt_Some|]. by exists θ, b.
Qed.

(** items of the type program closed under its rules *)
Definition closed (P : list rule) (D E : term -> Prop) : Prop :=
  forall r θ, r ∈ P -> gsub θ -> (forall b, b ∈ rbody r -> sat D θ b) -> E (sub θ (rhead r)).

Lemma sat_cases (D A : term -> Prop) θ (bs : list term) : (forall b, b ∈ bs -> sat (fun x => D x \/ A x) θ b) ->
  (forall b, b ∈ bs -> sat D θ b) \/ exists b, b ∈ bs /\ A (sub θ b).
Proof.
  induction bs as [|b bs IH]; intros H; [left; intros b Hb; by apply elem_of_nil in Hb|].
  destruct IH as [H1|(b' & Hb' & Ha)]; [intros b' Hb'; apply H; by right| |right; exists b'; split; [by right|done]].
  destruct (H b ltac:(left)) as [Hc|[Hi|[Hn [Hd|Ha]]]].
  - left. intros b' Hb'. apply elem_of_cons in Hb' as [->|Hb']; [by left|by apply H1].
  - left. intros b' Hb'. apply elem_of_cons in Hb' as [->|Hb']; [by right; left|by apply H1].
  - left. intros b' Hb'. apply elem_of_cons in Hb' as [->|Hb']; [by right; right|by apply H1].
  - right. exists b. split; [left|done].
Qed.

Notation loop := (types_loop ord pick chk ready rules fv inputs max_depth use_insts).
Lemma types_loop_ok n P (HP : forall r, r ∈ P -> pok r) : forall k s xs (D : term -> Prop),
  wfs s -> (forall x, Den (ts_chart s) x -> D x \/ DA (ts_agenda s) x) ->
  (forall x, D x \/ DA (ts_agenda s) x -> Den (ts_chart s) x) -> closed P D (Den (ts_chart s)) ->
  loop n P k s = Ok xs -> closed P (Den xs) (Den xs).
Proof.
  induction k as [|k IH]; intros s xs D Hw H1 H2 H3 E; cbn [types_loop] in E; [done|].
  destruct (ts_agenda s) as [|a ag] eqn:Ea.
  - injection E as <-. intros r θ Hr Hθ Hb. apply H3; [done|done|]. intros b Hin'. eapply sat_mono; [|by apply Hb].
    intros x Hx. destruct (H1 x Hx) as [?|(y & Hy & _)]; [done|by apply elem_of_nil in Hy].
  - destruct (fresh_r n (ts_c s) a) as [[d c]| |] eqn:Ef; try done. cbn [bind] in E.
    pose proof Hw as (Hc & Hch & Hag). assert (Ha : wft (ts_c s) a) by (apply Hag; rewrite Ea; left).
    apply fresh_r_ok in Ef as (Hcc & Hwd & Hd1 & Hd2); [|done].
    assert (Hd : wft c d) by (apply Hwd; intros b Hb; destruct Ha as [_ Ha]; by apply Ha).
    match type of E with context [bind ?m _] => destruct m as [s1| |] eqn:Em; try done end. cbn [bind] in E.
    assert (Hw0 : wfs (TS (ts_chart s) ag c)).
    { split; cbn [ts_c ts_chart ts_agenda]; [lia|]. split; [by eapply wfchart_mono|]. intros y Hy. eapply wft_mono; [done|]. apply Hag. rewrite Ea. by right. }
    apply drive_all_ok in Em as [G1 G2]; [|done|done|done].
    destruct G1 as [Q1 Q2 Q3 Q4 Q5 Q6]. cbn [ts_c ts_chart ts_agenda] in *.
    assert (HD : forall x, D x \/ denotes I a x -> Den (ts_chart s) x).
    { intros x [Hx|Hx]; apply H2; [by left|right]. exists a. split; [left|done]. }
    apply (IH s1 xs (fun x => D x \/ denotes I a x)) in E; [done|done| | |].
    + intros x Hx. destruct (Q5 x Hx) as [H|H]; [|by right]. destruct (H1 x H) as [?|(y & Hy & Hyx)]; [by left; left|].
      apply elem_of_cons in Hy as [->|Hy]; [by left; right|]. right. apply Q4. by exists y.
    + intros x [Hx|Hx]; [by apply Q3, HD|]. destruct (Q6 x Hx) as [(y & Hy & Hyx)|?]; [|done]. apply Q3, H2. right. exists y. split; [by right|done].
    + intros r θ Hr Hθ Hb. destruct (HP r Hr) as [Hrh Hrb]. apply sat_cases in Hb as Hcs. destruct Hcs as [Hold|(b & Hb' & Hba)].
      * apply Q3. by apply H3.
      * destruct (Hd2 θ _ Hθ Hba) as (θ' & Gθ & O & Eh & Eb).
        assert (Es : forall t, lvt c0 t -> sub θ' t = sub θ t).
        { intros t Ht. apply sub_ext. intros v Hv. apply O. destruct (Ht v Hv). lia. }
        rewrite <- (Es _ Hrh). apply (G2 r θ' b); [done|done|done| |done|].
        -- rewrite Eh. apply Es. by apply Hrb.
        -- intros q Hq. unfold sat. rewrite (Es q) by (by apply Hrb). eapply sat_mono; [exact HD|]. by apply Hb.
Qed.

(** ** The first step and the whole analysis *)
Lemma first_types_ok n P c ts c' : c0 <= c -> (forall r, r ∈ P -> pok r) ->
  first_types ord pick chk ready rules fv inputs max_depth use_insts n P c = Ok (ts, c') ->
  c <= c' /\ (forall t, t ∈ ts -> wft c' t) /\ closed P (fun _ => False) (DA ts).
Proof.
  intros Hc HP E. unfold first_types in E.
  match type of E with context [mapSM ?f P c] => set (g := f) in E end.
  destruct (mapSM g P c) as [[tss c1]| |] eqn:Em; try done. cbn [bind] in E. injection E as <- <-.
  assert (Hg : forall r s1 m s2, r ∈ P -> c <= s1 -> g r s1 = Ok (m, s2) -> s1 <= s2 /\ (forall t, Some t ∈ m -> wft s2 t) /\
    forall θ, gsub θ -> (forall b, b ∈ rbody r -> sat (fun _ => False) θ b) -> exists t, Some t ∈ m /\ denotes I t (sub θ (rhead r))).
  { intros r s1 m s2 Hr Hs1 Er. unfold g in Er. destruct (HP r Hr) as [Hh Hb].
    destruct (join_types inputs n (rbody r) [] ∅ s1) as [[js s3]| |] eqn:Ej; try done. cbn [bind] in Er.
    apply join_types_ok in Ej as (Hs3 & Hrj & Hfj); [|lia|apply okst_empty|intros q Hq; destruct (Hb q Hq); split; [eapply lvt_mono; [|done]; lia|done]|intros t Ht; by apply elem_of_nil in Ht].
    match type of Er with mapSM ?f js s3 = _ => set (h := f) in Er end.
    assert (Hhh : forall p s4 o s5, p ∈ js -> s3 <= s4 -> h p s4 = Ok (o, s5) -> s4 <= s5 /\ (forall t, o = Some t -> wft s5 t) /\
      forall θ, gsub θ -> solves θ (snd p) -> (forall b, b ∈ fst p -> I (sub θ b)) -> exists t, o = Some t /\ denotes I t (sub θ (rhead r))).
    { intros p s4 o s5 Hp Hs4 Ep. unfold h in Ep. destruct (deref_rule n (snd p) (rhead r) (fst p)) as [R| |] eqn:Ed; try done. cbn [bind] in Ep.
      destruct (Hrj p Hp) as [Ho Hob].
      apply (deref_rule_ok n s4) in Ed as [HR HRd]; [|by eapply okst_mono|eapply lvt_mono; [|exact Hh]; lia|intros b Hb'; destruct (Hob b Hb'); split; [done|by eapply lvt_mono]].
      apply relax_ok in Ep as (H1 & H2 & H3); [|lia|done]. split; [done|]. split; [done|]. intros θ Hθ Hs HIb. by apply H3, HRd. }
    apply mapSM_run in Er as [Hs2 Hall]; [|intros p s4 o s5 Hp Hs4 Ep; by eapply Hhh].
    split; [lia|]. split.
    - intros t Ht. eapply Forall2_elem_r in Hall as (p & Hp & s4 & s5 & ? & ? & ? & Ep); [|exact Ht].
      destruct (Hhh _ _ _ _ Hp ltac:(done) Ep) as (_ & H5 & _). eapply wft_mono; [|by apply H5]. done.
    - intros θ Hθ Hs. destruct (Hfj θ Hθ) as (p & Hp & θ' & Gθ & O & Hs' & HIb); [by apply solves_empty| |].
      + intros q Hq. eapply sat_mono; [|by apply Hs]. done.
      + eapply Forall2_elem_l in Hall as (o & Ho & s4 & s5 & ? & ? & ? & Ep); [|exact Hp].
        destruct (Hhh _ _ _ _ Hp ltac:(done) Ep) as (_ & _ & H5). destruct (H5 θ' Gθ Hs' HIb) as (t & -> & Ht). exists t. split; [done|].
        replace (sub θ (rhead r)) with (sub θ' (rhead r)); [done|]. apply sub_ext. intros v Hv. apply O. destruct (Hh v Hv). lia. }
  apply mapSM_run in Em as [Hc1 Hall]; [|intros r s1 m s2 Hr Hs1 Er; by eapply Hg].
  split; [done|]. split.
  - intros t Ht. apply elem_of_list_omap in Ht as (o & Ho & ->). apply elem_of_list_In, in_concat in Ho as (m & Hm & Ho).
    apply elem_of_list_In in Hm. apply elem_of_list_In in Ho.
    eapply Forall2_elem_r in Hall as (r & Hr & s1 & s2 & ? & ? & ? & Er); [|exact Hm]. destruct (Hg _ _ _ _ Hr ltac:(done) Er) as (_ & H5 & _).
    eapply wft_mono; [|by apply H5]. done.
  - intros r θ Hr Hθ Hb. eapply Forall2_elem_l in Hall as (m & Hm & s1 & s2 & ? & ? & ? & Er); [|exact Hr].
    destruct (Hg _ _ _ _ Hr ltac:(done) Er) as (_ & _ & H5). destruct (H5 θ Hθ Hb) as (t & Ht & Htd). exists t. split; [|done].
    apply elem_of_list_omap. exists (Some t). split; [|done]. apply elem_of_list_In, in_concat. exists m. by split; apply elem_of_list_In.
Qed.

Lemma closed_weaken P (D E E' : term -> Prop) : (forall x, E x -> E' x) -> closed P D E -> closed P D E'.
Proof. intros H Hc r θ Hr Hθ Hb. by apply H, Hc. Qed.

Lemma map_enc_dec xs c : wfchart c xs -> map enc (map dec xs) = xs.
Proof.
  intros H. rewrite map_map. rewrite <- (map_id xs) at 2. apply map_ext_in. intros t Ht. apply elem_of_list_In in Ht.
  destruct (H t Ht) as [[r ->] _]. by rewrite dec_enc.
Qed.

Lemma run_types n P c ts c1 ag c2 ch c3 xs : c0 <= c -> (forall r, r ∈ P -> pok r) ->
  first_types ord pick chk ready rules fv inputs max_depth use_insts n P c = Ok (ts, c1) ->
  adds (mgs_add (fun j => j) (cv n) n) ([], c1) (map enc ts) = Ok (ag, c2) ->
  adds (mgs_add (fun j => j) (cv n) n) ([], c2) ag = Ok (ch, c3) ->
  loop n P n (TS ch (map dec ag) c3) = Ok xs -> closed P (Den xs) (Den xs).
Proof.
  intros Hc HP E1 E2 E3 E4. apply first_types_ok in E1 as (Hc1 & Hw1 & Hcl); [|done|done].
  assert (Hnil : forall c, wfchart c []) by (intros c' t Ht; by apply elem_of_nil in Ht).
  assert (HDnil : forall x, ~ Den [] x) by (intros x (t & Ht & _); by apply elem_of_nil in Ht).
  apply adds_den in E2 as (Hc2 & Hw2 & Hd2); [|lia|done|done].
  rewrite <- (map_enc_dec ag c2 Hw2) in E3.
  assert (Hag : forall r, r ∈ map dec ag -> wft c2 r).
  { intros r Hr. apply elem_of_list_In, in_map_iff in Hr as (t & <- & Ht). apply elem_of_list_In in Ht. by apply Hw2. }
  apply adds_den in E3 as (Hc3 & Hw3 & Hd3); [|lia|done|done].
  assert (HDA : forall x, Den ag x <-> DA (map dec ag) x).
  { intros x. split.
    - intros (t & Ht & Hx). exists (dec t). split; [|done]. apply elem_of_list_In, in_map, elem_of_list_In. done.
    - intros (r & Hr & Hx). apply elem_of_list_In, in_map_iff in Hr as (t & <- & Ht). exists t. split; [by apply elem_of_list_In|done]. }
  eapply (types_loop_ok n P HP n (TS ch (map dec ag) c3) xs (fun _ => False)); [| | | |exact E4]; cbn [ts_chart ts_agenda].
  - split; cbn [ts_c ts_chart ts_agenda]; [lia|]. split; [done|]. intros a Ha. eapply wft_mono; [done|by apply Hag].
  - intros x Hx. right. apply Hd3 in Hx as [Hx|Hx]; [by destruct (HDnil x)|done].
  - intros x [[]|Hx]. apply Hd3. by right.
  - eapply closed_weaken; [|exact Hcl]. intros x Hx. apply Hd3. right. apply HDA, Hd2. by right.
Qed.
End analysis.
