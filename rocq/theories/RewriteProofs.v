(** Proofs about simple types: the rewrites, covers and intersect. *)
From Coq Require Import List Permutation.
From stdpp Require Import gmap.
From Coq Require Import Lia.
From Coq Require String Ascii.
From Verif Require Import PyBase TermModel TermSpec TermProofs CoverProofs ChartProofs SetsModel SetsProofs FuelProofs UnifyProofs PruneModel
  PropagateModel TypesSpec PropagateProofs.
Import String.StringSyntax Ascii.AsciiSyntax.
Import ListNotations.
Local Open Scope string_scope.
Local Open Scope list_scope.
Local Open Scope nat_scope.

(** * Fuel *)
Lemma fle_mapSM {A B S} (f g : A -> S -> res (B * S)) l : (forall a s, fle (f a s) (g a s)) -> forall s, fle (mapSM f l s) (mapSM g l s).
Proof.
  intros H. induction l as [|a l IH]; intros s; [apply fle_refl|]. simpl. apply fle_bind; [done|]. intros [b s']. apply fle_bind; [done|].
  intros [bs s'']. apply fle_refl.
Qed.
Lemma mono_fresh_go al st x s : mono (fun n => fresh_go al n st x s).
Proof.
  intros n. revert x s. induction n as [|n IH]; intros x s; [done|].
  change (fresh_go al (S (S n)) st x s) with
    (match x with
     | Var v => match st !! v with
                | Some t => fresh_go al (S n) st t s
                | None => let '(m, c) := s in
                          match m !! v with
                          | Some w => Ok (Var w, (m, c))
                          | None => Ok (Var (al c), (<[v := al c]> m, S c))
                          end
                end
     | Fn xs => let* (ys, s') := mapSM (fresh_go al (S n) st) xs s in Ok (Fn ys, s')
     | Cst _ => Ok (x, s)
     end).
  cbn [fresh_go]. destruct x as [v|k|xs]; [|apply fle_refl|].
  - destruct (st !! v); [apply IH|apply fle_refl].
  - apply fle_bind; [by apply fle_mapSM|]. intros [ys s']. apply fle_refl.
Qed.
Lemma mono_fresh al st c x : mono (fun n => fresh al n st c x).
Proof. intros n. apply fle_bind; [apply mono_fresh_go|]. intros [y s]. apply fle_refl. Qed.

(** A copy with new variables, and how to ground it. *)
Lemma fresh_ok n c x y c' : fresh (fun j => j) n ∅ c x = Ok (y, c') ->
  c <= c' /\ exists ρ, renames ρ x /\ y = rename ρ x /\ forall v, In v (vars x) -> c <= ρ v < c'.
Proof.
  intros E. destruct (fresh_empty (fun j => j) ltac:(by intros ? ?) (tsize x) c x (le_n _)) as (y0 & c0 & E0 & (ρ & Hρ & ->) & Hc & Hf & _).
  assert (H1 : fresh (fun j => j) (n + tsize x) ∅ c x = Ok (y, c')) by (apply (mono_ok (fun n => fresh (fun j => j) n ∅ c x) n); [apply mono_fresh|lia|done]).
  assert (H2 : fresh (fun j => j) (n + tsize x) ∅ c x = Ok (rename ρ x, c0)) by (apply (mono_ok (fun n => fresh (fun j => j) n ∅ c x) (tsize x)); [apply mono_fresh|lia|done]).
  rewrite H1 in H2. injection H2 as -> ->. split; [done|]. exists ρ. split; [done|]. split; [done|].
  intros v Hv. destruct (Hf (ρ v)) as (j & Ej & Hj).
  { rewrite vars_rename. by apply in_map. } lia.
Qed.

Lemma reground ρ x θ θ0 : renames ρ x -> gsub θ -> gsub θ0 ->
  exists θ', gsub θ' /\ (forall y, incl (vars y) (vars x) -> sub θ' (rename ρ y) = sub θ y) /\
    forall w, (forall v, In v (vars x) -> ρ v <> w) -> θ' w = θ0 w.
Proof.
  intros Hρ Hθ Hθ0. exists (fun w => match List.find (fun v => Nat.eqb (ρ v) w) (vars x) with Some v => θ v | None => θ0 w end). split; [|split].
  - intros w. by destruct (List.find _ _).
  - intros y Hy. unfold rename. rewrite sub_sub. apply sub_ext. intros v Hv. cbn [sub].
    destruct (List.find (fun v0 => Nat.eqb (ρ v0) (ρ v)) (vars x)) as [u|] eqn:E.
    + apply find_some in E as [Hu E]. apply Nat.eqb_eq in E. f_equal. apply Hρ; [done|by apply Hy|done].
    + exfalso. apply (find_none _ _ E v) in Hy; [|done]. by rewrite Nat.eqb_refl in Hy.
  - intros w Hw. destruct (List.find (fun v => Nat.eqb (ρ v) w) (vars x)) as [u|] eqn:E; [|done].
    apply find_some in E as [Hu E]. apply Nat.eqb_eq in E. exfalso. by apply (Hw u).
Qed.

(** * mgu *)
Lemma mono_mgu st x y : mono (fun n => mgu n st x y).
Proof.
  intros n. rewrite !mgu_ugen. apply mono_ugen.
  - intros ????. apply fle_refl.
  - intros st' v z m. rewrite !occur_check_occurs_check. apply mono_occurs_check.
Qed.
Lemma mgu_ok n x y s b : mgu n ∅ x y = Ok (s, b) ->
  (forall v t, s !! v = Some t -> In v (vars x ++ vars y) /\ incl (vars t) (vars x ++ vars y)) /\
  if b then forall σ, solves σ s <-> sub σ x = sub σ y else forall σ, sub σ x <> sub σ y.
Proof.
  intros E. set (V := list_to_set (vars x ++ vars y) : gset nat).
  assert (HV : forall v, v ∈ V <-> In v (vars x ++ vars y)) by (intros v; unfold V; rewrite elem_of_list_to_set; apply elem_of_list_In).
  destruct (ugen_computes _ _ term_eqb_ok occur_check_ok V ∅ x y) as (n0 & s2 & b2 & Hs & Hr).
  { split; [apply acyclic_empty|]. intros v t Ev. by rewrite lookup_empty in Ev. }
  { intros v Hv. apply HV, in_app_iff. auto. } { intros v Hv. apply HV, in_app_iff. auto. }
  assert (Hst : settles (fun n => mgu n ∅ x y) (s2, b2)) by (exists n0; intros k Hk; rewrite mgu_ugen; by apply Hs).
  pose proof (mono_settles _ n _ _ (mono_mgu ∅ x y) E Hst) as [= <- <-].
  destruct Hr as ([Hac' Hcl'] & [Hsub Hout] & H). split.
  - intros v t Ev. split.
    + destruct (decide (v ∈ V)) as [Hv|Hv]; [by apply HV|]. rewrite (Hout v Hv), lookup_empty in Ev. done.
    + intros w Hw. apply HV. by apply (Hcl' v t Ev).
  - assert (He : forall σ : nat -> term, solves σ ∅) by (intros σ v t Ev; by rewrite lookup_empty in Ev).
    destruct b; intros σ; [rewrite (H σ); naive_solver|]. by apply H.
Qed.

(** * One application of the rewrites *)
Lemma insts_of_elem f xs : forall l X, insts_of f xs = Ok l -> X ∈ l -> exists rest, Fn (Cst (CStr f) :: X :: rest) ∈ xs.
Proof.
  induction xs as [|x xs IH]; intros l X E HX; simpl in E; [injection E as <-; by apply elem_of_nil in HX|].
  destruct (insts_of f xs) as [l1| |] eqn:El; try done. cbn [bind] in E.
  destruct (has_fn f x) eqn:Ef.
  - apply has_fn_true in Ef as [args ->]. destruct args as [|y rest]; [done|]. injection E as <-.
    apply elem_of_cons in HX as [->|HX]; [exists rest; by left|]. destruct (IH _ _ eq_refl HX) as [r Hr]. exists r. by right.
  - injection E as <-. destruct (IH _ _ eq_refl HX) as [r Hr]. exists r. by right.
Qed.

Lemma existsM_true {A} (f : A -> res bool) l : existsM f l = Ok true -> exists a, a ∈ l /\ f a = Ok true.
Proof.
  induction l as [|a l IH]; simpl; [done|]. destruct (f a) as [b| |] eqn:Ef; try done. cbn [bind]. destruct b.
  - intros _. exists a. split; [by left|done].
  - intros E. destruct (IH E) as (b & Hb & Eb). exists b. split; [by right|done].
Qed.

Lemma rw_subst_ok bs : forall σ σ', rw_subst bs σ = Ok σ' ->
  (forall θ, solves θ σ -> (forall X Y, (X, Y) ∈ bs -> exists v, X = Var v /\ θ v = sub θ Y) -> solves θ σ') /\
  (forall v, is_Some (σ !! v) -> is_Some (σ' !! v)) /\ forall v Y, (Var v, Y) ∈ bs -> is_Some (σ' !! v).
Proof.
  induction bs as [|[X Y] bs IH]; intros σ σ' E; cbn [rw_subst] in E.
  - injection E as <-. split; [done|]. split; [done|]. intros v Y H. by apply elem_of_nil in H.
  - destruct X as [v|c|xs]; try done. destruct (IH _ _ E) as (H1 & H2 & H3). split; [|split].
    + intros θ Hθ Hbs. apply H1.
      * intros u t Eu. destruct (decide (u = v)) as [->|Hn]; [|rewrite lookup_insert_ne in Eu by done; by apply Hθ].
        rewrite lookup_insert in Eu. injection Eu as <-. destruct (Hbs (Var v) Y) as (w & [= <-] & Ew); [by left|done].
      * intros X' Y' HX. apply Hbs. by right.
    + intros u Hu. apply H2. destruct (decide (u = v)) as [->|Hn]; [rewrite lookup_insert; eauto|by rewrite lookup_insert_ne].
    + intros u Y' HX. apply elem_of_cons in HX as [[= -> ->]|HX]; [|by eapply H3]. apply H2. rewrite lookup_insert. eauto.
Qed.

(** What a substitution does to every term on which it succeeds. *)
Definition stau (n : nat) (σ : subst) (v : nat) : term := match sapply n σ (Var v) with Ok t => t | _ => Var v end.
Lemma sapply_stau n σ k : k <= n -> forall x y, sapply k σ x = Ok y -> y = sub (stau n σ) x.
Proof.
  intros Hk x y. revert k Hk x y. induction k as [|k IH]; [done|]. intros Hk [v|c|xs] y E.
  - cbn [sub]. unfold stau. rewrite sapply_deref in E |- *.
    by rewrite (mono_ok (fun n => deref n σ (Var v)) (S k) n y (mono_deref σ (Var v)) Hk E).
  - cbn [sapply] in E. by injection E as <-.
  - cbn [sapply] in E. destruct (mapM (sapply k σ) xs) as [ys| |] eqn:Em; try done. injection E as <-. apply mapM_Forall2 in Em.
    simpl. f_equal. induction Em as [|a b l l' Hab Hl IHl]; [done|]. simpl. f_equal; [|done]. apply IH; [lia|done].
Qed.

Section rewrites.
Context (ord : list term -> list term) (pick : list term -> nat).
Context (Hord : forall l x, x ∈ ord l <-> x ∈ l).
Context (chk : term -> res checked) (ready : term -> bool).
Context (rules : list rule) (fv : nat).
Context (I : term -> Prop) (Hchk : chk_right I chk).

Definition rules_of (afm : bool) : list rule := if afm then rules else no_free_merge rules fv.

Lemma rw_call_sound n R dc ui afm θ o :
  model_of I (rules_of afm) -> (forall r, r ∈ rules_of afm -> plain_rule r) -> (afm = true \/ free_false I) -> gsub θ ->
  (forall b, b ∈ rbody R -> good I (rules_of afm) θ b) ->
  rw_call ord pick chk ready rules fv n R dc ui afm = Ok o ->
  exists t, o = Some t /\ sub θ (rhead t) = sub θ (rhead R) /\ forall b, b ∈ rbody t -> I (sub θ b).
Proof.
  intros HI Hpl Hfree Hθ HR E. unfold rw_call in E. fold (rules_of afm) in E.
  destruct (propagate ord pick chk ready n (rules_of afm) (rbody R)) as [o1| |] eqn:E1; try done. cbn [bind] in E.
  apply (propagate_sound ord pick Hord chk ready I _ HI Hchk Hpl θ Hθ) in E1; [|done].
  destruct o1 as [s|]; [|done]. cbn [post] in E1. destruct E1 as (H1 & H2 & H3).
  destruct (rw_subst (cp_bindings s) ∅) as [σ| |] eqn:Es; try done. cbn [bind] in E.
  destruct (rw_subst_ok _ _ _ Es) as (Hs & _ & _). specialize (Hs θ).
  assert (Hσ : solves θ σ) by (apply Hs; [intros v t Ev; by rewrite lookup_empty in Ev|done]). clear Hs.
  destruct (mapM (sapply n σ) (List.filter (fun x => is_Term x && negb (has_fn "=" x)) (ord (cp_chart s)))) as [ch| |] eqn:Em; try done.
  cbn [bind] in E.
  assert (Hch : forall y, y ∈ remove_dups ch -> I (sub θ y)).
  { intros y Hy. apply (proj1 (elem_of_remove_dups _ _)) in Hy. apply mapM_Forall2 in Em. eapply Forall2_elem_r in Em as (x & Hx & Ex); [|exact Hy].
    rewrite (sapply_solves σ θ Hσ n x y Ex). apply elem_of_list_In, filter_In in Hx as [Hx _]. apply elem_of_list_In in Hx.
    apply (proj1 (Hord _ _)) in Hx. by apply H1. }
  revert E. generalize dependent (remove_dups ch). intros chart Hch E. clear Em ch.
  destruct (sapply n σ (rhead R)) as [h| |] eqn:Eh; try done. cbn [bind] in E.
  apply (sapply_solves σ θ Hσ) in Eh.
  assert (Hfin : forall dr, Ok (Some (Rule h (ord (List.filter (fun x => negb (mem x dr)) chart)))) = Ok o ->
    exists t, o = Some t /\ sub θ (rhead t) = sub θ (rhead R) /\ forall b, b ∈ rbody t -> I (sub θ b)).
  { intros dr [= <-]. eexists. split; [reflexivity|]. split; [exact Eh|]. cbn [rbody]. intros b Hb. apply (proj1 (Hord _ _)) in Hb.
    apply elem_of_list_In, filter_In in Hb as [Hb _]. apply elem_of_list_In in Hb. by apply Hch. }
  destruct ui; [|by eapply Hfin].
  destruct (insts_of "$bound" chart) as [bv| |] eqn:Ebv; try done. cbn [bind] in E.
  destruct (insts_of "$free" chart) as [fvs| |] eqn:Efv; try done. cbn [bind] in E.
  destruct afm.
  - destruct (mapM _ fvs) as [used| |]; try done. cbn [bind] in E. by eapply Hfin.
  - assert (Hno : forall X, X ∉ fvs).
    { intros X HX. eapply insts_of_elem in Efv as [rest Hr]; [|exact HX]. apply Hch in Hr. destruct Hfree as [|Hfree]; [done|].
      by apply (Hfree (sub θ X :: map (sub θ) rest)). }
    destruct (existsb (fun X => negb (is_Var X)) fvs) eqn:Ex1.
    { exfalso. apply existsb_exists in Ex1 as (X & HX & _). by apply (Hno X), elem_of_list_In. }
    destruct (existsb (bound_twice (cp_bindings s)) fvs) eqn:Ex2.
    { exfalso. apply existsb_exists in Ex2 as (X & HX & _). by apply (Hno X), elem_of_list_In. }
    destruct (existsM (used_elsewhere n chart) fvs) as [u| |] eqn:Eu; try done. cbn [bind] in E.
    destruct u; [|by eapply Hfin]. apply existsM_true in Eu as (X & HX & _). by destruct (Hno X).
Qed.

(** What the result says about the constraints that went in. *)
Lemma rw_call_track n R t dc ui afm :
  rw_call ord pick chk ready rules fv n R dc ui afm = Ok (Some t) ->
  exists τ, rhead t = sub τ (rhead R) /\
    forall b, b ∈ rbody R -> plain_constraint b ->
      sub τ b ∈ rbody t \/ (exists X, sub τ b = t_bound X) \/ (afm = true /\ exists X, sub τ b = t_free X) \/
      (dc = true /\ exists l, check chk (sub τ b) = Ok (Passed l) /\ forall u v, (Var u, v) ∈ l -> ~ In u (vars (sub τ b))).
Proof.
  intros E. unfold rw_call in E. fold (rules_of afm) in E.
  destruct (propagate ord pick chk ready n (rules_of afm) (rbody R)) as [o1| |] eqn:E1; try done. cbn [bind] in E.
  destruct o1 as [s|]; [|done]. apply (propagate_track ord pick) in E1 as [[T1 T2 T3 T4] Hag].
  destruct (rw_subst (cp_bindings s) ∅) as [σ| |] eqn:Es; try done. cbn [bind] in E.
  destruct (rw_subst_ok _ _ _ Es) as (_ & _ & Hdom).
  destruct (mapM (sapply n σ) (List.filter (fun x => is_Term x && negb (has_fn "=" x)) (ord (cp_chart s)))) as [ch| |] eqn:Em; try done.
  cbn [bind] in E. destruct (sapply n σ (rhead R)) as [h| |] eqn:Eh; try done. cbn [bind] in E.
  exists (stau n σ). pose proof (sapply_stau n σ n (le_n _) _ _ Eh) as Hh.
  set (chart := remove_dups ch) in *. set (drop0 := if dc then cp_checked s else []) in *.
  assert (Hfin : forall dr, (forall y, y ∈ dr -> y ∈ drop0 \/ (exists X, y = t_bound X) \/ (afm = true /\ exists X, y = t_free X)) ->
    Ok (Some (Rule h (ord (List.filter (fun x => negb (mem x dr)) chart)))) = Ok (Some t) ->
    rhead t = sub (stau n σ) (rhead R) /\
    forall b, b ∈ rbody R -> plain_constraint b ->
      sub (stau n σ) b ∈ rbody t \/ (exists X, sub (stau n σ) b = t_bound X) \/ (afm = true /\ exists X, sub (stau n σ) b = t_free X) \/
      (dc = true /\ exists l, check chk (sub (stau n σ) b) = Ok (Passed l) /\ forall u v, (Var u, v) ∈ l -> ~ In u (vars (sub (stau n σ) b)))).
  { intros dr Hdr [= <-]. split; [exact Hh|]. cbn [rbody]. intros b Hb (f & args & Eb & Hf).
    assert (Hbc : b ∈ List.filter (fun x => is_Term x && negb (has_fn "=" x)) (ord (cp_chart s))).
    { apply elem_of_list_In, filter_In. split; [apply elem_of_list_In, Hord; by apply T1|]. rewrite Eb. cbn -[String.eqb].
      destruct f as [z|g]; [done|]. apply negb_true_iff, String.eqb_neq. congruence. }
    apply mapM_Forall2 in Em. eapply Forall2_elem_l in Em as (y & Hy & Ey); [|exact Hbc].
    pose proof (sapply_stau n σ n (le_n _) _ _ Ey) as Ey'. rewrite <- Ey'.
    destruct (mem y dr) eqn:Emem.
    2:{ left. apply Hord. apply elem_of_list_In, filter_In. split; [by apply elem_of_list_In, elem_of_remove_dups|]. by rewrite Emem. }
    right. apply mem_true in Emem. apply Hdr in Emem as [Hc|[Hc|Hc]]; [|by auto|by auto]. right. right.
    destruct dc; [|unfold drop0 in Hc; by apply elem_of_nil in Hc]. split; [done|]. unfold drop0 in Hc.
    destruct (T4 y Hc) as [Heq|(l & Hl & Hk)].
    { exfalso. rewrite Ey', Eb in Heq. cbn -[String.eqb] in Heq. destruct f as [z|g]; [done|]. apply String.eqb_eq in Heq. congruence. }
    exists l. split; [done|]. intros u v Huv Hu. apply Hk in Huv. destruct (T3 _ _ Huv) as [H|[H|[]]]; [rewrite Hag in H; by apply elem_of_nil in H|].
    apply Hdom in H as [w Hw]. rewrite (sapply_free n σ b y Ey u Hu) in Hw. done. }
  destruct ui; [|apply (Hfin drop0); [auto|exact E]].
  destruct (insts_of "$bound" chart) as [bv| |] eqn:Ebv; try done. cbn [bind] in E.
  destruct (insts_of "$free" chart) as [fvs| |] eqn:Efv; try done. cbn [bind] in E.
  assert (Hd1 : forall y, y ∈ drop0 ++ map t_bound (List.filter (fun X => negb (is_Var X)) bv) -> y ∈ drop0 \/ (exists X, y = t_bound X) \/ (afm = true /\ exists X, y = t_free X)).
  { intros y Hy. apply elem_of_app in Hy as [Hy|Hy]; [auto|]. apply elem_of_list_In, in_map_iff in Hy as (X & <- & _). right. left. by exists X. }
  destruct afm.
  - destruct (mapM _ fvs) as [used| |]; try done. cbn [bind] in E. eapply Hfin; [|exact E].
    intros y Hy. apply elem_of_app in Hy as [Hy|Hy]; [by apply Hd1|]. right. right. split; [done|].
    apply elem_of_app in Hy as [Hy|Hy]; apply elem_of_list_In, in_map_iff in Hy as (X & <- & _); by exists X.
  - destruct (existsb (fun X => negb (is_Var X)) fvs); [done|]. destruct (existsb (bound_twice (cp_bindings s)) fvs); [done|].
    destruct (existsM (used_elsewhere n chart) fvs) as [u| |]; try done. cbn [bind] in E. destruct u; [done|].
    eapply Hfin; [exact Hd1|exact E].
Qed.

Lemma has_fn_plain f τ b : plain_constraint b -> has_fn f (sub τ b) = has_fn f b.
Proof. intros (g & args & -> & _). done. Qed.

Lemma good_plain rules' θ b : I (sub θ b) -> apart rules' b -> plain_constraint b -> good I rules' θ b.
Proof.
  intros HIb Ha Hp. split; [done|]. split; [intros v Hv (r & Hr & Hw); by eapply Ha|].
  rewrite (has_fn_plain "=" θ b Hp). destruct Hp as (f & args & -> & Hf). cbn -[String.eqb]. destruct f as [z|g]; [done|].
  destruct (String.eqb "=" g) eqn:Eg; [|done]. apply String.eqb_eq in Eg. congruence.
Qed.

(** A result has no other ground instances than the rule. *)
Lemma rw_call_back n R t dc ui afm θ :
  model_of I (rules_of afm) -> (afm = true -> free_true I) -> gsub θ ->
  rw_call ord pick chk ready rules fv n R dc ui afm = Ok (Some t) ->
  (forall b, b ∈ rbody t -> I (sub θ b)) ->
  exists θ', gsub θ' /\ sub θ' (rhead R) = sub θ (rhead t) /\
    forall b, b ∈ rbody R -> plain_constraint b -> (dc = true -> no_kw b) -> I (sub θ' b).
Proof.
  intros HI Hfr Hθ E Hb. apply rw_call_track in E as (τ & Ht & Hbt).
  exists (fun v => sub θ (τ v)). split; [intros v; by apply gsub_ground|]. split; [by rewrite <- sub_sub, <- Ht|].
  intros b Hin Hp Hk. rewrite <- sub_sub. destruct (Hbt b Hin Hp) as [H|[[X ->]|[(Ha & X & ->)|(Hd & l & Hl & Hu)]]].
  - by apply Hb.
  - apply (mo_bound I _ HI).
  - by apply (Hfr Ha).
  - unfold check in Hl. rewrite !(has_fn_plain _ τ b Hp) in Hl. destruct (Hk Hd) as [Hk1 Hk2]. rewrite Hk1, Hk2 in Hl. cbn [orb] in Hl.
    destruct (_ || _) eqn:Eb; [|done]. specialize (Hchk (sub τ b)). rewrite Hl in Hchk. destruct Hchk as [Hl1 Hl2].
    apply (Hl2 θ Hθ). intros k v Hkv. exfalso. destruct (Hl1 k v Hkv) as [(u & -> & Hin') _]. by eapply Hu.
Qed.

(** covers *)
Lemma rw_covers_sound n r s :
  model_of I rules -> (forall r, r ∈ rules -> plain_rule r) ->
  (forall b, b ∈ rbody s -> plain_constraint b /\ apart rules b) ->
  (forall b, b ∈ rbody r -> plain_constraint b /\ no_kw b) ->
  rw_covers ord pick chk ready rules fv n r s = Ok true -> forall x, denotes I s x -> denotes I r x.
Proof.
  intros HI Hpl Hs Hr E x (θ & Hθ & Hx & Hb). unfold rw_covers in E.
  destruct (mgu n ∅ (rhead r) (rhead s)) as [[σ ok]| |]; try done. cbn [bind] in E. destruct ok; [|done]. cbn [negb] in E.
  destruct (rw_call ord pick chk ready rules fv n (Rule (rhead r) (rbody r ++ scons σ)) true true true) as [Ro| |]; try done. cbn [bind] in E.
  destruct (rw_call ord pick chk ready rules fv n s true true true) as [So| |] eqn:ES; try done. cbn [bind] in E.
  destruct (rw_call ord pick chk ready rules fv n (Rule (rhead r) (rbody s ++ rbody r ++ scons σ)) true true false) as [To| |] eqn:ET; try done.
  cbn [bind] in E.
  destruct (rw_call_sound n s true true true θ So HI Hpl (or_introl eq_refl) Hθ) as (s' & -> & Hh & Hbs); [|exact ES|].
  { intros b Hb'. destruct (Hs b Hb') as [Hp Ha]. apply good_plain; [by apply Hb|done|done]. }
  destruct Ro as [R|]; [|done]. destruct To as [t|]; [|done]. injection E as E. apply andb_true_iff in E as [E1 E2].
  apply term_eqb_true in E1. unfold superset in E2. rewrite forallb_forall in E2.
  apply rw_call_track in ET as (τ & Ht & Hbt). cbn [rhead rbody] in Ht, Hbt.
  exists (fun v => sub θ (τ v)). split; [intros v; by apply gsub_ground|]. split.
  - rewrite <- sub_sub, <- Ht, <- E1, Hh. done.
  - intros b Hb'. rewrite <- sub_sub. destruct (Hr b Hb') as [Hp Hk].
    destruct (Hbt b) as [Hin|[[X ->]|[[? _]|(_ & l & Hl & Hu)]]]; [rewrite !elem_of_app; auto|done| | |done|].
    + apply Hbs. apply mem_true. apply E2. by apply elem_of_list_In.
    + apply (mo_bound I rules HI).
    + unfold check in Hl. rewrite !(has_fn_plain _ τ b Hp) in Hl. destruct Hk as [Hk1 Hk2]. rewrite Hk1, Hk2 in Hl. cbn [orb] in Hl.
      destruct (_ || _) eqn:Eb; [|done]. specialize (Hchk (sub τ b)). rewrite Hl in Hchk. destruct Hchk as [Hl1 Hl2].
      apply (Hl2 θ Hθ). intros k v Hkv. exfalso. destruct (Hl1 k v Hkv) as [(u & -> & Hin) _]. by eapply Hu.
Qed.

(** intersect *)
Lemma scons_elem σ b : b ∈ scons σ -> exists v t, b = t_eq (Var v) t /\ σ !! v = Some t.
Proof.
  intros H. apply elem_of_list_In, in_map_iff in H as ([v t] & <- & H). apply elem_of_list_In, elem_of_map_to_list in H. eauto.
Qed.

Lemma rw_intersect_sound n c r s afm o :
  model_of I (rules_of afm) -> (forall r, r ∈ rules_of afm -> plain_rule r) -> (afm = true \/ free_false I) ->
  (forall b, b ∈ rbody r ++ rbody s -> plain_constraint b) ->
  (forall v, In v (rule_vars r) -> v < c) -> (forall q v, q ∈ rules_of afm -> In v (rule_vars q) -> v < c) ->
  (forall b, b ∈ rhead r :: rbody r -> apart (rules_of afm) b) ->
  rw_intersect ord pick chk ready rules fv n c r s afm = Ok o ->
  forall x, denotes I r x -> denotes I s x -> exists t, o = Some t /\ denotes I t x.
Proof.
  intros HI Hpl Hfree Hp Hvr Hvq Hap E x (θ & Hθ & Hx & Hb) (η & Hη & Hy & Hbs). unfold rw_intersect in E.
  destruct (fresh (fun j => j) n ∅ c (Fn (rhead s :: rbody s))) as [[t c']| |] eqn:Ef; try done. cbn [bind] in E.
  apply fresh_ok in Ef as (Hc & ρ & Hρ & -> & Hran).
  destruct (reground ρ _ η θ Hρ Hη Hθ) as (θ' & Hθ' & Hsub & Hout). cbn [rename sub map] in E.
  set (sh := sub (fun v => Var (ρ v)) (rhead s)) in *. set (sb := map (sub (fun v => Var (ρ v))) (rbody s)) in *.
  assert (Hold : forall v, v < c -> θ' v = θ v) by (intros v Hv; apply Hout; intros u Hu; specialize (Hran u Hu); lia).
  assert (Hh : sub θ' (rhead r) = x).
  { rewrite <- Hx. apply sub_ext. intros v Hv. apply Hold, Hvr. unfold rule_vars. apply in_app_iff. auto. }
  assert (Hsh : sub θ' sh = x).
  { rewrite <- Hy. apply (Hsub (rhead s)). intros v Hv. simpl. apply in_app_iff. auto. }
  destruct (mgu n ∅ (rhead r) sh) as [[σ ok]| |] eqn:Em; try done. cbn [bind] in E. apply mgu_ok in Em as [Hσ Hok].
  destruct ok; [|exfalso; apply (Hok θ'); congruence].
  assert (Hsol : solves θ' σ) by (apply Hok; congruence).
  assert (Hnew : forall y, y ∈ rhead s :: rbody s -> apart (rules_of afm) (sub (fun v => Var (ρ v)) y)).
  { intros y Hin q v Hq Hv Hvy. apply vars_sub in Hvy as (w & Hw & [<-|[]]). specialize (Hvq q _ Hq Hv).
    assert (Hw' : In w (vars (Fn (rhead s :: rbody s)))) by (apply (vars_Fn_in w y); [by apply elem_of_list_In|done]). specialize (Hran w Hw'). lia. }
  apply (rw_call_sound n _ _ _ afm θ' o HI Hpl Hfree Hθ') in E as (t & -> & Ht & Hbt).
  - exists t. split; [done|]. exists θ'. split; [done|]. split; [|done]. rewrite Ht. exact Hh.
  - cbn [rbody]. intros b Hin. apply elem_of_app in Hin as [Hin|Hin]; [|apply elem_of_app in Hin as [Hin|Hin]].
    + apply good_plain; [|apply Hap; by right|apply Hp, elem_of_app; auto].
      replace (sub θ' b) with (sub θ b); [by apply Hb|]. apply sub_ext. intros v Hv. symmetry. apply Hold, Hvr. unfold rule_vars.
      apply in_app_iff. right. apply in_flat_map. exists b. split; [by apply elem_of_list_In|done].
    + apply elem_of_list_In, in_map_iff in Hin as (a & <- & Ha). apply elem_of_list_In in Ha.
      apply good_plain; [|apply Hnew; by right|].
      * change (sub (fun v => Var (ρ v)) a) with (rename ρ a). rewrite Hsub; [by apply Hbs|].
        intros v Hv. apply (vars_Fn_in v a); [right; by apply elem_of_list_In|done].
      * destruct (Hp a) as (f & args & -> & Hf); [apply elem_of_app; auto|]. by exists f, (map (sub (fun v => Var (ρ v))) args).
    + apply scons_elem in Hin as (v & u & -> & Ev). destruct (Hσ v u Ev) as [Hv Hu].
      assert (Hnr : forall w, In w (vars (rhead r) ++ vars sh) -> ~ rv (rules_of afm) w).
      { intros w Hw (q & Hq & Hwq). apply in_app_iff in Hw as [Hw|Hw]; [by apply (Hap (rhead r) ltac:(by left) q w)|by apply (Hnew (rhead s) ltac:(by left) q w)]. }
      eapply good_eq; [done|done|by apply Hsol|by apply Hnr|]. intros w Hw. by apply Hnr, Hu.
Qed.
End rewrites.
