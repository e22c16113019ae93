(** Proofs about constraint propagation and simple types. *)
From Coq Require Import List Permutation.
From stdpp Require Import gmap.
From Coq Require Import Lia.
From Coq Require String Ascii.
From Verif Require Import PyBase TermModel TermSpec TermProofs CoverProofs ChartProofs SetsModel SetsProofs FuelProofs UnifyProofs PruneModel
  PropagateModel TypesSpec.
Import String.StringSyntax Ascii.AsciiSyntax.
Import ListNotations.
Local Open Scope string_scope.
Local Open Scope list_scope.
Local Open Scope nat_scope.

(** * Small facts *)
Lemma mem_true x xs : mem x xs = true <-> x ∈ xs.
Proof.
  unfold mem. rewrite existsb_exists. split.
  - intros (y & Hy & E). apply term_eqb_true in E as ->. by apply elem_of_list_In.
  - intros H. exists x. split; [by apply elem_of_list_In|]. apply term_eqb_refl.
Qed.
Lemma mem_false x xs : mem x xs = false <-> x ∉ xs.
Proof. rewrite <- mem_true. destruct (mem x xs); naive_solver. Qed.

Lemma has_fn_true f x : has_fn f x = true <-> exists args, x = Fn (Cst (CStr f) :: args).
Proof.
  unfold has_fn. split.
  - destruct x as [| |[|[|[|g]|] args]]; try done. intros ->%String.eqb_eq. eauto.
  - intros [args ->]. apply String.eqb_refl.
Qed.
Lemma has_fn_sub f θ x : has_fn f x = true -> has_fn f (sub θ x) = true.
Proof. intros [args ->]%has_fn_true. simpl. apply String.eqb_refl. Qed.
Lemma has_fn_two f g x : has_fn f x = true -> f <> g -> has_fn g x = false.
Proof. intros [args ->]%has_fn_true Hne. simpl. apply String.eqb_neq. congruence. Qed.

Lemma gsub_ground θ t : gsub θ -> ground (sub θ t).
Proof.
  intros H. unfold ground. destruct (vars (sub θ t)) as [|v l] eqn:E; [done|].
  assert (Hv : In v (vars (sub θ t))) by (rewrite E; by left). apply vars_sub in Hv as (w & _ & Hw). by rewrite (H w) in Hw.
Qed.

Lemma sapply_deref n s x : sapply n s x = deref n s x.
Proof. reflexivity. Qed.

Lemma sapply_det n m s x y z : sapply n s x = Ok y -> sapply m s x = Ok z -> y = z.
Proof.
  intros H1 H2. apply (mono_ok (fun n => deref n s x) n (n + m)) in H1; [|apply mono_deref|lia].
  apply (mono_ok (fun n => deref n s x) m (n + m)) in H2; [|apply mono_deref|lia]. congruence.
Qed.

(** What a substitution that gives a result does to a variable. *)
Fixpoint mapM_Forall2 {A B} (f : A -> res B) l l' : mapM f l = Ok l' -> Forall2 (fun a b => f a = Ok b) l l'.
Proof.
  destruct l as [|a l]; simpl; intros E; [injection E as <-; constructor|].
  destruct (f a) as [b| |] eqn:E1; try done. cbn [bind] in E. destruct (mapM f l) as [bs| |] eqn:E2; try done. injection E as <-.
  constructor; [done|]. by apply mapM_Forall2.
Qed.

Lemma Forall2_elem_r {A B} (Q : A -> B -> Prop) l l' b : Forall2 Q l l' -> b ∈ l' -> exists a, a ∈ l /\ Q a b.
Proof.
  intros H Hb. apply elem_of_list_lookup in Hb as [i Hi]. eapply Forall2_lookup_r in Hi as (a & Ha & Hq); [|done].
  exists a. split; [by eapply elem_of_list_lookup_2|done].
Qed.
Lemma Forall2_elem_l {A B} (Q : A -> B -> Prop) l l' a : Forall2 Q l l' -> a ∈ l -> exists b, b ∈ l' /\ Q a b.
Proof.
  intros H Hb. apply elem_of_list_lookup in Hb as [i Hi]. eapply Forall2_lookup_l in Hi as (b & Hb & Hq); [|done].
  exists b. split; [by eapply elem_of_list_lookup_2|done].
Qed.

Lemma sapply_free n : forall s x y, sapply n s x = Ok y -> forall v, In v (vars y) -> s !! v = None.
Proof.
  induction n as [|n IH]; [done|]. intros s [v|c|xs] y E u Hu; cbn [sapply] in E.
  - destruct (s !! v) as [t|] eqn:Ev; [by eapply IH|]. injection E as <-. destruct Hu as [<-|[]]. done.
  - by injection E as <-.
  - destruct (mapM (sapply n s) xs) as [ys| |] eqn:Em; try done. injection E as <-. apply mapM_Forall2 in Em.
    simpl in Hu. apply in_flat_map in Hu as (y & Hy & Hu). apply elem_of_list_In in Hy.
    eapply Forall2_elem_r in Hy as (x & _ & E); [|done]. exact (IH _ _ _ E u Hu).
Qed.

Lemma sapply_var n : forall s x y, sapply n s x = Ok y -> forall v, In v (vars x) -> exists m t, sapply m s (Var v) = Ok t.
Proof.
  induction n as [|n IH]; [done|]. intros s [v|c|xs] y E u Hu; cbn [sapply] in E.
  - destruct Hu as [<-|[]]. exists (S n), y. exact E.
  - done.
  - destruct (mapM (sapply n s) xs) as [ys| |] eqn:Em; try done. apply mapM_Forall2 in Em.
    simpl in Hu. apply in_flat_map in Hu as (x & Hx & Hu). apply elem_of_list_In in Hx.
    eapply Forall2_elem_l in Hx as (y' & _ & E'); [|done]. exact (IH _ _ _ E' u Hu).
Qed.

(** [τ] is what the results say. *)
Definition follows (s : subst) (τ : nat -> term) : Prop := forall n v t, sapply n s (Var v) = Ok t -> τ v = t.

Lemma sapply_sub s τ : follows s τ -> forall n x y, sapply n s x = Ok y -> y = sub τ x.
Proof.
  intros Hτ. induction n as [|n IH]; [done|]. intros [v|c|xs] y E.
  - simpl. symmetry. by eapply Hτ.
  - cbn [sapply] in E. by injection E as <-.
  - cbn [sapply] in E. destruct (mapM (sapply n s) xs) as [ys| |] eqn:Em; try done. injection E as <-. apply mapM_Forall2 in Em.
    simpl. f_equal. induction Em as [|a b l l' Hab Hl IHl]; [done|]. simpl. f_equal; [by apply IH|done].
Qed.

(** A solution of the bindings does not see the substitution. *)
Lemma sapply_solves s θ : solves θ s -> forall n x y, sapply n s x = Ok y -> sub θ y = sub θ x.
Proof.
  intros Hθ. induction n as [|n IH]; [done|]. intros [v|c|xs] y E; cbn [sapply] in E.
  - destruct (s !! v) as [t|] eqn:Ev; [|by injection E as <-]. rewrite (IH t y E). simpl. symmetry. by apply Hθ.
  - by injection E as <-.
  - destruct (mapM (sapply n s) xs) as [ys| |] eqn:Em; try done. injection E as <-. apply mapM_Forall2 in Em.
    simpl. f_equal. induction Em as [|a b l l' Hab Hl IHl]; [done|]. simpl. f_equal; [by apply IH|done].
Qed.

Lemma follows_msub P s : cover_dom P s -> follows s (msub s).
Proof.
  intros Hd [|n] v t E; [done|]. cbn [sapply] in E. unfold msub. destruct (s !! v) as [u|] eqn:Ev; simpl; [|by injection E as <-].
  destruct (Hd v u Ev) as [_ Hu]. assert (Hs : forall m x y, (forall w, In w (vars x) -> s !! w = None) -> sapply m s x = Ok y -> y = x).
  { clear. induction m as [|m IH]; [done|]. intros [v|c|xs] y Hx E; cbn [sapply] in E.
    - rewrite (Hx v) in E by (by left). by injection E as <-.
    - by injection E as <-.
    - destruct (mapM (sapply m s) xs) as [ys| |] eqn:Em; try done. injection E as <-. apply mapM_Forall2 in Em. f_equal.
      induction Em as [|a b l l' Hab Hl IHl]; [done|]. f_equal.
      + apply IH; [|done]. intros w Hw. apply Hx. by apply (vars_Fn_in w a); [left|].
      + apply IHl. intros w Hw. apply Hx. simpl in Hw |- *. rewrite in_app_iff. auto. }
  symmetry. eapply Hs; [|exact E]. intros w Hw. destruct (s !! w) as [z|] eqn:Ew; [|done]. destruct (Hd w z Ew) as [HP _]. exfalso. by apply (Hu w Hw).
Qed.

(** * Loops *)
Section loops.
  Context (N : Prop) (Inv : cpstate -> Prop).
  Definition post (o : option cpstate) : Prop := match o with None => N | Some s => Inv s end.
  Lemma each_post {A} (f : A -> cpstate -> res (option cpstate)) l : forall s o,
    (forall a s o, a ∈ l -> Inv s -> f a s = Ok o -> post o) -> Inv s -> each f l s = Ok o -> post o.
  Proof.
    induction l as [|a l IH]; intros s o Hf Hs E; simpl in E; [by injection E as <-|].
    destruct (f a s) as [[s1|]| |] eqn:Ef; try done; cbn [bind] in E.
    - eapply IH; [|by eapply (Hf a s (Some s1)); [left|..]|exact E]. intros b s2 o2 Hb. apply Hf. by right.
    - injection E as <-. apply (Hf a s None) in Ef; [done|by left|done].
  Qed.
End loops.

Lemma fold_left_inv {A B} (Inv : A -> Prop) (f : A -> B -> A) l : forall a,
  (forall a b, b ∈ l -> Inv a -> Inv (f a b)) -> Inv a -> Inv (fold_left f l a).
Proof.
  induction l as [|b l IH]; intros a Hf Ha; [done|]. simpl. apply IH; [intros; apply Hf; [by right|done]|]. apply Hf; [by left|done].
Qed.

Lemma rec_bound_inv (Inv : cpstate -> Prop) (ok : term -> Prop) :
  (forall x s, ok x -> Inv s -> Inv (cp_update (t_bound x) s)) ->
  (forall f args y, ok (Fn (f :: args)) -> y ∈ args -> ok y) ->
  forall x s, ok x -> Inv s -> Inv (rec_bound x s).
Proof.
  intros Hu Hsub. induction x as [v|c|xs IH] using term_ind'; [done|done|]. intros s Hx Hs. cbn -[has_fn].
  assert (H1 : Inv (if has_fn "$bound" (Fn xs) then s else cp_update (t_bound (Fn xs)) s)).
  { destruct (has_fn "$bound" (Fn xs)); [done|]. by apply Hu. }
  destruct xs as [|f args]; [done|]. apply Forall_cons in IH as [_ IH].
  assert (Ha : forall y, y ∈ args -> ok y) by (intros y Hy; by eapply Hsub). revert Ha H1. clear Hx Hs. generalize (if has_fn "$bound" (Fn (f :: args)) then s else cp_update (t_bound (Fn (f :: args))) s).
  clear s. induction IH as [|y l Hy Hl IHl]; intros s Ha Hs; [done|]. apply IHl; [intros; apply Ha; by right|]. apply Hy; [apply Ha; by left|done].
Qed.

Lemma cp_update_chart x s y : y ∈ cp_chart (cp_update x s) <-> y = x \/ y ∈ cp_chart s.
Proof.
  unfold cp_update. destruct (mem x (cp_chart s)) eqn:E; simpl; [|set_solver].
  apply mem_true in E. naive_solver.
Qed.
Lemma cp_update_rest x s : cp_bindings (cp_update x s) = cp_bindings s /\ cp_checked (cp_update x s) = cp_checked s.
Proof. unfold cp_update. by destruct (mem x (cp_chart s)). Qed.
Lemma cp_update_agenda x s y : y ∈ cp_agenda (cp_update x s) -> y = x \/ y ∈ cp_agenda s.
Proof. unfold cp_update. destruct (mem x (cp_chart s)) eqn:E; simpl; [auto|set_solver]. Qed.
Lemma cp_update_agenda_new x s : x ∈ cp_chart s \/ x ∈ cp_agenda (cp_update x s).
Proof. unfold cp_update. destruct (mem x (cp_chart s)) eqn:E; [left; by apply mem_true|]. right. simpl. set_solver. Qed.
Lemma cp_update_agenda_old x s y : y ∈ cp_agenda s -> y ∈ cp_agenda (cp_update x s).
Proof. unfold cp_update. destruct (mem x (cp_chart s)); simpl; [done|]. set_solver. Qed.
Lemma set_add_elem x l y : y ∈ set_add x l <-> y = x \/ y ∈ l.
Proof. unfold set_add. destruct (mem x l) eqn:E; [apply mem_true in E; naive_solver|set_solver]. Qed.
Lemma cover_dom_empty (Q : nat -> Prop) : cover_dom Q ∅.
Proof. intros v t E. by rewrite lookup_empty in E. Qed.
Lemma replace_vars x X Y v : In v (vars (replace_in_expr x X Y)) -> In v (vars x) \/ In v (vars Y).
Proof.
  induction x as [u|c|xs IH] using term_ind'; cbn [replace_in_expr].
  - destruct (term_eqb (Var u) X); auto.
  - destruct (term_eqb (Cst c) X); auto.
  - destruct (term_eqb (Fn xs) X); [auto|]. intros Hv. simpl in Hv. apply in_flat_map in Hv as (y & Hy & Hv).
    apply in_map_iff in Hy as (a & <- & Ha). rewrite Forall_forall in IH. apply elem_of_list_In in Ha.
    destruct (IH a Ha Hv) as [H|H]; [|auto]. left. simpl. apply in_flat_map. exists a. split; [by apply elem_of_list_In|done].
Qed.
Lemma take_drop_sub {A} i (l : list A) x : x ∈ take i l ++ drop (S i) l -> x ∈ l.
Proof.
  intros [H|H]%elem_of_app.
  - apply elem_of_take in H as (j & Hj & _). by eapply elem_of_list_lookup_2.
  - apply elem_of_list_lookup in H as [j Hj]. rewrite lookup_drop in Hj. by eapply elem_of_list_lookup_2.
Qed.
Lemma nth_elem {A} i (a : A) l : nth i (a :: l) a ∈ a :: l.
Proof.
  apply elem_of_list_In. destruct (Nat.lt_ge_cases i (length (a :: l))) as [H|H]; [by apply nth_In|].
  rewrite nth_overflow by done. by left.
Qed.

Section propagate.
Context (ord : list term -> list term) (pick : list term -> nat).
Context (Hord : forall l x, x ∈ ord l <-> x ∈ l).
Context (chk : term -> res checked) (ready : term -> bool).



(** * Soundness for one solution *)
Section sound.
  Context (I : term -> Prop) (rules : list rule) (HI : model_of I rules) (Hchk : chk_right I chk).
  Context (Hplain : forall r, r ∈ rules -> plain_rule r).
  Context (θ : nat -> term) (Hθ : gsub θ).
  (** the variables of the rules *)
  Definition rv (v : nat) : Prop := exists r, r ∈ rules /\ In v (rule_vars r).

  Definition good (x : term) : Prop :=
    I (sub θ x) /\ tgt rv x /\
    (if has_fn "=" x then exists v y, x = t_eq (Var v) y else has_fn "=" (sub θ x) = false).

  Definition sinv (s : cpstate) : Prop :=
    (forall x, x ∈ cp_chart s -> good x) /\ (forall x, x ∈ cp_agenda s -> x ∈ cp_chart s) /\
    (forall X Y, (X, Y) ∈ cp_bindings s -> exists v, X = Var v /\ θ v = sub θ Y).

  Lemma sinv_update x s : good x -> sinv s -> sinv (cp_update x s).
  Proof.
    intros Hx (H1 & H2 & H3). destruct (cp_update_rest x s) as [E1 E2]. split; [|split].
    - intros y Hy. apply cp_update_chart in Hy as [->|Hy]; auto.
    - intros y Hy. apply cp_update_chart. apply cp_update_agenda in Hy as [->|Hy]; auto.
    - by rewrite E1.
  Qed.

  Lemma good_eq v y : θ v = sub θ y -> ~ rv v -> tgt rv y -> good (t_eq (Var v) y).
  Proof.
    intros E Hv Hy. split; [|split].
    - simpl. apply (mo_eq I rules HI); [apply Hθ|by apply gsub_ground|done].
    - intros u Hu. simpl in Hu. rewrite app_nil_r in Hu. destruct Hu as [<-|Hu]; [done|by apply Hy].
    - simpl. eauto.
  Qed.

  Lemma cp_join_sound n (k : subst -> cpstate -> res (option cpstate)) xs : forall σ s o,
    cover_dom rv σ -> (forall x, x ∈ xs -> pat rv x) ->
    (forall σ' s' o, σ ⊆ σ' -> cover_dom rv σ' ->
       (forall x, x ∈ xs -> I (sub θ (sub (msub σ') x)) /\ forall v, In v (vars x) -> is_Some (σ' !! v)) ->
       sinv s' -> k σ' s' = Ok o -> post False sinv o) ->
    sinv s -> cp_join ord n xs σ k s = Ok o -> post False sinv o.
  Proof.
    induction xs as [|x xs IH]; intros σ s o Hσ Hp Hk Hs E; cbn [cp_join] in E.
    - eapply (Hk σ s); [done|done| |done|exact E]. intros x Hx. by apply elem_of_nil in Hx.
    - assert (Hg : forall y, y ∈ ord (cp_chart s) -> good y) by (intros y Hy; apply Hs; by apply Hord).
      eapply each_post in E; [exact E| |exact Hs]. clear E. intros y s1 o1 Hy Hs1 E1. specialize (Hg y Hy).
      destruct (cover n σ x y) as [[σ1 b]| |] eqn:Ec; try done. cbn [bind] in E1.
      destruct (cover_spec rv (n + tsize y) σ x y) as (σ2 & b2 & Ec2 & Hr); [lia|apply Hp; by left|apply Hg|done|].
      apply (cover_mono _ (n + tsize y)) in Ec; [|lia]. rewrite Ec in Ec2. injection Ec2 as <- <-.
      destruct Hr as (Hsub & Hd & Hr). destruct b; [|by injection E1 as <-]. destruct Hr as [Ha Hdom].
      eapply (IH σ1); [done|intros; apply Hp; by right| |exact Hs1|exact E1].
      intros σ' s' o' Hs2 Hd2 Hx Hinv Ek. eapply (Hk σ'); [by transitivity σ1|done| |exact Hinv|exact Ek].
      intros z Hz. apply elem_of_cons in Hz as [->|Hz]; [|by apply Hx].
      assert (Hag : agrees (msub σ') σ1).
      { intros v t Ev. apply (lookup_weaken _ σ') in Ev; [|done]. unfold msub. by rewrite Ev. }
      apply Ha in Hag as [_ ->]. split; [apply Hg|]. intros v Hv. destruct (proj2 (Hdom v) (or_intror Hv)) as [t Ht].
      exists t. by eapply lookup_weaken.
  Qed.

  Lemma fire_sound n r σ s o : r ∈ rules -> cover_dom rv σ ->
    (forall x, x ∈ rbody r -> I (sub θ (sub (msub σ) x)) /\ forall v, In v (vars x) -> is_Some (σ !! v)) ->
    sinv s -> fire n (rhead r) σ s = Ok o -> post False sinv o.
  Proof.
    intros Hr Hd Hb Hs E. unfold fire in E. destruct (sapply n σ (rhead r)) as [h| |] eqn:Eh; try done. cbn [bind] in E.
    apply (sapply_sub σ (msub σ)) in Eh; [|by eapply follows_msub].
    assert (Hh : I (sub θ h)).
    { rewrite Eh, sub_sub. apply (mo_rules I rules HI); [done|intros v; by apply gsub_ground|].
      intros b Hb'. rewrite <- sub_sub. by apply Hb. }
    destruct (term_eqb h t_fail) eqn:Ef; injection E as <-.
    { apply term_eqb_true in Ef. rewrite Ef in Hh. by destruct (mo_fail I rules HI). }
    cbn [post]. apply sinv_update; [|done]. destruct (Hplain r Hr) as (Hrr & (f & args & Ehd & Hf) & _).
    split; [done|]. split.
    - intros v Hv. rewrite Eh in Hv. apply vars_sub in Hv as (w & Hw & Hv). apply Hrr in Hw.
      apply in_flat_map in Hw as (b & Hbb & Hw). apply elem_of_list_In in Hbb. destruct (Hb b Hbb) as [_ Hdom].
      destruct (Hdom w Hw) as [t Ht]. unfold msub in Hv. rewrite Ht in Hv. simpl in Hv. destruct (Hd w t Ht) as [_ Htg]. by apply Htg.
    - assert (Hne : forall τ, has_fn "=" (sub τ (rhead r)) = false).
      { intros τ. rewrite Ehd. cbn [sub map has_fn]. destruct f as [z|g]; [done|]. apply String.eqb_neq. congruence. }
      rewrite Eh, Hne, sub_sub. apply Hne.
  Qed.

  Lemma rv_body r b : r ∈ rules -> b ∈ rbody r -> pat rv b.
  Proof.
    intros Hr Hb v Hv. exists r. split; [done|]. unfold rule_vars. apply in_app_iff. right. apply in_flat_map.
    exists b. split; [by apply elem_of_list_In|done].
  Qed.


  Lemma cp_init_sound n s o : sinv s -> cp_init ord n rules s = Ok o -> post False sinv o.
  Proof.
    intros Hs E. eapply each_post in E; [exact E| |exact Hs]. clear E Hs. intros r s1 o1 Hr Hs E.
    eapply cp_join_sound; [apply cover_dom_empty| | |exact Hs|exact E].
    - intros x Hx. by eapply rv_body.
    - intros σ s2 o2 _ Hd Hx Hs2 Ef. by eapply fire_sound.
  Qed.

  Lemma drive_sound' n d s o : good d -> sinv s -> drive ord n rules d s = Ok o -> post False sinv o.
  Proof.
    intros Hg Hs E.
    eapply each_post in E; [exact E| |exact Hs]. clear E Hs. intros r s1 o1 Hr Hs E.
    eapply each_post in E; [exact E| |exact Hs]. clear E Hs. intros k s2 o2 Hk Hs E.
    destruct (rbody r !! k) as [b|] eqn:Eb; try done. destruct (cover n ∅ b d) as [[σ ok]| |] eqn:Ec; try done. cbn [bind] in E.
    assert (Hb : b ∈ rbody r) by by eapply elem_of_list_lookup_2.
    destruct (cover_spec rv (n + tsize d) ∅ b d) as (σ2 & b2 & Ec2 & Hres); [lia|by eapply rv_body|apply Hg|apply cover_dom_empty|].
    apply (cover_mono _ (n + tsize d)) in Ec; [|lia]. rewrite Ec in Ec2. injection Ec2 as <- <-.
    destruct Hres as (_ & Hdm & Hres). destruct ok; [|by injection E as <-]. destruct Hres as [Ha Hdom].
    assert (Hbody : forall x, x ∈ rbody r <-> x = b \/ x ∈ take k (rbody r) ++ drop (S k) (rbody r)).
    { intros x. rewrite <- (take_drop_middle (rbody r) k b Eb) at 1. set_solver. }
    eapply cp_join_sound; [exact Hdm| | |exact Hs|exact E].
    - intros x Hx. eapply rv_body; [done|]. apply Hbody. by right.
    - intros σ' s' o' Hsub Hd' Hx Hs' Ef. eapply fire_sound; [done|exact Hd'| |exact Hs'|exact Ef].
      intros x Hxb. apply Hbody in Hxb as [->|Hxb]; [|by apply Hx].
      assert (Hag : agrees (msub σ') σ).
      { intros v t Ev. apply (lookup_weaken _ σ') in Ev; [|done]. unfold msub. by rewrite Ev. }
      apply Ha in Hag as [_ ->]. split; [apply Hg|]. intros v Hv. destruct (proj2 (Hdom v) (or_intror Hv)) as [t Ht].
      exists t. by eapply lookup_weaken.
  Qed.

  Lemma sinv_checked s d : sinv s -> sinv (CP (cp_chart s) (cp_agenda s) (cp_bindings s) (set_add d (cp_checked s))).
  Proof. done. Qed.

  Lemma check_sound' d s o : good d -> sinv s -> check_driver chk d s = Ok o -> post False sinv o.
  Proof.
    intros Hg Hs E. unfold check_driver in E.
    destruct (check chk d) as [c| |] eqn:Ec; try done. cbn [bind] in E. unfold check in Ec.
    destruct (has_fn "ks" d || has_fn "ws" d) eqn:Ek.
    { injection Ec as <-. injection E as <-. exact (sinv_checked s d Hs). }
    destruct (has_fn "<" d || has_fn ">" d || has_fn "<=" d || has_fn ">=" d || has_fn "is" d) eqn:Eb.
    2:{ injection Ec as <-. by injection E as <-. }
    specialize (Hchk d). rewrite Ec in Hchk. destruct c as [| |l]; injection E as <-; [done| |].
    - exfalso. apply (Hchk θ Hθ). apply Hg.
    - destruct Hchk as [Hl Heq]. cbn [post]. apply (fold_left_inv sinv).
      + intros s1 [k v] Hkv Hs1. cbn [fst snd]. destruct (Hl k v Hkv) as [(u & -> & Hu) Hv]. apply sinv_update; [|done].
        apply good_eq.
        * apply (proj1 (Heq θ Hθ)) in Hkv; [done|apply Hg].
        * apply Hg. done.
        * intros w Hw. apply Hg. by apply Hv.
      + by apply sinv_checked.
  Qed.

  Lemma replace_sub x X Y : sub θ X = sub θ Y -> sub θ (replace_in_expr x X Y) = sub θ x.
  Proof.
    intros E. induction x as [v|c|xs IH] using term_ind'; cbn [replace_in_expr].
    - destruct (term_eqb (Var v) X) eqn:Et; [|done]. apply term_eqb_true in Et as <-. done.
    - destruct (term_eqb (Cst c) X) eqn:Et; [|done]. apply term_eqb_true in Et as <-. done.
    - destruct (term_eqb (Fn xs) X) eqn:Et; [apply term_eqb_true in Et as <-; done|]. cbn [sub]. f_equal. rewrite map_map.
      apply map_ext_in. intros a Ha. rewrite Forall_forall in IH. apply IH. by apply elem_of_list_In.
  Qed.

  Lemma good_same x y : good x -> has_fn "=" x = false -> sub θ y = sub θ x -> tgt rv y -> good y.
  Proof.
    intros (HIx & Hv & He) Hf E Hy. rewrite Hf in He. split; [by rewrite E|]. split; [done|].
    assert (Hny : has_fn "=" y = false).
    { destruct (has_fn "=" y) eqn:Ey; [|done]. apply (has_fn_sub "=" θ) in Ey. rewrite E in Ey. congruence. }
    rewrite Hny, E. done.
  Qed.

  Lemma equate_sound' d s o : good d -> sinv s -> equate ord ready d s = Ok o -> post False sinv o.
  Proof.
    intros Hg Hs E. unfold equate in E.
    destruct (has_fn "=" d) eqn:Ed; [|by injection E as <-]. destruct Hg as (HId & Hv & He). rewrite Ed in He.
    destruct He as (v & y & ->). cbn [t_eq is_Var negb andb] in E. injection E as <-.
    assert (Eq : θ v = sub θ y).
    { apply (mo_eq I rules HI) in HId; [done|apply Hθ|by apply gsub_ground]. }
    assert (Hvy : ~ rv v /\ tgt rv y).
    { split; [apply Hv; by left|]. intros u Hu. apply Hv. simpl. rewrite app_nil_r. by right. }
    set (s1 := CP (cp_chart s) (cp_agenda s) (cp_bindings s) (set_add (t_eq (Var v) y) (cp_checked s))).
    assert (H1 : sinv s1) by exact (sinv_checked s _ Hs).
    assert (H2 : sinv (if term_eqb (Var v) y then s1 else replace_all ord (Var v) y s1)).
    { destruct (term_eqb (Var v) y); [done|]. unfold replace_all. apply (fold_left_inv sinv); [|done].
      intros s2 x Hx H2. apply elem_of_list_In, filter_In in Hx as [Hx Hf]. apply elem_of_list_In in Hx. apply (proj1 (Hord _ _)) in Hx.
      assert (Hgx : good x) by by apply H1. apply andb_true_iff in Hf as [_ Hf]. apply negb_true_iff in Hf.
      apply sinv_update; [|apply sinv_update; [|done]].
      - eapply good_same; [exact Hgx|done|by apply replace_sub|]. intros u Hu. apply replace_vars in Hu as [Hu|[<-|[]]]; [by apply Hgx|exact (proj1 Hvy)].
      - eapply good_same; [exact Hgx|done|by apply replace_sub|]. intros u Hu. apply replace_vars in Hu as [Hu|Hu]; [by apply Hgx|exact (proj2 Hvy u Hu)]. }
    change (sinv (let s := if term_eqb (Var v) y then s1 else replace_all ord (Var v) y s1 in
      CP (cp_chart s) (fold_left (fun ag x => if has_fn "is" x && ready x then set_add x ag else ag) (cp_chart s) (cp_agenda s))
         (cp_bindings s ++ [(Var v, y)]) (cp_checked s))).
    revert H2. generalize (if term_eqb (Var v) y then s1 else replace_all ord (Var v) y s1). clear H1 Hs. clear s1. clear s. intros s (H1 & H2 & H3).
    cbv zeta. split; [exact H1|]. split; cbn [cp_agenda cp_chart cp_bindings].
    - apply (fold_left_inv (fun ag => forall x, x ∈ ag -> x ∈ cp_chart s)); [|done].
      intros ag x Hx Hag z Hz. destruct (has_fn "is" x && ready x); [|by apply Hag]. apply set_add_elem in Hz as [->|Hz]; auto.
    - intros X Y HXY. apply elem_of_app in HXY as [HXY|HXY]; [by apply H3|]. apply elem_of_list_singleton in HXY as [= -> ->]. eauto.
  Qed.

  Lemma hook_sound' d s : good d -> sinv s -> sinv (hook_bound d s).
  Proof.
    intros Hg Hs. unfold hook_bound. destruct (has_fn "$bound" d); [|done].
    apply (rec_bound_inv sinv (tgt rv)); [| |apply Hg|done].
    - intros x s1 Hx Hs1. apply sinv_update; [|done]. split; [apply (mo_bound I rules HI)|]. split; [|done].
      intros v Hv. simpl in Hv. rewrite app_nil_r in Hv. by apply Hx.
    - intros f args y Hx Hy v Hv. apply Hx. apply (vars_Fn_in v y); [|done]. right. by apply elem_of_list_In.
  Qed.


  Lemma cp_loop_sound n k : forall s o, sinv s -> cp_loop ord pick chk ready n rules k s = Ok o -> post False sinv o.
  Proof.
    induction k as [|k IH]; intros s o Hs E; [done|]. cbn [cp_loop] in E.
    destruct (cp_agenda s) as [|a ag] eqn:Ea; [by injection E as <-|].
    set (i := pick (a :: ag) mod length (a :: ag)) in E. set (d := nth i (a :: ag) a) in E.
    set (s0 := CP (cp_chart s) (take i (a :: ag) ++ drop (S i) (a :: ag)) (cp_bindings s) (cp_checked s)) in E.
    assert (Hd : d ∈ cp_chart s) by (apply Hs; rewrite Ea; apply nth_elem).
    assert (H0 : sinv s0).
    { destruct Hs as (H1 & H2 & H3). split; [done|]. split; [|done]. intros x Hx. apply H2. rewrite Ea. exact (take_drop_sub i _ x Hx). }
    clearbody d s0. assert (Hd0 : good d) by by apply Hs. clear Hs Hd Ea.
    destruct (check_driver chk d s0) as [o1| |] eqn:E1; try done. cbn [bind] in E. eapply check_sound' in E1 as H1; [|exact Hd0|exact H0].
    destruct o1 as [s1|]; [|done]. cbn [post] in H1.
    destruct (equate ord ready d s1) as [o2| |] eqn:E2; try done. cbn [bind] in E. eapply equate_sound' in E2 as H2; [|exact Hd0|exact H1].
    destruct o2 as [s2|]; [|done]. cbn [post] in H2.
    destruct (drive ord n rules d s2) as [o3| |] eqn:E3; try done. cbn [bind] in E. eapply drive_sound' in E3 as H3; [|exact Hd0|exact H2].
    destruct o3 as [s3|]; [|done]. cbn [post] in H3. eapply IH; [|exact E]. by apply hook_sound'.
  Qed.

  Lemma fold_update_sinv D : forall s, (forall x, x ∈ D -> good x) -> sinv s -> sinv (fold_left (fun s x => cp_update x s) D s).
  Proof. intros s HD Hs. apply (fold_left_inv sinv); [|done]. intros s1 x Hx H1. apply sinv_update; auto. Qed.

  Lemma propagate_sound n D o : (forall x, x ∈ D -> good x) -> propagate ord pick chk ready n rules D = Ok o -> post False sinv o.
  Proof.
    intros HD E. unfold propagate in E.
    assert (H0 : sinv (fold_left (fun s x => cp_update x s) D (CP [] [] [] []))).
    { apply fold_update_sinv; [done|]. split; [|split]; cbn; intros; match goal with H : _ ∈ [] |- _ => by apply elem_of_nil in H end. }
    destruct (cp_init ord n rules _) as [o1| |] eqn:E1; try done. cbn [bind] in E. eapply cp_init_sound in E1; [|exact H0].
    destruct o1 as [s1|]; [|done]. eapply cp_loop_sound; [exact E1|exact E].
  Qed.
End sound.

(** * Bookkeeping, whatever the constraints mean *)
Section track.
  Context (rules : list rule) (D : list term).
  Record track (ex : term -> Prop) (s : cpstate) : Prop := {
    tr_D : forall x, x ∈ D -> x ∈ cp_chart s;
    tr_ag : forall x, x ∈ cp_agenda s -> x ∈ cp_chart s;
    tr_eq : forall X Y, t_eq X Y ∈ cp_chart s -> t_eq X Y ∈ cp_agenda s \/ (X, Y) ∈ cp_bindings s \/ ex (t_eq X Y);
    tr_chk : forall d, d ∈ cp_checked s -> has_fn "=" d = true \/
       exists l, check chk d = Ok (Passed l) /\ forall k v, (k, v) ∈ l -> t_eq k v ∈ cp_chart s }.

  Lemma track_update ex x s : track ex s -> track ex (cp_update x s).
  Proof.
    intros [H1 H2 H3 H4]. destruct (cp_update_rest x s) as [E1 E2]. split.
    - intros y Hy. apply cp_update_chart. auto.
    - intros y Hy. apply cp_update_chart. apply cp_update_agenda in Hy as [->|Hy]; auto.
    - intros X Y HXY. rewrite E1. apply cp_update_chart in HXY as [<-|HXY].
      + destruct (cp_update_agenda_new (t_eq X Y) s) as [H|H]; [|auto].
        destruct (H3 _ _ H) as [?|[?|?]]; [left; by apply cp_update_agenda_old|auto|auto].
      + destruct (H3 _ _ HXY) as [?|[?|?]]; [left; by apply cp_update_agenda_old|auto|auto].
    - intros d. rewrite E2. intros Hd. destruct (H4 d Hd) as [?|(l & E & Hl)]; [by left|]. right. exists l. split; [done|].
      intros k v Hkv. apply cp_update_chart. auto.
  Qed.

  Lemma cp_join_track ex n (k : subst -> cpstate -> res (option cpstate)) xs : forall σ s o,
    (forall σ s o, track ex s -> k σ s = Ok o -> post True (track ex) o) ->
    track ex s -> cp_join ord n xs σ k s = Ok o -> post True (track ex) o.
  Proof.
    induction xs as [|x xs IH]; intros σ s o Hk Hs E; cbn [cp_join] in E; [by eapply Hk|].
    eapply each_post in E; [exact E| |exact Hs]. clear E. intros y s1 o1 Hy Hs1 E1.
    destruct (cover n σ x y) as [[σ1 b]| |] eqn:Ec; try done. cbn [bind] in E1. destruct b; [by eapply IH|by injection E1 as <-].
  Qed.
  Lemma fire_track ex n h σ s o : track ex s -> fire n h σ s = Ok o -> post True (track ex) o.
  Proof.
    intros Hs E. unfold fire in E. destruct (sapply n σ h) as [y| |]; try done. cbn [bind] in E.
    destruct (term_eqb y t_fail); injection E as <-; [done|]. by apply track_update.
  Qed.
  Lemma cp_init_track ex n s o : track ex s -> cp_init ord n rules s = Ok o -> post True (track ex) o.
  Proof.
    intros Hs E. eapply each_post in E; [exact E| |exact Hs]. clear E Hs. intros r s1 o1 Hr Hs E.
    eapply cp_join_track; [|exact Hs|exact E]. intros. by eapply fire_track.
  Qed.
  Lemma drive_track ex n d s o : track ex s -> drive ord n rules d s = Ok o -> post True (track ex) o.
  Proof.
    intros Hs E. eapply each_post in E; [exact E| |exact Hs]. clear E Hs. intros r s1 o1 Hr Hs E.
    eapply each_post in E; [exact E| |exact Hs]. clear E Hs. intros k s2 o2 Hk Hs E.
    destruct (rbody r !! k) as [b|] eqn:Eb; try done. destruct (cover n ∅ b d) as [[σ ok]| |] eqn:Ec; try done. cbn [bind] in E.
    destruct ok; [|by injection E as <-]. eapply cp_join_track; [|exact Hs|exact E]. intros. by eapply fire_track.
  Qed.
  Lemma hook_track ex d s : track ex s -> track ex (hook_bound d s).
  Proof.
    intros Hs. unfold hook_bound. destruct (has_fn "$bound" d); [|done].
    apply (rec_bound_inv (track ex) (fun _ => True)); [|done|done|done]. intros. by apply track_update.
  Qed.

  Lemma fold_updates ex l : forall s, track ex s ->
    let s' := fold_left (fun s (kv : term * term) => cp_update (t_eq (fst kv) (snd kv)) s) l s in
    track ex s' /\ (forall x, x ∈ cp_chart s -> x ∈ cp_chart s') /\ (forall k v, (k, v) ∈ l -> t_eq k v ∈ cp_chart s') /\ cp_checked s' = cp_checked s.
  Proof.
    induction l as [|[k v] l IH]; intros s Hs; cbn [fold_left fst snd].
    - split; [done|]. split; [done|]. split; [|done]. intros k v H. by apply elem_of_nil in H.
    - destruct (IH (cp_update (t_eq k v) s)) as (H1 & H2 & H3 & H4); [by apply track_update|]. split; [done|]. split; [|split].
      + intros x Hx. apply H2. apply cp_update_chart. auto.
      + intros k' v' Hk. apply elem_of_cons in Hk as [[= -> ->]|Hk]; [|by apply H3]. apply H2, cp_update_chart. auto.
      + rewrite H4. apply cp_update_rest.
  Qed.

  Lemma check_track ex d s o : track ex s -> check_driver chk d s = Ok o -> post True (track ex) o.
  Proof.
    intros Hs E. unfold check_driver in E. destruct (check chk d) as [c| |] eqn:Ec; try done. cbn [bind] in E.
    destruct c as [| |l]; injection E as <-; [done|done|]. cbn [post].
    destruct (fold_updates ex l s Hs) as (H1 & H2 & H3 & H4).
    assert (E : forall l s, fold_left (fun s (kv : term * term) => cp_update (t_eq (fst kv) (snd kv)) s) l
                 (CP (cp_chart s) (cp_agenda s) (cp_bindings s) (set_add d (cp_checked s))) =
               (let s' := fold_left (fun s (kv : term * term) => cp_update (t_eq (fst kv) (snd kv)) s) l s in
                CP (cp_chart s') (cp_agenda s') (cp_bindings s') (set_add d (cp_checked s')))).
    { clear. intros l. induction l as [|[k v] l IH]; intros s; [done|]. cbn [fold_left fst snd]. rewrite <- IH. f_equal.
      unfold cp_update. cbn [cp_chart]. by destruct (mem (t_eq k v) (cp_chart s)). }
    rewrite E. cbv zeta. destruct H1 as [G1 G2 G3 G4]. split; [done..|]. cbn [cp_checked cp_chart]. intros x Hx.
    apply set_add_elem in Hx as [->|Hx]; [|by apply G4]. right. exists l. split; [done|exact H3].
  Qed.

  Lemma equate_track d s o : track (fun x => x = d) s -> equate ord ready d s = Ok o -> post True (track (fun _ => False)) o.
  Proof.
    intros Hs E. unfold equate in E. destruct (has_fn "=" d) eqn:Ed.
    - destruct d as [|c|[|e [|X [|Y [|? ?]]]]]; try done.
      destruct (negb (is_Var X) && negb (is_Var Y) && negb (term_eqb X Y)); injection E as <-; [done|]. cbn [post].
      set (d := Fn [e; X; Y]) in *.
      set (s1 := CP (cp_chart s) (cp_agenda s) (cp_bindings s) (set_add d (cp_checked s))).
      assert (H1 : track (fun x => x = d) s1).
      { destruct Hs as [G1 G2 G3 G4]. split; [done..|]. cbn. intros x Hx. apply set_add_elem in Hx as [->|Hx]; [by left|by apply G4]. }
      assert (H2 : track (fun x => x = d) (if term_eqb X Y then s1 else replace_all ord X Y s1)).
      { destruct (term_eqb X Y); [done|]. unfold replace_all. apply (fold_left_inv (track (fun x => x = d))); [|done].
        intros s2 x _ H2. by apply track_update, track_update. }
      revert H2. generalize (if term_eqb X Y then s1 else replace_all ord X Y s1). clear H1 Hs. clear s1. clear s. intros s [H1 H2 H3 H4].
      split; cbn [cp_agenda cp_chart cp_bindings cp_checked]; [done| | |done].
      + apply (fold_left_inv (fun ag => forall x, x ∈ ag -> x ∈ cp_chart s)); [|done].
        intros ag x Hx Hag z Hz. destruct (has_fn "is" x && ready x); [|by apply Hag]. apply set_add_elem in Hz as [->|Hz]; auto.
      + intros X' Y' Hx. destruct (H3 _ _ Hx) as [H|[H|H]].
        * left. apply (fold_left_inv (fun ag => t_eq X' Y' ∈ ag)); [|done].
          intros ag x _ Hag. destruct (has_fn "is" x && ready x); [|done]. apply set_add_elem. auto.
        * right. left. apply elem_of_app. auto.
        * right. left. apply elem_of_app. right. unfold d, t_eq in H. injection H as _ -> ->. by apply elem_of_list_singleton.
    - injection E as <-. destruct Hs as [G1 G2 G3 G4]. split; [done..| |done]. intros X Y HXY. destruct (G3 _ _ HXY) as [?|[?|<-]]; auto. done.
  Qed.

  Lemma cp_loop_track n k : forall s o, track (fun _ => False) s -> cp_loop ord pick chk ready n rules k s = Ok o ->
    post True (fun s => track (fun _ => False) s /\ cp_agenda s = []) o.
  Proof.
    induction k as [|k IH]; intros s o Hs E; [done|]. cbn [cp_loop] in E.
    destruct (cp_agenda s) as [|a ag] eqn:Ea; [by injection E as <-|].
    set (i := pick (a :: ag) mod length (a :: ag)) in E. 
    assert (H0 : track (fun x => x = nth i (a :: ag) a) (CP (cp_chart s) (take i (a :: ag) ++ drop (S i) (a :: ag)) (cp_bindings s) (cp_checked s))).
    { destruct Hs as [G1 G2 G3 G4]. split; [done| | |done]; cbn [cp_agenda cp_chart cp_bindings].
      - intros x Hx. apply G2. rewrite Ea. exact (take_drop_sub i _ x Hx).
      - intros X Y HXY. destruct (G3 _ _ HXY) as [H|[H|[]]]; [|auto]. rewrite Ea in H.
        assert (Hi : i < length (a :: ag)) by (apply Nat.mod_upper_bound; done).
        destruct (lookup_lt_is_Some_2 _ _ Hi) as [z Hz]. rewrite (nth_lookup_Some _ _ a z Hz).
        rewrite <- (take_drop_middle _ _ _ Hz) in H. apply elem_of_app in H as [H|H].
        + left. apply elem_of_app. auto.
        + apply elem_of_cons in H as [->|H]; [auto|]. left. apply elem_of_app. auto. }
    set (d := nth i (a :: ag) a) in *.
    set (s0 := CP (cp_chart s) (take i (a :: ag) ++ drop (S i) (a :: ag)) (cp_bindings s) (cp_checked s)) in *.
    clearbody d s0. clear Hs Ea.
    destruct (check_driver chk d s0) as [o1| |] eqn:E1; try done. cbn [bind] in E. eapply check_track in E1 as H1; [|exact H0].
    destruct o1 as [s1|]; [|by injection E as <-]. cbn [post] in H1.
    destruct (equate ord ready d s1) as [o2| |] eqn:E2; try done. cbn [bind] in E. eapply equate_track in E2 as H2; [|exact H1].
    destruct o2 as [s2|]; [|by injection E as <-]. cbn [post] in H2.
    destruct (drive ord n rules d s2) as [o3| |] eqn:E3; try done. cbn [bind] in E. eapply drive_track in E3 as H3; [|exact H2].
    destruct o3 as [s3|]; [|by injection E as <-]. cbn [post] in H3. eapply IH; [|exact E]. by apply hook_track.
  Qed.
End track.

Lemma propagate_track rules D n s : propagate ord pick chk ready n rules D = Ok (Some s) -> track D (fun _ => False) s /\ cp_agenda s = [].
Proof.
  intros E. unfold propagate in E.
  assert (H0 : track D (fun _ => False) (fold_left (fun s x => cp_update x s) D (CP [] [] [] []))).
  { assert (H : forall D1 D2 s, track D1 (fun _ => False) s -> track (D1 ++ D2) (fun _ => False) (fold_left (fun s x => cp_update x s) D2 s)).
    { clear E s. intros D1 D2. revert D1. induction D2 as [|x D2 IH]; intros D1 s Hs; [by rewrite app_nil_r|]. cbn [fold_left].
      replace (D1 ++ x :: D2) with ((D1 ++ [x]) ++ D2) by (by rewrite <- app_assoc). apply IH.
      destruct (track_update _ (fun _ => False) x s Hs) as [G1 G2 G3 G4]. split; [|done..].
      intros y Hy. apply elem_of_app in Hy as [Hy|Hy]; [by apply G1|]. apply elem_of_list_singleton in Hy as ->. apply cp_update_chart. auto. }
    apply (H [] D). split; cbn; intros; match goal with H : _ ∈ [] |- _ => by apply elem_of_nil in H end. }
  destruct (cp_init ord n rules _) as [o1| |] eqn:E1; try done. cbn [bind] in E. eapply cp_init_track in E1; [|exact H0].
  destruct o1 as [s1|]; [|done]. by eapply cp_loop_track in E; [|exact E1].
Qed.
End propagate.
