(** C53: fine-grained pruning keeps every derivation of every output. *)
From Coq Require Import List Lia ZArith.
From stdpp Require Import gmap.
From Coq Require String Ascii.
From Verif Require Import PyBase Semiring TermModel TermSpec TermProofs SetsModel SetsSpec PruneModel ProgSpec PruneSpec ProgProofs
  PruneProofs SolverSpec UpdateSpec Solver2Proofs SlashSpec TypesModel SpecialModel SpecialSpec SpecialProofs PropagateModel TypesSpec RewriteProps TypesProps.
Import String.StringSyntax Ascii.AsciiSyntax.
Import ListNotations.

Lemma same_refl A : same_derivations A A.
Proof. exists (fun t => t), (fun t => t). split; [|done]. intros t Ht. done. Qed.
Lemma covered_refl A : covered_derivations A A.
Proof. exists (fun t => t), (fun t => t). split; intros t Ht; done. Qed.

Section C53.
Context (cmpf : String.string -> term -> term -> res bool)
  (is_run : nat -> store -> term -> term -> res (list store)) (is_true : term -> term -> bool) (al cv : nat -> nat)
  (peq : list rule -> list rule -> res bool).
Context (His : is_exact is_true is_run) (Hal : forall i j, al i = al j -> i = j) (Hcv : forall i j, cv i = cv j -> i = j)
  (Hac : forall i j, al i <> cv j).

(** C53.  With types that stand for all items used by the outputs and that become
    disjoint in the DisjointEstimate, specialisation keeps the derivations of the
    outputs one to one. *)
Theorem C53_specialize_estimate : forall P ts outputs (base : term -> Prop) n c P',
  plain_program P -> vars_apart al cv c P -> wf_decls (map rhead ts) ->
  (forall y, base y -> exo y = true -> builtin_true cmpf is_true y) ->
  types_cover ts (used_item outputs base P) ->
  (forall D c', de_adds al cv n ([], c) (map rhead ts) = Ok (D, c') -> pairwise_disjoint D) ->
  prune_specialize cmpf is_run al cv peq n P ts c = Ok P' ->
  same_derivations (output_derivation outputs base P) (output_derivation outputs base P').
Proof.
  intros P ts outputs base n c P' HP Hap Hw Hb Hcov Hd E. unfold prune_specialize in E.
  destruct (de_adds al cv n ([], c) (map rhead ts)) as [[D c1]| |] eqn:Ed; [|done..]. cbn [bind] in E.
  destruct (mapSM _ P c1) as [[rss c2]| |] eqn:Em; [|done..]. cbn [bind] in E.
  destruct (peq (concat rss) P) as [b| |]; [|done..]. cbn [bind] in E. injection E as <-. destruct b; [apply same_refl|].
  pose proof (specialize_program cmpf is_run is_true al His Hal P ts HP cv Hcv Hac n c D c1 rss c2 Hw Hap Ed Em) as HF.
  eapply copies_same; [exact HF|apply HP|intros t s Ht Hs; eapply used_ok; eauto|]. by apply (Hd D c1).
Qed.

(** In particular when the types are disjoint. *)
Theorem C53_specialize : forall P ts outputs (base : term -> Prop) n c P',
  plain_program P -> vars_apart al cv c P -> wf_decls (map rhead ts) ->
  (forall y, base y -> exo y = true -> builtin_true cmpf is_true y) ->
  types_cover ts (used_item outputs base P) ->
  pairwise_disjoint (map rhead ts) ->
  prune_specialize cmpf is_run al cv peq n P ts c = Ok P' ->
  same_derivations (output_derivation outputs base P) (output_derivation outputs base P').
Proof.
  intros P ts outputs base n c P' HP Hap Hw Hb Hcov Hd E. eapply C53_specialize_estimate; try done.
  intros D c' Ed. exact (estimate_disjoint al cv Hal Hcv n c _ D c' Hd Ed).
Qed.

(** Whatever the overlaps: no derivation is lost and none is made up; some may be
    duplicated, which an idempotent semiring does not notice. *)
Theorem C53_specialize_any : forall P ts outputs (base : term -> Prop) n c P',
  plain_program P -> vars_apart al cv c P -> wf_decls (map rhead ts) ->
  (forall y, base y -> exo y = true -> builtin_true cmpf is_true y) ->
  types_cover ts (used_item outputs base P) ->
  prune_specialize cmpf is_run al cv peq n P ts c = Ok P' ->
  covered_derivations (output_derivation outputs base P) (output_derivation outputs base P').
Proof.
  intros P ts outputs base n c P' HP Hap Hw Hb Hcov E. unfold prune_specialize in E.
  destruct (de_adds al cv n ([], c) (map rhead ts)) as [[D c1]| |] eqn:Ed; [|done..]. cbn [bind] in E.
  destruct (mapSM _ P c1) as [[rss c2]| |] eqn:Em; [|done..]. cbn [bind] in E.
  destruct (peq (concat rss) P) as [b| |]; [|done..]. cbn [bind] in E. injection E as <-. destruct b; [apply covered_refl|].
  pose proof (specialize_program cmpf is_run is_true al His Hal P ts HP cv Hcv Hac n c D c1 rss c2 Hw Hap Ed Em) as HF.
  eapply copies_covered; [exact HF|apply HP|intros t s Ht Hs; eapply used_ok; eauto].
Qed.

(** Without specialisation: the rules that are left out take part in no derivation
    of an output, whether the types overlap or not. *)
Theorem C53_dead : forall P ts ins outputs (base : term -> Prop) n c P',
  plain_program P -> types_apart al c P ts -> wf_decls (map rhead ts) ->
  (forall y, base y -> exo y = true -> builtin_true cmpf is_true y) ->
  types_cover ts (used_item outputs base P) ->
  prune_dead cmpf is_run al n P ins ts c = Ok P' ->
  same_derivations (output_derivation outputs base P) (output_derivation outputs base P').
Proof.
  intros P ts ins outputs base n c P' HP Hap Hw Hb Hcov E. unfold prune_dead in E.
  destruct (live_rules _ _ _ n ins (map rhead ts) P c) as [[new c1]| |] eqn:El; [|done..]. cbn [bind] in E. injection E as <-.
  eapply live_rules_ok in El as (bs & Hl & -> & Hbs); [|done..]. rewrite sel_if by done.
  apply pruned_same; [done|]. by eapply uses_live.
Qed.
End C53.

(** * Where the types come from *)
Section useful.
Context (ord : list term -> list term) (pick : list term -> nat) (Hord : any_order ord).
Context (chk : term -> res checked) (ready : term -> bool) (rules : list rule) (fv : nat).
Context (inputs : list term) (max_depth : nat) (use_insts : bool) (I : term -> Prop).
Notation run := (run_basic ord pick chk ready rules fv inputs max_depth use_insts).

(** A leaf of a derivation: a constant, a true constraint, or a fact of the data. *)
Definition leaf_ok (DB : term -> Prop) (y : term) : Prop :=
  (exists k, y = Cst k) \/ (is_instance inputs y /\ I y) \/ DB y.

Section items.
Context (P outs : list rule) (DB base : term -> Prop).
Context (HP : plain_program P) (Houts : forall o, o ∈ outs -> rbody o = []) (Hbase : forall y, base y -> ground y /\ leaf_ok DB y).
Notation PU := (useful_program P outs).
Notation itm := (item inputs I PU DB).

Lemma useful_rule r : r ∈ P -> r ∈ PU.
Proof.
  intros Hr. unfold useful_program. apply elem_of_app. left. apply elem_of_list_fmap. exists r. split; [by destruct r|done].
Qed.
Lemma item_goals r σ ts : r ∈ P -> map root ts = map (sub σ) (rbody r) ->
  Forall (fun t => leaf_ok itm (root t)) ts ->
  forall b, b ∈ rbody r -> is_const b = true \/ (is_instance inputs (sub σ b) /\ I (sub σ b)) \/ itm (sub σ b).
Proof.
  intros Hr Em Hts b Hb. assert (Hin : sub σ b ∈ map root ts) by (rewrite Em; by apply elem_of_list_fmap_1).
  apply elem_of_list_fmap in Hin as (t & Et & Ht). rewrite List.Forall_forall in Hts. rewrite Et.
  destruct (Hts t) as [[k Ek]|[H|H]]; [by apply elem_of_list_In| |by right; left|by right; right].
  left. destruct b as [v|c|xs]; [|done|by rewrite <- Et in Ek].
  exfalso. by apply (proj2 HP r (Var v)) with (v := v); [by apply elem_of_list_In..|].
Qed.
Lemma item_roots t : derives P base t -> leaf_ok itm (root t).
Proof.
  induction t as [x|i x ts IH] using deriv_ind'; intros Hd.
  - apply derives_leaf_inv, Hbase in Hd as [_ [H|[H|H]]]; [by left|by right; left|right; right; by apply item_data].
  - apply derives_node_inv in Hd as (r & Hi & (σ & Hg & <- & Hm) & Hts). apply nth_error_In, elem_of_list_In in Hi.
    right. right. cbn [root]. apply item_rule; [by apply useful_rule|done|]. apply (item_goals r σ ts); [done|done|].
    rewrite List.Forall_forall in *. intros s Hs. by apply IH, Hts.
Qed.
Lemma useful_within t s : derives P base t -> within s t -> (exo (root t) = false -> itm (t_useful (root t))) ->
  exo (root s) = false -> itm (t_useful (root s)).
Proof.
  intros Hd Hw. induction Hw as [|i x t ts Hin Hw IH]; intros Hx Hs; [by apply Hx|].
  apply derives_node_inv in Hd as (r & Hi & (σ & Hg & <- & Hm) & Hts). cbn [root] in Hx.
  assert (HrP : In r P) by (by eapply nth_error_In). apply elem_of_list_In in HrP as Hr.
  pose proof (proj1 (List.Forall_forall _ _) Hts t Hin) as Hdt. apply IH; [done| |done]. intros Ht.
  specialize (Hx (head_exo P HP r σ HrP)).
  assert (Hb : exists b, b ∈ rbody r /\ sub σ b = root t).
  { assert (H : root t ∈ map (sub σ) (rbody r)) by (rewrite Hm; apply elem_of_list_In; by apply in_map).
    apply elem_of_list_fmap in H as (b & E & Hb). by exists b. }
  destruct Hb as (b & Hb & Eb). rewrite <- Eb in *. change (t_useful (sub σ b)) with (sub σ (t_useful b)).
  assert (Hexo : is_const b || is_builtin b = false).
  { destruct (proj1 HP r HrP) as (_ & _ & Hpb). change (exo b = false). rewrite <- Ht. symmetry. apply exo_sub; [apply Hpb; by apply elem_of_list_In|].
    apply (proj2 HP r b); [done|by apply elem_of_list_In]. }
  apply (item_rule inputs I PU DB (Rule (t_useful b) (t_useful (rhead r) :: rbody r))); [|done|].
  - unfold useful_program. apply elem_of_app. right. apply elem_of_app. right. apply elem_of_list_In, in_flat_map. exists r. split; [done|].
    apply in_flat_map. exists b. split; [by apply elem_of_list_In|]. rewrite Hexo. by left.
  - intros b' Hb'. cbn [rbody] in Hb'. apply elem_of_cons in Hb' as [->|Hb']; [right; right; exact Hx|].
    apply (item_goals r σ ts); [done|done| |done]. rewrite List.Forall_forall in *. intros s' Hs'. by apply item_roots, Hts.
Qed.
Lemma used_useful y : used_item (map rhead outs) base P y -> itm (t_useful y).
Proof.
  intros (t & s & (Hd & _ & o & Ho & [π Hπ]) & Hw & <- & He). apply (useful_within t s); [done|done| |done]. intros Ht.
  apply in_map_iff in Ho as (d & <- & Hdo). apply elem_of_list_In in Hdo.
  pose proof (item_roots t Hd) as Hit.
  assert (Hgr : ground (root t)).
  { destruct t as [x|i x ts]; [apply derives_leaf_inv in Hd; by apply Hbase|].
    apply derives_node_inv in Hd as (r & _ & (σ & Hg & <- & _) & _). by apply groundsub_ground. }
  destruct (gdefault_ground π (rhead d)) as [H1 H2]; [by rewrite Hπ|]. set (σ := gdefault (vars (rhead d)) π) in *. rewrite Hπ in H2.
  rewrite <- H2. change (t_useful (sub σ (rhead d))) with (sub σ (t_useful (rhead d))).
  apply (item_rule inputs I PU DB (Rule (t_useful (rhead d)) (rhead d :: rbody d))); [|done|].
  - unfold useful_program. apply elem_of_app. right. apply elem_of_app. left. apply elem_of_list_fmap. by exists d.
  - cbn [rbody]. rewrite (Houts d Hdo). intros b Hb. apply elem_of_list_singleton in Hb as ->. rewrite H2.
    destruct Hit as [[k Ek]|[H|H]]; [by rewrite Ek in Ht|by right; left|by right; right].
Qed.
End items.

(** The types that the analysis of the program of useful items gives stand for all
    the items used by the outputs. *)
Theorem C53_useful : forall n P outs T (DB base : term -> Prop) c ts,
  right_for I chk rules -> free_true I -> chk_numbers chk -> analyzable rules inputs (useful_program P outs ++ T) c ->
  (forall r θ, r ∈ useful_program P outs ++ T -> ~ is_instance inputs (sub θ (rhead r))) ->
  (forall x, DB x -> exists t θ, t ∈ T /\ gsub θ /\ x = sub θ (rhead t) /\
     forall b, b ∈ rbody t -> is_const b = true \/ (is_instance inputs (sub θ b) /\ I (sub θ b))) ->
  plain_program P -> (forall o, o ∈ outs -> rbody o = []) ->
  (forall y, base y -> ground y /\ leaf_ok DB y) ->
  run n (useful_program P outs ++ T) c = Ok ts -> (forall t, t ∈ ts -> item_head (rhead t)) ->
  types_cover (useful_types ts) (used_item (map rhead outs) base P).
Proof.
  intros n P outs T DB base c ts HI Hfr Hnum Han Hover HDB HP Houts Hbase E Hit y Hy.
  pose proof (used_useful P outs DB base HP Houts Hbase y Hy) as Hu.
  destruct (C49_data ord pick Hord chk ready rules fv inputs max_depth use_insts I n _ T DB c ts HI Hfr Hnum Han Hover HDB E _ Hu) as (t & Ht & θ & Hθ & Eq & _).
  destruct (Hit t Ht) as (f & args & Eh). rewrite Eh in Eq. unfold t_useful in Eq. cbn [sub map] in Eq. injection Eq as -> Eq.
  destruct args as [|x [|? ?]]; try done. injection Eq as <-. exists (Rule x (rbody t)). split.
  - apply elem_of_list_In. unfold useful_types. apply elem_of_list_omap. exists t. split; [done|]. rewrite Eh. by rewrite decide_True.
  - cbn [rhead]. split; [by apply groundsub_ground|]. by exists θ.
Qed.
End useful.

(** * Both together *)
Section both.
Context (cmpf : String.string -> term -> term -> res bool)
  (is_run : nat -> store -> term -> term -> res (list store)) (is_true : term -> term -> bool) (al cv : nat -> nat)
  (peq : list rule -> list rule -> res bool).
Context (His : is_exact is_true is_run) (Hal : forall i j, al i = al j -> i = j) (Hcv : forall i j, cv i = cv j -> i = j)
  (Hac : forall i j, al i <> cv j).
Context (ord : list term -> list term) (pick : list term -> nat) (Hord : any_order ord).
Context (chk : term -> res checked) (ready : term -> bool) (rules : list rule) (fv : nat).
Context (inputs : list term) (max_depth : nat) (use_insts : bool) (I : term -> Prop).

(** Analyse the useful items, then specialise to the types found: the outputs have
    the same derivations, up to duplicates if the types overlap. *)
Theorem C53_prune : forall n m P outs T (DB base : term -> Prop) c c' ts P',
  right_for I chk rules -> free_true I -> chk_numbers chk -> analyzable rules inputs (useful_program P outs ++ T) c ->
  (forall r θ, r ∈ useful_program P outs ++ T -> ~ is_instance inputs (sub θ (rhead r))) ->
  (forall x, DB x -> exists t θ, t ∈ T /\ gsub θ /\ x = sub θ (rhead t) /\
     forall b, b ∈ rbody t -> is_const b = true \/ (is_instance inputs (sub θ b) /\ I (sub θ b))) ->
  plain_program P -> (forall o, o ∈ outs -> rbody o = []) ->
  (forall y, base y -> ground y /\ leaf_ok inputs I DB y) ->
  (forall y, base y -> exo y = true -> builtin_true cmpf is_true y) ->
  run_basic ord pick chk ready rules fv inputs max_depth use_insts n (useful_program P outs ++ T) c = Ok ts ->
  (forall t, t ∈ ts -> item_head (rhead t)) -> wf_decls (map rhead (useful_types ts)) ->
  vars_apart al cv c' P ->
  prune_specialize cmpf is_run al cv peq m P (useful_types ts) c' = Ok P' ->
  covered_derivations (output_derivation (map rhead outs) base P) (output_derivation (map rhead outs) base P') /\
  ((forall D c1, de_adds al cv m ([], c') (map rhead (useful_types ts)) = Ok (D, c1) -> pairwise_disjoint D) ->
   same_derivations (output_derivation (map rhead outs) base P) (output_derivation (map rhead outs) base P')).
Proof.
  intros n m P outs T DB base c c' ts P' HI Hfr Hnum Han Hover HDB HP Houts Hbase Hb E Hit Hw Hap E'.
  pose proof (C53_useful ord pick Hord chk ready rules fv inputs max_depth use_insts I n P outs T DB base c ts
    HI Hfr Hnum Han Hover HDB HP Houts Hbase E Hit) as Hcov.
  split.
  - exact (C53_specialize_any cmpf is_run is_true al cv peq His Hal Hcv Hac P _ _ base m c' P' HP Hap Hw Hb Hcov E').
  - intros Hd. exact (C53_specialize_estimate cmpf is_run is_true al cv peq His Hal Hcv Hac P _ _ base m c' P' HP Hap Hw Hb Hcov Hd E').
Qed.
End both.

Local Open Scope string_scope.
Local Open Scope list_scope.

(** * Witnesses *)
Definition w_al i := 100 + 2 * i.
Definition w_cv i := 101 + 2 * i.
Definition w_is (n : nat) (s : store) (a b : term) : res (list store) := Raise InstFault.
Definition w_ist (a b : term) : bool := false.
Definition w_peq (a b : list rule) : res bool := Ok (Nat.eqb (length a) (length b)).
Definition w_cmp (op : String.string) (x y : term) : res bool :=
  match x, y with
  | Cst (CInt a), Cst (CInt b) => Ok (if decide (op = "<") then (a <? b)%Z else false)
  | _, _ => Raise TypeError
  end.
Lemma w_is_exact : is_exact w_ist w_is.
Proof. intros V n st x y sts _ _ E. done. Qed.
Lemma w_alloc : (forall i j, w_al i = w_al j -> i = j) /\ (forall i j, w_cv i = w_cv j -> i = j) /\ forall i j, w_al i <> w_cv j.
Proof. unfold w_al, w_cv. split_and!; intros; lia. Qed.

(** goal += (X < Y) * g(X,Y) * 2.  g(X,Y) += (Y = Z) * (X < Y) * e(X) * h(Z).
    h(1) += 5.  h(2) += 7.  dead(X) += e(X).   Input: e(0), e(1). *)
Notation Z_ k := (Cst (CInt k)).
Definition v_prog : list rule :=
  [Rule (F "goal" []) [F "<" [Var 1; Var 2]; F "g" [Var 1; Var 2]; Z_ 2];
   Rule (F "g" [Var 1; Var 2]) [F "=" [Var 2; Var 3]; F "<" [Var 1; Var 2]; F "e" [Var 1]; F "h" [Var 3]];
   Rule (F "h" [Z_ 1]) [Z_ 5];
   Rule (F "h" [Z_ 2]) [Z_ 7];
   Rule (F "dead" [Var 4]) [F "e" [Var 4]]].
Definition v_items : list term :=
  [F "goal" []; F "g" [Z_ 1; Z_ 2]; F "g" [Z_ 0; Z_ 1]; F "g" [Z_ 0; Z_ 2]; F "e" [Var 5]; F "h" [Z_ 1]; F "h" [Z_ 2]].
Definition v_types : list rule := map (fun h => Rule h []) v_items.
Definition v_base (y : term) : Prop :=
  y = F "e" [Z_ 0] \/ y = F "e" [Z_ 1] \/ (exo y = true /\ ground y /\ builtin_true w_cmp w_ist y).
Definition v_spec : list rule :=
  let G x y := Rule (F "goal" []) [F "<" [Z_ x; Z_ y]; F "g" [Z_ x; Z_ y]; Z_ 2] in
  let H x y := Rule (F "g" [Z_ x; Z_ y]) [F "=" [Z_ y; Z_ y]; F "<" [Z_ x; Z_ y]; F "e" [Z_ x]; F "h" [Z_ y]] in
  [G 1%Z 2%Z; G 0%Z 1%Z; G 0%Z 2%Z; H 1%Z 2%Z; H 0%Z 1%Z; H 0%Z 2%Z; Rule (F "h" [Z_ 1]) [Z_ 5]; Rule (F "h" [Z_ 2]) [Z_ 7]].
Definition v_ground : list term :=
  [F "goal" []; F "g" [Z_ 1; Z_ 2]; F "g" [Z_ 0; Z_ 1]; F "g" [Z_ 0; Z_ 2]; F "e" [Z_ 0]; F "e" [Z_ 1]; F "h" [Z_ 1]; F "h" [Z_ 2]].
Definition v_item (y : term) : Prop :=
  (exo y = true /\ builtin_true w_cmp w_ist y) \/ (exists z, y = F "dead" [z]) \/ In y v_ground.
Lemma v_e x : v_item (F "e" [x]) -> x = Z_ 0 \/ x = Z_ 1.
Proof. intros [[H _]|[[z H]|H]]; [done..|]. cbn in H. naive_solver. Qed.
Lemma v_h x : v_item (F "h" [x]) -> x = Z_ 1 \/ x = Z_ 2.
Proof. intros [[H _]|[[z H]|H]]; [done..|]. cbn in H. naive_solver. Qed.
Lemma v_eq x y : v_item (F "=" [x; y]) -> x = y.
Proof. intros [[_ H]|[[z H]|H]]; [done..|]. cbn in H. naive_solver. Qed.
Lemma v_lt x y : v_item (F "<" [Z_ x; Z_ y]) -> (x <? y)%Z = true.
Proof. intros [[_ H]|[[z H]|H]]; [|done|cbn in H; naive_solver]. vm_compute in H. by injection H. Qed.

Lemma v_plain : plain_program v_prog.
Proof.
  split.
  - intros r Hr. repeat destruct Hr as [<-|Hr]; [..|done]; (split; [done|]); (split; [by cbn|]);
      intros b Hb; repeat destruct Hb as [<-|Hb]; by cbn.
  - intros r b Hr Hb v. repeat destruct Hr as [<-|Hr]; [..|done]; repeat destruct Hb as [<-|Hb]; done.
Qed.
Lemma v_roots t : derives v_prog v_base t -> v_item (root t).
Proof.
  induction t as [x|i x ts IH] using deriv_ind'; intros Hd.
  - apply derives_leaf_inv in Hd as [->|[->|(H1 & H2 & H3)]]; [| |by left]; right; right; cbn; auto 10.
  - apply derives_node_inv in Hd as (r & Hi & (σ & Hg & <- & Hm) & Hts). cbn [root].
    assert (Hr : forall b, In b (rbody r) -> v_item (sub σ b)).
    { intros b Hb. assert (H : In (sub σ b) (map root ts)) by (rewrite <- Hm; by apply in_map).
      apply in_map_iff in H as (t & <- & Ht). rewrite List.Forall_forall in IH, Hts. by apply IH, Hts. }
    apply nth_error_In in Hi. repeat destruct Hi as [<-|Hi]; [..|done].
    + right. right. by left.
    + pose proof (Hr _ (or_introl eq_refl)) as H1. pose proof (Hr _ (or_intror (or_introl eq_refl))) as H2.
      pose proof (Hr _ (or_intror (or_intror (or_introl eq_refl)))) as H3. pose proof (Hr _ (or_intror (or_intror (or_intror (or_introl eq_refl))))) as H4.
      clear Hr. cbn [sub map rhead] in *. apply v_eq in H1. apply v_e in H3. apply v_h in H4. rewrite H1 in *. right. right.
      destruct H3 as [H3|H3], H4 as [H4|H4]; rewrite H3, H4 in *; apply v_lt in H2; try done; cbn; auto 10.
    + right. right. cbn. auto 10.
    + right. right. cbn. auto 10.
    + right. left. by eexists.
Qed.
Lemma v_live t s : derives v_prog v_base t -> within s t -> (forall z, root t <> F "dead" [z]) -> derives v_prog v_base s /\ forall z, root s <> F "dead" [z].
Proof.
  intros Hd Hw. induction Hw as [|i x t ts Hin Hw IH]; intros Hx; [done|].
  apply derives_node_inv in Hd as (r & Hi & (σ & Hg & <- & Hm) & Hts). rewrite List.Forall_forall in Hts. apply IH; [by apply Hts|].
  intros z E. assert (H : In (root t) (map root ts)) by (by apply in_map). rewrite <- Hm in H. apply in_map_iff in H as (b & Eb & Hb).
  rewrite E in Eb. apply nth_error_In in Hi. repeat destruct Hi as [<-|Hi]; [..|done]; repeat destruct Hb as [<-|Hb]; done.
Qed.
Lemma v_cover : types_cover v_types (used_item [F "goal" []] v_base v_prog).
Proof.
  intros y (t & s & (Hd & _ & o & [<-|[]] & π & Hπ) & Hw & <- & He). cbn [sub map] in Hπ.
  destruct (v_live t s Hd Hw) as [Hs Hn]; [rewrite <- Hπ; done|].
  destruct (v_roots s Hs) as [[H _]|[[z H]|H]]; [by rewrite H in He|by apply Hn in H|].
  assert (HH : forall k, root s = sub (fun _ => Z_ 0) k \/ root s = sub (fun _ => Z_ 1) k -> In k v_items ->
    exists u, In u v_types /\ gr_inst (rhead u) (root s)).
  { intros k Hk Hin. exists (Rule k []). split; [by apply (in_map (fun h => Rule h []))|]. cbn [rhead]. destruct Hk as [-> | ->];
      (split; [by apply groundsub_ground|by eexists]). }
  repeat destruct H as [H|H]; [..|done]; rewrite <- H in *.
  - apply (HH (F "goal" [])); cbn; auto 10.
  - apply (HH (F "g" [Z_ 1; Z_ 2])); cbn; auto 10.
  - apply (HH (F "g" [Z_ 0; Z_ 1])); cbn; auto 10.
  - apply (HH (F "g" [Z_ 0; Z_ 2])); cbn; auto 10.
  - apply (HH (F "e" [Var 5])); cbn; auto 10.
  - apply (HH (F "e" [Var 5])); cbn; auto 10.
  - apply (HH (F "h" [Z_ 1])); cbn; auto 10.
  - apply (HH (F "h" [Z_ 2])); cbn; auto 10.
Qed.
Lemma v_disjoint : pairwise_disjoint (map rhead v_types).
Proof.
  intros i j a b Ha Hb Hij (y & [_ [σ E1]] & [_ [τ E2]]). rewrite <- E2 in E1. clear E2 y.
  do 7 (destruct i as [|i]; [injection Ha as <-; do 7 (destruct j as [|j]; [first [by injection Hb as <-|by destruct Hij]|]); by destruct j|]).
  by destruct i.
Qed.

Theorem C53_witness :
  plain_program v_prog /\ vars_apart w_al w_cv 0 v_prog /\ types_apart w_al 0 v_prog v_types /\ wf_decls (map rhead v_types) /\
  (forall y, v_base y -> exo y = true -> builtin_true w_cmp w_ist y) /\
  types_cover v_types (used_item [F "goal" []] v_base v_prog) /\ pairwise_disjoint (map rhead v_types) /\
  prune_specialize w_cmp w_is w_al w_cv w_peq 60 v_prog v_types 0 = Ok v_spec /\
  prune_dead w_cmp w_is w_al 60 v_prog [] v_types 0 = Ok (take 4 v_prog) /\
  exists t, output_derivation [F "goal" []] v_base v_prog t /\ value (S := nat_sr) (fun x => match x with Cst (CInt k) => Z.to_nat k | _ => 1 end) t = 14.
Proof.
  assert (Hv : forall r v, In r v_prog -> In v (vars (rhead r) ++ flat_map vars (rbody r)) -> v < 5).
  { intros r v Hr Hv. repeat destruct Hr as [<-|Hr]; [..|done]; cbn in Hv; lia. }
  assert (Ht : forall t v, In t v_types -> In v (vars (rhead t)) -> v = 5).
  { intros t v Hr Hv'. repeat destruct Hr as [<-|Hr]; [..|done]; cbn in Hv'; lia. }
  split; [apply v_plain|]. split.
  { intros r v Hr Hin. pose proof (Hv r v Hr Hin). unfold w_al, w_cv. split; intros; lia. }
  split.
  { split; [intros t v H1 H2; pose proof (Ht t v H1 H2); unfold w_al; intros; lia|].
    intros r v Hr Hin. pose proof (Hv r v Hr Hin). split; [unfold w_al; intros; lia|]. intros t H1 H2. pose proof (Ht t v H1 H2). lia. }
  split; [intros d Hd; repeat destruct Hd as [<-|Hd]; done|].
  split; [intros y [->|[->|(_ & _ & H)]]; done|].
  split; [apply v_cover|]. split; [apply v_disjoint|]. clear Hv Ht. split; [vm_compute; reflexivity|]. split; [vm_compute; reflexivity|].
  pose (σ := fun v : nat => match v with 1 => Z_ 1 | _ => Z_ 2 end : term).
  assert (Hs : forall v, ground (σ v)) by (intros [|[|?]]; done).
  assert (Hb : forall x, exo x = true -> ground x -> builtin_true w_cmp w_ist x -> derives v_prog v_base (Leaf x)).
  { intros x H1 H2 H3. constructor. right. right. done. }
  exists (Node 0 (F "goal" []) [Leaf (F "<" [Z_ 1; Z_ 2]);
    Node 1 (F "g" [Z_ 1; Z_ 2]) [Leaf (F "=" [Z_ 2; Z_ 2]); Leaf (F "<" [Z_ 1; Z_ 2]); Leaf (F "e" [Z_ 1]); Node 3 (F "h" [Z_ 2]) [Leaf (Z_ 7)]]; Leaf (Z_ 2)]).
  split; [|reflexivity]. split; [|split; [|exists (F "goal" []); split; [by left|by exists Var]]].
  - eapply D_node; [done|by exists σ|]. repeat apply Forall_cons_2; try apply Forall_nil_2; try (apply Hb; [done|done|by vm_compute]).
    eapply D_node; [done|by exists σ|]. repeat apply Forall_cons_2; try apply Forall_nil_2; try (apply Hb; [done|done|by vm_compute]).
    + apply D_leaf. right. by left.
    + eapply D_node; [done|by exists σ|]. apply Forall_cons_2; [by apply Hb|apply Forall_nil_2].
  - eapply VO_node; [done| |].
    + repeat constructor; intros [v Hv]; done.
    + repeat constructor. eapply VO_node; [done| |].
      * repeat constructor; intros [v Hv]; done.
      * repeat constructor. eapply VO_node; [done| |].
        -- repeat constructor; intros [v Hv]; done.
        -- repeat constructor.
Qed.

(** * Witness with the analysis *)
(** goal += path(1,Y) * 2.  path(X,Y) += edge(X,Y).  path(X,Z) += path(X,Y) * edge(Y,Z).
    loop(X) += path(X,X).   Output: goal.  Input type: edge(X,Y) :- int(X), num(Y).
    Specialisation finds that only the paths from 1 are needed. *)
Definition u_prog : list rule :=
  [ Rule (F "goal" []) [F "path" [Z_ 1; Var 3]; Z_ 2];
    Rule (F "path" [Var 3; Var 4]) [F "edge" [Var 3; Var 4]];
    Rule (F "path" [Var 5; Var 7]) [F "path" [Var 5; Var 6]; F "edge" [Var 6; Var 7]];
    Rule (F "loop" [Var 8]) [F "path" [Var 8; Var 8]] ].
Definition u_outs : list rule := [Rule (F "goal" []) []].
Definition u_base (y : term) : Prop := y = Z_ 2 \/ g_DB y.
Definition u_ts : list rule :=
  [ Rule (F "edge" [Var 22; Var 23]) [F "int" [Var 22]; F "num" [Var 23]; F "num" [Var 22]];
    Rule (F "path" [Var 28; Var 29]) [F "int" [Var 28]; F "num" [Var 29]; F "num" [Var 28]];
    Rule (F "goal" []) [];
    Rule (F "loop" [Var 61]) [F "int" [Var 61]; F "num" [Var 61]];
    Rule (F "$useful" [F "goal" []]) [];
    Rule (F "$useful" [F "path" [Z_ 1; Var 89]]) [F "num" [Var 89]];
    Rule (F "$useful" [F "edge" [Z_ 1; Var 98]]) [F "num" [Var 98]];
    Rule (F "$useful" [F "edge" [Var 131; Var 132]]) [F "num" [Var 131]; F "int" [Var 131]; F "num" [Var 132]] ].
Definition u_spec : list rule :=
  [ Rule (F "goal" []) [F "path" [Z_ 1; Var 124]; Z_ 2];
    Rule (F "path" [Z_ 1; Var 138]) [F "edge" [Z_ 1; Var 138]];
    Rule (F "path" [Z_ 1; Var 158]) [F "path" [Z_ 1; Var 160]; F "edge" [Var 160; Var 158]] ].

Lemma u_analyzable : analyzable ex_rules g_inputs (useful_program u_prog u_outs ++ g_types) 20.
Proof.
  assert (Hr0 : exists l, l = useful_program u_prog u_outs ++ g_types) by (by eexists). destruct Hr0 as [l El]. rewrite <- El. vm_compute in El.
  split.
  - intros d Hd. each Hd; (split; [|by eexists _, _]).
    + exists (CStr "int"), [1]. split; [done|]. repeat constructor. intros [].
    + exists (CStr "num"), [1]. split; [done|]. repeat constructor. intros [].
    + exists (CStr "$free"), [2]. split; [done|]. repeat constructor. intros [].
    + exists (CStr "$bound"), [2]. split; [done|]. repeat constructor. intros [].
  - exists 2. right. right. left.
  - intros r Hr. subst l. each Hr; by eexists _, _.
  - intros r Hr. subst l. each Hr; intros b Hb; each Hb; first [by left|right; by eexists _, _].
  - intros r v Hr Hv.
    assert (H : 3 <= v < 20).
    { subst l. each Hr; simpl in Hv; lia. }
    split; [lia|]. split.
    + intros q Hq Hin. each Hq; simpl in Hin; lia.
    + intros d Hd Hin. each Hd; simpl in Hin; lia.
  - split.
    + intros q v Hq Hin. each Hq; simpl in Hin; lia.
    + intros d v Hd Hin. each Hd; simpl in Hin; lia.
Qed.
Lemma u_disjoint D c1 : de_adds w_al w_cv 60 ([], 0) (map rhead (useful_types u_ts)) = Ok (D, c1) -> pairwise_disjoint D.
Proof.
  intros E. vm_compute in E. injection E as <- <-. 
  intros i j a b Ha Hb Hij (y & [_ [σ E1]] & [_ [τ E2]]). rewrite <- E2 in E1. clear E2 y.
  do 3 (destruct i as [|i]; [injection Ha as <-; do 3 (destruct j as [|j]; [first [by injection Hb as <-|by destruct Hij]|]); by destruct j|]).
  by destruct i.
Qed.

Theorem C53_prune_witness :
  any_order idl /\ right_for ex_I ex_chk ex_rules /\ free_true ex_I /\ chk_numbers ex_chk /\
  analyzable ex_rules g_inputs (useful_program u_prog u_outs ++ g_types) 20 /\
  (forall r θ, r ∈ useful_program u_prog u_outs ++ g_types -> ~ is_instance g_inputs (sub θ (rhead r))) /\
  (forall x, g_DB x -> exists t θ, t ∈ g_types /\ gsub θ /\ x = sub θ (rhead t) /\
     forall b, b ∈ rbody t -> is_const b = true \/ (is_instance g_inputs (sub θ b) /\ ex_I (sub θ b))) /\
  plain_program u_prog /\ (forall o, o ∈ u_outs -> rbody o = []) /\
  (forall y, u_base y -> ground y /\ leaf_ok g_inputs ex_I g_DB y) /\
  (forall y, u_base y -> exo y = true -> builtin_true w_cmp w_ist y) /\
  run_basic idl first ex_chk (fun _ => true) ex_rules 9 g_inputs 3 true 60 (useful_program u_prog u_outs ++ g_types) 20 = Ok u_ts /\
  (forall t, t ∈ u_ts -> item_head (rhead t)) /\ wf_decls (map rhead (useful_types u_ts)) /\ vars_apart w_al w_cv 0 u_prog /\
  (forall D c1, de_adds w_al w_cv 60 ([], 0) (map rhead (useful_types u_ts)) = Ok (D, c1) -> pairwise_disjoint D) /\
  prune_specialize w_cmp w_is w_al w_cv w_peq 60 u_prog (useful_types u_ts) 0 = Ok u_spec /\
  exists t, output_derivation (map rhead u_outs) u_base u_prog t /\
    value (S := nat_sr) (fun x => match x with Cst (CInt k) => Z.to_nat k | _ => 5 end) t = 50.
Proof.
  destruct C49_witness as (H1 & H2 & H3 & H4 & _ & _ & H7 & _).
  split; [done|]. split; [done|]. split; [done|]. split; [done|]. split; [apply u_analyzable|]. split.
  { intros r θ Hr (d & Hd & τ & E). assert (Hl : exists l, l = useful_program u_prog u_outs ++ g_types) by (by eexists). destruct Hl as [l El].
    rewrite <- El in Hr. vm_compute in El. subst l. each Hr; each Hd; done. }
  split; [exact H7|]. clear. split.
  { split.
    - intros r Hr. repeat destruct Hr as [<-|Hr]; [..|done]; (split; [done|]); (split; [by cbn|]);
        intros b Hb; repeat destruct Hb as [<-|Hb]; by cbn.
    - intros r b Hr Hb v. repeat destruct Hr as [<-|Hr]; [..|done]; repeat destruct Hb as [<-|Hb]; done. }
  split; [intros o Ho; by each Ho|]. split.
  { intros y [->|Hy]; [split; [done|left; by eexists]|]. split; [destruct Hy as [->| ->]; done|right; by right]. }
  split; [intros y [->|[->| ->]]; done|]. split; [vm_compute; reflexivity|].
  split; [intros t Ht; each Ht; by eexists _, _|]. split; [intros d Hd; repeat destruct Hd as [<-|Hd]; done|].
  split.
  { intros r v Hr Hv. assert (v < 9) by (repeat destruct Hr as [<-|Hr]; [..|done]; cbn in Hv; lia). unfold w_al, w_cv. split; intros; lia. }
  split; [exact u_disjoint|]. split; [vm_compute; reflexivity|].
  exists (Node 0 (F "goal" []) [Node 2 (F "path" [Z_ 1; Z_ 3]) [Node 1 (F "path" [Z_ 1; Z_ 2]) [Leaf (F "edge" [Z_ 1; Z_ 2])]; Leaf (F "edge" [Z_ 2; Z_ 3])]; Leaf (Z_ 2)]).
  split; [|reflexivity]. split; [|split; [|exists (F "goal" []); split; [by left|by exists Var]]].
  - eapply D_node; [done|by exists (fun _ => Z_ 3)|]. repeat apply Forall_cons_2; try apply Forall_nil_2; [|apply D_leaf; by left].
    eapply D_node; [done|exists (fun v => Cst (CInt (Z.of_nat (v - 4)))); done|].
    repeat apply Forall_cons_2; try apply Forall_nil_2; [|apply D_leaf; right; by right].
    eapply D_node; [done|exists (fun v => Cst (CInt (Z.of_nat (v - 2)))); done|].
    repeat apply Forall_cons_2; try apply Forall_nil_2. apply D_leaf. right. by left.
  - eapply VO_node; [done| |].
    + repeat constructor; intros [v Hv]; done.
    + repeat constructor. eapply VO_node; [done| |].
      * repeat constructor; intros [v Hv]; done.
      * repeat constructor. eapply VO_node; [done| |].
        -- repeat constructor; intros [v Hv]; done.
        -- repeat constructor.
Qed.

(** * What the hypotheses are for *)
Notation S_ x := (Cst (CStr x)).
Notation typ h := (Rule h []).

(** Overlapping types.  goal += f(X,Y).  with the types f(X,"a"), f("b","c"),
    f("d",Y): when f("d",Y) comes, the estimate joins it with f(X,"a") to f(X,Y)
    and does not compare the result with f("b","c"), so that the derivation from
    f("b","c") is counted twice. *)
Definition o_prog : list rule := [Rule (F "goal" []) [F "f" [Var 1; Var 2]]].
Definition o_types : list rule := [typ (F "goal" []); typ (F "f" [Var 3; S_ "a"]); typ (F "f" [S_ "b"; S_ "c"]); typ (F "f" [S_ "d"; Var 4])].
Definition o_base (y : term) : Prop := y = F "f" [S_ "b"; S_ "c"].
Definition o_spec : list rule := [Rule (F "goal" []) [F "f" [S_ "b"; S_ "c"]]; Rule (F "goal" []) [F "f" [Var 116; Var 118]]].

Lemma o_unique P t : (forall r, In r P -> rhead r = F "goal" [] /\ exists b, rbody r = [b] /\ forall σ, sub σ b <> F "goal" []) ->
  derives P o_base t -> root t = F "goal" [] -> exists i, t = Node i (F "goal" []) [Leaf (F "f" [S_ "b"; S_ "c"])].
Proof.
  intros HP Hd Hr. destruct t as [x|i x ts]; [apply derives_leaf_inv in Hd; cbn in Hr; by subst|]. cbn in Hr. subst x.
  apply derives_node_inv in Hd as (r & Hi & (σ & _ & _ & Hm) & Hts). apply nth_error_In, HP in Hi as (_ & b & Eb & Hne). rewrite Eb in Hm.
  destruct ts as [|t [|]]; try done. injection Hm as Hm. assert (Ht : derives P o_base t) by (by inversion Hts).
  destruct t as [x|j x ts]; [apply derives_leaf_inv in Ht; rewrite Ht; by exists i|].
  apply derives_node_inv in Ht as (r' & Hj & (σ' & _ & Hx & _) & _). apply nth_error_In, HP in Hj as (Hh & _). rewrite Hh in Hx. cbn in Hx, Hm. rewrite <- Hx in Hm. by apply Hne in Hm.
Qed.
Lemma o_out P t : output_derivation [F "goal" []] o_base P t -> root t = F "goal" [].
Proof. by intros (_ & _ & o & [<-|[]] & π & <-). Qed.

Theorem C53_overlap_refuted :
  plain_program o_prog /\ vars_apart w_al w_cv 0 o_prog /\ wf_decls (map rhead o_types) /\
  (forall y, o_base y -> exo y = true -> builtin_true w_cmp w_ist y) /\
  types_cover o_types (used_item [F "goal" []] o_base o_prog) /\
  prune_specialize w_cmp w_is w_al w_cv w_peq 60 o_prog o_types 0 = Ok o_spec /\
  ~ same_derivations (output_derivation [F "goal" []] o_base o_prog) (output_derivation [F "goal" []] o_base o_spec).
Proof.
  assert (HA : forall r, In r o_prog -> rhead r = F "goal" [] /\ exists b, rbody r = [b] /\ forall σ, sub σ b <> F "goal" []).
  { intros r [<-|[]]. split; [done|]. by eexists. }
  split. { split; [intros r [<-|[]]; split; [done|]; split; [by cbn|]; intros b [<-|[]]; by cbn|intros r b [<-|[]] [<-|[]] v; done]. }
  split. { intros r v [<-|[]] Hv. cbn in Hv. unfold w_al, w_cv. split; intros; lia. }
  split; [intros d Hd; repeat destruct Hd as [<-|Hd]; done|]. split; [by intros y ->|]. split.
  { intros y (t & s & Ht & Hw & <- & _). pose proof (o_out _ _ Ht) as Hr. apply proj1, (o_unique _ _ HA) in Ht as [i ->]; [|done]. clear Hr.
    inversion Hw as [|? ? t ts Hin Hw']; subst.
    - exists (typ (F "goal" [])). split; [by left|]. split; [done|by exists Var].
    - destruct Hin as [<-|[]]. inversion Hw'; subst. exists (typ (F "f" [S_ "b"; S_ "c"])). split; [cbn; auto|]. split; [done|by exists Var]. }
  split; [vm_compute; reflexivity|]. intros (f & g & _ & Hg).
  assert (HB : forall i, i < 2 -> output_derivation [F "goal" []] o_base o_spec (Node i (F "goal" []) [Leaf (F "f" [S_ "b"; S_ "c"])])).
  { intros i Hi. split; [|split].
    - destruct i as [|[|i]]; [| |lia];
        (eapply D_node; [done| |apply Forall_cons_2; [by apply D_leaf|apply Forall_nil_2]]).
      + by exists (fun _ => S_ "b").
      + exists (fun v => if Nat.eqb v 116 then S_ "b" else S_ "c"). split; [|done]. intros v. by destruct (Nat.eqb v 116).
    - destruct i as [|[|i]]; [| |lia]; (eapply VO_node; [done| |]); repeat constructor; intros [v Hv]; done.
    - exists (F "goal" []). split; [by left|by exists Var]. }
  destruct (Hg _ (HB 0 ltac:(lia))) as [H0 E0]. destruct (Hg _ (HB 1 ltac:(lia))) as [H1 E1].
  pose proof (o_out _ _ H0) as R0. pose proof (o_out _ _ H1) as R1.
  assert (HN : forall t, output_derivation [F "goal" []] o_base o_prog t -> t = Node 0 (F "goal" []) [Leaf (F "f" [S_ "b"; S_ "c"])]).
  { intros t Ht. pose proof (o_out _ _ Ht) as Hr. pose proof (proj1 Ht) as Hd. destruct (o_unique _ _ HA Hd Hr) as [i ->].
    apply derives_node_inv in Hd as (r & Hi & _). destruct i as [|i]; [done|by destruct i]. }
  apply HN in H0. apply HN in H1. rewrite H0 in E0. rewrite H1 in E1. rewrite E0 in E1. done.
Qed.

(** A variable as a subgoal stands for a value, but is looked up among the types of
    the items: total += f(X) * X.  becomes total += f(total) * total and
    total += f(f(_)) * f(_), and the derivation from f(3) is lost. *)
Definition x_prog : list rule := [Rule (F "total" []) [F "f" [Var 1]; Var 1]].
Definition x_types : list rule := [typ (F "total" []); typ (F "f" [Var 3])].
Definition x_base (y : term) : Prop := y = F "f" [Z_ 3] \/ y = Z_ 3.
Definition x_spec : list rule :=
  [Rule (F "total" []) [F "f" [F "total" []]; F "total" []]; Rule (F "total" []) [F "f" [F "f" [Var 108]]; F "f" [Var 108]]].

Theorem C53_value_variable_refuted :
  wf_program x_prog /\ vars_apart w_al w_cv 0 x_prog /\ wf_decls (map rhead x_types) /\
  (forall y, x_base y -> exo y = true -> builtin_true w_cmp w_ist y) /\
  types_cover x_types (used_item [F "total" []] x_base x_prog) /\ pairwise_disjoint (map rhead x_types) /\
  prune_specialize w_cmp w_is w_al w_cv w_peq 60 x_prog x_types 0 = Ok x_spec /\
  (exists t, output_derivation [F "total" []] x_base x_prog t) /\
  forall t, ~ output_derivation [F "total" []] x_base x_spec t.
Proof.
  split. { intros r [<-|[]]. split; [done|]. split; [by cbn|]. intros b Hb. repeat destruct Hb as [<-|Hb]; by cbn. }
  split. { intros r v [<-|[]] Hv. cbn in Hv. unfold w_al, w_cv. split; intros; lia. }
  split; [intros d Hd; repeat destruct Hd as [<-|Hd]; done|]. split; [by intros y [->| ->]|]. split.
  { intros y (t & s & Ht & Hw & <- & He).
    assert (Hs : derives x_prog x_base s).
    { apply proj1 in Ht. clear He. induction Hw as [|i x t ts Hin Hw IH]; [done|]. apply IH.
      apply derives_node_inv in Ht as (_ & _ & _ & Hts). rewrite List.Forall_forall in Hts. by apply Hts. }
    destruct s as [x|i x ts].
    - apply derives_leaf_inv in Hs as [->| ->]; [|done]. exists (typ (F "f" [Var 3])). split; [cbn; auto|]. split; [done|by exists (fun _ => Z_ 3)].
    - apply derives_node_inv in Hs as (r & Hi & (σ & _ & <- & _) & _). apply nth_error_In in Hi as [<-|[]].
      exists (typ (F "total" [])). split; [by left|]. split; [done|by exists Var]. }
  split.
  { intros i j a b Ha Hb Hij (y & [_ [σ E1]] & [_ [τ E2]]). rewrite <- E2 in E1. clear E2 y.
    do 2 (destruct i as [|i]; [injection Ha as <-; do 2 (destruct j as [|j]; [first [by injection Hb as <-|by destruct Hij]|]); by destruct j|]).
    by destruct i. }
  split; [vm_compute; reflexivity|]. split.
  { exists (Node 0 (F "total" []) [Leaf (F "f" [Z_ 3]); Leaf (Z_ 3)]). split; [|split; [|exists (F "total" []); split; [by left|by exists Var]]].
    - eapply D_node; [done|by exists (fun _ => Z_ 3)|]. repeat apply Forall_cons_2; try apply Forall_nil_2; apply D_leaf; [by left|by right].
    - eapply VO_node; [done| |]; [|repeat constructor]. repeat apply Forall2_cons_2; try apply Forall2_nil_2; intros _; by eexists. }
  intros t (Hd & _ & o & [<-|[]] & π & Hπ). cbn in Hπ. destruct t as [x|i x ts]; [apply derives_leaf_inv in Hd as [->| ->]; done|].
  apply derives_node_inv in Hd as (r & Hi & (σ & _ & _ & Hm) & Hts).
  assert (HH : exists s, derives x_spec x_base s /\ (root s = F "f" [F "total" []] \/ exists z, root s = F "f" [F "f" [z]])).
  { apply nth_error_In in Hi. destruct ts as [|s ts]; [repeat destruct Hi as [<-|Hi]; done|]. exists s. split; [by inversion Hts|].
    repeat destruct Hi as [<-|Hi]; [..|done]; cbn in Hm; injection Hm as <- _; [by left|right; by eexists]. }
  destruct HH as (s & Hs & Hr). destruct s as [y|j y us]; [apply derives_leaf_inv in Hs as [->| ->]; cbn in Hr; naive_solver|].
  apply derives_node_inv in Hs as (r' & Hj & (σ' & _ & <- & _) & _). apply nth_error_In in Hj. repeat destruct Hj as [<-|Hj]; [..|done]; cbn in Hr; naive_solver.
Qed.
Local Close Scope list_scope.
Local Close Scope string_scope.

Print Assumptions C53_specialize_estimate.
Print Assumptions C53_specialize.
Print Assumptions C53_specialize_any.
Print Assumptions C53_dead.
Print Assumptions C53_useful.
Print Assumptions C53_prune.
Print Assumptions C53_witness.
Print Assumptions C53_prune_witness.
Print Assumptions C53_overlap_refuted.
Print Assumptions C53_value_variable_refuted.
