(** C29: unfolding keeps the derivations of a program. *)
From Coq Require Import List.
From stdpp Require Import gmap.
From Coq Require Import Lia ZArith.
From Coq Require String Ascii.
From Verif Require Import PyBase Semiring TermModel TermSpec TermProofs SetsModel SetsProofs SolverSpec
  UpdateModel UpdateSpec UpdateProofs UpdateProps TransModel TransSpec TransProofs UnfoldProofs.
Import String.StringSyntax Ascii.AsciiSyntax.
Import ListNotations.

(** A program as the library makes it: heads are ordinary items, bodies are not
    empty, and the variables [al c], [al (S c)], ... are new. *)
Definition program {R : semiring} (al : nat -> nat) (c : nat) (rs : list (wrule R)) : Prop :=
  (forall r, r ∈ rs -> wbody r <> [] /\ item_head (whead r)) /\
  (forall r v k, r ∈ rs -> v ∈ wvars r -> c <= k -> v <> al k).

(** ** C29.  The derivations of [p.unfold(i, j)] correspond one-to-one to those of
    [p], with the same root and the same value.  [b], the subgoal that is unfolded, is not an
    input or a builtin: no instance of it is a leaf.  No variable is lost by
    inlining a rule for [b] (otherwise the library multiplies by multiple(inf)). *)
Theorem C29_unfold :
  forall (R : semiring) (al : nat -> nat) (ord : list term -> list term) (is_input : term -> bool) (minf : R)
    (is_one : R -> bool) (eqr : wrule R -> wrule R -> bool) (n i j c c' : nat) (rs rs' : list (wrule R)) (ix : list (nat * nat))
    (r : wrule R) (b : term) (base : term -> Prop),
    (forall i j, al i = al j -> i = j) -> (forall r s, eqr r s = true <-> r = s) ->
    program al c rs -> rs !! i = Some r -> wbody r !! j = Some (Goal b) -> item_query b ->
    (forall σ, (forall v, ground (σ v)) -> ~ base (sub σ b)) ->
    (forall s, s ∈ rs -> kept r s j) ->
    unfold al ord is_input minf is_one eqr n i j rs c = Ok (rs', ix, c') ->
    same_meaning (wderives False rs base) (wderives False rs' base).
Proof.
  intros R al ord is_input minf is_one eqr n i j c c' rs rs' ix r b base Hal Heq [Hg Hf] Hr Hb Hq Hbase Hk E.
  eapply (unfold_ok al Hal minf is_one ord is_input eqr Heq False n i j rs c r b base rs' ix c'); try done.
  intros v k Hv. apply (Hf r); [by eapply elem_of_list_lookup_2|done].
Qed.

(** The same if a variable that is used as a subgoal stands for a value (such as
    the [X] in "total += f(X) * X"): then the subgoal that is unfolded must not be
    such a variable, and inlining must not replace one by a term. *)
Theorem C29_unfold_values :
  forall (R : semiring) (al : nat -> nat) (ord : list term -> list term) (is_input : term -> bool) (minf : R)
    (is_one : R -> bool) (eqr : wrule R -> wrule R -> bool) (n i j c c' : nat) (rs rs' : list (wrule R)) (ix : list (nat * nat))
    (r : wrule R) (f : const) (args : list term) (base : term -> Prop),
    (forall i j, al i = al j -> i = j) -> (forall r s, eqr r s = true <-> r = s) ->
    program al c rs -> rs !! i = Some r -> wbody r !! j = Some (Goal (Fn (Cst f :: args))) ->
    (forall σ, (forall v, ground (σ v)) -> ~ base (sub σ (Fn (Cst f :: args)))) ->
    (forall s, s ∈ rs -> kept r s j /\ values_kept r s (Fn (Cst f :: args))) ->
    unfold al ord is_input minf is_one eqr n i j rs c = Ok (rs', ix, c') ->
    same_meaning (wderives True rs base) (wderives True rs' base).
Proof.
  intros R al ord is_input minf is_one eqr n i j c c' rs rs' ix r f args base Hal Heq [Hg Hf] Hr Hb Hbase Hk E.
  eapply (unfold_ok al Hal minf is_one ord is_input eqr Heq True n i j rs c r _ base rs' ix c'); try done.
  - right. by eexists _, _.
  - intros v k Hv. apply (Hf r); [by eapply elem_of_list_lookup_2|done].
  - intros s Hs. by apply Hk.
  - intros _. split; [done|]. intros s Hs. by apply Hk.
Qed.

(** Unfolding a subgoal that is not an input does not fail. *)
Theorem C29_unfold_returns :
  forall (R : semiring) (al : nat -> nat) (ord : list term -> list term) (is_input : term -> bool) (minf : R)
    (is_one : R -> bool) (eqr : wrule R -> wrule R -> bool) (i j c : nat) (rs : list (wrule R)) (r : wrule R) (b : term),
    (forall i j, al i = al j -> i = j) -> (forall r s, eqr r s = true <-> r = s) ->
    program al c rs -> (forall r, r ∈ rs -> ~ Fn [] ∈ goals (wbody r)) ->
    rs !! i = Some r -> wbody r !! j = Some (Goal b) -> item_query b -> is_input b = false ->
    exists o n0, forall n, n0 <= n -> unfold al ord is_input minf is_one eqr n i j rs c = Ok o.
Proof.
  intros R al ord is_input minf is_one eqr i j c rs r b Hal Heq [Hg Hf] Hfn Hr Hb Hq Hin.
  destruct (unfold_settles al Hal minf is_one ord is_input eqr Heq i j rs c r b) as [o [n0 H]]; try done.
  - intros v k Hv. apply (Hf r); [by eapply elem_of_list_lookup_2|done].
  - by exists o, n0.
Qed.

(** Nothing is lost if the variables of the heads of rules occur in their bodies,
    or if the variables of the subgoal occur elsewhere in the rule. *)
Theorem C29_kept :
  forall (R : semiring) (r s : wrule R) (j : nat) (b : term),
    (forall v, In v (vars (whead s)) -> In v (flat_map vars (goals (wbody s)))) \/
    (wbody r !! j = Some (Goal b) /\ forall v, In v (vars b) ->
       In v (vars (whead r)) \/ In v (flat_map vars (goals (take j (wbody r)))) \/ In v (flat_map vars (goals (drop (S j) (wbody r))))) ->
    kept r s j.
Proof.
  assert (Hag : forall (R : semiring) (σ τ : nat -> term) (fs : list (factor R)), map (fsub σ) fs = map (fsub τ) fs -> forall v, In v (flat_map vars (goals fs)) -> σ v = τ v).
  { intros R σ τ fs E v Hv. apply (f_equal goals) in E. rewrite !goals_fsub in E. apply in_flat_map in Hv as (g & Hg & Hv).
    apply (sub_ext_inv σ τ g); [|done]. apply elem_of_list_In, elem_of_list_lookup in Hg as [k Hk].
    apply (f_equal (fun l => l !! k)) in E. rewrite !list_lookup_fmap, Hk in E. by injection E. }
  intros R r s j b [H|[Hb H]] x L Q zs y y' HL H1 H2 H3 H4.
  - destruct H2 as (σ & _ & <- & E), H4 as (τ & _ & <- & E'). rewrite <- E' in E. apply sub_ext. intros v Hv. by eapply Hag, H.
  - destruct H1 as (σ & _ & E1 & E2), H3 as (τ & _ & E3 & E4).
    apply (inst_r r j b Hb σ) in E2 as (A1 & -> & A2); [|done]. apply (inst_r r j b Hb τ) in E4 as (B1 & -> & B2); [|done].
    apply sub_ext. intros v Hv. destruct (H v Hv) as [Hv'|[Hv'|Hv']].
    + rewrite <- E3 in E1. by eapply sub_ext_inv.
    + eapply Hag; [|exact Hv']. congruence.
    + eapply Hag; [|exact Hv']. congruence.
Qed.

(** Programs with the same meaning give every item the same value: the sum over
    its derivations. *)
Theorem C29_values :
  forall (R : semiring) (A B : wderiv R -> Prop) (w : term -> R) (x : term) (v : R), same_meaning A B ->
    sum_over (fun t => A t /\ wroot t = Goal x) (wvalue w) v <-> sum_over (fun t => B t /\ wroot t = Goal x) (wvalue w) v.
Proof.
  assert (Hone : forall (R : semiring) (A B : wderiv R -> Prop) (w : term -> R) (x : term) (v : R), same_meaning A B ->
    sum_over (fun t => A t /\ wroot t = Goal x) (wvalue w) v -> sum_over (fun t => B t /\ wroot t = Goal x) (wvalue w) v).
  { intros R A B w x v (f & g & H1 & H2). apply (sum_over_bij _ _ _ _ f g).
    - intros t [Ht Hr]. destruct (H1 t Ht) as (Hb & E & Er & Ev). rewrite Er. done.
    - intros t [Ht Hr]. destruct (H2 t Ht) as [Ha E]. destruct (H1 _ Ha) as (_ & _ & Er & Ev). rewrite E in Er.
      split; [split; [done|congruence]|done]. }
  intros R A B w x v H. split; apply Hone; [done|by apply same_meaning_sym].
Qed.

(** If a variable is lost, there is no such correspondence: [goal += f(X). f(X) += 1.] *)
Local Open Scope string_scope.
Definition t_lost : list (wrule nat_sr) :=
  [WRule (u_t "goal" []) [Goal (u_t "f" [Var 0])]; WRule (u_t "f" [Var 1]) [Val (1 : nat_sr)]].
Definition t_eqr (r s : wrule nat_sr) : bool :=
  bool_decide (whead r = whead s) &&
  bool_decide (map (fun f => match f with Val v => inl (v : nat) | Goal b => inr b end) (wbody r) =
               map (fun f => match f with Val v => inl (v : nat) | Goal b => inr b end) (wbody s)).
Lemma t_eqr_ok r s : t_eqr r s = true <-> r = s.
Proof.
  unfold t_eqr. rewrite andb_true_iff, !bool_decide_eq_true. destruct r as [h fs], s as [h' fs']. cbn [whead wbody]. split; [|by intros [= -> ->]].
  intros [-> E]. f_equal. revert fs' E. induction fs as [|f fs IH]; intros [|f' fs'] E; try discriminate; [done|].
  injection E as E1 E2. rewrite (IH _ E2). f_equal. destruct f, f'; naive_solver.
Qed.
Definition t_unfold (m : nat_sr) (i j : nat) (rs : list (wrule nat_sr)) :=
  u_get ([], [], 0) (unfold u_al id (fun _ => false) m u_one t_eqr 20 i j rs 0).

Theorem C29_lost_refuted : forall m : nat_sr, exists n rs' ix c,
  unfold u_al id (fun _ => false) m u_one t_eqr n 0 0 t_lost 0 = Ok (rs', ix, c) /\
  forall only, ~ same_meaning (wderives only t_lost (fun _ => False)) (wderives only rs' (fun _ => False)).
Proof.
  intros m. exists 20, (fst (fst (t_unfold m 0 0 t_lost))), (snd (fst (t_unfold m 0 0 t_lost))), (snd (t_unfold m 0 0 t_lost)).
  rewrite <- !surjective_pairing. split; [apply u_ok; destruct m as [|[|?]]; vm_cast_no_check (eq_refl true)|].
  assert (Hr : exists fs, fst (fst (t_unfold m 0 0 t_lost)) = [WRule (u_t "f" [Var 1]) [Val (1 : nat_sr)]; WRule (u_t "goal" []) (map Val fs)]).
  { destruct m as [|[|m]]; [exists [1; 0]|exists [1]|exists [1; S (S m)]]; vm_compute; reflexivity. }
  destruct Hr as [fs ->]. intros only (f & g & H1 & H2).
  set (d k := WNode 0 (u_t "goal" []) [WNode 1 (u_t "f" [u_n k]) [VLeaf (1 : nat_sr)]] : wderiv nat_sr).
  assert (Hd : forall k, wderives only t_lost (fun _ => False) (d k)).
  { intros k. econstructor; [done| | |].
    - exists (fun _ => u_n k). done.
    - intros _. constructor; [|constructor]. by intros v.
    - constructor; [|constructor]. econstructor; [done| | |].
      + exists (fun _ => u_n k). done.
      + intros _. constructor; [|constructor]. by intros v.
      + constructor; [constructor|constructor]. }
  assert (Hu : forall t, wderives only [WRule (u_t "f" [Var 1]) [Val (1 : nat_sr)]; WRule (u_t "goal" []) (map Val fs)] (fun _ => False) t ->
    wroot t = Goal (u_t "goal" []) -> t = WNode 1 (u_t "goal" []) (map VLeaf fs)).
  { intros t Ht Hr. destruct t as [v|x|k x ts]; [done|inversion Ht; done|]. injection Hr as ->.
    apply wderives_node in Ht as (s & Hs & (σ & _ & E1 & E2) & _ & HF). destruct k as [|[|k]]; [| |done]; injection Hs as <-; [done|].
    f_equal. cbn [wbody] in E2. clear - E2. revert ts E2. induction fs as [|v fs IH]; intros [|t ts] E2; try done.
    cbn [map fsub] in E2. injection E2 as E2 E3. cbn [map]. rewrite (IH ts E3).
    destruct t as [v'|x|k x ts']; cbn in E2; [|discriminate..]. injection E2 as ->. done. }
  destruct (H1 _ (Hd 0%Z)) as (A1 & A2 & A3 & _). destruct (H1 _ (Hd 1%Z)) as (B1 & B2 & B3 & _).
  assert (E : f (d 0%Z) = f (d 1%Z)) by (rewrite (Hu _ A1), (Hu _ B1); done).
  rewrite E, B2 in A2. done.
Qed.

(** *** A case that meets the hypotheses: a left-recursive rule is unfolded into
    itself.  path(X,Z) += path(X,Y) * edge(Y,Z).  path(X,X) += node(X).
    path(X,Z) += edge(X,Z) * 2. *)
Definition t_prog : list (wrule nat_sr) :=
  [WRule (u_t "path" [Var 0; Var 2]) [Goal (u_t "path" [Var 0; Var 1]); Goal (u_t "edge" [Var 1; Var 2])];
   WRule (u_t "path" [Var 3; Var 3]) [Goal (u_t "node" [Var 3])];
   WRule (u_t "path" [Var 4; Var 5]) [Goal (u_t "edge" [Var 4; Var 5]); Val (2 : nat_sr)]].
Definition t_base (x : term) : Prop := exists f args, x = u_t f args /\ (f = "edge" \/ f = "node").

Definition programb (al : nat -> nat) (rs : list (wrule nat_sr)) : bool :=
  forallb (fun r => match wbody r with [] => false | _ => true end && match whead r with Fn (Cst _ :: _) => true | _ => false end &&
    forallb (fun v => v <? 100) (wvars r)) rs.
Lemma programb_ok rs : programb u_al rs = true -> program u_al 0 rs.
Proof.
  unfold programb. rewrite forallb_forall. intros H. split.
  - intros r Hr. apply elem_of_list_In, H in Hr. rewrite !andb_true_iff in Hr. destruct Hr as [[H1 H2] _]. split; [by intros E; rewrite E in H1|].
    destruct (whead r) as [|?|[|[|?|?] ?]]; try done. by eexists _, _.
  - intros r v k Hr Hv _ ->. apply elem_of_list_In, H in Hr. rewrite !andb_true_iff, forallb_forall in Hr. destruct Hr as [_ Hr].
    apply elem_of_list_In, Hr, Nat.ltb_lt in Hv. unfold u_al in Hv. lia.
Qed.
Lemma u_al_inj i j : u_al i = u_al j -> i = j.
Proof. unfold u_al. lia. Qed.

Lemma t_derivation : exists t, wderives False t_prog t_base t /\ wroot t = Goal (u_t "path" [u_n 1; u_n 3]) /\ wvalue (fun _ => (5 : nat_sr)) t = 50.
Proof.
  exists (WNode 0 (u_t "path" [u_n 1; u_n 3]) [WNode 2 (u_t "path" [u_n 1; u_n 2]) [TLeaf (u_t "edge" [u_n 1; u_n 2]); VLeaf (2 : nat_sr)]; TLeaf (u_t "edge" [u_n 2; u_n 3])]).
  assert (Hb : forall a b, t_base (u_t "edge" [a; b])) by (intros a b; exists "edge", [a; b]; auto).
  split; [|by vm_compute]. econstructor; [done| |done|].
  + exists (fun v => match v with 0 => u_n 1 | 1 => u_n 2 | _ => u_n 3 end). split; [by intros [|[|?]]|done].
  + constructor; [|constructor; [by constructor|constructor]]. econstructor; [done| |done|].
    * exists (fun v => match v with 4 => u_n 1 | _ => u_n 2 end). split; [by intros [|[|[|[|[|?]]]]]|done].
    * constructor; [by constructor|]. constructor; [constructor|constructor].
Qed.

Theorem C29_witness : exists n rs' ix c,
  unfold u_al id (fun _ => false) (7 : nat_sr) u_one t_eqr n 0 0 t_prog 0 = Ok (rs', ix, c) /\
  length rs' = 5 /\ ix = [(2, 0); (3, 1); (4, 2)] /\
  same_meaning (wderives False t_prog t_base) (wderives False rs' t_base) /\
  exists t, wderives False t_prog t_base t /\ wroot t = Goal (u_t "path" [u_n 1; u_n 3]) /\ wvalue (fun _ => (5 : nat_sr)) t = 50.
Proof.
  pose (o := t_unfold 7 0 0 t_prog). exists 20, (fst (fst o)), (snd (fst o)), (snd o).
  assert (E : unfold u_al id (fun _ => false) (7 : nat_sr) u_one t_eqr 20 0 0 t_prog 0 = Ok (fst (fst o), snd (fst o), snd o)).
  { rewrite <- !surjective_pairing. apply u_ok. by vm_compute. }
  split; [exact E|]. split; [by vm_compute|]. split; [by vm_compute|]. split.
  - refine (C29_unfold _ _ _ _ _ _ _ _ _ _ _ _ _ _ _ _ _ _ u_al_inj t_eqr_ok _ _ _ _ _ _ E).
    + apply programb_ok. by vm_compute.
    + reflexivity.
    + reflexivity.
    + right. by eexists _, _.
    + intros σ _ (f & args & [= <- _] & [?|?]); done.
    + intros s Hs. apply C29_kept with (b := u_t "path" [Var 0; Var 1]). left. intros v. clear - Hs. unfold t_prog in Hs.
      rewrite !elem_of_cons, elem_of_nil in Hs. destruct Hs as [->|[->|[->|[]]]]; cbn; tauto.
  - exact t_derivation.
Qed.

(** *** Variables as subgoals: total += f(X) * X.  f(Y) += g(Y) * Y. *)
Definition t_vals : list (wrule nat_sr) :=
  [WRule (u_t "total" []) [Goal (u_t "f" [Var 0]); Goal (Var 0)]; WRule (u_t "f" [Var 1]) [Goal (u_t "g" [Var 1]); Goal (Var 1)]].
Definition t_vbase (x : term) : Prop := (exists k, x = Cst k) \/ exists args, x = u_t "g" args.
Definition t_w (x : term) : nat_sr := match x with Cst k => u_wt k | _ => 2 end.
Lemma t_vals_derivation : exists t, wderives True t_vals t_vbase t /\ wroot t = Goal (u_t "total" []) /\ wvalue t_w t = 50.
Proof.
  exists (WNode 0 (u_t "total" []) [WNode 1 (u_t "f" [u_n 5]) [TLeaf (u_t "g" [u_n 5]); TLeaf (u_n 5)]; TLeaf (u_n 5)]).
  assert (H5 : wderives True t_vals t_vbase (TLeaf (u_n 5))) by (constructor; left; by eexists).
  split; [|by vm_compute]. econstructor; [done| | |].
  - exists (fun _ => u_n 5). done.
  - intros _. constructor; [by intros v|]. constructor; [intros v _; by eexists|constructor].
  - constructor; [|constructor; [exact H5|constructor]]. econstructor; [done| | |].
    + exists (fun _ => u_n 5). done.
    + intros _. constructor; [by intros v|]. constructor; [intros v _; by eexists|constructor].
    + constructor; [|constructor; [exact H5|constructor]]. constructor. right. by eexists.
Qed.
Theorem C29_values_witness : exists n rs' ix c,
  unfold u_al id (fun _ => false) (7 : nat_sr) u_one t_eqr n 0 0 t_vals 0 = Ok (rs', ix, c) /\
  (exists r x, rs' !! 1 = Some r /\ wbody r = [Goal (u_t "g" [x]); Goal x; Goal x]) /\
  same_meaning (wderives True t_vals t_vbase) (wderives True rs' t_vbase) /\
  exists t, wderives True t_vals t_vbase t /\ wroot t = Goal (u_t "total" []) /\ wvalue t_w t = 50.
Proof.
  pose (o := t_unfold 7 0 0 t_vals). exists 20, (fst (fst o)), (snd (fst o)), (snd o).
  assert (E : unfold u_al id (fun _ => false) (7 : nat_sr) u_one t_eqr 20 0 0 t_vals 0 = Ok (fst (fst o), snd (fst o), snd o)).
  { rewrite <- !surjective_pairing. apply u_ok. by vm_compute. }
  assert (Eb : exists r x, fst (fst o) !! 1 = Some r /\ wbody r = [Goal (u_t "g" [x]); Goal x; Goal x]).
  { clear. eexists _, _. split; [vm_compute; reflexivity|reflexivity]. }
  clearbody o. split; [exact E|]. split; [exact Eb|]. split; [|exact t_vals_derivation].
  refine (C29_unfold_values nat_sr u_al id (fun _ => false) 7 u_one t_eqr 20 0 0 0 (snd o) t_vals (fst (fst o)) (snd (fst o))
    (WRule (u_t "total" []) [Goal (u_t "f" [Var 0]); Goal (Var 0)]) (CStr "f") [Var 0] t_vbase u_al_inj t_eqr_ok _ eq_refl eq_refl _ _ E); clear.
  - apply programb_ok. by vm_compute.
  - intros σ _ [[k E]|[args E]]; discriminate.
  - intros s Hs. split.
    + apply C29_kept with (b := u_t "f" [Var 0]). left. intros v. unfold t_vals in Hs.
      rewrite !elem_of_cons, elem_of_nil in Hs. destruct Hs as [->|[->|[]]]; cbn; tauto.
    + unfold t_vals in Hs. rewrite !elem_of_cons, elem_of_nil in Hs. destruct Hs as [->|[->|[]]].
      * intros (σ & τ & E). discriminate.
      * intros _. exists (fun _ => Var 0), (fun _ => Var 0). split; [done|]. split; intros v _; by exists 0.
Qed.

Print Assumptions C29_unfold.
Print Assumptions C29_unfold_values.
Print Assumptions C29_unfold_returns.
Print Assumptions C29_kept.
Print Assumptions C29_values.
Print Assumptions C29_lost_refuted.
Print Assumptions C29_witness.
Print Assumptions C29_values_witness.
