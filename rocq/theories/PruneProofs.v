(** Proofs about pruning. *)
From stdpp Require Import gmap.
From Coq Require Import Lia Sorted.
From Verif Require Import PyBase Semiring TermModel TermSpec TermProofs UnifyProofs CoverProofs TermProps
  SetsModel SetsSpec SetsProofs RuleSpec GraphModel GraphSpec GraphProofs GraphProps PruneModel ProgSpec PruneSpec ProgProofs.

(** * Exogenous subgoals *)

Lemma exo_sub σ b : proper b -> ~ bare_var b -> exo (sub σ b) = exo b.
Proof.
  intros Hp Hb. destruct b as [v|c|xs]; [exfalso; apply Hb; by exists v|done|].
  destruct (proper_Fn xs Hp) as (c & l & -> & _). unfold exo. simpl. by rewrite map_length.
Qed.

Lemma exo_false_bare b : exo b = false -> ~ bare_var b.
Proof. intros H [v ->]. done. Qed.

(** The ground subgoals at the positions of the subgoals that are not exogenous. *)
Fixpoint items (bs : list term) {A} (ys : list A) : list A :=
  match bs, ys with
  | b :: bs, y :: ys => if exo b then items bs ys else y :: items bs ys
  | _, _ => []
  end.

Lemma items_map {A B} (f : A -> B) bs (ys : list A) : items bs (map f ys) = map f (items bs ys).
Proof.
  revert ys. induction bs as [|b bs IH]; intros [|y ys]; simpl; [done..|]. destruct (exo b); simpl; by rewrite IH.
Qed.

Lemma items_filter {A} bs (f : term -> A) : items bs (map f bs) = map f (List.filter (fun b => negb (exo b)) bs).
Proof. induction bs as [|b bs IH]; simpl; [done|]. destruct (exo b); simpl; by rewrite IH. Qed.

(** * The argument common to both pruning methods *)
Section abstract.
  Context {V : Type} (E : list (V * list V)) (ins outs T : V -> Prop).
  Context (HT : forall v, T v <-> leads_to E ins outs v).
  Context (P : list rule) (base : term -> Prop) (lab : term -> V -> Prop).
  Context (Hhead : forall r, In r P -> exo (rhead r) = false /\ proper (rhead r)).
  Context (Hbody : forall r b, In r P -> In b (rbody r) -> proper b).
  Context (Hedge : forall i r x ys v vs, nth_error P i = Some r -> ground_inst r x ys ->
             lab x v -> Forall2 lab (items (rbody r) ys) vs -> In (v, vs) E).
  Context (Htot : forall i r x ys, nth_error P i = Some r -> ground_inst r x ys ->
             (exists v, lab x v) /\ Forall (fun y => exists v, lab y v) (items (rbody r) ys)).
  Context (Hleaf : forall x v, base x -> exo x = false -> lab x v -> ins v).

  Lemma labels ys : Forall (fun y => exists v, lab y v) ys -> exists vs, Forall2 lab ys vs.
  Proof. induction 1 as [|y ys [v Hv] _ [vs IH]]; [by exists []|]. exists (v :: vs). by constructor. Qed.

  (** Below an exogenous subgoal there is only a leaf. *)
  Lemma child_cases r σ b t :
    In r P -> In b (rbody r) -> root t = sub σ b -> derives P base t ->
    ((exists v, b = Var v) -> exists y, t = Leaf y) ->
    if exo b then exists y, t = Leaf y else exo (root t) = false.
  Proof.
    intros Hr Hb Ht Hd Hv. destruct (exo b) eqn:Eb.
    - destruct b as [v|c|xs]; [by apply Hv; eauto| |].
      + destruct t as [y|i x ts]; [eauto|]. simpl in Ht. subst x.
        apply derives_node_inv in Hd as (r' & Hr' & (σ' & _ & Hx & _) & _). apply nth_error_In in Hr'.
        destruct (Hhead r' Hr') as [He Hp]. rewrite <- (exo_sub σ') in He by (done || by apply exo_false_bare).
        rewrite Hx in He. done.
      + destruct t as [y|i x ts]; [eauto|]. change (x = sub σ (Fn xs)) in Ht.
        apply derives_node_inv in Hd as (r' & Hr' & (σ' & _ & Hx & _) & _). apply nth_error_In in Hr'.
        destruct (Hhead r' Hr') as [He Hp]. rewrite <- (exo_sub σ') in He by (done || by apply exo_false_bare).
        rewrite Hx, Ht in He. rewrite exo_sub in He; [congruence|exact (Hbody r _ Hr Hb)|]. intros [v ?]; done.
    - rewrite Ht, exo_sub; [done|exact (Hbody r _ Hr Hb)|by apply exo_false_bare].
  Qed.

  (** All children at once. *)
  Lemma children_cases i r x ts :
    nth_error P i = Some r -> ground_inst r x (map root ts) -> Forall (derives P base) ts ->
    Forall2 (fun b t => (exists v, b = Var v) -> exists y, t = Leaf y) (rbody r) ts ->
    Forall2 (fun b t => if exo b then exists y, t = Leaf y else exo (root t) = false) (rbody r) ts.
  Proof.
    intros Hr (σ & _ & _ & Hys) Hts Hv. apply nth_error_In in Hr.
    assert (Hgen : forall bs, Forall2 (fun b t => (exists v, b = Var v) -> exists y, t = Leaf y) bs ts ->
              (forall b, In b bs -> In b (rbody r)) -> map (sub σ) bs = map root ts ->
              Forall2 (fun b t => if exo b then exists y, t = Leaf y else exo (root t) = false) bs ts).
    { clear - Hr Hts Hhead Hbody. induction 1 as [|b t bs ts Hb Hbs IH]; intros Hin Heq; [constructor|].
      simpl in Heq. injection Heq as E1 E2. inversion Hts; subst. constructor.
      - eapply (child_cases r σ); [done|apply Hin; by left|done|done|done].
      - apply IH; [done|intros; apply Hin; by right|done]. }
    by apply Hgen.
  Qed.

  Lemma root_derivable t :
    derives P base t -> values_only P t -> exo (root t) = false -> forall v, lab (root t) v -> derivable E ins v.
  Proof.
    induction t as [x|i x ts IH] using deriv_ind'.
    - intros Hd%derives_leaf_inv _ He v Hv. apply dv_given. by eapply Hleaf.
    - intros (r & Hr & Hg & Hts)%derives_node_inv Hv He v Hlab. inversion Hv as [|? r' ? ? Hr' Hb Hvs]; subst.
      assert (r' = r) as -> by congruence. simpl in Hlab.
      destruct (Htot i r x (map root ts) Hr Hg) as [_ Hall]. apply labels in Hall as [vs Hvs'].
      apply dv_edge with vs; [by eapply Hedge|].
      pose proof (children_cases i r x ts Hr Hg Hts Hb) as Hc. clear - IH Hc Hvs Hts Hvs'.
      revert vs Hvs'. induction Hc as [|b t bs ts Hbt Hc IHc]; intros vs Hvs'; simpl in Hvs'; [inversion Hvs'; constructor|].
      inversion IH; inversion Hvs; inversion Hts; subst. destruct (exo b) eqn:Eb.
      + by apply IHc.
      + inversion Hvs'; subst. constructor; [auto|]. by apply IHc.
  Qed.

  (** What is known of the rules used in a derivation of a useful item. *)
  Definition rule_useful (i : nat) : Prop :=
    forall r, nth_error P i = Some r -> exists x ys v vs, ground_inst r x ys /\ lab x v /\ T v /\
      Forall2 lab (items (rbody r) ys) vs /\ Forall T vs.

  Lemma useful_rules t :
    derives P base t -> values_only P t -> exo (root t) = false ->
    forall v, lab (root t) v -> T v -> uses_only rule_useful t.
  Proof.
    induction t as [x|i x ts IH] using deriv_ind'; [constructor|].
    intros Hd Hv He v Hlab HTv. pose proof Hd as (r & Hr & Hg & Hts)%derives_node_inv.
    inversion Hv as [|? r' ? ? Hr' Hb Hvs]; subst.
    assert (r' = r) as -> by congruence. simpl in Hlab.
    destruct (Htot i r x (map root ts) Hr Hg) as [_ Hall]. apply labels in Hall as [vs Hvs'].
    pose proof (Hedge i r x (map root ts) v vs Hr Hg Hlab Hvs') as HinE.
    pose proof (children_cases i r x ts Hr Hg Hts Hb) as Hc.
    assert (Hall : Forall T vs /\ Forall (uses_only rule_useful) ts).
    { assert (Hfeed : forall u, In u vs -> derivable E ins u -> T u).
      { intros u Hu Hder. apply HT. eapply lt_edge; [by apply HT|by exists vs|done]. }
      clear - IH Hc Hvs Hts Hvs' Hfeed HT Hhead Hbody Hedge Htot Hleaf. revert vs Hvs' Hfeed.
      induction Hc as [|b t bs ts Hbt Hc IHc]; intros vs Hvs' Hfeed; simpl in Hvs'; [inversion Hvs'; split; constructor|].
      inversion IH; inversion Hvs; inversion Hts; subst. destruct (exo b) eqn:Eb.
      - destruct Hbt as [y ->]. destruct (IHc ltac:(done) ltac:(done) ltac:(done) vs Hvs' Hfeed) as [? ?].
        split; [done|]. constructor; [constructor|done].
      - inversion Hvs' as [|? u ? us Hu Hus]; subst.
        destruct (IHc ltac:(done) ltac:(done) ltac:(done) us Hus) as [? ?]; [intros; apply Hfeed; [by right|done]|].
        assert (HTu : T u). { apply Hfeed; [by left|]. by eapply root_derivable. }
        split; constructor; eauto. }
    destruct Hall as [HTs Hus]. constructor; [|done].
    intros r2 Hr2. assert (r2 = r) as -> by congruence. exists x, (map root ts), v, vs. done.
  Qed.
End abstract.

(** * Selecting elements by flags *)
Fixpoint sel {A} (bs : list bool) (l : list A) : list A :=
  match bs, l with
  | b :: bs, x :: l => if b then x :: sel bs l else sel bs l
  | _, _ => []
  end.

Lemma sel_positions {A} (bs : list bool) (l : list A) : length bs = length l ->
  exists ks, List.NoDup ks /\ StronglySorted lt ks /\ Forall2 (fun k x => nth_error l k = Some x) ks (sel bs l) /\
    forall i, In i ks <-> nth_error bs i = Some true.
Proof.
  revert l. induction bs as [|b bs IH]; intros [|x l] Hl; try done.
  - exists []. simpl. split; [constructor|]. split; [constructor|]. split; [constructor|]. intros [|i]; done.
  - injection Hl as Hl. destruct (IH l Hl) as (ks & Hnd & Hs & Hf & Hin).
    assert (Hnd' : List.NoDup (map S ks)).
    { apply FinFun.Injective_map_NoDup; [|done]. intros ? ? ?; lia. }
    assert (Hs' : StronglySorted lt (map S ks)).
    { clear - Hs. induction Hs as [|k ks Hs IH Hk]; simpl; constructor; [done|].
      rewrite List.Forall_map. eapply List.Forall_impl; [|done]. simpl. lia. }
    assert (Hf' : Forall2 (fun k y => nth_error (x :: l) k = Some y) (map S ks) (sel bs l)).
    { clear - Hf. induction Hf; simpl; constructor; done. }
    assert (Hin' : forall i, In i (map S ks) <-> match i with 0 => False | S j => nth_error bs j = Some true end).
    { intros [|i]; rewrite in_map_iff; [split; [by intros (? & ? & _)|done]|]. rewrite <- Hin. split.
      - by intros (? & [= ->] & ?).
      - intros Hi. by exists i. }
    destruct b; simpl.
    + exists (0 :: map S ks). split; [|split; [|split]].
      * constructor; [|done]. by rewrite in_map_iff; intros (? & ? & _).
      * constructor; [done|]. apply List.Forall_map, List.Forall_forall. intros; lia.
      * by constructor.
      * intros i. simpl. rewrite Hin'. destruct i; simpl; naive_solver.
    + exists (map S ks). split; [done|]. split; [done|]. split; [done|]. intros i. rewrite Hin'. destruct i; simpl; naive_solver.
Qed.

Lemma sel_length {A} (bs : list bool) (l : list A) : length bs = length l -> length (sel bs l) <= length l.
Proof. revert l. induction bs as [|[] bs IH]; intros [|x l] Hl; simpl in *; try lia; specialize (IH l); lia. Qed.

Lemma sel_full {A} (bs : list bool) (l : list A) : length bs = length l -> length (sel bs l) = length l -> sel bs l = l.
Proof.
  revert l. induction bs as [|[] bs IH]; intros [|x l] Hl Hs; simpl in *; try done.
  - f_equal. apply IH; lia.
  - pose proof (sel_length bs l ltac:(lia)). lia.
Qed.

Lemma sel_if {A} (bs : list bool) (l : list A) : length bs = length l ->
  (if Nat.eqb (length l) (length (sel bs l)) then l else sel bs l) = sel bs l.
Proof. intros Hl. destruct (Nat.eqb_spec (length l) (length (sel bs l))) as [He|]; [|done]. symmetry. by apply sel_full. Qed.

(** * The derivations kept by a pruning *)
Lemma pruned_same P base outputs (bs : list bool) :
  length bs = length P ->
  (forall t, output_derivation outputs base P t -> uses_only (fun i => nth_error bs i = Some true) t) ->
  same_derivations (output_derivation outputs base P) (output_derivation outputs base (sel bs P)).
Proof.
  intros Hl Hu. destruct (sel_positions bs P Hl) as (ks & Hnd & Hs & Hf & Hin).
  assert (Hu' : forall t, output_derivation outputs base P t -> uses_only (fun i => In i ks) t).
  { intros t Ht. eapply uses_only_impl; [|by apply Hu]. intros i Hi. by apply Hin. }
  apply (subprogram_same P (sel bs P) base ks); try done.
  - by intros t [? _].
  - by intros t [? _].
  - intros t Ht. pose proof (Hu' t Ht) as Hk. destruct Ht as (Hd & Hv & Ho).
    assert (Hmap : uses_only (fun i => forall r, nth_error P i = Some r -> nth_error (sel bs P) (pos_of i ks) = Some r) t).
    { eapply uses_only_impl; [|exact Hk]. intros i Hi r Hr. by eapply kept_fwd. }
    split; [by eapply derives_relabel|]. split; [by eapply values_only_relabel|]. by rewrite root_relabel.
  - intros t (Hd & Hv & Ho).
    assert (Hmap : uses_only (fun j => forall r, nth_error (sel bs P) j = Some r -> nth_error P (nth j ks 0) = Some r) t).
    { eapply uses_only_impl; [|by eapply derives_uses]. intros j _ r Hr. by eapply kept_bwd. }
    split; [by eapply derives_relabel|]. split; [by eapply values_only_relabel|]. by rewrite root_relabel.
Qed.

(** * prune_very_fast *)
Lemma proper_fn b : exo b = false -> proper b -> exists c l, b = Fn (Cst c :: l).
Proof.
  intros He Hp. destruct b as [v|c|xs]; [done|done|]. destruct (proper_Fn xs Hp) as (c & l & -> & _). eauto.
Qed.

Lemma mapM_ok {A B} (f : A -> res B) l : (forall a, In a l -> exists b, f a = Ok b) ->
  exists bs, mapM f l = Ok bs /\ Forall2 (fun a b => f a = Ok b) l bs.
Proof.
  induction l as [|a l IH]; intros H; [exists []; split; [done|constructor]|].
  destruct (H a) as [b Hb]; [by left|]. destruct IH as (bs & E & Hbs); [intros; apply H; by right|].
  exists (b :: bs). simpl. rewrite Hb. simpl. rewrite E. simpl. split; [done|]. by constructor.
Qed.

Lemma Forall2_in_l {A B} (R : A -> B -> Prop) l k a : Forall2 R l k -> In a l -> exists b, In b k /\ R a b.
Proof. induction 1 as [|x y l k Hxy _ IH]; [done|]. intros [<-|Hin]; [exists y; split; [by left|done]|]. destruct (IH Hin) as (b & ? & ?). exists b. split; [by right|done]. Qed.

Lemma Forall2_in_r {A B} (R : A -> B -> Prop) l k b : Forall2 R l k -> In b k -> exists a, In a l /\ R a b.
Proof. induction 1 as [|x y l k Hxy _ IH]; [done|]. intros [<-|Hin]; [exists x; split; [by left|done]|]. destruct (IH Hin) as (a & ? & ?). exists a. split; [by right|done]. Qed.

Lemma Forall2_nth_l {A B} (R : A -> B -> Prop) l k i a : Forall2 R l k -> nth_error l i = Some a ->
  exists b, nth_error k i = Some b /\ R a b.
Proof. intros H. revert i. induction H as [|x y l k Hxy _ IH]; intros [|i] Hi; try done; simpl in *; [exists y; split; [done|congruence]|auto]. Qed.

Lemma vf_select (T : gset term) (E : list (hedge (V:=term))) (P : list rule) :
  length E = length P ->
  map snd (List.filter (fun er : hedge * rule =>
    bool_decide (hhead (fst er) ∈ T) && forallb (fun b => bool_decide (b ∈ T)) (hbody (fst er))) (zip E P))
  = sel (map (fun e => bool_decide (hhead e ∈ T) && forallb (fun b => bool_decide (b ∈ T)) (hbody e)) E) P.
Proof.
  revert P. induction E as [|e E IH]; intros [|r P] Hl; try done. injection Hl as Hl. simpl.
  destruct (bool_decide _ && forallb _ _); simpl; by rewrite IH.
Qed.

Lemma filter_exo bs : List.filter (fun b => negb (is_const b) && negb (is_builtin b)) bs = List.filter (fun b => negb (exo b)) bs.
Proof. apply filter_ext. intros b. unfold exo. by rewrite negb_orb. Qed.

Lemma vf_edge_ok r : exo (rhead r) = false -> proper (rhead r) -> (forall b, In b (rbody r) -> proper b) ->
  exists h bs, vf_edge r = Ok (h, bs) /\ fn_of (rhead r) = Ok h /\
    Forall2 (fun b f => fn_of b = Ok f) (List.filter (fun b => negb (exo b)) (rbody r)) bs.
Proof.
  intros He Hp Hb. unfold vf_edge. rewrite filter_exo. destruct (proper_fn _ He Hp) as (c & l & ->). simpl.
  destruct (mapM_ok fn_of (List.filter (fun b => negb (exo b)) (rbody r))) as (bs & E & Hbs).
  { intros b [Hin Hx]%filter_In. destruct (proper_fn b) as (c' & l' & ->); [by apply negb_true_iff in Hx|by apply Hb|].
    simpl. eauto. }
  rewrite E. simpl. eauto 10.
Qed.

Lemma fn_sub σ b f : exo b = false -> proper b -> fn_of b = Ok f -> fn_of (sub σ b) = Ok f.
Proof. intros He Hp. destruct (proper_fn _ He Hp) as (c & l & ->). simpl. done. Qed.

Lemma items_fn σ bs fs : (forall b, In b bs -> proper b) ->
  Forall2 (fun b f => fn_of b = Ok f) (List.filter (fun b => negb (exo b)) bs) fs ->
  Forall2 (fun y f => fn_of y = Ok f) (items bs (map (sub σ) bs)) fs.
Proof.
  revert fs. induction bs as [|b bs IH]; intros fs Hp; simpl; [done|]. destruct (exo b) eqn:Eb; simpl.
  - intros H. apply IH; [|done]. intros; apply Hp; by right.
  - intros H. inversion H; subst. constructor; [by apply fn_sub; [done|apply Hp; by left|]|].
    apply IH; [|done]. intros; apply Hp; by right.
Qed.

Lemma Forall2_fn_unique ys fs gs : Forall2 (fun y f => fn_of y = Ok f) ys fs ->
  Forall2 (fun y f => fn_of y = Ok f) ys gs -> fs = gs.
Proof.
  intros H. revert gs. induction H as [|y f ys fs Hf _ IH]; intros gs Hg; inversion Hg; subst; [done|].
  f_equal; [congruence|by apply IH].
Qed.

Lemma vf_spec pick n inputs outputs P (base : term -> Prop) :
  (forall k (A : gset term), A <> ∅ -> pick k A ∈ A) ->
  length inputs + length P + length outputs < n ->
  wf_program P -> wf_decls inputs -> wf_decls outputs ->
  (forall x, base x -> exo x = true \/ exists q, In q inputs /\ instance_of q x) ->
  exists bs, length bs = length P /\ prune_very_fast pick n inputs outputs P = Ok (sel bs P) /\
    forall t, output_derivation outputs base P t -> uses_only (fun i => nth_error bs i = Some true) t.
Proof.
  intros Hpick Hn Hwf Hi Ho Hbase.
  destruct (mapM_ok fn_of inputs) as (ins & Ei & Hins).
  { intros q Hq. destruct (Hi q Hq) as [He Hp]. destruct (proper_fn _ He Hp) as (c & l & ->). simpl. eauto. }
  destruct (mapM_ok fn_of outputs) as (outs & Eo & Houts).
  { intros q Hq. destruct (Ho q Hq) as [He Hp]. destruct (proper_fn _ He Hp) as (c & l & ->). simpl. eauto. }
  destruct (mapM_ok vf_edge P) as (E & EE & HE).
  { intros r Hr. destruct (Hwf r Hr) as (He & Hp & Hb). destruct (vf_edge_ok r He Hp Hb) as (h & bs & E & _). eauto. }
  assert (Hlen : length E = length P) by (symmetry; by eapply Forall2_length).
  destruct (C21_reachability term _ _ pick E (list_to_set ins) (list_to_set outs) n Hpick) as (T & ET & HT & _).
  { pose proof (size_list_to_set_le ins). pose proof (size_list_to_set_le outs).
    pose proof (Forall2_length _ _ _ Hins). pose proof (Forall2_length _ _ _ Houts).
    unfold hedge in Hlen. lia. }
  set (bs := map (fun e : hedge => bool_decide (hhead e ∈ T) && forallb (fun b => bool_decide (b ∈ T)) (hbody e)) E).
  assert (Hbs : length bs = length P) by (unfold bs; by rewrite map_length).
  exists bs. split; [done|]. split.
  { unfold prune_very_fast. rewrite Ei, Eo, EE. cbn [bind]. rewrite ET. cbn [bind].
    rewrite vf_select by done. fold bs. by rewrite sel_if. }
  intros t (Hd & Hv & o & Hoin & Hinst).
  destruct (Ho o Hoin) as [Hoe Hop]. destruct (Forall2_in_l _ _ _ _ Houts Hoin) as (fo & Hfo & Efo).
  destruct Hinst as [σo Hσo].
  set (lab := fun (x : term) (v : term) => fn_of x = Ok v).
  assert (Huse : uses_only (rule_useful (fun v => v ∈ T) P lab) t).
  { apply (useful_rules E (fun v => v ∈ (list_to_set ins : gset term)) (fun v => v ∈ (list_to_set outs : gset term)))
      with (base := base) (v := fo); try done.
    - intros r Hr. destruct (Hwf r Hr) as (? & ? & ?). done.
    - intros r b Hr Hb. destruct (Hwf r Hr) as (? & ? & Hb'). by apply Hb'.
    - intros i r x ys v vs Hr (σ & _ & <- & <-) Hlv Hlvs. pose proof (nth_error_In _ _ Hr) as Hrin.
      destruct (Hwf r Hrin) as (He & Hp & Hb). destruct (vf_edge_ok r He Hp Hb) as (h & fs & Er & Eh & Efs).
      destruct (Forall2_in_l _ _ _ _ HE Hrin) as (e & He' & Ee). rewrite Er in Ee. injection Ee as <-.
      assert (v = h) as ->. { pose proof (fn_sub σ _ _ He Hp Eh). unfold lab in Hlv. congruence. }
      assert (vs = fs) as -> by (eapply Forall2_fn_unique; [done|by apply items_fn]). done.
    - intros i r x ys Hr (σ & _ & <- & <-). pose proof (nth_error_In _ _ Hr) as Hrin.
      destruct (Hwf r Hrin) as (He & Hp & Hb). destruct (vf_edge_ok r He Hp Hb) as (h & fs & Er & Eh & Efs). split.
      + exists h. by apply fn_sub.
      + pose proof (items_fn σ _ _ Hb Efs) as Hf. clear - Hf. induction Hf; constructor; eauto.
    - intros x v Hx Hex Hlab. destruct (Hbase x Hx) as [?|(q & Hq & σ & <-)]; [congruence|].
      destruct (Hi q Hq) as [Hqe Hqp]. destruct (Forall2_in_l _ _ _ _ Hins Hq) as (fq & Hfq & Efq).
      assert (v = fq) as ->. { pose proof (fn_sub σ _ _ Hqe Hqp Efq). unfold lab in Hlab. congruence. }
      by apply elem_of_list_to_set, elem_of_list_In.
    - rewrite <- Hσo, exo_sub; [done|done|by apply exo_false_bare].
    - unfold lab. rewrite <- Hσo. by apply fn_sub.
    - apply HT, lt_out. by apply elem_of_list_to_set, elem_of_list_In. }
  eapply uses_only_impl; [|exact (uses_only_and _ _ t Huse (derives_uses P base t Hd))].
  intros i [Hu [r Hr]]. simpl in *.
  destruct (Hu r Hr) as (x & ys & v & vs & (σ & _ & <- & <-) & Hlv & HTv & Hlvs & HTvs).
  pose proof (nth_error_In _ _ Hr) as Hrin.
  destruct (Hwf r Hrin) as (He & Hp & Hb). destruct (vf_edge_ok r He Hp Hb) as (h & fs & Er & Eh & Efs).
  destruct (Forall2_nth_l _ _ _ _ _ HE Hr) as (e & He' & Ee). rewrite Er in Ee. injection Ee as <-.
  unfold bs. rewrite (map_nth_error _ _ _ He'). f_equal. simpl.
  assert (v = h) as ->. { pose proof (fn_sub σ _ _ He Hp Eh). unfold lab in Hlv. congruence. }
  assert (vs = fs) as -> by (eapply Forall2_fn_unique; [done|by apply items_fn]).
  rewrite bool_decide_eq_true_2 by done. simpl. apply forallb_forall. intros b Hb'. apply bool_decide_eq_true_2.
  rewrite Forall_forall in HTvs. by apply HTvs, elem_of_list_In.
Qed.

(** * prune_fast *)
Lemma common_instance_unifies x y z :
  disjoint_vars x y -> instance_of x z -> instance_of y z -> exists σ, sub σ x = sub σ y.
Proof.
  intros Hd (σ1 & H1) (σ2 & H2). exists (fun v => if decide (In v (vars x)) then σ1 v else σ2 v).
  transitivity z.
  - rewrite <- H1. apply sub_ext. intros v Hv. by destruct (decide (In v (vars x))).
  - rewrite <- H2. apply sub_ext. intros v Hv. destruct (decide (In v (vars x))); [|done]. by destruct (Hd v).
Qed.

Lemma settles_mapSM {A B} (f : nat -> A -> nat -> res (B * nat)) (R : A -> B -> Prop) l :
  (forall a, In a l -> forall c, exists b c', settles (fun n => f n a c) (b, c') /\ R a b) ->
  forall c, exists bs c', settles (fun n => mapSM (f n) l c) (bs, c') /\ Forall2 R l bs.
Proof.
  induction l as [|a l IH]; intros H c.
  { exists [], c. split; [apply settles_ret|constructor]. }
  destruct (H a) with c as (b & c1 & E1 & Hab); [by left|].
  destruct IH with c1 as (bs & c2 & E2 & Hbs); [intros; apply H; by right|].
  exists (b :: bs), c2. split; [|by constructor]. simpl.
  eapply (settles_bind (fun n => f n a c) (fun n p => let '(b, s1) := p in let* (bs, s2) := mapSM (f n) l s1 in Ok (b :: bs, s2))); [done|].
  eapply (settles_bind (fun n => mapSM (f n) l c1) (fun n p => let '(bs, s2) := p in Ok (b :: bs, s2))); [done|]. apply settles_ret.
Qed.

Section fast.
  Context (al cv : nat -> nat) (Hal : forall i j, al i = al j -> i = j) (Halcv : forall i j, al i <> cv j).
  Context (xs : list term) (Hcv : Forall (fromcv cv) xs).

  (** Node [v] of the coarse graph stands for the item [z]. *)
  Definition lab (z : term) (v : nat) : Prop := exists s, nth_error xs v = Some s /\ instance_of s z.

  Lemma find_all_spec x c :
    exists is c', settles (fun n => find_all al n xs x c) (is, c') /\
      forall z v, instance_of x z -> lab z v -> In v is.
  Proof.
    destruct (fresh_settles al Hal c x) as (y & c' & Ef & Hv & _ & Hfr).
    destruct (de_find_all_spec y 0 xs) as (is & Eis & Hspec & _).
    exists is, c'. split.
    { eapply (settles_bind (fun n => fresh al n ∅ c x) (fun n p => let '(x, c) := p in
        let* index := de_find_all n x 0 xs in Ok (index, c))); [done|].
      eapply (settles_bind (fun n => de_find_all n y 0 xs)); [done|]. apply settles_ret. }
    intros z v Hxz (s & Hs & Hsz). apply Hspec. exists s. rewrite Nat.sub_0_r. split; [lia|]. split; [done|].
    apply (common_instance_unifies y s z); [|by eapply variant_instance_l|done].
    intros u H1 H2. rewrite Forall_forall in Hcv. apply nth_error_In in Hs.
    destruct (Hcv s) with u as [k Hk]; [by apply elem_of_list_In|done|]. destruct (Hfr u H1) as (j & -> & _). by apply Halcv in Hk.
  Qed.

  Lemma coarse_f1_spec x c :
    exists vs c', settles (fun n => coarse_f1 al n xs x c) (vs, c') /\
      if exo x then vs = [[]]
      else (forall v, In v vs -> exists i, v = [i]) /\ forall z v, instance_of x z -> lab z v -> In [v] vs.
  Proof.
    unfold coarse_f1. fold (exo x). destruct (exo x).
    - exists [[]], c. split; [apply settles_ret|done].
    - destruct (find_all_spec x c) as (is & c' & E & H). exists (map (fun v => [v]) is), c'. split.
      + eapply (settles_bind (fun n => find_all al n xs x c) (fun n p => let '(index, c) := p in Ok (map (fun v => [v]) index, c))); [done|].
        apply settles_ret.
      + split; [intros v (i & <- & _)%in_map_iff; eauto|].
        intros z v Hz Hl. apply in_map_iff. exists v. split; [done|]. by eapply H.
  Qed.

  Lemma coarse_f_spec ys c :
    exists vss c', settles (fun n => coarse_f al n xs ys c) (vss, c') /\
      forall zs vs, Forall2 instance_of ys zs -> Forall2 lab (items ys zs) vs -> In vs vss.
  Proof.
    revert c. induction ys as [|y ys IH]; intros c.
    { exists [[]], c. split; [apply settles_ret|]. intros zs vs _ H. simpl in H. inversion H. by left. }
    destruct (coarse_f1_spec y c) as (vs1 & c1 & E1 & H1). destruct (IH c1) as (rest & c2 & E2 & H2).
    exists (flat_map (fun v => map (fun r => v ++ r) rest) vs1), c2. split.
    { simpl. eapply (settles_bind (fun n => coarse_f1 al n xs y c) (fun n p => let '(vs, c) := p in
        let* (rest, c) := coarse_f al n xs ys c in Ok (flat_map (fun v => map (fun r => v ++ r) rest) vs, c))); [done|].
      eapply (settles_bind (fun n => coarse_f al n xs ys c1) (fun n p => let '(rest, c) := p in
        Ok (flat_map (fun v => map (fun r => v ++ r) rest) vs1, c))); [done|]. apply settles_ret. }
    intros zs vs Hz Hl. inversion Hz as [|? z ? zs' Hyz Hzs]; subst. simpl in Hl.
    apply in_flat_map. destruct (exo y).
    - subst vs1. exists []. split; [by left|]. simpl. rewrite map_id. by eapply H2.
    - destruct H1 as [_ H1]. inversion Hl as [|? v ? vs' Hv Hvs]; subst. exists [v].
      split; [by eapply H1|]. apply in_map_iff. exists vs'. split; [done|]. by eapply H2.
  Qed.

  Lemma coarse_one_spec x c : exo x = false ->
    exists is c', settles (fun n => coarse_one al n xs x c) (is, c') /\
      forall z v, instance_of x z -> lab z v -> In v is.
  Proof.
    intros He. destruct (coarse_f1_spec x c) as (vs & c' & E & H). rewrite He in H. destruct H as [H1 H2].
    destruct (mapM_ok the_one vs) as (is & Ei & Hi).
    { intros v Hv. destruct (H1 v Hv) as [i ->]. simpl. eauto. }
    exists is, c'. split.
    - unfold coarse_one. eapply (settles_bind (fun n => coarse_f al n xs [x] c) (fun n p => let '(vs, c) := p in
        let* is := mapM the_one vs in Ok (is, c))) with (a := (vs, c')).
      + simpl. eapply (settles_bind (fun n => coarse_f1 al n xs x c) (fun n p => let '(vs, c) := p in
          Ok (flat_map (fun v => map (fun r => v ++ r) [[]]) vs, c))); [done|].
        assert (Hid : flat_map (fun v => map (fun r => v ++ r) [[]]) vs = vs).
        { clear. induction vs as [|v vs IH]; simpl; [done|]. rewrite app_nil_r. f_equal. exact IH. }
        cbv beta iota. rewrite Hid. apply settles_ret.
      + rewrite Ei. apply settles_ret.
    - intros z v Hz Hl. destruct (Forall2_in_l _ _ _ _ Hi (H2 z v Hz Hl)) as (i & Hin & Ev).
      simpl in Ev. injection Ev as ->. done.
  Qed.

  Lemma coarse_rule_spec r c : exo (rhead r) = false ->
    exists es c', settles (fun n => coarse_rule al n xs r c) (es, c') /\
      forall x ys v vs, ground_inst r x ys -> lab x v -> Forall2 lab (items (rbody r) ys) vs -> In (v, vs) es.
  Proof.
    intros He. destruct (coarse_one_spec (rhead r) c He) as (hs & c1 & E1 & H1).
    destruct (coarse_f_spec (rbody r) c1) as (bs & c2 & E2 & H2).
    exists (flat_map (fun h => map (fun b => (h, b)) bs) hs), c2. split.
    - eapply (settles_bind (fun n => coarse_one al n xs (rhead r) c) (fun n p => let '(hs, c) := p in
        let* (bs, c) := coarse_f al n xs (rbody r) c in Ok (flat_map (fun h => map (fun b => (h, b)) bs) hs, c))); [done|].
      eapply (settles_bind (fun n => coarse_f al n xs (rbody r) c1) (fun n p => let '(bs, c) := p in
        Ok (flat_map (fun h => map (fun b => (h, b)) bs) hs, c))); [done|]. apply settles_ret.
    - intros x ys v vs (σ & _ & <- & <-) Hv Hvs. apply in_flat_map. exists v. split; [eapply H1; [by exists σ|done]|].
      apply in_map_iff. exists vs. split; [done|]. eapply H2; [|done].
      clear. induction (rbody r); simpl; constructor; [by eexists|done].
  Qed.

  Context (useful : gset nat).

  Lemma good_spec x c :
    exists g c', settles (fun n => good al n xs useful x c) (g, c') /\
      (exo x = true -> g = true) /\
      (forall z v, exo x = false -> instance_of x z -> lab z v -> v ∈ useful -> g = true).
  Proof.
    destruct (coarse_f1_spec x c) as (vs & c' & E & H).
    exists (existsb (fun v => forallb (fun i => bool_decide (i ∈ useful)) v) vs), c'. split; [|split].
    - eapply (settles_bind (fun n => coarse_f1 al n xs x c) (fun n p => let '(vs, c) := p in
        Ok (existsb (fun v => forallb (fun i => bool_decide (i ∈ useful)) v) vs, c))); [done|]. apply settles_ret.
    - intros He. rewrite He in H. by subst vs.
    - intros z v He Hz Hl Hu. rewrite He in H. destruct H as [_ H]. apply existsb_exists. exists [v].
      split; [by eapply H|]. simpl. by rewrite bool_decide_eq_true_2.
  Qed.

  Lemma all_good_spec bs c :
    exists g c', settles (fun n => all_good al n xs useful bs c) (g, c') /\
      forall σ vs, Forall2 lab (items bs (map (sub σ) bs)) vs -> Forall (fun v => v ∈ useful) vs -> g = true.
  Proof.
    revert c. induction bs as [|b bs IH]; intros c.
    { exists true, c. split; [apply settles_ret|done]. }
    destruct (good_spec b c) as (g & c1 & E1 & G1 & G2). destruct g.
    - destruct (IH c1) as (g2 & c2 & E2 & H2). exists g2, c2. split.
      + simpl. eapply (settles_bind (fun n => good al n xs useful b c) (fun n p => let '(g, c) := p in
          if g then all_good al n xs useful bs c else Ok (false, c))); [done|]. done.
      + intros σ vs Hl Hu. simpl in Hl. destruct (exo b); [by eapply H2|].
        inversion Hl; subst. inversion Hu; subst. by eapply H2.
    - exists false, c1. split.
      + simpl. eapply (settles_bind (fun n => good al n xs useful b c) (fun n p => let '(g, c) := p in
          if g then all_good al n xs useful bs c else Ok (false, c))); [done|]. apply settles_ret.
      + intros σ vs Hl Hu. simpl in Hl. destruct (exo b) eqn:Eb; [by apply G1|].
        inversion Hl; subst. inversion Hu; subst. eapply G2; [done|by exists σ|done|done].
  Qed.

  Definition keepable (r : rule) : Prop :=
    exists x ys v vs, ground_inst r x ys /\ lab x v /\ v ∈ useful /\
      Forall2 lab (items (rbody r) ys) vs /\ Forall (fun v => v ∈ useful) vs.

  Lemma keep_rule_spec r c : exo (rhead r) = false ->
    exists g c', settles (fun n => keep_rule al n xs useful r c) (g, c') /\ (keepable r -> g = true).
  Proof.
    intros He. destruct (good_spec (rhead r) c) as (g & c1 & E1 & G1 & G2). destruct g.
    - destruct (all_good_spec (rbody r) c1) as (g2 & c2 & E2 & H2). exists g2, c2. split.
      + eapply (settles_bind (fun n => good al n xs useful (rhead r) c) (fun n p => let '(g, c) := p in
          if g then all_good al n xs useful (rbody r) c else Ok (false, c))); [done|]. done.
      + intros (x & ys & v & vs & (σ & _ & <- & <-) & _ & _ & Hl & Hu). by eapply H2.
    - exists false, c1. split.
      + eapply (settles_bind (fun n => good al n xs useful (rhead r) c) (fun n p => let '(g, c) := p in
          if g then all_good al n xs useful (rbody r) c else Ok (false, c))); [done|]. apply settles_ret.
      + intros (x & ys & v & vs & (σ & _ & <- & <-) & Hl & Hu & _). eapply G2; [done|by exists σ|done|done].
  Qed.

  Lemma keep_rules_spec P c : (forall r, In r P -> exo (rhead r) = false) ->
    exists bs c', settles (fun n => keep_rules al n xs useful P c) (sel bs P, c') /\
      Forall2 (fun r b => keepable r -> b = true) P bs.
  Proof.
    revert c. induction P as [|r P IH]; intros c He.
    { exists [], c. split; [apply settles_ret|constructor]. }
    destruct (keep_rule_spec r c) as (g & c1 & E1 & H1); [apply He; by left|].
    destruct (IH c1) as (bs & c2 & E2 & H2); [intros; apply He; by right|].
    exists (g :: bs), c2. split; [|by constructor]. simpl.
    eapply (settles_bind (fun n => keep_rule al n xs useful r c) (fun n p => let '(g, c) := p in
      let* (rs, c) := keep_rules al n xs useful P c in Ok (if g then r :: rs else rs, c))); [done|].
    eapply (settles_bind (fun n => keep_rules al n xs useful P c1) (fun n p => let '(rs, c) := p in
      Ok (if g then r :: rs else rs, c))); [done|]. apply settles_ret.
  Qed.
End fast.

Lemma fast_spec al cv pick c inputs outputs P (base : term -> Prop) :
  (forall i j, al i = al j -> i = j) -> (forall i j, cv i = cv j -> i = j) -> (forall i j, al i <> cv j) ->
  (forall k (A : gset nat), A <> ∅ -> pick k A ∈ A) ->
  wf_program P -> wf_decls inputs -> wf_decls outputs ->
  (forall x, base x -> exo x = true \/ exists q, In q inputs /\ instance_of q x) ->
  exists bs, length bs = length P /\ settles (fun n => prune_fast al cv pick n c inputs outputs P) (sel bs P) /\
    forall t, output_derivation outputs base P t -> uses_only (fun i => nth_error bs i = Some true) t.
Proof.
  intros Hal Hcv Halcv Hpick Hwf Hi Ho Hbase.
  set (terms := coarse_terms inputs P).
  assert (Hterms : Forall proper terms).
  { apply Forall_forall. intros x Hx%elem_of_list_In. unfold terms, coarse_terms in Hx.
    apply in_app_or in Hx as [Hx|Hx]; [by apply Hi|]. apply in_flat_map in Hx as (r & Hr & Hx).
    destruct (Hwf r Hr) as (_ & Hp & Hb). destruct Hx as [<-|Hx]; [done|]. apply filter_In in Hx as [Hx _]. by apply Hb. }
  destruct (de_adds_spec al cv Hal Hcv Halcv ([], c) terms []) as ([xs c1] & E1 & _ & Hxs & Hcov); [done| |].
  { split; [constructor|]. split; [constructor|]. by intros ? []. }
  simpl in Hxs, Hcov.
  assert (Hex : forall r, In r P -> exo (rhead r) = false) by (intros r Hr; by apply Hwf).
  destruct (settles_mapSM (fun n => coarse_one al n xs) (fun x is => forall z v, instance_of x z -> lab xs z v -> In v is) inputs)
    with c1 as (ins & c2 & E2 & Hins).
  { intros x Hx k. apply (coarse_one_spec al cv Hal Halcv xs Hxs). by apply Hi. }
  destruct (settles_mapSM (fun n => coarse_rule al n xs) (fun r es => forall x ys v vs, ground_inst r x ys -> lab xs x v ->
      Forall2 (lab xs) (items (rbody r) ys) vs -> In (v, vs) es) P) with c2 as (es & c3 & E3 & Hes).
  { intros r Hr k. apply (coarse_rule_spec al cv Hal Halcv xs Hxs). by apply Hex. }
  destruct (settles_mapSM (fun n => coarse_one al n xs) (fun x is => forall z v, instance_of x z -> lab xs z v -> In v is) inputs)
    with c3 as (ins' & c4 & E4 & Hins').
  { intros x Hx k. apply (coarse_one_spec al cv Hal Halcv xs Hxs). by apply Hi. }
  destruct (settles_mapSM (fun n => coarse_one al n xs) (fun x is => forall z v, instance_of x z -> lab xs z v -> In v is) outputs)
    with c4 as (outs & c5 & E5 & Houts).
  { intros x Hx k. apply (coarse_one_spec al cv Hal Halcv xs Hxs). by apply Ho. }
  set (E := map (fun i => (i, [])) (concat ins) ++ concat es : list (hedge (V:=nat))).
  set (N := S (size (list_to_set (concat ins') : gset nat) + length (E : list (nat * list nat)) + size (list_to_set (concat outs) : gset nat))).
  destruct (C21_reachability nat _ _ pick E (list_to_set (concat ins')) (list_to_set (concat outs)) N Hpick) as (T & ET & HT & _).
  { unfold N. lia. }
  assert (ET' : settles (fun n => reachability pick E n (list_to_set (concat ins')) (list_to_set (concat outs))) T).
  { exists N. intros n Hn.
    destruct (C21_reachability nat _ _ pick E (list_to_set (concat ins')) (list_to_set (concat outs)) n Hpick) as (T' & ET' & HT' & _).
    { unfold N in Hn. lia. }
    rewrite ET'. f_equal. apply set_eq. intros v. by rewrite HT, HT'. }
  destruct (keep_rules_spec al cv Hal Halcv xs Hxs T P c5 Hex) as (bs & c6 & E6 & Hbs).
  assert (Hlen : length bs = length P) by (symmetry; by eapply Forall2_length).
  exists bs. split; [done|]. split.
  { unfold prune_fast.
    eapply (settles_bind (fun n => de_adds al cv n ([], c) terms) (fun n p => let '(xs, c) := p in _)); [done|]. cbv beta iota.
    eapply (settles_bind (fun n => mapSM (coarse_one al n xs) inputs c1) (fun n p => let '(ins, c) := p in _)); [done|]. cbv beta iota.
    eapply (settles_bind (fun n => mapSM (coarse_rule al n xs) P c2) (fun n p => let '(es, c) := p in _)); [done|]. cbv beta iota.
    eapply (settles_bind (fun n => mapSM (coarse_one al n xs) inputs c3) (fun n p => let '(ins', c) := p in _)); [done|]. cbv beta iota.
    eapply (settles_bind (fun n => mapSM (coarse_one al n xs) outputs c4) (fun n p => let '(outs, c) := p in _)); [done|]. cbv beta iota.
    fold E.
    eapply (settles_bind (fun n => reachability pick E n (list_to_set (concat ins')) (list_to_set (concat outs))) (fun n T => _)); [done|]. cbv beta.
    eapply (settles_bind (fun n => keep_rules al n xs T P c5) (fun n p => let '(active, c) := p in _)); [done|]. cbv beta iota.
    rewrite sel_if by done. apply settles_ret. }
  (* every item that occurs has a label *)
  assert (Hlab : forall a σ, In a terms -> exists v, lab xs (sub σ a) v).
  { intros a σ Ha. destruct (Hcov a Ha) as (s & Hs & Hsa). apply In_nth_error in Hs as [v Hv]. exists v, s.
    split; [done|]. eapply instance_of_trans; [done|]. by exists σ. }
  intros t (Hd & Hv & o & Hoin & Hinst).
  destruct (Ho o Hoin) as [Hoe Hop]. destruct (Forall2_in_l _ _ _ _ Houts Hoin) as (fo & Hfo & Efo).
  assert (Hroot : exists v, lab xs (root t) v).
  { destruct t as [x|i x ts].
    - apply derives_leaf_inv in Hd. simpl. destruct (Hbase x Hd) as [Hx|(q & Hq & σ & <-)].
      + destruct Hinst as [σ Hσ]. simpl in Hσ. rewrite <- Hσ, exo_sub in Hx by (done || by apply exo_false_bare). congruence.
      + apply Hlab. unfold terms, coarse_terms. apply in_or_app. by left.
    - apply derives_node_inv in Hd as (r & Hr & (σ & _ & Hx & _) & _). simpl. rewrite <- Hx. apply Hlab.
      unfold terms, coarse_terms. apply in_or_app. right. apply in_flat_map. exists r. split; [by eapply nth_error_In|by left]. }
  destruct Hroot as [v0 Hv0].
  assert (HTv0 : v0 ∈ T).
  { apply HT, lt_out. apply elem_of_list_to_set, elem_of_list_In. apply in_concat. exists fo. split; [done|]. by eapply Efo. }
  assert (Huse : uses_only (rule_useful (fun v => v ∈ T) P (lab xs)) t).
  { apply (useful_rules E (fun v => v ∈ (list_to_set (concat ins') : gset nat)) (fun v => v ∈ (list_to_set (concat outs) : gset nat)))
      with (base := base) (v := v0); try done.
    - intros r Hr. destruct (Hwf r Hr) as (? & ? & ?). done.
    - intros r b Hr Hb. destruct (Hwf r Hr) as (? & ? & Hb'). by apply Hb'.
    - intros i r x ys v vs Hr Hg Hlv Hlvs. pose proof (nth_error_In _ _ Hr) as Hrin.
      destruct (Forall2_in_l _ _ _ _ Hes Hrin) as (e & He' & Ee). unfold E. apply in_or_app. right.
      apply in_concat. exists e. split; [done|]. by eapply Ee.
    - intros i r x ys Hr (σ & _ & <- & <-). pose proof (nth_error_In _ _ Hr) as Hrin. split.
      + apply Hlab. unfold terms, coarse_terms. apply in_or_app. right. apply in_flat_map. exists r. split; [done|by left].
      + apply Forall_forall. intros y Hy%elem_of_list_In. rewrite items_map in Hy. apply in_map_iff in Hy as (b & <- & Hb).
        apply Hlab. unfold terms, coarse_terms. apply in_or_app. right. apply in_flat_map. exists r. split; [done|right].
        rewrite <- (map_id (rbody r)) in Hb at 2. rewrite items_filter, map_id in Hb. exact Hb.
    - intros x v Hx Hx' Hlv. destruct (Hbase x Hx) as [?|(q & Hq & Hqx)]; [congruence|].
      destruct (Forall2_in_l _ _ _ _ Hins' Hq) as (fq & Hfq & Efq).
      apply elem_of_list_to_set, elem_of_list_In, in_concat. exists fq. split; [done|]. by eapply Efq.
    - destruct Hinst as [σ Hσ]. rewrite <- Hσ, exo_sub; [done|done|by apply exo_false_bare]. }
  eapply uses_only_impl; [|exact (uses_only_and _ _ t Huse (derives_uses P base t Hd))].
  intros i [Hu [r Hr]]. simpl in *.
  destruct (Forall2_nth_l _ _ _ _ _ Hbs Hr) as (b & Hb & Hkeep). rewrite Hb. f_equal. apply Hkeep.
  destruct (Hu r Hr) as (x & ys & v & vs & ?). exists x, ys, v, vs. done.
Qed.
