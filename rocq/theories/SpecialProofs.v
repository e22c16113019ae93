(** Proofs about fine-grained pruning. *)
From Coq Require Import List Lia ZArith.
From stdpp Require Import gmap.
From Coq Require String Ascii.
From Verif Require Import PyBase Semiring TermModel TermSpec TermProofs UnifyProofs SetsModel SetsSpec SetsProofs FuelProofs
  CoverProofs PruneModel ProgSpec PruneSpec PruneProofs ProgProofs ChartProofs SolverSpec SolverProofs UpdateProofs UnfoldProofs
  UpdateSpec Solver2Spec Solver2Proofs SlashSpec CoarseProofs TypesModel SpecialModel SpecialSpec.
Import String.StringSyntax Ascii.AsciiSyntax.

(** * Counting *)
Section num.
Context {X : Type}.
Implicit Types T : X -> Prop.
Inductive num T : list X -> nat -> Prop :=
| num_nil : num T [] 0
| num_yes e l k : T e -> num T l k -> num T (e :: l) (S k)
| num_no e l k : ~ T e -> num T l k -> num T (e :: l) k.

Lemma num_ext T U l k : (forall e, e ∈ l -> T e <-> U e) -> num T l k -> num U l k.
Proof.
  intros H Hn. induction Hn as [|e l k He Hn IH|e l k He Hn IH]; constructor.
  - apply H; [by left|done].
  - apply IH. intros e' He'. apply H. by right.
  - intros Hu. apply He, H; [by left|done].
  - apply IH. intros e' He'. apply H. by right.
Qed.
Lemma num_app T l l' k k' : num T l k -> num T l' k' -> num T (l ++ l') (k + k').
Proof. intros Hn Hn'. induction Hn; cbn; [done|by apply num_yes|by apply num_no]. Qed.
Lemma num_none T l : (forall e, e ∈ l -> ~ T e) -> num T l 0.
Proof.
  induction l as [|e l IH]; intros H; [constructor|]. apply num_no; [apply H; by left|]. apply IH. intros e' He'. apply H. by right.
Qed.
Lemma num_one T e : T e -> num T [e] 1.
Proof. intros He. apply num_yes; [done|constructor]. Qed.
Lemma num_pos T l k : num T l k -> 0 < k -> exists e, e ∈ l /\ T e.
Proof.
  intros Hn. induction Hn as [|e l k He Hn IH|e l k He Hn IH]; intros Hk; [lia|by exists e; split; [left|]|].
  destruct (IH Hk) as (e' & He' & HT). exists e'. split; [by right|done].
Qed.
Lemma num_zero T l e : num T l 0 -> e ∈ l -> ~ T e.
Proof.
  intros Hn. remember 0 as k eqn:Ek. induction Hn as [|e' l k He Hn IH|e' l k He Hn IH]; [by intros ?%elem_of_nil|done|].
  intros [->|Hin]%elem_of_cons; [done|by apply IH].
Qed.
Lemma num_unique T l i j a b : num T l 1 -> nth_error l i = Some a -> nth_error l j = Some b -> T a -> T b -> i = j.
Proof.
  intros Hn. remember 1 as k eqn:Ek. revert i j. induction Hn as [|e l k He Hn IH|e l k He Hn IH]; intros i j Hi Hj Ha Hb; [done| |].
  - assert (k = 0) as -> by lia.
    destruct i as [|i], j as [|j]; cbn in Hi, Hj; [done| | |].
    + exfalso. by apply (num_zero T l b Hn); [eapply elem_of_list_In, nth_error_In|].
    + exfalso. by apply (num_zero T l a Hn); [eapply elem_of_list_In, nth_error_In|].
    + exfalso. by apply (num_zero T l a Hn); [eapply elem_of_list_In, nth_error_In|].
  - destruct i as [|i], j as [|j]; cbn in Hi, Hj; [done|by injection Hi as ->|by injection Hj as ->|]. f_equal. by apply IH.
Qed.
End num.
Lemma num_map {X Y} (f : X -> Y) (T : Y -> Prop) l k : num (fun x => T (f x)) l k -> num T (map f l) k.
Proof. intros H. induction H; cbn; [constructor|by apply num_yes|by apply num_no]. Qed.

Lemma okst_more V V' st : V ⊆ V' -> okst V st -> okst V' st.
Proof.
  intros HV (H1 & H2 & H3). split; [done|]. split; [|by etrans]. intros v t E w Hw. apply HV. by eapply H2.
Qed.

(** * Joins over heads *)
Section special.
Context (cmpf : String.string -> term -> term -> res bool)
  (is_run : nat -> store -> term -> term -> res (list store)) (is_true : term -> term -> bool) (al : nat -> nat).
Context (His : is_exact is_true is_run) (Hal : forall i j, al i = al j -> i = j).
(** the variables of the heads *)
Context (W : nat -> Prop) (c0 : nat) (HW : forall j, c0 <= j -> ~ W (al j)).

Definition fr (c : nat) (V : gset nat) : Prop := c0 <= c /\ (forall j, c <= j -> al j ∉ V) /\ forall v, W v -> v ∉ V.
Definition exs (V : gset nat) (st : store) (c : nat) (e : store) : Prop :=
  exists V', V ⊆ V' /\ okst V' e /\ st ⊆ e /\ fr c V' /\
    forall σ τ, groundsub σ -> groundsub τ -> solves σ e -> solves τ e -> (forall v, v ∈ V -> σ v = τ v) -> forall v, v ∈ V' -> σ v = τ v.
Definition hd_ok (D : list term) : Prop := forall k, k ∈ D -> (forall v, In v (vars k) -> W v) /\ item_head k /\ is_builtin k = false.

Lemma fr_le c c' V : c <= c' -> fr c V -> fr c' V.
Proof. intros Hc (H0 & H1 & H2). split; [lia|]. split; [|done]. intros j Hj. apply H1. lia. Qed.
Lemma exs_le V st c c' e : c <= c' -> exs V st c e -> exs V st c' e.
Proof.
  intros Hc (V' & H1 & H2 & H3 & H4 & H5). exists V'. split; [done|]. split; [done|]. split; [done|]. split; [by eapply fr_le|done].
Qed.
Lemma exs_self V st c e : okst V e -> st ⊆ e -> fr c V -> exs V st c e.
Proof. intros H1 H2 H3. exists V. split; [done|]. split; [done|]. split; [done|]. split; [done|]. auto. Qed.
Lemma exs_sub V st c e : exs V st c e -> st ⊆ e.
Proof. by intros (V' & _ & _ & H & _). Qed.
Lemma exs_trans V V1 st st1 c e :
  V ⊆ V1 -> st ⊆ st1 ->
  (forall σ τ, groundsub σ -> groundsub τ -> solves σ st1 -> solves τ st1 -> (forall v, v ∈ V -> σ v = τ v) -> forall v, v ∈ V1 -> σ v = τ v) ->
  exs V1 st1 c e -> exs V st c e.
Proof.
  intros HV Hs Hdet (V2 & H1 & H2 & H3 & H4 & H5). exists V2. split; [by etrans|]. split; [done|]. split; [by etrans|]. split; [done|].
  intros σ τ Hg Hg' Hσ Hτ Hag. apply H5; try done. apply Hdet; try done; by eapply solves_mono.
Qed.

Lemma match_head V st q c k x c1 n st' u :
  okst V st -> fr c V -> in_V V q -> (forall v, In v (vars k) -> W v) ->
  fresh al n st c k = Ok (x, c1) -> unify_f n st x q = Ok (st', u) ->
  c <= c1 /\
  (u = true -> exs V st c1 st' /\ forall σ, groundsub σ -> solves σ st' -> stands_for k (sub σ q)) /\
  forall σ, groundsub σ -> solves σ st -> (u = true /\ admits V σ st' <-> stands_for k (sub σ q)).
Proof.
  intros Hst (Hf0 & Hf1 & Hf2) HV Hk Ef Eu. assert (Hacy : acyclic st) by apply Hst. destruct (acyclic_resolution _ Hacy) as [θ Hθ].
  apply (fresh_ok st θ Hacy Hθ al Hal) in Ef as (ρ & Hx & Hc & Hρ & Hρv).
  assert (Hkθ : sub θ k = k).
  { apply (unbound_sub st θ Hθ). intros v Hv. destruct (st !! v) eqn:E; [|done].
    exfalso. apply (Hf2 v); [by apply Hk|]. destruct Hst as (_ & _ & Hd). apply Hd. by apply elem_of_dom. }
  rewrite Hkθ in Hx, Hρ, Hρv. assert (Hvar : variant k x) by (by exists ρ).
  assert (Hxv : forall v, In v (vars x) -> exists j, v = al j /\ c <= j < c1).
  { intros v Hv. rewrite Hx, vars_rename in Hv. apply in_map_iff in Hv as (w & <- & Hw). by apply Hρv. }
  assert (Hnew : forall v, In v (vars x) -> v ∉ V).
  { intros v Hv. destruct (Hxv v Hv) as (j & -> & Hj). apply Hf1. lia. }
  set (V1 := V ∪ list_to_set (vars x)).
  assert (HVV1 : V ⊆ V1) by apply union_subseteq_l.
  assert (Hin : forall v, v ∈ V1 <-> v ∈ V \/ In v (vars x)) by (intros v; unfold V1; rewrite elem_of_union, elem_of_list_to_set, elem_of_list_In; done).
  destruct (unify_V_ok V1 n st x q st' u) as (Hst' & Hsub & Hu); [by eapply okst_more| | |done|].
  { intros v Hv. apply Hin. by right. }
  { intros v Hv. apply Hin. left. by apply HV. }
  split; [done|]. split.
  - intros ->. split.
    + exists V1. split; [done|]. split; [done|]. split; [done|]. split.
      * split; [lia|]. split.
        -- intros j Hj Hv. apply Hin in Hv as [Hv|Hv]; [apply (Hf1 j); [lia|done]|]. destruct (Hxv _ Hv) as (j' & E & Hj'). apply Hal in E. lia.
        -- intros v Hwv Hv. apply Hin in Hv as [Hv|Hv]; [by apply (Hf2 v)|]. destruct (Hxv _ Hv) as (j' & -> & Hj'). apply (HW j'); [lia|done].
      * intros σ τ Hg Hg' Hs Ht Hag v Hv. apply Hin in Hv as [Hv|Hv]; [by apply Hag|].
        apply Hu in Hs as [_ Hs]. apply Hu in Ht as [_ Ht]. apply (sub_ext_inv σ τ x); [|done]. rewrite Hs, Ht.
        apply sub_ext. intros w Hw. apply Hag. by apply HV.
    + intros σ Hg Hs. apply Hu in Hs as [_ Hs]. apply (variant_stands k x _ Hvar). split; [by apply groundsub_ground|]. by exists σ.
  - intros σ Hg Hs. split.
    + intros [-> (τ & Hgt & Hag & Ht)]. apply Hu in Ht as [_ Ht]. apply (variant_stands k x _ Hvar). split; [by apply groundsub_ground|].
      exists τ. rewrite Ht. apply sub_ext. intros v Hv. apply Hag. by apply HV.
    + intros Hst0. apply (variant_stands k x _ Hvar) in Hst0 as [Hgq [π Hπ]].
      set (τ := fun v => if decide (In v (vars x)) then π v else σ v).
      assert (Hτx : sub τ x = sub σ q).
      { rewrite <- Hπ. apply sub_ext. intros v Hv. unfold τ. by rewrite decide_True. }
      assert (HτV : forall v, v ∈ V -> τ v = σ v).
      { intros v Hv. unfold τ. rewrite decide_False; [done|]. intros Hv'. by apply (Hnew v). }
      assert (Hτq : sub τ q = sub σ q) by (apply sub_ext; intros v Hv; by apply HτV, HV).
      assert (Hτs : solves τ st) by (apply (solves_agree V σ τ); [done|intros v Hv; symmetry; by apply HτV|done]).
      assert (Hgτ : groundsub τ).
      { intros v. unfold τ. case_decide as Hd; [|apply Hg]. apply (ground_sub_vars π x); [by rewrite Hπ|done]. }
      destruct u.
      * split; [done|]. exists τ. split; [done|]. split; [done|]. apply Hu. split; [done|]. by rewrite Hτx, Hτq.
      * exfalso. apply (Hu τ Hτs). by rewrite Hτx, Hτq.
Qed.

(** How many of the heads stand for [y]. *)
Definition heads_at (D : list term) (y : term) : nat := length (filter (fun k => stands_for k y) D).
Lemma heads_at_cons k D y : heads_at (k :: D) y = if decide (stands_for k y) then S (heads_at D y) else heads_at D y.
Proof. unfold heads_at. rewrite filter_cons. by case_decide. Qed.

Lemma match_heads_ok V n st q : forall D c rs c',
  okst V st -> fr c V -> in_V V q -> hd_ok D ->
  match_heads al n st q D c = Ok (rs, c') ->
  c <= c' /\ (forall e, e ∈ rs -> exs V st c' e) /\
  forall σ, groundsub σ -> solves σ st -> num (admits V σ) rs (heads_at D (sub σ q)).
Proof.
  induction D as [|k D IH]; intros c rs c' Hst Hf HV Hk E; cbn [match_heads] in E.
  { injection E as <- <-. split; [done|]. split; [by intros e He%elem_of_nil|]. intros σ _ _. constructor. }
  destruct (fresh al n st c k) as [[x c1]| |] eqn:Ef; [|done..]. cbn [bind] in E.
  destruct (unify_f n st x q) as [[st' u]| |] eqn:Eu; [|done..]. cbn [bind] in E.
  destruct (match_heads al n st q D c1) as [[rest c2]| |] eqn:Er; [|done..]. cbn [bind] in E. injection E as <- <-.
  assert (Hk1 : forall v, In v (vars k) -> W v) by (apply Hk; left).
  assert (Hks : hd_ok D) by (intros k' Hk'; apply Hk; by right).
  destruct (match_head V st q c k x c1 n st' u Hst Hf HV Hk1 Ef Eu) as (Hc1 & Hyes & Hiff).
  destruct (IH c1 rest c2 Hst (fr_le _ _ _ Hc1 Hf) HV Hks Er) as (Hc2 & Hrest & Hnum).
  split; [lia|]. split.
  - intros e He. destruct u; [|by apply Hrest]. apply elem_of_cons in He as [->|He]; [|by apply Hrest].
    destruct (Hyes eq_refl) as [H1 H2]. by eapply exs_le.
  - intros σ Hg Hs. rewrite heads_at_cons. specialize (Hnum σ Hg Hs). specialize (Hiff σ Hg Hs).
    destruct (decide (stands_for k (sub σ q))) as [Hd|Hd].
    + destruct (proj2 Hiff Hd) as [-> Ha]. by apply num_yes.
    + destruct u; [|done]. apply num_no; [|done]. intros Ha. by apply Hd, Hiff.
Qed.

(** Heads that are items do not stand for builtins. *)
Lemma builtin_sub σ k : item_head k -> is_builtin (sub σ k) = is_builtin k.
Proof. intros (f & args & ->). destruct f as [z|f]; [done|]. cbn. by rewrite map_length. Qed.
Lemma exo_sub σ k : proper k -> (forall v, k <> Var v) -> exo (sub σ k) = exo k.
Proof.
  intros Hp Hv. destruct k as [v|c|xs]; [by destruct (Hv v)|done|]. apply proper_Fn in Hp as (c & l & -> & _).
  destruct c as [z|f]; [done|]. cbn. by rewrite map_length.
Qed.
Lemma heads_at_exo D y : hd_ok D -> exo y = true -> heads_at D y = 0.
Proof.
  intros HD Hy. induction D as [|k D IH]; [done|]. rewrite heads_at_cons.
  rewrite decide_False; [apply IH; intros k' Hk'; apply HD; by right|]. intros [Hg [σ Hσ]].
  destruct (HD k) as (_ & Hi & Hb); [left|]. rewrite <- (builtin_sub σ k Hi), Hσ in Hb. unfold exo in Hy. rewrite Hb in Hy.
  destruct Hi as (f & args & ->). by rewrite <- Hσ in Hy.
Qed.

Definition gcnt (D : list term) (y : term) : nat := if exo y then 1 else heads_at D y.
Definition gtrue (y : term) : Prop := exo y = true -> builtin_true cmpf is_true y.
Definition goal_ok (q : term) : Prop := proper q /\ forall v, q <> Var v.

Local Open Scope string_scope.
Lemma exo2 op x y : exo (Fn [Cst (CStr op); x; y]) = true <-> op ∈ cmps \/ op = "=" \/ op = "is" \/ op = "$not_matches".
Proof.
  cbn. rewrite bool_decide_eq_true. unfold builtin_sigs, cmps. cbn [map app]. rewrite !elem_of_cons, !elem_of_nil. naive_solver.
Qed.
Lemma exo_sub2 op args : length args <> 2 -> exo (Fn (Cst (CStr op) :: args)) = true -> ~ builtin_true cmpf is_true (Fn (Cst (CStr op) :: args)).
Proof. intros Hl _. destruct args as [|x [|y [|z l]]]; cbn in *; try done; lia. Qed.
Local Close Scope string_scope.

Lemma lookup_heads_ok V n st q ins D c rs c' :
  okst V st -> fr c V -> in_V V q -> hd_ok D -> goal_ok q ->
  lookup_heads cmpf is_run al n st q ins D c = Ok (rs, c') ->
  c <= c' /\ (forall e, e ∈ rs -> exs V st c' e) /\
  forall σ, groundsub σ -> solves σ st -> gtrue (sub σ q) ->
    exists k, num (admits V σ) rs k /\ (ins = [] -> k = gcnt D (sub σ q)) /\ (0 < gcnt D (sub σ q) -> 0 < k).
Proof.
  intros Hst Hf HV HD [Hp Hnv] E. unfold lookup_heads in E.
  assert (Hacy : acyclic st) by apply Hst. destruct (acyclic_resolution _ Hacy) as [θ Hθ].
  assert (Hone : forall st', okst V st' -> st ⊆ st' -> exs V st c st') by (intros; by apply exs_self).
  assert (Hnum1 : forall σ, groundsub σ -> solves σ st -> num (admits V σ) [st] 1) by (intros; by apply num_one, admits_self).
  destruct (snap n st q) as [q'| |] eqn:Eq; [|done..]. cbn [bind] in E.
  assert (q' = q) as ->.
  { destruct n; [done|]. destruct q as [v|k|xs]; [by destruct (Hnv v)|..]; cbn in Eq; congruence. }
  assert (Hself : rs = [st] -> c = c' -> (forall σ, groundsub σ -> solves σ st -> gtrue (sub σ q) -> ins = [] -> gcnt D (sub σ q) = 1) ->
    c <= c' /\ (forall e, e ∈ rs -> exs V st c' e) /\
    forall σ, groundsub σ -> solves σ st -> gtrue (sub σ q) ->
      exists k, num (admits V σ) rs k /\ (ins = [] -> k = gcnt D (sub σ q)) /\ (0 < gcnt D (sub σ q) -> 0 < k)).
  { intros -> <- Hg1. split; [done|]. split; [intros e He; apply elem_of_list_singleton in He as ->; by apply Hone|].
    intros σ Hg Hs Ht. exists 1. split; [by apply Hnum1|]. split; [intros Hi; by rewrite Hg1|lia]. }
  destruct q as [v|k|xs]; [by destruct (Hnv v)|injection E as <- <-; by apply Hself|].
  apply proper_Fn in Hp as (f & args & -> & _).
  destruct (existsM _ ins) as [i| |] eqn:Ei; [|done..]. cbn [bind] in E.
  destruct i.
  { injection E as <- <-. apply Hself; [done|done|]. intros σ _ _ _ ->. done. }
  assert (Hmatch : (forall σ, gtrue (sub σ (Fn (Cst f :: args))) -> exo (sub σ (Fn (Cst f :: args))) = false) ->
    match_heads al n st (Fn (Cst f :: args)) D c = Ok (rs, c') ->
    c <= c' /\ (forall e, e ∈ rs -> exs V st c' e) /\
    forall σ, groundsub σ -> solves σ st -> gtrue (sub σ (Fn (Cst f :: args))) ->
      exists k, num (admits V σ) rs k /\ (ins = [] -> k = gcnt D (sub σ (Fn (Cst f :: args)))) /\ (0 < gcnt D (sub σ (Fn (Cst f :: args))) -> 0 < k)).
  { intros Hex Em. destruct (match_heads_ok V n st _ D c rs c' Hst Hf HV HD Em) as (H1 & H2 & H3). split; [done|]. split; [done|].
    intros σ Hg Hs Ht. unfold gcnt. rewrite Hex by done. eexists. split; [by apply H3|]. done. }
  destruct (snap n st (Cst f)) as [f'| |] eqn:Ef; [|done..]. cbn [bind] in E.
  assert (f' = Cst f) as -> by (destruct n; [done|]; cbn in Ef; congruence).
  destruct f as [z|op]; [by apply Hmatch|].
  case_decide as Hbad; [done|].
  destruct args as [|x [|y [|? ?]]].
  1,2,4: (case_decide; [done|]; apply Hmatch; [|done]; intros σ Ht; match goal with |- ?e = false => destruct e eqn:Ee; [|done] end; exfalso;
          cbn [sub map] in *; eapply exo_sub2; [|exact Ee|by apply Ht]; cbn; lia).
  assert (HVx : in_V V x) by (intros v Hv; apply HV; simpl; rewrite !in_app_iff; auto).
  assert (HVy : in_V V y) by (intros v Hv; apply HV; simpl; rewrite !in_app_iff; auto).
  case_decide as Hcmp.
  - assert (Hex : forall σ, exo (sub σ (Fn [Cst (CStr op); x; y])) = true) by (intros σ; cbn [sub map]; apply exo2; by left).
    destruct (is_ground n st x) as [gx| |] eqn:Egx; [|done..]. cbn [bind] in E.
    destruct (if gx then is_ground n st y else Ok false) as [gy| |] eqn:Egy; [|done..]. cbn [bind] in E.
    destruct (gx && gy) eqn:Eg.
    + apply andb_true_iff in Eg as [-> ->].
      destruct (deref n st x) as [x'| |] eqn:Edx; [|done..]. cbn [bind] in E.
      destruct (deref n st y) as [y'| |] eqn:Edy; [|done..]. cbn [bind] in E.
      destruct (cmpf op x' y') as [b| |] eqn:Ecmp; [|done..]. cbn [bind] in E. injection E as <- <-.
      assert (Hsx : forall σ, solves σ st -> sub σ x = x').
      { intros σ Hσ. rewrite <- (deref_sub V n st x x' σ Hst Edx Hσ). apply (deref_ok st θ Hacy Hθ) in Edx.
        apply (is_ground_ok st θ Hacy Hθ) in Egx. symmetry in Egx. apply bool_decide_eq_true in Egx. rewrite Edx. by apply sub_ground. }
      assert (Hsy : forall σ, solves σ st -> sub σ y = y').
      { intros σ Hσ. rewrite <- (deref_sub V n st y y' σ Hst Edy Hσ). apply (deref_ok st θ Hacy Hθ) in Edy.
        apply (is_ground_ok st θ Hacy Hθ) in Egy. symmetry in Egy. apply bool_decide_eq_true in Egy. rewrite Edy. by apply sub_ground. }
      split; [done|]. split.
      * intros e He. destruct b; [|by apply elem_of_nil in He]. apply elem_of_list_singleton in He as ->. by apply Hone.
      * intros σ Hg Hs Ht. specialize (Ht (Hex σ)). unfold gcnt. rewrite Hex. cbn [sub map] in Ht. cbn in Ht.
        assert (op <> s_eq) by (intros ->; unfold cmps in Hcmp; rewrite !elem_of_cons, elem_of_nil in Hcmp; naive_solver).
        rewrite decide_False, decide_True in Ht by done. rewrite Hsx, Hsy, Ecmp in Ht by done. injection Ht as ->.
        exists 1. split; [by apply Hnum1|]. split; [done|lia].
    + destruct (match_heads al n st _ D c) as [[rest c1]| |] eqn:Em; [|done..]. cbn [bind] in E. injection E as <- <-.
      destruct (match_heads_ok V n st _ D c rest c1 Hst Hf HV HD Em) as (H1 & H2 & H3). split; [done|]. split.
      * intros e He. apply elem_of_cons in He as [->|He]; [|by apply H2]. apply exs_self; [done|done|by eapply fr_le].
      * intros σ Hg Hs Ht. specialize (H3 σ Hg Hs). rewrite heads_at_exo in H3 by done. unfold gcnt. rewrite Hex.
        exists 1. split; [apply num_yes; [by apply admits_self|done]|]. split; [done|lia].
  - case_decide as Heq.
    { subst op. assert (Hex : forall σ, exo (sub σ (Fn [Cst (CStr s_eq); x; y])) = true) by (intros σ; cbn [sub map]; apply exo2; auto).
      destruct (unify_f n st x y) as [[st' b]| |] eqn:Eu; [|done..]. cbn [bind] in E. injection E as <- <-.
      destruct (unify_V_ok V n st x y st' b Hst) as (Hst' & Hss & Hb); [done..|].
      split; [done|]. split.
      - intros e He. destruct b; [|by apply elem_of_nil in He]. apply elem_of_list_singleton in He as ->. by apply Hone.
      - intros σ Hg Hs Ht. specialize (Ht (Hex σ)). cbn in Ht. unfold gcnt. rewrite Hex. exists 1. split; [|split; [done|lia]].
        destruct b; [|exfalso; by apply (Hb σ Hs)]. apply num_one, admits_self; [done|done|]. by apply Hb. }
    case_decide as Hisop.
    2:{ apply Hmatch; [|done]. intros σ _. apply not_true_iff_false. cbn [sub map]. rewrite exo2. intros [?|[?|[?|Hn]]]; try done.
        apply Hbad. rewrite Hn. right. left. }
    subst op. assert (Hex : forall σ, exo (sub σ (Fn [Cst (CStr s_is); x; y])) = true) by (intros σ; cbn [sub map]; apply exo2; auto).
    destruct (is_run n st x y) as [sts|ex|] eqn:Eis; [|destruct ex; try done|done].
    2:{ injection E as <- <-. apply Hself; [done|done|]. intros σ _ _ _ _. unfold gcnt. by rewrite Hex. }
    injection E as <- <-.
    destruct (His V n st x y sts) as [H1 H2]; [by apply heap_over_okst|intros w [Hw|Hw]; [by apply HVx|by apply HVy]|done|].
    split; [done|]. split.
    + intros e He. destruct (H1 e He) as [H3 H4]. apply Hone; [by apply heap_over_okst|done].
    + intros σ Hg Hs Ht. specialize (Ht (Hex σ)). cbn in Ht. destruct Ht as [_ Ht]. specialize (H2 σ Hg Hs). rewrite Ht in H2.
      unfold gcnt. rewrite Hex. exists 1. split; [|split; [done|lia]]. rewrite <- H2.
      assert (Hov : forall e, e ∈ sts -> heap_over V e) by (intros e He; by apply H1). clear -Hov Hg.
      induction sts as [|s sts IH]; [constructor|]. cbn [List.filter].
      assert (Hs : admits V σ s <-> solves σ s) by (apply admits_self; [apply heap_over_okst, Hov; by left|done]).
      rewrite <- solvesb_spec in Hs. specialize (IH (fun e He => Hov e (elem_of_list_further _ _ _ He))).
      destruct (solvesb σ s) eqn:Es; [apply num_yes; [by apply Hs|done]|apply num_no; [intros Ha; by apply Hs in Ha|done]].
Qed.

Definition gprod (D : list term) (ys : list term) : nat := fold_right Nat.mul 1 (map (gcnt D) ys).

Lemma join_heads_ok n ins D : hd_ok D -> forall qs V st c rs c',
  okst V st -> fr c V -> Forall (in_V V) qs -> Forall goal_ok qs ->
  join_heads cmpf is_run al n st qs ins D c = Ok (rs, c') ->
  c <= c' /\ (forall e, e ∈ rs -> exs V st c' e) /\
  forall σ, groundsub σ -> solves σ st -> Forall gtrue (map (sub σ) qs) ->
    exists k, num (admits V σ) rs k /\ (ins = [] -> k = gprod D (map (sub σ) qs)) /\ (0 < gprod D (map (sub σ) qs) -> 0 < k).
Proof.
  intros HD. induction qs as [|q qs IH]; intros V st c rs c' Hst Hf HV Hq E; cbn [join_heads] in E.
  { injection E as <- <-. split; [done|]. split.
    - intros e He. apply elem_of_list_singleton in He as ->. by apply exs_self.
    - intros σ Hg Hs _. exists 1. split; [by apply num_one, admits_self|]. split; [done|lia]. }
  apply Forall_cons in HV as [HVq HV]. apply Forall_cons in Hq as [Hq Hqs].
  destruct (lookup_heads _ _ _ n st q ins D c) as [[r1 c1]| |] eqn:E1; [|done..]. cbn [bind] in E.
  destruct (lookup_heads_ok V n st q ins D c r1 c1 Hst Hf HVq HD Hq E1) as (Hc1 & Hr1 & Ht1). clear E1.
  destruct (mapSM _ r1 c1) as [[rss c2]| |] eqn:E2; [|done..]. cbn [bind] in E. injection E as <- <-.
  enough (Hen : c1 <= c2 /\ (forall e, e ∈ concat rss -> exs V st c2 e) /\
    forall σ k1, groundsub σ -> solves σ st -> Forall gtrue (map (sub σ) qs) -> num (admits V σ) r1 k1 ->
      exists k, num (admits V σ) (concat rss) k /\ (ins = [] -> k = k1 * gprod D (map (sub σ) qs)) /\
        (0 < gprod D (map (sub σ) qs) -> 0 < k1 -> 0 < k)).
  { destruct Hen as (H1 & H2 & H3). split; [lia|]. split; [done|]. intros σ Hg Hs Ht. cbn [map] in Ht. apply Forall_cons in Ht as [Ht Hts].
    destruct (Ht1 σ Hg Hs Ht) as (k1 & Hk1 & He1 & Hp1). destruct (H3 σ k1 Hg Hs Hts Hk1) as (k & Hk & He & Hp).
    exists k. split; [done|]. unfold gprod in *. cbn [map fold_right]. split.
    - intros Hi. rewrite He by done. by rewrite He1.
    - intros Hpos. apply Hp; [lia|]. apply Hp1. lia. }
  clear Ht1. revert c1 Hc1 Hr1 rss c2 E2. induction r1 as [|st1 r1 IHr]; intros c1 Hc1 Hr1 rss c2 E2; cbn [mapSM] in E2.
  { injection E2 as <- <-. split; [done|]. split; [by intros e He%elem_of_nil|]. intros σ k1 Hg Hs Ht Hk. inversion Hk; subst.
    exists 0. split; [constructor|]. split; [done|lia]. }
  destruct (join_heads _ _ _ n st1 qs ins D c1) as [[r c3]| |] eqn:Ej; [|done..]. cbn [bind] in E2.
  destruct (mapSM _ r1 c3) as [[rss' c4]| |] eqn:Em; [|done..]. cbn [bind] in E2. injection E2 as <- <-.
  destruct (Hr1 st1) as (V1 & HV1 & Hok1 & Hsub1 & Hf1 & Hdet1); [by left|].
  destruct (IH V1 st1 c1 r c3 Hok1 Hf1) as (Hc3 & Hr & Htr); [|done|exact Ej|].
  { eapply Forall_impl; [exact HV|]. intros b Hb v Hv. by apply HV1, Hb. }
  destruct (IHr c3) with (rss := rss') (c2 := c4) as (Hc4 & Hr' & Htr'); [lia| |exact Em|].
  { intros e He. eapply exs_le; [exact Hc3|]. apply Hr1. by right. }
  split; [lia|]. split.
  - cbn [concat]. intros e He. apply elem_of_app in He as [He|He]; [|by apply Hr'].
    eapply exs_le; [exact Hc4|]. eapply exs_trans; [exact HV1|exact Hsub1|exact Hdet1|]. by apply Hr.
  - intros σ k1 Hg Hs Hgt Hk. cbn [concat].
    assert (Hyes : admits V σ st1 -> exists k, num (admits V σ) r k /\ (ins = [] -> k = gprod D (map (sub σ) qs)) /\ (0 < gprod D (map (sub σ) qs) -> 0 < k)).
    { intros (τ & Hgτ & Hag & Hτ).
      assert (Em' : map (sub σ) qs = map (sub τ) qs).
      { apply map_ext_in. intros y Hy. apply sub_ext. intros v Hv. symmetry. apply Hag. rewrite Forall_forall in HV. apply (HV y); [by apply elem_of_list_In|done]. }
      rewrite Em' in *. destruct (Htr τ Hgτ Hτ Hgt) as (k & Hk' & H1 & H2). exists k. split; [|done].
      eapply num_ext; [|exact Hk']. intros e He. destruct (Hr e He) as (V2 & _ & _ & Hsub2 & _). split.
      - intros (τ' & Hg' & Hag' & Hs'). exists τ'. split; [done|]. split; [|done]. intros w Hw. rewrite Hag' by (by apply HV1). by apply Hag.
      - intros (τ' & Hg' & Hag' & Hs'). exists τ'. split; [done|]. split; [|done]. intros w Hw.
        apply (Hdet1 τ' τ); try done; [by eapply solves_mono|]. intros u Hu. by rewrite Hag', Hag. }
    assert (Hno : ~ admits V σ st1 -> num (admits V σ) r 0).
    { intros Hn. apply num_none. intros e He Ha. apply Hn. eapply admits_down; [|exact Ha]. eapply exs_sub. by apply Hr. }
    inversion Hk as [|? ? k' Ha Hk' E3 E4|? ? k' Ha Hk' E3 E4]; subst.
    + destruct (Hyes Ha) as (ka & Hka & H1 & H2). destruct (Htr' σ k' Hg Hs Hgt Hk') as (kb & Hkb & H3 & H4).
      exists (ka + kb). split; [by apply num_app|]. split; [intros Hi; rewrite H1, H3 by done; lia|]. intros Hp _. specialize (H2 Hp). lia.
    + destruct (Htr' σ k1 Hg Hs Hgt Hk') as (kb & Hkb & H3 & H4). exists (0 + kb). split; [by apply num_app; [apply Hno|]|]. done.
Qed.

(** * The copies of one rule *)
Lemma ground_inst_enc r x ys : ground_inst r x ys <-> stands_for (enc r) (Fn (x :: ys)).
Proof.
  split.
  - intros (σ & Hg & <- & <-). split; [apply (groundsub_ground σ (enc r) Hg)|]. by exists σ.
  - intros [Hg [σ Hσ]]. destruct (gdefault_ground σ (enc r)) as [H1 H2]; [by rewrite Hσ|]. rewrite Hσ in H2.
    exists (gdefault (vars (enc r)) σ). split; [exact H1|]. unfold enc in H2 at 2. cbn in H2. by injection H2.
Qed.
Lemma dec_enc r : dec (enc r) = r.
Proof. by destruct r. Qed.
Lemma enc_dec_sub ρ r : enc (dec (rename ρ (enc r))) = rename ρ (enc r).
Proof. done. Qed.

Definition rvars (r : rule) : gset nat := list_to_set (vars (enc r)).
Lemma rvars_in r v : v ∈ rvars r <-> In v (vars (enc r)).
Proof. unfold rvars. by rewrite elem_of_list_to_set, elem_of_list_In. Qed.

Lemma okst_nil V : okst V ∅.
Proof. split; [apply acyclic_empty|]. split; [intros v t E; by rewrite lookup_empty in E|]. rewrite dom_empty_L. apply empty_subseteq. Qed.

Lemma specialize_rule_ok n D r c rs c' : hd_ok D -> fr c (rvars r) -> Forall goal_ok (rhead r :: rbody r) ->
  specialize_rule cmpf is_run al n D r c = Ok (rs, c') ->
  c <= c' /\ (forall r' x ys, r' ∈ rs -> ground_inst r' x ys -> ground_inst r x ys) /\
  (forall r', r' ∈ rs -> exists σ, rbody r' = map (sub σ) (rbody r)) /\
  forall x ys, ground_inst r x ys -> Forall gtrue (x :: ys) -> num (fun r' => ground_inst r' x ys) rs (gprod D (x :: ys)).
Proof.
  intros HD Hf Hgo E. unfold specialize_rule in E.
  destruct (join_heads _ _ _ n ∅ (rhead r :: rbody r) [] D c) as [[sts c1]| |] eqn:Ej; [|done..]. cbn [bind] in E.
  set (V := rvars r).
  assert (HVb : Forall (in_V V) (rhead r :: rbody r)).
  { apply Forall_forall. intros b Hb v Hv. apply rvars_in. unfold enc. cbn [vars]. apply in_flat_map. exists b. split; [by apply elem_of_list_In|done]. }
  destruct (join_heads_ok n [] D HD _ V ∅ c sts c1 (okst_nil V) Hf HVb Hgo Ej) as (Hc1 & Hsts & Hnum). clear Ej.
  assert (Hcop : c1 <= c' /\ Forall2 (fun e r' => exists θ, resolution e θ /\ variant (sub θ (enc r)) (enc r') /\ exists σ, rbody r' = map (sub σ) (rbody r)) sts rs).
  { assert (Hok : forall e, e ∈ sts -> acyclic e) by (intros e He; destruct (Hsts e He) as (V' & _ & Hk & _); apply Hk).
    clear Hsts Hnum Hf HVb Hgo Hc1. revert c1 rs c' E. induction sts as [|e sts IH]; intros c1 rs c' E; cbn [mapSM] in E.
    { injection E as <- <-. split; [done|constructor]. }
    unfold fresh_at in E at 1. destruct (fresh al n e c1 (enc r)) as [[t c2]| |] eqn:Ef; [|done..]. cbn [bind] in E.
    destruct (mapSM _ sts c2) as [[rs' c3]| |] eqn:Em; [|done..]. cbn [bind] in E. injection E as <- <-.
    destruct (IH (fun e' He' => Hok e' (elem_of_list_further _ _ _ He')) _ _ _ Em) as [Hc3 HF].
    assert (Hacy : acyclic e) by (apply Hok; left). destruct (acyclic_resolution _ Hacy) as [θ Hθ].
    apply (fresh_ok e θ Hacy Hθ al Hal) in Ef as (ρ & -> & Hc & Hρ & _). split; [lia|]. constructor; [|done].
    exists θ. split; [done|]. split; [by exists ρ|]. exists (fun v => rename ρ (θ v)). unfold enc. cbn.
    rewrite map_map. apply map_ext. intros b. unfold rename. by rewrite sub_sub. }
  destruct Hcop as [Hc' HF].
  assert (Hiff : forall e r' σ, e ∈ sts -> groundsub σ ->
    (exists θ, resolution e θ /\ variant (sub θ (enc r)) (enc r') /\ exists σ, rbody r' = map (sub σ) (rbody r)) ->
    (admits V σ e <-> ground_inst r' (sub σ (rhead r)) (map (sub σ) (rbody r)))).
  { intros e r' σ He Hg (θ & Hθ & Hv & _). rewrite ground_inst_enc.
    change (Fn (sub σ (rhead r) :: map (sub σ) (rbody r))) with (sub σ (enc r)).
    rewrite <- (variant_stands _ _ _ Hv).
    assert (Hacy : acyclic e) by (destruct (Hsts e He) as (V' & _ & Hk & _); apply Hk). rewrite (heap_stands e θ _ _ Hacy Hθ). split.
    - intros (τ & Hgτ & Hag & Hs). exists τ. split; [done|]. split; [done|]. apply sub_ext. intros v Hv'. apply Hag. by apply rvars_in.
    - intros (τ & Hgτ & Hs & Eq). exists τ. split; [done|]. split; [|done]. intros v Hv'. apply (sub_ext_inv τ σ (enc r)); [done|]. by apply rvars_in. }
  split; [lia|]. split; [|split].
  - intros r' x ys Hr' Hi. apply elem_of_list_lookup in Hr' as (k & Hk). destruct (Forall2_lookup_r _ _ _ _ _ HF Hk) as (e & He & θ & Hθ & Hv & _).
    apply ground_inst_enc. apply ground_inst_enc in Hi. apply (variant_stands _ _ _ Hv) in Hi.
    destruct Hi as [Hg Hi]. split; [done|]. eapply instance_of_trans; [|exact Hi]. by exists θ.
  - intros r' Hr'. apply elem_of_list_lookup in Hr' as (k & Hk). by destruct (Forall2_lookup_r _ _ _ _ _ HF Hk) as (e & He & θ & _ & _ & Hb).
  - intros x ys (σ & Hg & <- & <-) Ht. destruct (Hnum σ Hg) as (k & Hk & Ek & _); [intros v t E'; by rewrite lookup_empty in E'|done|].
    specialize (Ek eq_refl). cbn [map] in Ek. rewrite <- Ek.
    assert (Hiff' : forall e r', e ∈ sts -> (exists θ, resolution e θ /\ variant (sub θ (enc r)) (enc r') /\ exists σ, rbody r' = map (sub σ) (rbody r)) ->
      (admits V σ e <-> ground_inst r' (sub σ (rhead r)) (map (sub σ) (rbody r)))) by (intros; by apply Hiff).
    clear -Hk HF Hiff'. revert rs HF. induction Hk as [|e l k He Hk IH|e l k He Hk IH]; intros rs HF; inversion HF as [|? r' ? rs' Hr HF']; subst; [constructor| |].
    + apply num_yes; [apply (Hiff' e r'); [left|done..]|]. apply IH; [|done]. intros e' r'' He'. apply Hiff'. by right.
    + apply num_no; [intros Hi; apply He; apply (Hiff' e r'); [left|done..]|]. apply IH; [|done]. intros e' r'' He'. apply Hiff'. by right.
Qed.
End special.

(** * Programs of copies *)
(** The copies, with the numbers of the rules that they come from. *)
Fixpoint number (i : nat) (rss : list (list rule)) : list (nat * rule) :=
  match rss with [] => [] | rs :: rss => map (pair i) rs ++ number (S i) rss end.
Lemma number_snd i rss : map snd (number i rss) = concat rss.
Proof. revert i. induction rss as [|rs rss IH]; intros i; [done|]. cbn. rewrite map_app, IH, map_map. by rewrite map_id. Qed.
Lemma number_in i0 rss i r' : (i, r') ∈ number i0 rss -> exists k rs, i = i0 + k /\ nth_error rss k = Some rs /\ r' ∈ rs.
Proof.
  revert i0. induction rss as [|rs rss IH]; intros i0; cbn; [by intros ?%elem_of_nil|].
  intros [H|H]%elem_of_app.
  - apply elem_of_list_fmap in H as (r & [= -> ->] & Hr). exists 0, rs. split; [lia|done].
  - destruct (IH _ H) as (k & rs' & -> & Hk & Hr). exists (S k), rs'. split; [lia|done].
Qed.
Lemma number_num (Q : rule -> Prop) i0 rss i rs k : nth_error rss i = Some rs -> num Q rs k ->
  num (fun ir => fst ir = i0 + i /\ Q (snd ir)) (number i0 rss) k.
Proof.
  revert i0 i. induction rss as [|rs' rss IH]; intros i0 i Hi Hk; [by destruct i|]. cbn. destruct i as [|i]; cbn in Hi.
  - injection Hi as ->. rewrite <- (Nat.add_0_r k). apply num_app.
    + apply num_map. cbn. eapply num_ext; [|exact Hk]. intros e _. cbn. split; [intros H; split; [lia|done]|by intros [_ ?]].
    + apply num_none. intros [j r'] Hj [E _]. cbn in E. apply number_in in Hj as (k' & ? & -> & _). lia.
  - change k with (0 + k). apply num_app.
    + apply num_map, num_none. intros e _ [E _]. cbn in E. lia.
    + replace (i0 + S i) with (S i0 + i) by lia. by apply IH.
Qed.

Section copies.
Context (P : list rule) (rss : list (list rule)) (base : term -> Prop) (outputs : list term) (ok : term -> Prop) (one : Prop).
Context (HP : Forall2 (fun r rs =>
  (forall r' x ys, r' ∈ rs -> ground_inst r' x ys -> ground_inst r x ys) /\
  (forall r' b, r' ∈ rs -> b ∈ rbody r' -> forall v, b <> Var v) /\
  forall x ys, ground_inst r x ys -> Forall ok (x :: ys) -> exists k, num (fun r' => ground_inst r' x ys) rs k /\ 0 < k /\ (one -> k = 1)) P rss).
Context (Hnv : forall r b, In r P -> In b (rbody r) -> forall v, b <> Var v).
Context (Hok : forall t s, output_derivation outputs base P t -> within s t -> ok (root s)).

Notation new := (number 0 rss).
Definition found (i : nat) (x : term) (ys : list term) (ir : nat * rule) : Prop := fst ir = i /\ stands_for (enc (snd ir)) (Fn (x :: ys)).
Global Instance found_dec i x ys ir : Decision (found i x ys ir).
Proof. apply and_dec; apply _. Defined.
Definition idx (i : nat) (x : term) (ys : list term) : nat := match list_find (found i x ys) new with Some (k, _) => k | None => 0 end.
Fixpoint fwd (t : deriv) : deriv :=
  match t with Leaf x => Leaf x | Node i x ts => Node (idx i x (map root ts)) x (map fwd ts) end.
Definition orig (k : nat) : nat := match new !! k with Some (i, _) => i | None => 0 end.
Notation bwd := (relabel orig).

Lemma root_fwd t : root (fwd t) = root t.
Proof. by destruct t. Qed.
Lemma roots_fwd ts : map root (map fwd ts) = map root ts.
Proof. rewrite map_map. apply map_ext. apply root_fwd. Qed.
Lemma value_fwd {S : semiring} (w : term -> S) t : value w (fwd t) = value w t.
Proof.
  induction t as [x|i x ts IH] using deriv_ind'; [done|]. cbn. f_equal. rewrite map_map. apply map_ext_in. intros t Ht.
  rewrite List.Forall_forall in IH. by apply IH.
Qed.

Lemma rule_copies i r : nth_error P i = Some r -> exists rs, nth_error rss i = Some rs /\
  (forall r' x ys, r' ∈ rs -> ground_inst r' x ys -> ground_inst r x ys) /\
  (forall r' b, r' ∈ rs -> b ∈ rbody r' -> forall v, b <> Var v) /\
  forall x ys, ground_inst r x ys -> Forall ok (x :: ys) -> exists k, num (fun r' => ground_inst r' x ys) rs k /\ 0 < k /\ (one -> k = 1).
Proof.
  intros Hi. rewrite nth_error_lookup in Hi. destruct (Forall2_lookup_l _ _ _ _ _ HP Hi) as (rs & Hrs & H). exists rs. by rewrite nth_error_lookup.
Qed.
Lemma copy_rule k i r' : new !! k = Some (i, r') -> exists r rs, nth_error P i = Some r /\ nth_error rss i = Some rs /\ r' ∈ rs /\
  (forall x ys, ground_inst r' x ys -> ground_inst r x ys) /\ forall b, b ∈ rbody r' -> forall v, b <> Var v.
Proof.
  intros Hk. apply elem_of_list_lookup_2 in Hk. apply number_in in Hk as (j & rs & -> & Hj & Hr). cbn.
  rewrite nth_error_lookup in Hj. destruct (Forall2_lookup_r _ _ _ _ _ HP Hj) as (r & Hr' & H1 & H2 & _).
  exists r, rs. rewrite !nth_error_lookup. split; [done|]. split; [done|]. split; [done|]. split; [intros x ys; by apply H1|]. intros b. by apply H2.
Qed.
Lemma new_nth k i r' : new !! k = Some (i, r') -> nth_error (concat rss) k = Some r'.
Proof. intros Hk. rewrite <- (number_snd 0), nth_error_lookup, list_lookup_fmap, Hk. done. Qed.
Lemma nth_new k r' : nth_error (concat rss) k = Some r' -> exists i, new !! k = Some (i, r').
Proof.
  rewrite <- (number_snd 0), nth_error_lookup, list_lookup_fmap. destruct (new !! k) as [[i r]|]; [|done]. cbn. intros [= ->]. by exists i.
Qed.

Lemma idx_ok i r x ys : nth_error P i = Some r -> ground_inst r x ys -> Forall ok (x :: ys) ->
  exists r', new !! idx i x ys = Some (i, r') /\ ground_inst r' x ys.
Proof.
  intros Hi Hg Hk. destruct (rule_copies i r Hi) as (rs & Hrs & _ & _ & H). destruct (H x ys Hg Hk) as (k & Hn & Hpos & _).
  apply (number_num _ 0 rss i rs k Hrs) in Hn. destruct (num_pos _ _ _ Hn Hpos) as ([i' r'] & Hin & Hi' & Hr'). cbn in *. subst i'.
  unfold idx. destruct (list_find (found i x ys) new) as [[j [i2 r2]]|] eqn:El.
  - apply list_find_Some in El as (Hj & [Hf1 Hf2] & _). cbn in *. subst i2. exists r2. split; [done|]. by apply ground_inst_enc.
  - exfalso. apply list_find_None in El. rewrite Forall_forall in El. apply (El _ Hin). split; [done|]. by apply ground_inst_enc.
Qed.
Lemma idx_unique i r x ys k r' : one -> nth_error P i = Some r -> ground_inst r x ys -> Forall ok (x :: ys) ->
  new !! k = Some (i, r') -> ground_inst r' x ys -> idx i x ys = k.
Proof.
  intros Ho Hi Hg Hk Hn Hr'. destruct (idx_ok i r x ys Hi Hg Hk) as (r2 & H2 & Hg2).
  destruct (rule_copies i r Hi) as (rs & Hrs & _ & _ & H). destruct (H x ys Hg Hk) as (m & Hm & _ & Hone). rewrite (Hone Ho) in Hm.
  apply (number_num _ 0 rss i rs 1 Hrs) in Hm. rewrite <- nth_error_lookup in *.
  eapply num_unique; [exact Hm|exact H2|exact Hn|done|done].
Qed.

Lemma within_trans a b t : within a b -> within b t -> within a t.
Proof. intros Hab Hbt. induction Hbt as [|i x t' ts Hin Hw IH]; [done|]. by econstructor. Qed.
Lemma within_child i x ts s t : s ∈ ts -> within (Node i x ts) t -> within s t.
Proof. intros Hs Hw. eapply within_trans; [|exact Hw]. econstructor; [by apply elem_of_list_In|constructor]. Qed.

Lemma fwd_ok t : derives P base t -> (forall s, within s t -> ok (root s)) -> derives (concat rss) base (fwd t) /\ bwd (fwd t) = t.
Proof.
  induction t as [x|i x ts IH] using deriv_ind'; intros Hd Hw.
  { split; [|done]. constructor. by apply derives_leaf_inv in Hd. }
  apply derives_node_inv in Hd as (r & Hi & Hg & Hts).
  assert (Hk : Forall ok (x :: map root ts)).
  { constructor; [apply (Hw (Node i x ts)); constructor|]. apply Forall_forall. intros y Hy. apply elem_of_list_fmap in Hy as (s & -> & Hs).
    apply Hw. econstructor; [by apply elem_of_list_In|constructor]. }
  destruct (idx_ok i r x (map root ts) Hi Hg Hk) as (r' & Hn & Hg').
  assert (Hall : Forall (fun t => derives (concat rss) base (fwd t) /\ bwd (fwd t) = t) ts).
  { rewrite List.Forall_forall in *. intros s Hs. apply IH; [done|by apply Hts|]. intros s' Hs'. apply Hw. by eapply W_node. }
  split.
  - cbn [fwd]. econstructor; [by eapply new_nth|by rewrite roots_fwd|]. rewrite List.Forall_map. eapply List.Forall_impl; [|exact Hall]. by intros s [? _].
  - cbn [fwd relabel]. unfold orig at 1. rewrite Hn. f_equal. rewrite map_map. rewrite <- (map_id ts) at 2. apply map_ext_in. intros s Hs.
    rewrite List.Forall_forall in Hall. by apply Hall.
Qed.

Lemma bwd_ok t : derives (concat rss) base t -> derives P base (bwd t).
Proof.
  induction t as [x|k x ts IH] using deriv_ind'; intros Hd.
  { constructor. by apply derives_leaf_inv in Hd. }
  apply derives_node_inv in Hd as (r' & Hk & Hg & Hts). destruct (nth_new k r' Hk) as [i Hn].
  destruct (copy_rule k i r' Hn) as (r & rs & Hi & _ & _ & Hgr & _). cbn [relabel]. unfold orig at 1. rewrite Hn.
  econstructor; [exact Hi|rewrite roots_relabel; by apply Hgr|]. rewrite List.Forall_map. rewrite List.Forall_forall in *. intros s Hs. by apply IH, Hts.
Qed.

Lemma within_relabel h s t : within s t -> within (relabel h s) (relabel h t).
Proof. intros Hw. induction Hw as [|i x t ts Hin Hw IH]; [constructor|]. cbn. econstructor; [by apply in_map|done]. Qed.

Lemma fwd_bwd t : one -> derives (concat rss) base t -> (forall s, within s (bwd t) -> ok (root s)) -> fwd (bwd t) = t.
Proof.
  intros Ho. induction t as [x|k x ts IH] using deriv_ind'; intros Hd Hw; [done|].
  apply derives_node_inv in Hd as (r' & Hk & Hg & Hts). destruct (nth_new k r' Hk) as [i Hn].
  destruct (copy_rule k i r' Hn) as (r & rs & Hi & _ & _ & Hgr & _). cbn [relabel] in *. unfold orig in * at 1. rewrite Hn in *. cbn [fwd].
  rewrite roots_relabel. f_equal.
  - eapply idx_unique; [done|exact Hi|by apply Hgr| |exact Hn|done].
    constructor; [apply (Hw (Node i x (map bwd ts))); constructor|]. apply Forall_forall. intros y Hy.
    rewrite <- (roots_relabel orig) in Hy. apply elem_of_list_fmap in Hy as (s & -> & Hs). apply Hw. econstructor; [by apply elem_of_list_In|constructor].
  - rewrite map_map. rewrite <- (map_id ts) at 2. apply map_ext_in. intros s Hs. rewrite List.Forall_forall in IH, Hts. apply IH; [done|by apply Hts|].
    intros s' Hs'. apply Hw. econstructor; [by apply in_map|done].
Qed.

Lemma no_vars_values Q t : (forall r b, In r Q -> In b (rbody r) -> forall v, b <> Var v) -> derives Q base t -> values_only Q t.
Proof.
  intros HQ. induction t as [x|i x ts IH] using deriv_ind'; intros Hd; [constructor|].
  apply derives_node_inv in Hd as (r & Hi & Hg & Hts). econstructor; [exact Hi| |].
  - destruct Hg as (σ & _ & _ & Hb). assert (Hl : length (rbody r) = length ts) by (apply (f_equal length) in Hb; by rewrite !map_length in Hb).
    apply Forall2_same_length_lookup_2; [done|]. intros k b t Hb' _ [v ->]. exfalso.
    apply (HQ r (Var v)) with (v := v); [by eapply nth_error_In| |done]. apply elem_of_list_In. by eapply elem_of_list_lookup_2.
  - rewrite List.Forall_forall in *. intros s Hs. by apply IH, Hts.
Qed.

Lemma copies_novar r b : In r (concat rss) -> In b (rbody r) -> forall v, b <> Var v.
Proof.
  intros Hr Hb. apply In_nth_error in Hr as [k Hk]. destruct (nth_new k r Hk) as [i Hn].
  destruct (copy_rule k i r Hn) as (_ & _ & _ & _ & _ & _ & H). apply H. by apply elem_of_list_In.
Qed.

Lemma bwd_output t : output_derivation outputs base (concat rss) t -> output_derivation outputs base P (bwd t).
Proof.
  intros (Hd & _ & Ho). apply bwd_ok in Hd. split; [done|]. split; [by apply no_vars_values|]. by rewrite root_relabel.
Qed.

Lemma copies_covered : covered_derivations (output_derivation outputs base P) (output_derivation outputs base (concat rss)).
Proof.
  exists fwd, bwd. split.
  - intros t Ht. destruct (fwd_ok t) as [H1 H2]; [apply Ht|intros s; by apply Hok|]. split; [|split; [done|split; [apply root_fwd|intros S w; apply value_fwd]]].
    split; [done|]. split; [apply no_vars_values; [apply copies_novar|done]|]. rewrite root_fwd. apply Ht.
  - intros t Ht. split; [by apply bwd_output|]. split; [apply root_relabel|]. intros S w. apply value_relabel.
Qed.
Lemma copies_same : one -> same_derivations (output_derivation outputs base P) (output_derivation outputs base (concat rss)).
Proof.
  intros Ho. exists fwd, bwd. split.
  - intros t Ht. destruct (fwd_ok t) as [H1 H2]; [apply Ht|intros s; by apply Hok|]. split; [|split; [done|split; [apply root_fwd|intros S w; apply value_fwd]]].
    split; [done|]. split; [apply no_vars_values; [apply copies_novar|done]|]. rewrite root_fwd. apply Ht.
  - intros t Ht. pose proof (bwd_output t Ht) as Hb. split; [done|]. apply fwd_bwd; [done|apply Ht|]. intros s. by apply Hok.
Qed.
End copies.

(** * The disjoint estimate *)
Lemma builtin_sig a b : item_head a -> item_head b -> sig a = sig b -> is_builtin a = is_builtin b.
Proof. intros (f & xs & ->) (g & ys & ->). cbn. intros [= -> Hl]. destruct g; [done|]. cbn. by rewrite Hl. Qed.
Lemma decl_item a : exo a = false -> proper a -> item_head a /\ is_builtin a = false.
Proof.
  intros He Hp. destruct a as [v|c|xs]; [done|done|]. split; [|by apply orb_false_iff in He as [_ ?]].
  apply proper_Fn in Hp as (c & l & -> & _). by exists c, l.
Qed.

Section estimate.
Context (al cv : nat -> nat) (Hal : forall i j, al i = al j -> i = j) (Hcv : forall i j, cv i = cv j -> i = j) (Hac : forall i j, al i <> cv j).

Lemma estimate_ok n c hs D c1 : wf_decls hs -> de_adds al cv n ([], c) hs = Ok (D, c1) ->
  c <= c1 /\ hd_ok (fun v => exists i, v = cv i) D /\ forall y h, In h hs -> gr_inst h y -> 0 < heads_at D y.
Proof.
  intros Hw E.
  destruct (de_adds_run al cv Hal Hcv Hac n ([], c) hs (D, c1) [] E) as [(Hinv & Hit & Hsig) Hc].
  { apply Forall_forall. intros h Hh. apply Hw. by apply elem_of_list_In. }
  { apply Forall_forall. intros h Hh. apply elem_of_list_In in Hh. destruct (Hw h Hh). by apply decl_item. }
  { split; [|split; [constructor|by intros y ?%elem_of_nil]]. split; [constructor|]. split; [constructor|]. by intros a []. }
  cbn in Hc. split; [done|]. destruct Hinv as (_ & Hcx & Hcov). cbn in *. split.
  - intros k Hk. rewrite Forall_forall in Hcx, Hit. split; [intros v Hv; by apply (Hcx k)|]. split; [by apply Hit|].
    destruct (Hsig k Hk) as (t & Ht & Es). apply elem_of_list_In in Ht. destruct (Hw t Ht) as [H1 H2]. destruct (decl_item t H1 H2) as [H3 H4].
    rewrite <- H4. symmetry. apply builtin_sig; [done|by apply Hit|done].
  - intros y h Hh [Hg [σ Hσ]]. destruct (Hcov h Hh) as (x & Hx & Hi). unfold heads_at.
    assert (Hin : x ∈ filter (fun k => stands_for k y) D).
    { apply elem_of_list_filter. split; [|by apply elem_of_list_In]. split; [done|]. eapply instance_of_trans; [exact Hi|]. by exists σ. }
    destruct (filter _ D); [by apply elem_of_nil in Hin|cbn; lia].
Qed.

Lemma disjoint_heads D y : pairwise_disjoint D -> heads_at D y <= 1.
Proof.
  induction D as [|k D IH]; intros Hd; [cbn; lia|]. rewrite heads_at_cons.
  assert (HD : pairwise_disjoint D) by (intros i j a b Hi Hj Hij; apply (Hd (S i) (S j)); [done|done|lia]).
  case_decide as Hk; [|by apply IH]. assert (E : heads_at D y = 0); [|lia].
  unfold heads_at. destruct (filter (fun k => stands_for k y) D) as [|b l] eqn:E; [done|]. exfalso.
  assert (Hb : b ∈ filter (fun k => stands_for k y) D) by (rewrite E; left). apply elem_of_list_filter in Hb as [Hby Hb].
  apply elem_of_list_In, In_nth_error in Hb as [j Hj]. apply (Hd 0 (S j) k b); [done|done|lia|]. by exists y.
Qed.

(** Heads that do not overlap are kept as they are. *)
Lemma scan_apart n r c xs kept : (forall x, x ∈ xs -> ~ overlap r x) -> forall r' c' kept', de_scan al n r c xs kept = Ok (r', c', kept') ->
  r' = r /\ kept' = rev xs ++ kept.
Proof.
  revert kept. induction xs as [|x xs IH]; intros kept Hx r' c' kept' E; cbn [de_scan] in E; [by injection E as <- <- <-|].
  destruct (unifies n ∅ r x) as [u| |] eqn:Eu; [|done..]. cbn [bind] in E. destruct u.
  - exfalso. apply (Hx x); [left|]. apply LinearProofs.unifies_ok in Eu. destruct (proj1 Eu eq_refl) as [σ Hσ]. by apply (meet_unify σ σ).
  - destruct (IH (x :: kept) (fun y Hy => Hx y (elem_of_list_further _ _ _ Hy)) _ _ _ E) as [-> ->]. split; [done|]. cbn. by rewrite <- app_assoc.
Qed.
Lemma overlap_variant a b a' b' : variant a a' -> variant b b' -> overlap a' b' -> overlap a b.
Proof. intros Ha Hb (g & H1 & H2). exists g. split; [by apply (gr_variant a a')|by apply (gr_variant b b')]. Qed.
Lemma estimate_apart n hs : forall c D c1 hs0 D0, Forall2 variant hs0 D0 -> pairwise_disjoint (hs0 ++ hs) ->
  de_adds al cv n (D0, c) hs = Ok (D, c1) -> Forall2 variant (hs0 ++ hs) D.
Proof.
  induction hs as [|h hs IH]; intros c D c1 hs0 D0 Hv Hd E; cbn [de_adds] in E.
  { injection E as <- _. by rewrite app_nil_r. }
  destruct (de_add al cv n (D0, c) h) as [[D1 c2]| |] eqn:E1; [|done..]. cbn [bind] in E. unfold de_add in E1.
  destruct (fresh al n ∅ c h) as [[y c3]| |] eqn:Ef; [|done..]. cbn [bind] in E1.
  destruct (de_scan al n y c3 (rev D0) []) as [[[r' c4] kept]| |] eqn:Es; [|done..]. cbn [bind] in E1.
  destruct (canonicalize cv n ∅ r') as [z| |] eqn:Ec; [|done..]. cbn [bind] in E1. injection E1 as <- <-.
  pose proof (fresh_run al Hal _ _ _ _ _ Ef) as (Hvy & _).
  apply scan_apart in Es as [-> ->].
  2:{ intros x Hx Hov. rewrite elem_of_list_In, <- in_rev, <- elem_of_list_In in Hx. apply elem_of_list_lookup in Hx as (i & Hi).
      destruct (Forall2_lookup_r _ _ _ _ _ Hv Hi) as (a & Ha & Hax). apply (Hd (length hs0) i h a).
      - rewrite nth_error_lookup. by rewrite list_lookup_middle.
      - rewrite nth_error_lookup. by apply lookup_app_l_Some.
      - intros El. apply lookup_lt_Some in Ha. lia.
      - by eapply overlap_variant. }
  replace (hs0 ++ h :: hs) with ((hs0 ++ [h]) ++ hs) in * by (by rewrite <- app_assoc).
  eapply IH; [|done|exact E]. rewrite rev_involutive, app_nil_r. apply Forall2_app; [done|]. constructor; [|constructor].
  destruct (canonical_settles cv y) as [n2 Hs3]. pose proof (mono_ok _ n (n + n2) _ (mono_canonicalize cv ∅ y) ltac:(lia) Ec) as Ec2.
  cbn beta in Ec2. rewrite Hs3 in Ec2 by lia. injection Ec2 as <-. eapply variant_trans; [exact Hvy|]. by apply canonical_variant.
Qed.
Lemma estimate_disjoint n c hs D c1 : pairwise_disjoint hs -> de_adds al cv n ([], c) hs = Ok (D, c1) -> pairwise_disjoint D.
Proof.
  intros Hd E. apply (estimate_apart n hs c D c1 [] []) in E; [|constructor|done]. cbn in E.
  intros i j a b Hi Hj Hij Hov. rewrite nth_error_lookup in Hi, Hj.
  destruct (Forall2_lookup_r _ _ _ _ _ E Hi) as (a' & Ha & Hva). destruct (Forall2_lookup_r _ _ _ _ _ E Hj) as (b' & Hb & Hvb).
  rewrite <- nth_error_lookup in Ha, Hb. apply (Hd i j a' b' Ha Hb Hij). by eapply overlap_variant.
Qed.
End estimate.

(** * The whole program *)
Section whole.
Context (cmpf : String.string -> term -> term -> res bool)
  (is_run : nat -> store -> term -> term -> res (list store)) (is_true : term -> term -> bool) (al : nat -> nat).
Context (His : is_exact is_true is_run) (Hal : forall i j, al i = al j -> i = j).
Context (P : list rule) (base : term -> Prop) (outputs : list term) (ts : list rule).
Context (HP : plain_program P) (Hbase : forall y, base y -> exo y = true -> builtin_true cmpf is_true y).
Context (Hcov : types_cover ts (used_item outputs base P)).

Definition nok (y : term) : Prop := gtrue cmpf is_true y /\ (exo y = false -> exists h, In h (map rhead ts) /\ gr_inst h y).

Lemma derives_within t s : derives P base t -> within s t -> derives P base s.
Proof.
  intros Hd Hw. induction Hw as [|i x t ts' Hin Hw IH]; [done|]. apply IH. apply derives_node_inv in Hd as (_ & _ & _ & Hts).
  rewrite List.Forall_forall in Hts. by apply Hts.
Qed.
Lemma head_exo r σ : In r P -> exo (sub σ (rhead r)) = false.
Proof. intros Hr. destruct (proj1 HP r Hr) as (H1 & H2 & _). rewrite exo_sub; [done|done|]. intros v E. by rewrite E in H1. Qed.
Lemma used_ok t s : output_derivation outputs base P t -> within s t -> nok (root s).
Proof.
  intros Ht Hw. split.
  - intros He. pose proof (derives_within t s (proj1 Ht) Hw) as Hd. destruct s as [x|i x ss]; [apply derives_leaf_inv in Hd; by apply Hbase|].
    exfalso. apply derives_node_inv in Hd as (r & Hr & (σ & _ & <- & _) & _). cbn [root] in He. rewrite head_exo in He; [done|by eapply nth_error_In].
  - intros He. destruct (Hcov (root s)) as (u & Hu & Hg); [by exists t, s|]. exists (rhead u). split; [by apply in_map|done].
Qed.
Lemma rule_goals r : In r P -> Forall goal_ok (rhead r :: rbody r).
Proof.
  intros Hr. destruct (proj1 HP r Hr) as (H1 & H2 & H3). constructor.
  - split; [done|]. intros v E. by rewrite E in H1.
  - apply Forall_forall. intros b Hb. apply elem_of_list_In in Hb. split; [by apply H3|]. by apply (proj2 HP r b).
Qed.
Lemma gprod_pos D ys : (forall y h, In h (map rhead ts) -> gr_inst h y -> 0 < heads_at D y) -> Forall nok ys -> 0 < gprod D ys.
Proof.
  intros HD Hys. induction Hys as [|y ys [_ Hy] Hys IH]; [cbn; lia|]. unfold gprod in *. cbn [map fold_right].
  apply Nat.mul_pos_pos; [|done]. unfold gcnt. destruct (exo y) eqn:Ee; [lia|]. destruct (Hy eq_refl) as (h & Hh & Hg). by eapply HD.
Qed.
Lemma gprod_one D ys : pairwise_disjoint D -> 0 < gprod D ys -> gprod D ys = 1.
Proof.
  intros HD. induction ys as [|y ys IH]; [done|]. unfold gprod in *. cbn [map fold_right]. intros Hp.
  assert (H1 : gcnt D y <= 1) by (unfold gcnt; destruct (exo y); [lia|by apply disjoint_heads]).
  assert (Hy : gcnt D y = 1) by (destruct (gcnt D y) as [|[|?]]; lia). rewrite Hy in *. rewrite IH; lia.
Qed.

Section spec.
Context (cv : nat -> nat) (Hcv : forall i j, cv i = cv j -> i = j) (Hac : forall i j, al i <> cv j).
Lemma specialize_program n c D c1 rss c2 : wf_decls (map rhead ts) -> vars_apart al cv c P ->
  de_adds al cv n ([], c) (map rhead ts) = Ok (D, c1) ->
  mapSM (specialize_rule cmpf is_run al n D) P c1 = Ok (rss, c2) ->
  Forall2 (fun r rs =>
  (forall r' x ys, r' ∈ rs -> ground_inst r' x ys -> ground_inst r x ys) /\
  (forall r' b, r' ∈ rs -> b ∈ rbody r' -> forall v, b <> Var v) /\
  forall x ys, ground_inst r x ys -> Forall nok (x :: ys) -> exists k, num (fun r' => ground_inst r' x ys) rs k /\ 0 < k /\ (pairwise_disjoint D -> k = 1)) P rss.
Proof.
  intros Hw Hap Ed Em. destruct (estimate_ok al cv Hal Hcv Hac n c _ D c1 Hw Ed) as (Hc1 & HD & Hpos). clear Ed.
  enough (Hen : forall Q c1 rss c2, (forall r, In r Q -> In r P) -> c <= c1 -> mapSM (specialize_rule cmpf is_run al n D) Q c1 = Ok (rss, c2) ->
    Forall2 (fun r rs =>
      (forall r' x ys, r' ∈ rs -> ground_inst r' x ys -> ground_inst r x ys) /\
      (forall r' b, r' ∈ rs -> b ∈ rbody r' -> forall v, b <> Var v) /\
      forall x ys, ground_inst r x ys -> Forall nok (x :: ys) ->
        exists k, num (fun r' => ground_inst r' x ys) rs k /\ 0 < k /\ (pairwise_disjoint D -> k = 1)) Q rss) by (by apply (Hen P c1 rss c2)).
  clear rss c1 c2 Hc1 Em.
  induction Q as [|r Q IH]; intros c1 rss c2 HQ Hc1 Em; cbn [mapSM] in Em; [injection Em as <- <-; constructor|].
  destruct (specialize_rule _ _ _ n D r c1) as [[rs c3]| |] eqn:Er; [|done..]. cbn [bind] in Em.
  destruct (mapSM _ Q c3) as [[rss' c4]| |] eqn:Em'; [|done..]. cbn [bind] in Em. injection Em as <- <-.
  assert (Hr : In r P) by (apply HQ; by left).
  destruct (specialize_rule_ok cmpf is_run is_true al His Hal (fun v => exists i, v = cv i) c) with (n := n) (D := D) (r := r) (c := c1) (rs := rs) (c' := c3) as (Hc3 & H1 & H2 & H3); try done.
  { intros j _ [i Hi]. by apply (Hac j i). }
  { split; [done|]. split.
    - intros j Hj Hv. apply rvars_in in Hv. by apply (proj1 (Hap r (al j) Hr Hv) j); [lia|].
    - intros v [i ->] Hv. apply rvars_in in Hv. by apply (proj2 (Hap r (cv i) Hr Hv) i). }
  { by apply rule_goals. }
  constructor; [|apply (IH c3 rss' c4); [intros r' Hr'; apply HQ; by right|lia|done]].
  split; [done|]. split.
  - intros r' b Hr' Hb v ->. destruct (H2 r' Hr') as [σ Hσ]. rewrite Hσ in Hb. apply elem_of_list_fmap in Hb as (b & E & Hb).
    apply elem_of_list_In in Hb. pose proof (rule_goals r Hr) as Hg. rewrite List.Forall_forall in Hg. destruct (Hg b) as [_ Hnv]; [by right|].
    destruct b as [u| |]; [by apply (Hnv u)|done..].
  - intros x ys Hg Hk. exists (gprod D (x :: ys)). split; [apply H3; [done|]|].
    { eapply Forall_impl; [exact Hk|]. by intros y [? _]. }
    assert (Hp : 0 < gprod D (x :: ys)) by (by apply gprod_pos). split; [done|]. intros Hd. by apply gprod_one.
Qed.
End spec.

(** * Dead rules *)
Lemma live_rules_ok n ins c rs c' : wf_decls (map rhead ts) -> types_apart al c P ts ->
  live_rules cmpf is_run al n ins (map rhead ts) P c = Ok (rs, c') ->
  exists bs, length bs = length P /\ rs = sel bs P /\
    forall i r x ys, nth_error P i = Some r -> ground_inst r x ys -> Forall nok (x :: ys) -> nth_error bs i = Some true.
Proof.
  intros Hw [Hap1 Hap2] E. set (W := fun v => exists t, In t ts /\ In v (vars (rhead t))).
  assert (HD : hd_ok W (map rhead ts)).
  { intros k Hk. apply elem_of_list_In in Hk. destruct (Hw k Hk) as [H1 H2]. apply in_map_iff in Hk as (t & <- & Ht).
    split; [intros v Hv; by exists t|]. by apply decl_item. }
  assert (Hpos : forall y h, In h (map rhead ts) -> gr_inst h y -> 0 < heads_at (map rhead ts) y).
  { intros y h Hh Hg. unfold heads_at. assert (Hin : h ∈ filter (fun k => stands_for k y) (map rhead ts)).
    { apply elem_of_list_filter. split; [done|by apply elem_of_list_In]. }
    destruct (filter _ _); [by apply elem_of_nil in Hin|cbn; lia]. }
  enough (Hen : forall Q rs c1 c', (forall r, In r Q -> In r P) -> c <= c1 ->
    live_rules cmpf is_run al n ins (map rhead ts) Q c1 = Ok (rs, c') ->
    exists bs, length bs = length Q /\ rs = sel bs Q /\
      forall i r x ys, nth_error Q i = Some r -> ground_inst r x ys -> Forall nok (x :: ys) -> nth_error bs i = Some true)
    by (by apply (Hen P rs c c')).
  clear rs c' E. intros Q.
  induction Q as [|r Q IH]; intros rs c1 c' HQ Hc1 E; cbn [live_rules] in E.
  { injection E as <- <-. exists []. split; [done|]. split; [done|]. intros [|i]; done. }
  unfold dead_rule in E. destruct (join_heads _ _ _ n ∅ (rhead r :: rbody r) ins (map rhead ts) c1) as [[sts c2]| |] eqn:Ej; [|done..]. cbn [bind] in E.
  destruct (live_rules _ _ _ n ins _ Q c2) as [[rs' c3]| |] eqn:El; [|done..]. cbn [bind] in E. injection E as <- <-.
  assert (Hr : In r P) by (apply HQ; by left). set (V := rvars r).
  assert (HVb : Forall (in_V V) (rhead r :: rbody r)).
  { apply Forall_forall. intros b Hb v Hv. apply rvars_in. unfold enc. cbn [vars]. apply in_flat_map. exists b. split; [by apply elem_of_list_In|done]. }
  destruct (join_heads_ok cmpf is_run is_true al His Hal W c) with (n := n) (ins := ins) (D := map rhead ts) (qs := rhead r :: rbody r) (V := V) (st := ∅ : store) (c := c1) (rs := sts) (c' := c2)
    as (Hc2 & _ & Hj); try done.
  { intros j Hj (t & Ht & Hv). by apply (Hap1 t (al j) Ht Hv j Hj). }
  { apply okst_nil. }
  { split; [done|]. split.
    - intros j Hj Hv. apply rvars_in in Hv. by apply (proj1 (Hap2 r (al j) Hr Hv) j); [lia|].
    - intros v (t & Ht & Htv) Hv. apply rvars_in in Hv. by apply (proj2 (Hap2 r v Hr Hv) t). }
  { by apply rule_goals. }
  destruct (IH rs' c2 c3 (fun r' Hr' => HQ r' (or_intror Hr')) ltac:(lia) El) as (bs & Hl & -> & Hbs).
  exists ((match sts with [] => false | _ => true end) :: bs). split; [cbn; by rewrite Hl|]. split; [by destruct sts|].
  intros [|i] r' x ys Hi Hg Hk; cbn in *; [|by eapply Hbs]. injection Hi as ->. destruct Hg as (σ & Hgs & <- & <-).
  destruct (Hj σ Hgs) as (k & Hn & _ & Hkp); [intros v t Et; by rewrite lookup_empty in Et| |].
  { eapply Forall_impl; [exact Hk|]. by intros y [? _]. }
  destruct (num_pos _ _ _ Hn) as (e & He & _); [apply Hkp; exact (gprod_pos _ _ Hpos Hk)|]. by destruct sts; [apply elem_of_nil in He|].
Qed.

Lemma uses_live (bs : list bool) :
  (forall i r x ys, nth_error P i = Some r -> ground_inst r x ys -> Forall nok (x :: ys) -> nth_error bs i = Some true) ->
  forall t, output_derivation outputs base P t -> uses_only (fun i => nth_error bs i = Some true) t.
Proof.
  intros Hbs t Ht. assert (Hw : forall s, within s t -> nok (root s)) by (intros s; by apply used_ok). destruct Ht as [Hd _].
  induction t as [x|i x ss IH] using deriv_ind'; [constructor|]. apply derives_node_inv in Hd as (r & Hi & Hg & Hss). constructor.
  - eapply Hbs; [exact Hi|exact Hg|]. constructor; [apply (Hw (Node i x ss)); constructor|]. apply Forall_forall. intros y Hy.
    apply elem_of_list_fmap in Hy as (s & -> & Hs). apply Hw. econstructor; [by apply elem_of_list_In|constructor].
  - rewrite List.Forall_forall in *. intros s Hs. apply IH; [done|by apply Hss|]. intros s' Hs'. apply Hw. by eapply W_node.
Qed.
End whole.
