(** Proofs about UpdateModel.v. *)
From Coq Require Import List.
From stdpp Require Import gmap.
From Coq Require Import Lia Sorted.
From Coq Require String Ascii.
Import String.StringSyntax Ascii.AsciiSyntax.
From Verif Require Import PyBase Semiring TermModel TermSpec TermProofs CoverProofs SetsModel UnifyProofs SetsProofs FuelProofs
  PruneModel ChartProofs SolverSpec SolverProofs ProgSpec UpdateModel UpdateSpec.
Import ListNotations.

(** * Fuel *)
Lemma fle_mapSM {A B S} (f g : A -> S -> res (B * S)) l : (forall a s, fle (f a s) (g a s)) ->
  forall s, fle (mapSM f l s) (mapSM g l s).
Proof.
  intros H. induction l as [|a l IH]; intros s; [done|]. simpl. apply fle_bind; [done|]. intros [b s1].
  apply fle_bind; [done|]. intros [bs s2]. apply fle_refl.
Qed.

Lemma mono_canon_go cv st x vs : mono (fun n => canon_go cv n st x vs).
Proof.
  intros n. revert x vs. induction n as [|n IH]; intros x vs; [done|].
  change (canon_go cv (S (S n)) st x vs) with
    (let* x := snap (S n) st x in
      match x with
      | Var v => match list_find (eq v) vs with Some (i, _) => Ok (Var (cv i), vs) | None => Ok (Var (cv (length vs)), vs ++ [v]) end
      | Fn xs => let* (ys, vs') := mapSM (canon_go cv (S n) st) xs vs in Ok (Fn ys, vs')
      | Cst _ => Ok (x, vs)
      end).
  cbn [canon_go]. apply fle_bind; [apply mono_snap|]. intros [v|k|xs]; [apply fle_refl..|].
  apply fle_bind; [by apply fle_mapSM|]. intros; apply fle_refl.
Qed.

Lemma mono_canonicalize cv st x : mono (fun n => canonicalize cv n st x).
Proof. intros n. unfold canonicalize. apply fle_bind; [apply mono_canon_go|]. intros; apply fle_refl. Qed.

Section heap.
  Context (st : store) (θ : nat -> term) (Hac : acyclic st) (Hθ : resolution st θ).

  Lemma canonicalize_settles cv x : settles (fun n => canonicalize cv n st x) (canonical cv (sub θ x)).
  Proof.
    destruct (acyclic_weighted _ Hac) as [w Hw]. exists (S (tw w x)). intros n Hn. by apply (canonicalize_spec st w θ).
  Qed.
  Lemma canonicalize_ok cv n x y : canonicalize cv n st x = Ok y -> y = canonical cv (sub θ x).
  Proof. intros E. exact (mono_settles _ n y _ (mono_canonicalize cv st x) E (canonicalize_settles cv x)). Qed.

  Lemma fresh_heap al (Hal : forall i j, al i = al j -> i = j) c x :
    exists ρ c', settles (fun n => fresh al n st c x) (rename ρ (sub θ x), c') /\ c <= c' /\
      renames ρ (sub θ x) /\ (forall v, In v (vars (sub θ x)) -> exists j, ρ v = al j /\ c <= j < c').
  Proof.
    destruct (acyclic_weighted _ Hac) as [w Hw].
    destruct (fresh_spec al Hal st w θ Hw Hθ (tw w x) c x) as (ρ & c' & E & H); [lia|].
    exists ρ, c'. split; [|done]. exists (tw w x). intros n Hn. by eapply fresh_mono.
  Qed.
  Lemma fresh_ok al (Hal : forall i j, al i = al j -> i = j) n c x y c' : fresh al n st c x = Ok (y, c') ->
    exists ρ, y = rename ρ (sub θ x) /\ c <= c' /\
      renames ρ (sub θ x) /\ (forall v, In v (vars (sub θ x)) -> exists j, ρ v = al j /\ c <= j < c').
  Proof.
    intros E. destruct (fresh_heap al Hal c x) as (ρ & c2 & [n0 Hs] & H).
    pose proof (fresh_mono _ _ (n + n0) _ _ _ _ E ltac:(lia)) as E1. rewrite Hs in E1 by lia. injection E1 as <- <-. by exists ρ.
  Qed.

  (** On a term whose variables are unbound the heap does nothing. *)
  Lemma unbound_sub t : (forall v, In v (vars t) -> st !! v = None) -> sub θ t = t.
  Proof. intros H. rewrite <- (sub_Var t) at 2. apply sub_ext. intros v Hv. apply Hθ. by apply H. Qed.
End heap.

Lemma filter_ext_in {A} (P Q : A -> Prop) `{forall a, Decision (P a)} `{forall a, Decision (Q a)} (l : list A) :
  (forall a, a ∈ l -> P a <-> Q a) -> filter P l = filter Q l.
Proof.
  induction l as [|a l IH]; intros HPQ; [done|]. rewrite !filter_cons.
  assert (Ha : P a <-> Q a) by (apply HPQ; by left).
  rewrite IH by (intros b Hb; apply HPQ; by right). repeat case_decide; tauto || done.
Qed.

(** * Sums *)
Section sums.
  Context {R : semiring}.

  Lemma sum_over_bij {A B} (P : A -> Prop) (Q : B -> Prop) (f : A -> R) (g : B -> R) (h : A -> B) (k : B -> A) v :
    (forall a, P a -> Q (h a) /\ k (h a) = a /\ f a = g (h a)) ->
    (forall b, Q b -> P (k b) /\ h (k b) = b) ->
    sum_over P f v -> sum_over Q g v.
  Proof.
    intros H1 H2 (L & HN & HL & Hz & ->). exists (map h L). split; [|split; [|split]].
    - clear Hz. induction HN as [|a L Ha HN IH]; [constructor|]. simpl. constructor.
      + intros Hin. apply elem_of_list_In, in_map_iff in Hin as (a' & E & Hin). apply Ha. apply elem_of_list_In in Hin.
        assert (Ea : k (h a') = a') by (apply H1, HL; by right). rewrite E in Ea.
        assert (Eb : k (h a) = a) by (apply H1, HL; by left). congruence.
      + apply IH. intros a' Ha'. apply HL. by right.
    - intros b Hb. apply elem_of_list_In, in_map_iff in Hb as (a & <- & Ha). apply H1, HL. by apply elem_of_list_In.
    - intros b Hb. destruct (H2 b Hb) as [Hk E]. destruct (Hz (k b) Hk) as [Hin|H0].
      + left. apply elem_of_list_In, in_map_iff. exists (k b). split; [done|]. by apply elem_of_list_In.
      + right. rewrite <- E. rewrite <- H0. symmetry. by apply H1.
    - rewrite suml_map. apply suml_ext. intros a Ha. apply H1, HL. by apply elem_of_list_In.
  Qed.

  Lemma sum_over_iff {A} (P Q : A -> Prop) (f : A -> R) v : (forall a, P a <-> Q a) -> sum_over P f v <-> sum_over Q f v.
  Proof.
    intros H. split; intros (L & H1 & H2 & H3 & ->); exists L; (split; [done|]; split; [|split; [|done]]); intros a Ha.
    - apply H. by apply H2.
    - apply H3. by apply H.
    - apply H. by apply H2.
    - apply H3. by apply H.
  Qed.

  Lemma sum_over_zero_iff {A} (P : A -> Prop) (f : A -> R) v : (forall a, P a -> f a = szero) -> sum_over P f v <-> v = szero.
  Proof.
    intros H. split.
    - intros (L & _ & HL & _ & ->). apply suml_zero_in. intros a Ha. apply H. by apply HL.
    - intros ->. apply (sum_over_ext _ (fun _ => szero)); [|apply sum_over_zero]. intros a Ha. by rewrite H.
  Qed.

  Lemma sum_over_single {A} (P : A -> Prop) (f : A -> R) a v : P a -> (forall b, P b -> b = a) -> sum_over P f v <-> v = f a.
  Proof.
    intros Ha H. split.
    - intros (L & HN & HL & Hz & ->). destruct L as [|b L].
      + destruct (Hz a Ha) as [Hin|E]; [by apply elem_of_nil in Hin|]. by rewrite E.
      + assert (b = a) as -> by (apply H, HL; by left). destruct L as [|c L].
        * rewrite suml_cons, suml_nil. by rewrite sadd_0_r.
        * exfalso. assert (c = a) as -> by (apply H, HL; right; by left). inversion HN as [|? ? Hn _]; subst. apply Hn. by left.
    - intros ->. exists [a]. split; [|split; [|split]].
      + constructor; [by intros ?%elem_of_nil|constructor].
      + intros b Hb. by apply elem_of_list_singleton in Hb as ->.
      + intros b Hb. left. apply elem_of_list_singleton. by apply H.
      + by rewrite suml_cons, suml_nil, sadd_0_r.
  Qed.

  Lemma sum_over_scale {A} (P : A -> Prop) (f : A -> R) c v : sum_over P f v -> sum_over P (fun a => smul c (f a)) (smul c v).
  Proof.
    intros (L & H1 & H2 & H3 & ->). exists L. split; [done|]. split; [done|]. split.
    - intros a Ha. destruct (H3 a Ha) as [|E]; [by left|right]. by rewrite E, smul_0_r.
    - apply suml_mul_l.
  Qed.
End sums.

(** * Values of rules *)
Section values.
  Context {R : semiring} (Hcomm : forall x y : R, smul x y = smul y x).
  Context (wt : const -> R) (I : term -> R) (HI : respects wt I).

  (** the constants and the other subgoals of a body without bound variables *)
  Notation const_of := (const_of wt).
  Fixpoint cpart (fs : list (factor R)) : R :=
    match fs with
    | [] => sone
    | f :: fs => match const_of f with Some v => smul v (cpart fs) | None => cpart fs end
    end.
  Fixpoint gpart (fs : list (factor R)) : list (factor R) :=
    match fs with
    | [] => []
    | f :: fs => match const_of f with Some _ => gpart fs | None => f :: gpart fs end
    end.

  (** from the subgoals of [fs] to those of [gpart fs], and back *)
  Fixpoint keep (fs : list (factor R)) (ys : list term) : list term :=
    match fs, ys with
    | Val _ :: fs, _ => keep fs ys
    | Goal (Cst _) :: fs, _ :: ys => keep fs ys
    | Goal _ :: fs, y :: ys => y :: keep fs ys
    | _, _ => []
    end.
  Fixpoint put (fs : list (factor R)) (zs : list term) : list term :=
    match fs, zs with
    | [], _ => []
    | Val _ :: fs, _ => put fs zs
    | Goal (Cst k) :: fs, _ => Cst k :: put fs zs
    | Goal _ :: fs, z :: zs => z :: put fs zs
    | Goal _ :: fs, [] => []
    end.

  Lemma keep_sub σ fs : keep fs (map (sub σ) (goals fs)) = map (sub σ) (goals (gpart fs)).
  Proof. induction fs as [|[v|[v|k|xs]] fs IH]; [done|exact IH| |exact IH|]; simpl; f_equal; exact IH. Qed.
  Lemma put_sub σ fs : put fs (map (sub σ) (goals (gpart fs))) = map (sub σ) (goals fs).
  Proof. induction fs as [|[v|[v|k|xs]] fs IH]; [done|exact IH|..]; simpl; f_equal; exact IH. Qed.
  Lemma gpart_value fs σ : body_value I fs (map (sub σ) (goals fs)) =
    smul (cpart fs) (body_value I (gpart fs) (map (sub σ) (goals (gpart fs)))).
  Proof.
    induction fs as [|[v|[v|k|xs]] fs IH].
    - simpl. by rewrite smul_1_l.
    - cbn -[smul]. change (omap _ fs) with (goals fs). rewrite IH. by rewrite smul_assoc.
    - cbn -[smul]. change (omap _ fs) with (goals fs). rewrite IH. change (omap _ (gpart fs)) with (goals (gpart fs)).
      by rewrite !smul_assoc, (Hcomm (I _)).
    - cbn -[smul]. change (omap _ fs) with (goals fs). rewrite IH, HI. by rewrite smul_assoc.
    - cbn -[smul]. change (omap _ fs) with (goals fs). rewrite IH. change (omap _ (gpart fs)) with (goals (gpart fs)).
      by rewrite !smul_assoc, (Hcomm (I _)).
  Qed.

  (** Moving the constants to the front. *)
  Lemma rule_value_fold h fs x v : rule_value I (WRule h (Val (cpart fs) :: gpart fs)) x v <-> rule_value I (WRule h fs) x v.
  Proof.
    split.
    - apply (sum_over_bij _ _ _ _ (put fs) (keep fs)).
      + intros ys (σ & Hσ & E1 & E2). simpl in *. subst ys.
        change (omap _ (gpart fs)) with (goals (gpart fs)). split; [|split].
        * exists σ. split; [done|]. split; [done|]. simpl. by rewrite put_sub.
        * by rewrite put_sub, keep_sub.
        * rewrite put_sub, (gpart_value fs). done.
      + intros ys (σ & Hσ & E1 & E2). simpl in *. subst ys. split.
        * exists σ. split; [done|]. split; [done|]. simpl. change (omap _ (gpart fs)) with (goals (gpart fs)). by rewrite keep_sub.
        * by rewrite keep_sub, put_sub.
    - apply (sum_over_bij _ _ _ _ (keep fs) (put fs)).
      + intros ys (σ & Hσ & E1 & E2). simpl in *. subst ys. split; [|split].
        * exists σ. split; [done|]. split; [done|]. simpl. change (omap _ (gpart fs)) with (goals (gpart fs)). by rewrite keep_sub.
        * by rewrite keep_sub, put_sub.
        * rewrite keep_sub, (gpart_value fs). done.
      + intros ys (σ & Hσ & E1 & E2). simpl in *. subst ys.
        change (omap _ (gpart fs)) with (goals (gpart fs)). split.
        * exists σ. split; [done|]. split; [done|]. simpl. by rewrite put_sub.
        * by rewrite put_sub, keep_sub.
  Qed.

  (** A factor 1 does nothing; a factor 0 removes the rule. *)
  Lemma rule_value_one h fs x v : rule_value I (WRule h (Val sone :: fs)) x v <-> rule_value I (WRule h fs) x v.
  Proof.
    split; apply sum_over_ext; intros ys _; simpl; by rewrite smul_1_l.
  Qed.
  Lemma rule_value_zero h fs x v : rule_value I (WRule h (Val szero :: fs)) x v <-> v = szero.
  Proof. apply sum_over_zero_iff. intros ys _. simpl. apply smul_0_l. Qed.

  (** The value of a constant rule. *)
  Lemma matches_dec h x : ground x -> Decision (exists σ, (forall v, ground (σ v)) /\ sub σ h = x).
  Proof.
    intros Hx. destruct (cover (tsize x) ∅ h x) as [[s b]| |] eqn:E.
    2,3: exfalso; destruct (covers_spec (tsize x) h x) as (s & b & E' & _); [intros v _ Hv; by rewrite Hx in Hv|done|congruence].
    destruct b.
    - left. destruct (covers_spec (tsize x) h x) as (s' & b' & E' & Hb & _); [intros v _ Hv; by rewrite Hx in Hv|done|].
      assert (b' = true) as -> by congruence. destruct (proj1 Hb eq_refl) as [σ Hσ].
      exists (fun v => sub (fun _ => Cst (CInt 0)) (σ v)). split.
      + intros v. apply elem_of_nil_inv. intros w Hw. apply elem_of_list_In, vars_sub in Hw as (u & _ & []).
      + rewrite <- (sub_ground (fun _ => Cst (CInt 0)) x Hx), <- Hσ. by rewrite sub_sub.
    - right. intros (σ & _ & Hσ). destruct (covers_spec (tsize x) h x) as (s' & b' & E' & Hb & _); [intros v _ Hv; by rewrite Hx in Hv|done|].
      assert (b' = false) as -> by congruence. enough (false = true) by done. apply Hb. by exists σ.
  Qed.

  Definition matches (h x : term) : Prop := exists σ, (forall v, ground (σ v)) /\ sub σ h = x.

  Lemma ground_sub_all σ t : (forall v : nat, ground (σ v)) -> ground (sub σ t).
  Proof. intros H. apply elem_of_nil_inv. intros w Hw. apply elem_of_list_In, vars_sub in Hw as (u & _ & Hu). by rewrite H in Hu. Qed.

  Lemma matches_em h x : matches h x \/ ~ matches h x.
  Proof.
    destruct (decide (ground x)) as [Hx|Hx].
    - destruct (matches_dec h x Hx); [by left|by right].
    - right. intros (σ & Hσ & <-). apply Hx. by apply ground_sub_all.
  Qed.

  Lemma rule_value_const h fs x v : goals fs = [] ->
    rule_value I (WRule h fs) x v <-> (matches h x /\ v = body_value I fs []) \/ (~ matches h x /\ v = szero).
  Proof.
    intros Hg. destruct (matches_em h x) as [Hm|Hm].
    - assert (Hi : winst (WRule h fs) x []) by (destruct Hm as (σ & H1 & H2); exists σ; simpl; rewrite Hg; done).
      unfold rule_value. rewrite (sum_over_single _ _ [] v Hi).
      + simpl. naive_solver.
      + intros ys (σ & _ & _ & E). simpl in E. rewrite Hg in E. done.
    - unfold rule_value. rewrite sum_over_zero_iff; [naive_solver|].
      intros ys (σ & H1 & H2 & _). destruct Hm. by exists σ.
  Qed.

  Lemma matches_variant h h' x : variant h h' -> matches h x <-> matches h' x.
  Proof.
    assert (H : forall h h', variant h h' -> matches h' x -> matches h x).
    { clear. intros h h' (ρ & _ & ->) (σ & H1 & <-). exists (fun v => σ (ρ v)). split; [intros v; apply H1|].
      unfold rename. by rewrite sub_sub. }
    intros Hv. split; apply H; [by apply variant_sym|done].
  Qed.

  (** Two constant rules with the same head up to renaming can be merged. *)
  Lemma rule_value_merge h h' a b x v : variant h h' ->
    rule_value I (WRule h [Val (sadd a b)]) x v <->
    exists v1 v2, rule_value I (WRule h [Val a]) x v1 /\ rule_value I (WRule h' [Val b]) x v2 /\ v = sadd v1 v2.
  Proof.
    intros Hv. rewrite !rule_value_const by done.
    pose proof (matches_variant h h' x Hv) as Hm.
    setoid_rewrite rule_value_const; [|done..]. simpl. rewrite !smul_1_r. split.
    - intros [[H ->]|[H ->]].
      + exists a, b. split; [by left|]. split; [left; by rewrite <- Hm|done].
      + exists szero, szero. split; [by right|]. split; [right; by rewrite <- Hm|]. by rewrite sadd_0_l.
    - intros (v1 & v2 & [[H ->]|[H ->]] & [[H' ->]|[H' ->]] & ->); try (rewrite <- Hm in H'; done).
      + by left.
      + right. split; [done|]. by rewrite sadd_0_l.
  Qed.

  (** Renaming the variables of a rule. *)

  Lemma goals_fsub τ (fs : list (factor R)) : goals (map (fsub τ) fs) = map (sub τ) (goals fs).
  Proof. induction fs as [|[v|b] fs IH]; [done|exact IH|]. simpl. f_equal. exact IH. Qed.
  Lemma body_value_fsub τ fs ys : body_value I (map (fsub τ) fs) ys = body_value I fs ys.
  Proof.
    revert ys. induction fs as [|[v|b] fs IH]; intros ys; [done|simpl; by rewrite IH|]. destruct ys as [|y ys]; [done|]. simpl. by rewrite IH.
  Qed.

  Lemma winst_rename ρ (r : wrule R) x ys : rrenames ρ r -> winst (rrename ρ r) x ys <-> winst r x ys.
  Proof.
    intros Hρ. split.
    - intros (σ & H1 & H2 & H3). exists (fun v => σ (ρ v)). split; [intros v; apply H1|]. simpl in *. split.
      + rewrite <- H2. by rewrite sub_sub.
      + rewrite <- H3, goals_fsub, map_map. apply map_ext. intros b. by rewrite sub_sub.
    - intros (σ & H1 & H2 & H3). set (τ v := σ (inv_on ρ (wvars r) v)).
      assert (Hτ : forall v, v ∈ wvars r -> τ (ρ v) = σ v).
      { intros v Hv. unfold τ. f_equal. apply inv_on_spec; [|by apply elem_of_list_In]. intros a b Ha Hb. apply Hρ; by apply elem_of_list_In. }
      exists τ. split; [intros v; apply H1|]. simpl. split.
      + rewrite <- H2, sub_sub. apply sub_ext. intros v Hv. simpl. apply Hτ. unfold wvars. apply elem_of_app. left. by apply elem_of_list_In.
      + rewrite <- H3, goals_fsub, map_map. apply map_ext_in. intros b Hb. rewrite sub_sub. apply sub_ext. intros v Hv. simpl. apply Hτ.
        unfold wvars. apply elem_of_app. right. apply elem_of_list_In, in_flat_map. eauto.
  Qed.
  Lemma rule_value_rename ρ (r : wrule R) x v : rrenames ρ r -> rule_value I (rrename ρ r) x v <-> rule_value I r x v.
  Proof.
    intros Hρ. unfold rule_value. rewrite (sum_over_iff _ _ _ _ (fun ys => winst_rename ρ r x ys Hρ)).
    split; apply sum_over_ext; intros ys _; simpl; by rewrite body_value_fsub.
  Qed.

  (** * Lists of rules *)
  Lemma prog_value_nil x v : prog_value I [] x v <-> v = szero.
  Proof.
    split.
    - intros (vs & H & ->). by inversion H.
    - intros ->. exists []. split; [constructor|done].
  Qed.
  Lemma prog_value_app P Q x v : prog_value I (P ++ Q) x v <->
    exists v1 v2, prog_value I P x v1 /\ prog_value I Q x v2 /\ v = sadd v1 v2.
  Proof.
    split.
    - intros (vs & H & ->). apply Forall2_app_inv_l in H as (vs1 & vs2 & H1 & H2 & ->).
      exists (suml vs1 id), (suml vs2 id). split; [by exists vs1|]. split; [by exists vs2|]. apply suml_app.
    - intros (v1 & v2 & (vs1 & H1 & ->) & (vs2 & H2 & ->) & ->). exists (vs1 ++ vs2). split; [by apply Forall2_app|]. by rewrite suml_app.
  Qed.
  Lemma prog_value_one r x v : prog_value I [r] x v <-> rule_value I r x v.
  Proof.
    split.
    - intros (vs & H & ->). inversion H as [|? w ? ? H1 H2]; subst. inversion H2; subst. rewrite suml_cons, suml_nil. unfold id. by rewrite sadd_0_r.
    - intros H. exists [v]. split; [by repeat constructor|]. rewrite suml_cons, suml_nil. unfold id. by rewrite sadd_0_r.
  Qed.
  Lemma prog_value_ext P Q x v : Forall2 (fun r s => forall v, rule_value I r x v <-> rule_value I s x v) P Q ->
    prog_value I P x v <-> prog_value I Q x v.
  Proof.
    intros H. revert v. induction H as [|r s P Q H1 H2 IH]; intros v; [done|].
    change (r :: P) with ([r] ++ P). change (s :: Q) with ([s] ++ Q). rewrite !prog_value_app.
    setoid_rewrite prog_value_one. setoid_rewrite H1. by setoid_rewrite IH.
  Qed.
End values.

(** * The operations *)
Section ops.
  Context {R : semiring} (Hcomm : forall x y : R, smul x y = smul y x).
  Context (wt : const -> R) (negligible is_one : R -> bool) (al cv : nat -> nat).
  Context (Hal : forall i j, al i = al j -> i = j) (Hcv : forall i j, cv i = cv j -> i = j).
  Context (Hneg : forall C, negligible C = true -> C = szero) (Hone : forall C, is_one C = true -> C = sone).
  Context (I : term -> R) (HI : respects wt I).

  Section heap2.
  Context (st : store) (θ : nat -> term) (Hac : acyclic st) (Hθ : resolution st θ).

  Lemma factor_const_ok n f o : factor_const wt n st f = Ok o -> o = const_of wt (fsub θ f).
  Proof.
    destruct f as [v|b]; simpl; [by intros [= <-]|]. intros E.
    destruct (snap n st b) as [b'| |] eqn:Es; [|discriminate E..]. simpl in E.
    destruct (snap_ok st θ Hac Hθ n b b' Es) as (H1 & H2 & _). rewrite <- H1.
    destruct b' as [v|k|xs]; injection E as <-; simpl; try done.
    destruct (Hθ) as [_ Hf]. by rewrite (Hf v (H2 v eq_refl)).
  Qed.
  Lemma factor_const_settles f : settles (fun n => factor_const wt n st f) (const_of wt (fsub θ f)).
  Proof.
    destruct f as [v|b]; [apply settles_ret|].
    destruct (snap_settles st θ Hac Hθ b) as (b' & [n0 Hs] & _). exists n0. intros n Hn.
    assert (E : factor_const wt n st (Goal b) = Ok (match b' with Cst k => Some (wt k) | _ => None end)).
    { unfold factor_const. rewrite Hs by done. done. }
    rewrite E. f_equal. by apply (factor_const_ok n).
  Qed.

  Lemma split_body_ok n fs C xs C' xs' : split_body wt n st fs C xs = Ok (C', xs') ->
    C' = smul C (cpart wt (map (fsub θ) fs)) /\
    map (fsub θ) xs' = map (fsub θ) xs ++ gpart wt (map (fsub θ) fs).
  Proof.
    revert C xs. induction fs as [|f fs IH]; intros C xs.
    - intros [= <- <-]. simpl. by rewrite smul_1_r, app_nil_r.
    - cbn [split_body]. destruct (factor_const wt n st f) as [o| |] eqn:Ef; [|discriminate..]. cbn [bind].
      apply factor_const_ok in Ef. subst o. cbn [map cpart gpart]. destruct (const_of wt (fsub θ f)) as [v|].
      + intros E. destruct (IH _ _ E) as [-> ->]. by rewrite smul_assoc.
      + intros E. destruct (IH _ _ E) as [-> ->]. rewrite map_app, <- app_assoc. done.
  Qed.
  Lemma split_body_settles fs : forall C xs, exists r, settles (fun n => split_body wt n st fs C xs) r.
  Proof.
    induction fs as [|f fs IH]; intros C xs; [eexists; apply settles_ret|].
    destruct (const_of wt (fsub θ f)) as [v|] eqn:Ec.
    - destruct (IH (smul C v) xs) as [r Hr]. exists r.
      eapply (settles_bind _ (fun n o => match o with Some v => split_body wt n st fs (smul C v) xs | None => split_body wt n st fs C (xs ++ [f]) end)); [apply factor_const_settles|]. by rewrite Ec.
    - destruct (IH C (xs ++ [f])) as [r Hr]. exists r.
      eapply (settles_bind _ (fun n o => match o with Some v => split_body wt n st fs (smul C v) xs | None => split_body wt n st fs C (xs ++ [f]) end)); [apply factor_const_settles|]. by rewrite Ec.
  Qed.

  Lemma constant_folding_rhs_ok n r o : constant_folding_rhs wt negligible is_one n st r = Ok o ->
    match o with
    | None => forall x v, rule_value I (rsub θ r) x v <-> v = szero
    | Some r' => wbody r' <> [] /\ whead r' = whead r /\
                 forall x v, rule_value I (rsub θ r') x v <-> rule_value I (rsub θ r) x v
    end.
  Proof.
    unfold constant_folding_rhs.
    destruct (split_body wt n st (wbody r) sone []) as [[C xs]| |] eqn:Es; [|discriminate..]. cbn [bind].
    apply split_body_ok in Es as [EC Ex]. rewrite smul_1_l in EC. simpl in Ex.
    assert (Hf : forall x v, rule_value I (rsub θ (WRule (whead r) (Val C :: xs))) x v <-> rule_value I (rsub θ r) x v).
    { intros x v. unfold rsub at 1. cbn [whead wbody map fsub]. rewrite Ex, EC. apply rule_value_fold; done. }
    destruct (negligible C) eqn:En.
    - intros [= <-] x v. rewrite <- Hf. apply Hneg in En as ->. apply rule_value_zero.
    - destruct (is_one C && _) eqn:E1.
      + intros [= <-]. apply andb_prop in E1 as [E1 E2]. apply Hone in E1. split; [by destruct xs|]. split; [done|].
        intros x v. rewrite <- Hf. rewrite E1. symmetry. apply rule_value_one.
      + intros [= <-]. done.
  Qed.
  Lemma constant_folding_rhs_settles r : exists o, settles (fun n => constant_folding_rhs wt negligible is_one n st r) o.
  Proof.
    destruct (split_body_settles (wbody r) sone []) as [[C xs] [n0 H]].
    exists (if negligible C then None
      else if is_one C && negb (match xs with [] => true | _ => false end) then Some (WRule (whead r) xs)
      else Some (WRule (whead r) (Val C :: xs))).
    exists n0. intros n Hn. unfold constant_folding_rhs. rewrite H by done. cbn [bind]. by repeat case_match.
  Qed.

  Lemma get_const_rhs_ok n r C : get_const_rhs wt n st r = Ok (Some C) ->
    (wbody r = [] \/ exists f, wbody r = [f] /\ const_of wt (fsub θ f) = Some C) /\
    goals (gpart wt (map (fsub θ) (wbody r))) = [] /\
    forall h x v, rule_value I (WRule h [Val C]) x v <-> rule_value I (WRule h (map (fsub θ) (wbody r))) x v.
  Proof.
    unfold get_const_rhs. destruct (wbody r) as [|f [|g fs]] eqn:Eb; [| |discriminate].
    - intros [= <-]. split; [by left|]. split; [done|]. intros h x v. apply rule_value_one.
    - intros E. apply factor_const_ok in E. split; [right; eauto|]. cbn [map gpart]. rewrite <- E. split; [done|].
      intros h x v. rewrite <- (rule_value_fold Hcomm wt I HI h [fsub θ f]). cbn [cpart gpart]. rewrite <- E. by rewrite smul_1_r.
  Qed.
  Lemma get_const_rhs_settles r : exists o, settles (fun n => get_const_rhs wt n st r) o.
  Proof.
    unfold get_const_rhs. destruct (wbody r) as [|f [|g fs]]; [eexists; apply settles_ret| |eexists; apply settles_ret].
    eexists. apply factor_const_settles.
  Qed.

  Lemma refill_map (g : term -> term) (fs : list (factor R)) :
    refill fs (map g (goals fs)) = map (fun f => match f with Val v => Val v | Goal b => Goal (g b) end) fs.
  Proof. induction fs as [|[v|b] fs IH]; [done|..]; simpl; f_equal; exact IH. Qed.
  Lemma rename_rsub ρ (r : wrule R) : refill (wbody r) (map (fun b => rename ρ (sub θ b)) (goals (wbody r))) =
    wbody (rrename ρ (rsub θ r)).
  Proof. rewrite refill_map. simpl. rewrite map_map. apply map_ext. by intros [v|b]. Qed.
  Lemma vars_rsub (r : wrule R) : vars (sub θ (Fn (whead r :: goals (wbody r)))) = wvars (rsub θ r).
  Proof. unfold wvars. simpl. rewrite goals_fsub. by rewrite flat_map_concat_map, <- flat_map_concat_map. Qed.

  Lemma fresh_rule_ok n c (r r' : wrule R) c' : fresh_rule al n st c r = Ok (r', c') ->
    exists ρ, r' = rrename ρ (rsub θ r) /\ rrenames ρ (rsub θ r) /\ c <= c' /\
      forall v, v ∈ wvars r' -> exists j, v = al j /\ c <= j < c'.
  Proof.
    unfold fresh_rule. destruct (fresh al n st c _) as [[t c2]| |] eqn:Ef; [|discriminate..]. cbn [bind].
    apply (fresh_ok st θ Hac Hθ al Hal) in Ef as (ρ & -> & Hc & Hr & Hv). cbn [sub rename map]. rewrite vars_rsub in Hv.
    unfold renames in Hr. rewrite vars_rsub in Hr.
    intros E. unfold rename in E. cbn [sub map] in E. injection E as E <-.
    exists ρ. split; [|split; [|split; [done|]]].
    - rewrite <- E. unfold rrename, rsub at 1. cbn [whead wbody]. f_equal. rewrite map_map. apply rename_rsub.
    - intros v w Hv' Hw'. apply Hr; by apply elem_of_list_In.
    - intros v Hv'. rewrite <- E in Hv'. rewrite map_map in Hv'. unfold wvars in Hv'. cbn [whead wbody] in Hv'.
      change (fun x => sub (λ v : nat, Var (ρ v)) (sub θ x)) with (fun b => rename ρ (sub θ b)) in Hv'.
      rewrite rename_rsub in Hv'. cbn [wbody rrename rsub] in Hv'. rewrite goals_fsub in Hv'.
      apply elem_of_app in Hv'. destruct Hv' as [Hv'|Hv'].
      + apply elem_of_list_In, vars_sub in Hv' as (u & Hu & [<-|[]]). apply Hv. unfold wvars. apply in_app_iff. by left.
      + apply elem_of_list_In, in_flat_map in Hv' as (b & Hb & Hv'). apply in_map_iff in Hb as (b' & <- & Hb').
        apply vars_sub in Hv' as (u & Hu & [<-|[]]). apply Hv. unfold wvars. apply in_app_iff. right. apply in_flat_map. eauto.
  Qed.
  Lemma fresh_rule_settles c (r : wrule R) : exists r' c', settles (fun n => fresh_rule al n st c r) (r', c').
  Proof.
    destruct (fresh_heap st θ Hac Hθ al Hal c (Fn (whead r :: goals (wbody r)))) as (ρ & c' & [n0 H] & _).
    eexists _, c'. exists n0. intros n Hn. unfold fresh_rule. rewrite H by done. cbn [bind]. unfold rename. cbn [sub map]. reflexivity.
  Qed.

  End heap2.

  (** * Invariants *)
  Definition functor (r : wrule R) : option term :=
    match whead r with Fn (Cst f :: _) => Some (Cst f) | _ => None end.
  Definition positions (f : term) (rs : list (wrule R)) : list nat :=
    filter (fun i => (rs !! i) ≫= functor = Some f) (seq 0 (length rs)).

  Lemma positions_app f (rs : list (wrule R)) r : positions f (rs ++ [r]) =
    positions f rs ++ (if decide (functor r = Some f) then [length rs] else []).
  Proof.
    unfold positions. rewrite app_length. simpl. rewrite seq_app, list.filter_app. simpl. f_equal.
    - apply filter_ext_in. intros i Hi. apply elem_of_seq in Hi. rewrite lookup_app_l by lia. done.
    - rewrite filter_cons, list.filter_nil. rewrite lookup_app_r, Nat.sub_diag by lia. simpl. by repeat case_decide.
  Qed.

  Notation const_rule := (const_rule wt).
  Definition bucket_ok (rs : list (wrule R)) (bk : gmap term nat) : Prop :=
    forall h i, bk !! h = Some i -> exists s, rs !! i = Some s /\ canonical cv (whead s) = h /\ const_rule s.
  Definition index_ok (rs : list (wrule R)) (ix : gmap term (list nat)) : Prop :=
    forall f, default [] (ix !! f) = positions f rs.
  Definition good_rule (r : wrule R) : Prop := wbody r <> [] /\ item_head (whead r).
  Record inv (P : pstate R) : Prop := {
    inv_rules : forall r, r ∈ p_rules P -> good_rule r;
    inv_bk : forall bk, p_buckets P = Some bk -> bucket_ok (p_rules P) bk;
    inv_ix : forall ix, p_f2r P = Some ix -> index_ok (p_rules P) ix }.

  Lemma head_fn_item n st h f : head_fn (S n) st (Fn (Cst f :: h)) = Ok (Cst f).
  Proof. done. Qed.
  Lemma head_fn_ok n st f args g : head_fn n st (Fn (Cst f :: args)) = Ok g -> g = Cst f.
  Proof. destruct n; [done|]. by intros [= <-]. Qed.

  Lemma bucket_ok_app rs bk r : bucket_ok rs bk -> bucket_ok (rs ++ [r]) bk.
  Proof.
    intros H h i E. destruct (H h i E) as (s & Es & Hs). exists s. split; [|done]. by apply lookup_app_l_Some.
  Qed.

  Lemma add_rule_ok n st (r : wrule R) P P' i : inv P -> good_rule r -> add_rule n st r P = Ok (P', i) ->
    inv P' /\ p_rules P' = p_rules P ++ [r] /\ p_buckets P' = p_buckets P /\ i = length (p_rules P) /\ p_c P' = p_c P.
  Proof.
    intros HP Hr. unfold add_rule.
    assert (Hrs : forall r', r' ∈ p_rules P ++ [r] -> good_rule r').
    { intros r' H. apply elem_of_app in H as [H|H]; [by apply HP|]. by apply elem_of_list_singleton in H as ->. }
    destruct (p_f2r P) as [ix|] eqn:Ei.
    - destruct Hr as [Hb (f & args & Hh)]. destruct (head_fn n st (whead r)) as [g| |] eqn:Eg; [|discriminate..].
      rewrite Hh in Eg. apply head_fn_ok in Eg as ->. cbn [bind]. intros [= <- <-]. simpl. split; [|done]. split; simpl; [done|..].
      + intros bk E. apply bucket_ok_app. by apply HP.
      + intros ix' [= <-] f'. rewrite positions_app. unfold functor. rewrite Hh.
        pose proof (inv_ix P HP ix Ei f') as E. destruct (decide (f' = Cst f)) as [->|Hn].
        * rewrite lookup_insert. simpl. rewrite E. by rewrite decide_True.
        * rewrite lookup_insert_ne by done. rewrite E. rewrite decide_False by congruence. by rewrite app_nil_r.
    - intros [= <- <-]. simpl. split; [|done]. split; simpl; [done| |done].
      intros bk E. apply bucket_ok_app. by apply HP.
  Qed.
  Lemma add_rule_settles st (r : wrule R) P : good_rule r -> exists P' i, settles (fun n => add_rule n st r P) (P', i).
  Proof.
    intros [_ (f & args & Hh)]. unfold add_rule. destruct (p_f2r P) as [ix|].
    - eexists _, _. exists 1. intros [|n] Hn; [lia|]. rewrite Hh. cbn -[app]. reflexivity.
    - eexists _, _. apply settles_ret.
  Qed.

  Lemma unbound_rsub st θ (rs : list (wrule R)) r : resolution st θ -> unbound st rs -> r ∈ rs -> rsub θ r = r.
  Proof.
    intros Hθ Hu Hr. destruct r as [h fs]. unfold rsub. simpl. f_equal.
    - apply (unbound_sub st θ Hθ). intros v Hv. apply (Hu _ v Hr). unfold wvars. apply elem_of_app. left. by apply elem_of_list_In.
    - assert (H : forall b, In b (goals fs) -> sub θ b = b).
      { intros b Hb. apply (unbound_sub st θ Hθ). intros v Hv. apply (Hu _ v Hr). unfold wvars. apply elem_of_app. right.
        apply elem_of_list_In, in_flat_map. eauto. }
      clear Hr. induction fs as [|[v|b] fs IH]; [done|..]; simpl; f_equal.
      + apply IH. intros b Hb. apply H. done.
      + f_equal. apply H. by left.
      + apply IH. intros b' Hb. apply H. by right.
  Qed.

  Lemma make_buckets_ok n st θ (rs0 rs : list (wrule R)) i bk bk' : acyclic st -> resolution st θ -> unbound st rs0 ->
    (forall r, r ∈ rs0 -> good_rule r) -> (forall j, rs !! j = rs0 !! (i + j)) ->
    bucket_ok rs0 bk -> make_buckets wt cv n st i rs bk = Ok bk' -> bucket_ok rs0 bk'.
  Proof.
    intros Hac Hθ Hu Hg. revert i bk. induction rs as [|r rs IH]; intros i bk Hsh Hbk; [by intros [= <-]|].
    cbn [make_buckets]. destruct (get_const_rhs wt n st r) as [o| |] eqn:Eg; [|discriminate..]. cbn [bind].
    assert (Hsh' : forall j, rs !! j = rs0 !! (S i + j)).
    { intros j. specialize (Hsh (S j)). simpl in Hsh. rewrite Hsh. f_equal. lia. }
    assert (Er : rs0 !! i = Some r) by (specialize (Hsh 0); simpl in Hsh; rewrite Hsh; f_equal; lia).
    destruct o as [C|]; [|by apply IH].
    destruct (canonicalize cv n st (whead r)) as [h| |] eqn:Eh; [|discriminate..]. cbn [bind].
    apply IH; [done|]. destruct (bk !! h) as [j|] eqn:Ej; [done|].
    intros h' i' E. destruct (decide (h' = h)) as [->|Hn]; [|rewrite lookup_insert_ne in E by done; by apply Hbk].
    rewrite lookup_insert in E. injection E as <-. exists r. split; [done|].
    pose proof (elem_of_list_lookup_2 _ _ _ Er) as Hin.
    pose proof (unbound_rsub st θ rs0 r Hθ Hu Hin) as Ers.
    apply (canonicalize_ok st θ Hac Hθ) in Eh as ->. apply (get_const_rhs_ok st θ Hac Hθ) in Eg as (Eb & _ & _).
    split.
    - f_equal. pose proof (f_equal whead Ers) as E. by simpl in E.
    - destruct Eb as [E|(f & E & Ec)]; [by destruct (Hg r Hin)|]. exists f, C. split; [done|].
      pose proof (f_equal wbody Ers) as E'. simpl in E'. rewrite E in E'. simpl in E'. injection E' as E'. by rewrite E' in Ec.
  Qed.
  Lemma make_buckets_settles st θ (rs : list (wrule R)) : acyclic st -> resolution st θ -> forall i bk, exists bk', settles (fun n => make_buckets wt cv n st i rs bk) bk'.
  Proof.
    intros Hac Hθ. induction rs as [|r rs IH]; intros i bk; [eexists; apply settles_ret|].
    destruct (get_const_rhs_settles st θ Hac Hθ r) as [o [n0 Ho]].
    destruct (canonicalize_settles st θ Hac Hθ cv (whead r)) as [n1 Hh].
    set (h := canonical cv (sub θ (whead r))) in *.
    destruct o as [C|].
    - destruct (IH (S i) (match bk !! h with None => <[h := i]> bk | Some _ => bk end)) as [bk' [n2 H2]].
      exists bk', (n0 + n1 + n2). intros n Hn. cbn [make_buckets]. rewrite Ho by lia. cbn [bind]. rewrite Hh by lia. cbn [bind]. by rewrite H2 by lia.
    - destruct (IH (S i) bk) as [bk' [n2 H2]].
      exists bk', (n0 + n2). intros n Hn. cbn [make_buckets]. rewrite Ho by lia. cbn [bind]. by rewrite H2 by lia.
  Qed.

  Lemma good_rrename ρ (r : wrule R) : good_rule r -> good_rule (rrename ρ r).
  Proof.
    intros [Hb (f & args & Hh)]. split; [by destruct r as [? []]|]. exists f, (map (sub (fun v => Var (ρ v))) args). simpl. by rewrite Hh.
  Qed.

  Lemma prog_value_insert rs i s s' x v a : rs !! i = Some s ->
    (forall v, rule_value I s' x v <-> exists v1 v2, rule_value I s x v1 /\ rule_value I a x v2 /\ v = sadd v1 v2) ->
    prog_value I (<[i := s']> rs) x v <-> prog_value I (rs ++ [a]) x v.
  Proof.
    intros E H. rewrite <- (take_drop_middle rs i s E) at 2.
    rewrite insert_take_drop by (by eapply lookup_lt_Some).
    change (s' :: drop (S i) rs) with ([s'] ++ drop (S i) rs). change (s :: drop (S i) rs) with ([s] ++ drop (S i) rs).
    rewrite <- !app_assoc. rewrite !prog_value_app. setoid_rewrite prog_value_app. setoid_rewrite prog_value_app.
    setoid_rewrite prog_value_one. setoid_rewrite H. split.
    - intros (v1 & v2 & H1 & (v3 & v4 & (v5 & v6 & H5 & H6 & ->) & H4 & ->) & ->).
      exists v1, (sadd v5 (sadd v4 v6)). split; [done|]. split.
      + exists v5, (sadd v4 v6). split; [done|]. split; [|done]. exists v4, v6. done.
      + f_equal. rewrite <- !sadd_assoc. f_equal. apply sadd_comm.
    - intros (v1 & v2 & H1 & (v3 & v4 & H3 & (v5 & v6 & H5 & H6 & ->) & ->) & ->).
      exists v1, (sadd (sadd v3 v6) v5). split; [done|]. split.
      + exists (sadd v3 v6), v5. split; [exists v3, v6; done|]. done.
      + f_equal. rewrite <- !sadd_assoc. f_equal. apply sadd_comm.
  Qed.

  Lemma positions_insert f (rs : list (wrule R)) i s s' : rs !! i = Some s -> functor s' = functor s -> positions f (<[i := s']> rs) = positions f rs.
  Proof.
    intros E H. unfold positions. rewrite insert_length. apply filter_ext_in. intros j Hj.
    destruct (decide (j = i)) as [->|Hn].
    - rewrite list_lookup_insert by (by eapply lookup_lt_Some). rewrite E. simpl. by rewrite H.
    - by rewrite list_lookup_insert_ne.
  Qed.

  Lemma update_bucket_ok n st θ r P P' o : acyclic st -> resolution st θ -> unbound st (p_rules P) -> inv P ->
    good_rule (rsub θ r) -> update_bucket wt al cv n st r P = Ok (P', o) ->
    match o with
    | None => P' = P
    | Some _ => inv P' /\ forall x v, prog_value I (p_rules P') x v <-> prog_value I (p_rules P ++ [rsub θ r]) x v
    end.
  Proof.
    intros Hac Hθ Hu HP Hr. unfold update_bucket.
    destruct (get_const_rhs wt n st r) as [[C|]| |] eqn:Eg; [|by intros [= <- <-]|discriminate..]. cbn [bind].
    destruct (canonicalize cv n st (whead r)) as [h| |] eqn:Eh; [|discriminate..]. cbn [bind].
    apply (canonicalize_ok st θ Hac Hθ) in Eh.
    destruct (get_const_rhs_ok st θ Hac Hθ n r C Eg) as (Hb & Hgp & Hval).
    destruct (p_buckets P) as [bk|] eqn:Ebk; [|discriminate].
    pose proof (inv_bk P HP bk Ebk) as Hbk.
    destruct (bk !! h) as [i|] eqn:Ei.
    - unfold merge_at. destruct (Hbk h i Ei) as (s & Es & Ehs & (f & v & Ef & Ev)). rewrite Es, Ef.
      destruct (factor_const wt n st f) as [o1| |] eqn:Efc; [|discriminate..]. cbn [bind].
      apply (factor_const_ok st θ Hac Hθ) in Efc.
      pose proof (elem_of_list_lookup_2 _ _ _ Es) as Hin.
      pose proof (unbound_rsub st θ _ s Hθ Hu Hin) as Ers.
      assert (Eff : fsub θ f = f).
      { pose proof (f_equal wbody Ers) as E'. simpl in E'. rewrite Ef in E'. simpl in E'. by injection E'. }
      rewrite Eff, Ev in Efc. subst o1. intros [= <- <-]. simpl. split.
      + destruct (inv_rules P HP s Hin) as [_ Hhead]. split; simpl.
        * intros r' Hr'. apply elem_of_list_lookup in Hr' as [j Hj]. destruct (decide (j = i)) as [->|Hn].
          -- rewrite list_lookup_insert in Hj by (by eapply lookup_lt_Some). injection Hj as <-. split; [done|exact Hhead].
          -- rewrite list_lookup_insert_ne in Hj by done. apply HP. by eapply elem_of_list_lookup_2.
        * intros bk' Ebk' h' i' E'. rewrite Ebk in Ebk'. injection Ebk' as <-. destruct (Hbk h' i' E') as (s' & Es' & Ehs' & Hc').
          destruct (decide (i' = i)) as [->|Hn].
          -- eexists. rewrite list_lookup_insert by (by eapply lookup_lt_Some). split; [reflexivity|]. simpl.
             assert (s' = s) as -> by congruence. split; [done|]. by exists (Val (sadd v C)), (sadd v C).
          -- exists s'. rewrite list_lookup_insert_ne by done. done.
        * intros ix Hix f'. rewrite (positions_insert f' _ i s) by done. by apply HP.
      + intros x w. apply (prog_value_insert _ i s); [done|]. intros u.
        assert (Hvar : variant (whead s) (sub θ (whead r))) by (apply (canonical_iff cv); [done|congruence]).
        rewrite (rule_value_merge I _ _ v C x u Hvar).
        assert (Hs : forall u, rule_value I (WRule (whead s) [Val v]) x u <-> rule_value I s x u).
        { intros u'. destruct s as [hs bs]. simpl in *. subst bs. rewrite <- (rule_value_fold Hcomm wt I HI hs [f]).
          cbn [cpart gpart]. rewrite Ev. by rewrite smul_1_r. }
        setoid_rewrite Hs. setoid_rewrite Hval. reflexivity.
    - destruct (fresh_rule al n st (p_c P) r) as [[r' c]| |] eqn:Ef; [|discriminate..]. cbn [bind].
      apply (fresh_rule_ok st θ Hac Hθ) in Ef as (ρ & -> & Hρ & Hc & Hv).
      destruct (add_rule n st _ _) as [[P2 i]| |] eqn:Ea; [|discriminate..]. cbn [bind].
      apply add_rule_ok in Ea as (HP2 & E2 & E3 & Eidx & _); [|split; cbn [p_rules p_buckets p_f2r]; [apply HP|by intros bk' [= <-]|apply HP]|by apply good_rrename].
      cbn [p_rules p_buckets] in *. intros [= <- <-]. simpl. split.
      + split; simpl; [apply HP2| |apply HP2]. intros bk' [= <-] h' i' E'. rewrite E2.
        destruct (decide (h' = h)) as [->|Hn].
        * rewrite lookup_insert in E'. injection E' as <-. exists (rrename ρ (rsub θ r)). rewrite Eidx.
          rewrite lookup_app_r, Nat.sub_diag by lia. split; [done|]. split.
          -- rewrite Eh. apply canonical_iff; [done|]. apply variant_sym. exists ρ. split; [|done].
             intros a b Ha Hb'. apply Hρ; unfold wvars; apply elem_of_app; left; by apply elem_of_list_In.
          -- destruct Hb as [Hb|(f & Hb & Hcf)].
             ++ destruct Hr as [Hr _]. destruct Hr. simpl. by rewrite Hb.
             ++ exists (fsub (fun v => Var (ρ v)) (fsub θ f)), C. split; [simpl; by rewrite Hb|].
                destruct (fsub θ f) as [u|[u|k|xs]]; simpl in *; congruence.
        * rewrite lookup_insert_ne in E' by done. exact (bucket_ok_app _ _ (rrename ρ (rsub θ r)) Hbk h' i' E').
      + intros x w. rewrite E2, !prog_value_app. setoid_rewrite prog_value_one. by setoid_rewrite rule_value_rename.
  Qed.

  Lemma update_ok n st θ r P P' : acyclic st -> resolution st θ -> unbound st (p_rules P) -> inv P ->
    item_head (sub θ (whead r)) -> update wt negligible is_one al cv n st r P = Ok P' ->
    inv P' /\ forall x v, prog_value I (p_rules P') x v <-> prog_value I (p_rules P ++ [rsub θ r]) x v.
  Proof.
    intros Hac Hθ Hu HP Hh. unfold update.
    destruct (constant_folding_rhs wt negligible is_one n st r) as [o| |] eqn:Ecf; [|discriminate..]. cbn [bind].
    pose proof (constant_folding_rhs_ok st θ Hac Hθ n r o Ecf) as Ho. destruct o as [r1|].
    2: { intros [= <-]. split; [done|]. intros x v. rewrite prog_value_app. setoid_rewrite prog_value_one. setoid_rewrite Ho. split.
         - intros H. exists v, szero. split; [done|]. split; [done|]. by rewrite sadd_0_r.
         - intros (v1 & v2 & H & -> & ->). by rewrite sadd_0_r. }
    destruct Ho as (Hb & Eh & Hval).
    assert (Hgood : good_rule (rsub θ r1)).
    { split; [simpl; by destruct (wbody r1)|]. simpl. by rewrite Eh. }
    set (m := match p_buckets P with Some _ => Ok P | None => _ end).
    destruct m as [P1| |] eqn:Em; [|discriminate..]. cbn [bind].
    assert (HP1 : inv P1 /\ p_rules P1 = p_rules P).
    { unfold m in Em. destruct (p_buckets P) as [bk|] eqn:Ebk; [by injection Em as <-|].
      destruct (make_buckets wt cv n st 0 (p_rules P) ∅) as [bk| |] eqn:Emb; [|discriminate..].
      injection Em as <-. split; [|done]. split; simpl; [apply HP| |apply HP].
      intros bk' [= <-]. eapply make_buckets_ok; [exact Hac|exact Hθ|exact Hu|apply HP| | |exact Emb]; [done|].
      intros h i E. by rewrite lookup_empty in E. }
    destruct HP1 as [HP1 E1]. clear Em.
    destruct (update_bucket wt al cv n st r1 P1) as [[P2 o]| |] eqn:Eub; [|discriminate..]. cbn [bind].
    apply (update_bucket_ok n st θ) in Eub; [|done|done|by rewrite E1|done|done].
    assert (Hfin : forall x v, prog_value I (p_rules P1 ++ [rsub θ r1]) x v <-> prog_value I (p_rules P ++ [rsub θ r]) x v).
    { intros x v. rewrite E1, !prog_value_app. setoid_rewrite prog_value_one. by setoid_rewrite Hval. }
    destruct o as [i|].
    - intros [= <-]. destruct Eub as [H1 H2]. split; [done|]. intros x v. by rewrite H2, Hfin.
    - subst P2. destruct (fresh_rule al n st (p_c P1) r1) as [[r2 c]| |] eqn:Ef; [|discriminate..]. cbn [bind].
      apply (fresh_rule_ok st θ Hac Hθ) in Ef as (ρ & -> & Hρ & Hc & Hv).
      destruct (add_rule n st _ _) as [[P3 i]| |] eqn:Ea; [|discriminate..]. cbn [bind]. intros [= <-].
      apply add_rule_ok in Ea as (HP3 & E2 & _); [|destruct HP1; by split|by apply good_rrename]. split; [done|].
      intros x v. rewrite <- Hfin, E2. cbn [p_rules]. rewrite !prog_value_app. setoid_rewrite prog_value_one. by setoid_rewrite rule_value_rename.
  Qed.

  Lemma update_bucket_settles st θ r P : acyclic st -> resolution st θ -> unbound st (p_rules P) -> inv P ->
    good_rule (rsub θ r) -> p_buckets P <> None -> exists o, settles (fun n => update_bucket wt al cv n st r P) o.
  Proof.
    intros Hac Hθ Hu HP Hr Hbn. destruct (p_buckets P) as [bk|] eqn:Ebk; [|done].
    destruct (get_const_rhs_settles st θ Hac Hθ r) as [[C|] [n0 Hg]].
    2: { eexists. exists n0. intros n Hn. unfold update_bucket. rewrite Hg by done. reflexivity. }
    destruct (canonicalize_settles st θ Hac Hθ cv (whead r)) as [n1 Hc].
    set (h := canonical cv (sub θ (whead r))) in *.
    destruct (bk !! h) as [i|] eqn:Ei.
    - destruct (inv_bk P HP bk Ebk h i Ei) as (s & Es & Ehs & (f & v & Ef & Ev)).
      destruct (factor_const_settles st θ Hac Hθ f) as [n2 Hf].
      assert (Eff : fsub θ f = f).
      { pose proof (unbound_rsub st θ _ s Hθ Hu (elem_of_list_lookup_2 _ _ _ Es)) as Ers.
        pose proof (f_equal wbody Ers) as E'. simpl in E'. rewrite Ef in E'. simpl in E'. by injection E'. }
      rewrite Eff, Ev in Hf.
      eexists. exists (n0 + n1 + n2). intros n Hn. unfold update_bucket. rewrite Hg by lia. cbn [bind]. rewrite Hc by lia. cbn [bind].
      rewrite Ebk, Ei. unfold merge_at. rewrite Es, Ef, Hf by lia. cbn [bind]. reflexivity.
    - destruct (fresh_rule_settles st θ Hac Hθ (p_c P) r) as (r' & c' & [n2 Hf]).
      assert (Hr' : good_rule r').
      { destruct (fresh_rule_ok st θ Hac Hθ n2 _ _ _ _ (Hf n2 (le_n _))) as (ρ & -> & _). by apply good_rrename. }
      destruct (add_rule_settles st r' (PState (p_rules P) (p_buckets P) (p_f2r P) c') Hr') as (P' & i & [n3 Ha]).
      eexists. exists (n0 + n1 + n2 + n3). intros n Hn. unfold update_bucket. rewrite Hg by lia. cbn [bind]. rewrite Hc by lia. cbn [bind].
      rewrite Ebk, Ei, Hf by lia. cbn [bind]. rewrite <- Ebk, Ha by lia. cbn [bind]. reflexivity.
  Qed.

  Lemma update_settles st θ r P : acyclic st -> resolution st θ -> unbound st (p_rules P) -> inv P ->
    item_head (sub θ (whead r)) -> exists P', settles (fun n => update wt negligible is_one al cv n st r P) P'.
  Proof.
    intros Hac Hθ Hu HP Hh.
    destruct (constant_folding_rhs_settles st θ Hac Hθ r) as [[r1|] [n0 Hcf]].
    2: { eexists. exists n0. intros n Hn. unfold update. rewrite Hcf by done. reflexivity. }
    destruct (constant_folding_rhs_ok st θ Hac Hθ n0 r _ (Hcf n0 (le_n _))) as (Hb & Eh & _).
    assert (Hgood : good_rule (rsub θ r1)) by (split; [simpl; by destruct (wbody r1)|simpl; by rewrite Eh]).
    set (m n := match p_buckets P with Some _ => Ok P | None => let* bk := make_buckets wt cv n st 0 (p_rules P) ∅ in Ok (PState (p_rules P) (Some bk) (p_f2r P) (p_c P)) end).
    assert (Hm : exists P1, settles m P1 /\ inv P1 /\ p_rules P1 = p_rules P /\ p_buckets P1 <> None).
    { unfold m. destruct (p_buckets P) as [bk|] eqn:Ebk.
      - exists P. split; [apply settles_ret|]. split; [done|]. split; [done|]. by rewrite Ebk.
      - destruct (make_buckets_settles st θ (p_rules P) Hac Hθ 0 ∅) as [bk [n1 H1]].
        exists (PState (p_rules P) (Some bk) (p_f2r P) (p_c P)). split; [|split; [|done]].
        + exists n1. intros n Hn. by rewrite H1.
        + split; simpl; [apply HP| |apply HP].
          intros bk' [= <-]. eapply make_buckets_ok; [exact Hac|exact Hθ|exact Hu|apply HP| | |exact (H1 n1 (le_n _))]; [done|].
          intros h i E. by rewrite lookup_empty in E. }
    destruct Hm as (P1 & [n1 Hm] & HP1 & E1 & Hbn).
    destruct (update_bucket_settles st θ r1 P1 Hac Hθ ltac:(by rewrite E1) HP1 Hgood Hbn) as [[P2 [i|]] [n2 Hub]].
    - exists P2, (n0 + n1 + n2). intros n Hn. unfold update. rewrite Hcf by lia. cbn [bind]. unfold m in Hm. rewrite Hm by lia. cbn [bind].
      rewrite Hub by lia. reflexivity.
    - pose proof (update_bucket_ok n2 st θ r1 P1 P2 None Hac Hθ ltac:(by rewrite E1) HP1 Hgood (Hub n2 (le_n _))) as ->.
      destruct (fresh_rule_settles st θ Hac Hθ (p_c P1) r1) as (r' & c' & [n3 Hf]).
      assert (Hr' : good_rule r').
      { destruct (fresh_rule_ok st θ Hac Hθ n3 _ _ _ _ (Hf n3 (le_n _))) as (ρ & -> & _). by apply good_rrename. }
      destruct (add_rule_settles st r' (PState (p_rules P1) (p_buckets P1) (p_f2r P1) c') Hr') as (P' & i & [n4 Ha]).
      exists P', (n0 + n1 + n2 + n3 + n4). intros n Hn. unfold update. rewrite Hcf by lia. cbn [bind]. unfold m in Hm. rewrite Hm by lia. cbn [bind].
      rewrite Hub by lia. cbn [bind]. rewrite Hf by lia. cbn [bind]. rewrite Ha by lia. reflexivity.
  Qed.


  (** * Constant rules are merged *)
  Definition complete (P : pstate R) : Prop :=
    merged wt (p_rules P) /\
    forall bk, p_buckets P = Some bk -> forall i r, p_rules P !! i = Some r -> const_rule r -> bk !! canonical cv (whead r) = Some i.

  Lemma get_const_rhs_none n st θ r : acyclic st -> resolution st θ -> get_const_rhs wt n st r = Ok None -> ~ const_rule (rsub θ r).
  Proof.
    intros Hac Hθ E (f & v & Hb & Hc). unfold get_const_rhs in E. simpl in Hb.
    destruct (wbody r) as [|g [|g' fs]]; [done| |done]. injection Hb as Hb.
    apply (factor_const_ok st θ Hac Hθ) in E. rewrite Hb, Hc in E. done.
  Qed.
  Lemma const_rule_rename ρ r : const_rule (rrename ρ r) <-> const_rule r.
  Proof.
    split.
    - intros (f & v & Hb & Hc). destruct r as [h [|g [|g' fs]]]; simpl in Hb; try done. injection Hb as <-.
      exists g, v. split; [done|]. by destruct g as [u|[u|k|xs]].
    - intros (f & v & Hb & Hc). exists (fsub (fun v => Var (ρ v)) f), v. split; [simpl; by rewrite Hb|]. by destruct f as [u|[u|k|xs]].
  Qed.
  Lemma canonical_rename ρ t : renames ρ t -> canonical cv (rename ρ t) = canonical cv t.
  Proof. intros Hρ. apply canonical_iff; [done|]. apply variant_sym. by exists ρ. Qed.

  Lemma make_buckets_complete n st θ (rs0 rs : list (wrule R)) i bk bk' : acyclic st -> resolution st θ -> unbound st rs0 ->
    (forall r, r ∈ rs0 -> good_rule r) -> merged wt rs0 -> (forall j, rs !! j = rs0 !! (i + j)) ->
    bucket_ok rs0 bk -> (forall h j, bk !! h = Some j -> j < i) ->
    (forall j r, j < i -> rs0 !! j = Some r -> const_rule r -> bk !! canonical cv (whead r) = Some j) ->
    make_buckets wt cv n st i rs bk = Ok bk' ->
    forall j r, rs0 !! j = Some r -> const_rule r -> bk' !! canonical cv (whead r) = Some j.
  Proof.
    intros Hac Hθ Hu Hg Hm. revert i bk. induction rs as [|r rs IH]; intros i bk Hsh Hbk Hlt Hc.
    - intros [= <-] j r Hj. apply Hc; [|done]. destruct (decide (j < i)) as [|Hn]; [done|].
      specialize (Hsh (j - i)). rewrite lookup_nil in Hsh. replace (i + (j - i)) with j in Hsh by lia. congruence.
    - cbn [make_buckets]. destruct (get_const_rhs wt n st r) as [o| |] eqn:Eg; [|discriminate..]. cbn [bind].
      assert (Hsh' : forall j, rs !! j = rs0 !! (S i + j)).
      { intros j. specialize (Hsh (S j)). simpl in Hsh. rewrite Hsh. f_equal. lia. }
      assert (Er : rs0 !! i = Some r) by (specialize (Hsh 0); simpl in Hsh; rewrite Hsh; f_equal; lia).
      pose proof (elem_of_list_lookup_2 _ _ _ Er) as Hin.
      pose proof (unbound_rsub st θ rs0 r Hθ Hu Hin) as Ers.
      destruct o as [C|].
      + destruct (canonicalize cv n st (whead r)) as [h| |] eqn:Eh; [|discriminate..]. cbn [bind].
        apply (canonicalize_ok st θ Hac Hθ) in Eh. assert (E0 : sub θ (whead r) = whead r) by (pose proof (f_equal whead Ers) as E; by simpl in E).
        rewrite E0 in Eh. subst h.
        assert (Hcr : const_rule r).
        { apply (get_const_rhs_ok st θ Hac Hθ) in Eg as (Eb & _ & _). destruct Eb as [E|(f & E & Ec)]; [by destruct (Hg r Hin)|].
          exists f, C. split; [done|]. pose proof (f_equal wbody Ers) as E'. simpl in E'. rewrite E in E'. simpl in E'. injection E' as E'. by rewrite E' in Ec. }
        assert (Hnone : bk !! canonical cv (whead r) = None).
        { destruct (bk !! canonical cv (whead r)) as [j|] eqn:Ej; [|done]. exfalso.
          destruct (Hbk _ _ Ej) as (s & Es & Ehs & Hcs). apply canonical_iff in Ehs; [|done].
          pose proof (Hm j i s r Es Er Hcs Hcr Ehs). apply Hlt in Ej. lia. }
        rewrite Hnone. apply IH; [done|..].
        * intros h' i' E. destruct (decide (h' = canonical cv (whead r))) as [->|Hn]; [|rewrite lookup_insert_ne in E by done; by apply Hbk].
          rewrite lookup_insert in E. injection E as <-. by exists r.
        * intros h' j E. destruct (decide (h' = canonical cv (whead r))) as [->|Hn]; [rewrite lookup_insert in E; injection E as <-; lia|].
          rewrite lookup_insert_ne in E by done. apply Hlt in E. lia.
        * intros j s Hj Es Hcs. destruct (decide (j = i)) as [->|Hn].
          -- assert (s = r) as -> by congruence. apply lookup_insert.
          -- assert (Hj' : bk !! canonical cv (whead s) = Some j) by (apply Hc; [lia|done..]). rewrite lookup_insert_ne; [done|]. intros E. congruence.
      + apply IH; [done|done|..].
        * intros h' j E. apply Hlt in E. lia.
        * intros j s Hj Es Hcs. destruct (decide (j = i)) as [->|Hn]; [|apply Hc; [lia|done..]].
          assert (s = r) as -> by congruence. exfalso. apply (get_const_rhs_none n st θ r Hac Hθ Eg). by rewrite Ers.
  Qed.

  Lemma merged_app_nonconst rs (r : wrule R) : merged wt rs -> ~ const_rule r -> merged wt (rs ++ [r]).
  Proof.
    intros Hm Hr i j a b Ha Hb Hca Hcb Hv.
    assert (H : forall i a, (rs ++ [r]) !! i = Some a -> const_rule a -> rs !! i = Some a).
    { intros i0 a0 Ha0 Hc0. apply lookup_app_Some in Ha0 as [Ha0|[_ Ha0]]; [done|]. apply list_lookup_singleton_Some in Ha0 as [_ <-]. done. }
    apply (Hm i j a b); auto.
  Qed.

  Lemma update_bucket_complete n st θ r P P' o bk0 : acyclic st -> resolution st θ -> unbound st (p_rules P) -> inv P ->
    good_rule (rsub θ r) -> p_buckets P = Some bk0 -> complete P -> update_bucket wt al cv n st r P = Ok (P', o) ->
    match o with
    | None => P' = P /\ ~ const_rule (rsub θ r)
    | Some _ => complete P'
    end.
  Proof.
    intros Hac Hθ Hu HP Hr Hbk0 [Hm Hco]. unfold update_bucket.
    destruct (get_const_rhs wt n st r) as [[C|]| |] eqn:Eg; [| |discriminate..].
    2: { intros [= <- <-]. split; [done|]. by eapply get_const_rhs_none. }
    cbn [bind].
    destruct (canonicalize cv n st (whead r)) as [h| |] eqn:Eh; [|discriminate..]. cbn [bind].
    apply (canonicalize_ok st θ Hac Hθ) in Eh.
    destruct (get_const_rhs_ok st θ Hac Hθ n r C Eg) as (Hb & _ & _).
    rewrite Hbk0. pose proof (inv_bk P HP bk0 Hbk0) as Hbk.
    destruct (bk0 !! h) as [i|] eqn:Ei.
    - unfold merge_at. destruct (Hbk h i Ei) as (s & Es & Ehs & (f & v & Ef & Ev)). rewrite Es, Ef.
      destruct (factor_const wt n st f) as [o1| |]; [|discriminate..]. cbn [bind]. destruct o1 as [v1|]; [|discriminate]. intros [= <- <-].
      assert (Hcs : const_rule s) by (by exists f, v).
      assert (H : forall j a, <[i:=WRule (whead s) [Val (sadd v1 C)]]> (p_rules P) !! j = Some a -> const_rule a ->
        exists a', p_rules P !! j = Some a' /\ const_rule a' /\ whead a' = whead a).
      { intros j a Ha Hca. destruct (decide (j = i)) as [->|Hn].
        - rewrite list_lookup_insert in Ha by (by eapply lookup_lt_Some). injection Ha as <-. by exists s.
        - rewrite list_lookup_insert_ne in Ha by done. by exists a. }
      split; simpl.
      + intros j k a b Ha Hb' Hca Hcb Hv. destruct (H j a Ha Hca) as (a' & Ea & Hca' & E1), (H k b Hb' Hcb) as (b' & Eb & Hcb' & E2).
        apply (Hm j k a' b'); try done. by rewrite E1, E2.
      + intros bk Ebk j a Ha Hca. destruct (H j a Ha Hca) as (a' & Ea & Hca' & <-). by apply Hco.
    - destruct (fresh_rule al n st (p_c P) r) as [[r' c]| |] eqn:Ef; [|discriminate..]. cbn [bind].
      apply (fresh_rule_ok st θ Hac Hθ) in Ef as (ρ & -> & Hρ & Hc & Hv).
      destruct (add_rule n st _ _) as [[P2 i]| |] eqn:Ea; [|discriminate..]. cbn [bind].
      apply add_rule_ok in Ea as (HP2 & E2 & E3 & Eidx & _); [|split; cbn [p_rules p_buckets p_f2r]; [apply HP|by intros bk' [= <-]|apply HP]|by apply good_rrename].
      cbn [p_rules p_buckets] in *. intros [= <- <-].
      assert (Hh : canonical cv (whead (rrename ρ (rsub θ r))) = h).
      { rewrite Eh. apply (canonical_rename ρ (sub θ (whead r))). intros a b Ha' Hb'. apply Hρ; unfold wvars; apply elem_of_app; left; by apply elem_of_list_In. }
      assert (Hcase : forall j a, (p_rules P ++ [rrename ρ (rsub θ r)]) !! j = Some a -> const_rule a ->
        (p_rules P !! j = Some a /\ canonical cv (whead a) <> h) \/ (j = length (p_rules P) /\ canonical cv (whead a) = h)).
      { intros j a Ha Hca. apply lookup_app_Some in Ha as [Ha|[Hj Ha]].
        - left. split; [done|]. intros E. pose proof (Hco _ Hbk0 j a Ha Hca). congruence.
        - right. apply list_lookup_singleton_Some in Ha as [Ha <-]. split; [lia|done]. }
      split; simpl; rewrite E2.
      + intros j k a b Ha Hb' Hca Hcb Hvar. apply (canonical_iff cv) in Hvar; [|done].
        destruct (Hcase j a Ha Hca) as [[Ea' Ha']|[-> Ha']], (Hcase k b Hb' Hcb) as [[Eb' Hb'']|[-> Hb'']]; try congruence.
        apply (Hm j k a b); try done. by apply (canonical_iff cv).
      + intros bk [= <-] j a Ha Hca. destruct (Hcase j a Ha Hca) as [[Ea' Ha']|[-> Ha']].
        * rewrite lookup_insert_ne by done. by apply Hco.
        * rewrite Ha', lookup_insert. by rewrite Eidx.
  Qed.

  Lemma update_complete n st θ r P P' : acyclic st -> resolution st θ -> unbound st (p_rules P) -> inv P ->
    item_head (sub θ (whead r)) -> complete P -> update wt negligible is_one al cv n st r P = Ok P' -> complete P'.
  Proof.
    intros Hac Hθ Hu HP Hh [Hm Hco]. unfold update.
    destruct (constant_folding_rhs wt negligible is_one n st r) as [o| |] eqn:Ecf; [|discriminate..]. cbn [bind].
    pose proof (constant_folding_rhs_ok st θ Hac Hθ n r o Ecf) as Ho. destruct o as [r1|]; [|by intros [= <-]].
    destruct Ho as (Hb & Eh & _).
    assert (Hgood : good_rule (rsub θ r1)) by (split; [simpl; by destruct (wbody r1)|simpl; by rewrite Eh]).
    set (m := match p_buckets P with Some _ => Ok P | None => _ end).
    destruct m as [P1| |] eqn:Em; [|discriminate..]. cbn [bind].
    assert (HP1 : inv P1 /\ complete P1 /\ p_rules P1 = p_rules P /\ exists bk, p_buckets P1 = Some bk).
    { unfold m in Em. destruct (p_buckets P) as [bk|] eqn:Ebk.
      { injection Em as <-. split; [done|]. split; [|split; [done|by exists bk]]. split; [done|]. intros bk' E. apply Hco. congruence. }
      destruct (make_buckets wt cv n st 0 (p_rules P) ∅) as [bk| |] eqn:Emb; [|discriminate..].
      assert (He : bucket_ok (p_rules P) ∅) by (intros h i E; by rewrite lookup_empty in E).
      injection Em as <-. split; [|split; [|split; [done|by eexists]]].
      - split; simpl; [apply HP| |apply HP]. intros bk' [= <-]. eapply make_buckets_ok; [exact Hac|exact Hθ|exact Hu|apply HP| | |exact Emb]; done.
      - split; [done|]. simpl. intros bk' [= <-]. eapply make_buckets_complete; [exact Hac|exact Hθ|exact Hu|apply HP|done| |exact He| | |exact Emb]; [done|..].
        + intros h j E. by rewrite lookup_empty in E.
        + intros j r0 Hj. lia. }
    destruct HP1 as (HP1 & Hc1 & E1 & bk & Ebk). clear Em.
    destruct (update_bucket wt al cv n st r1 P1) as [[P2 o]| |] eqn:Eub; [|discriminate..]. cbn [bind].
    apply (update_bucket_complete n st θ _ _ _ _ bk) in Eub; [|done|done|by rewrite E1|done..].
    destruct o as [i|]; [by intros [= <-]|]. destruct Eub as [-> Hnc].
    destruct (fresh_rule al n st (p_c P1) r1) as [[r2 c]| |] eqn:Ef; [|discriminate..]. cbn [bind].
    apply (fresh_rule_ok st θ Hac Hθ) in Ef as (ρ & -> & Hρ & Hc & Hv).
    destruct (add_rule n st _ _) as [[P3 i]| |] eqn:Ea; [|discriminate..]. cbn [bind]. intros [= <-].
    apply add_rule_ok in Ea as (HP3 & E2 & E3 & _); [|destruct HP1; by split|by apply good_rrename]. cbn [p_rules p_buckets] in *.
    destruct Hc1 as [Hm1 Hco1]. split; rewrite E2.
    - apply merged_app_nonconst; [done|]. by rewrite const_rule_rename.
    - intros bk' Ebk' j a Ha Hca. rewrite E3 in Ebk'. apply lookup_app_Some in Ha as [Ha|[_ Ha]]; [by apply Hco1|].
      apply list_lookup_singleton_Some in Ha as [_ <-]. exfalso. by apply Hnc, (const_rule_rename ρ).
  Qed.

  Lemma cpart_constants fs : cpart wt fs = prodl (constants wt fs).
  Proof. induction fs as [|[v|[v|k|xs]] fs IH]; [done|..]; simpl; rewrite IH; done. Qed.

  Lemma update_zero n st θ r P P' : acyclic st -> resolution st θ -> negligible szero = true ->
    prodl (constants wt (wbody (rsub θ r))) = szero -> update wt negligible is_one al cv n st r P = Ok P' -> P' = P.
  Proof.
    intros Hac Hθ Hz Hp. unfold update, constant_folding_rhs.
    destruct (split_body wt n st (wbody r) sone []) as [[C xs]| |] eqn:Es; [|discriminate..]. cbn [bind].
    apply (split_body_ok st θ Hac Hθ) in Es as [EC _]. rewrite smul_1_l, cpart_constants in EC. simpl in Hp. rewrite Hp in EC. subst C.
    rewrite Hz. cbn [bind]. by intros [= <-].
  Qed.

  (** * Lookup *)
  Context (ord : list term -> list term).

  Lemma build_f2r_ok n st sy rs0 rs i ix f ix' f' : (forall r, r ∈ rs -> good_rule r) -> rs0 = take i rs0 ++ rs -> i + length rs = length rs0 ->
    index_ok (take i rs0) ix -> build_f2r n st sy i rs ix f = Ok (ix', f') -> index_ok rs0 ix' /\ f' = f.
  Proof.
    revert i ix. induction rs as [|r rs IH]; intros i ix Hg E0 Hlen Hix.
    - intros [= <- <-]. rewrite app_nil_r in E0. by rewrite E0.
    - cbn [build_f2r]. destruct (Hg r) as [_ (k & args & Hh)]; [by left|]. rewrite Hh.
      destruct (head_fn n st _) as [g| |] eqn:Eg; [|discriminate..]. apply head_fn_ok in Eg as ->. cbn [bind].
      assert (Ei : rs0 !! i = Some r).
      { rewrite E0. simpl in Hlen. rewrite lookup_app_r; rewrite take_length; [|lia]. by replace (i - _) with 0 by lia. }
      apply IH.
      + intros r' Hr'. apply Hg. by right.
      + rewrite (take_S_r _ _ _ Ei). by rewrite <- app_assoc.
      + simpl in Hlen. lia.
      + rewrite (take_S_r _ _ _ Ei). intros f''. rewrite positions_app. rewrite take_length, Nat.min_l by (simpl in Hlen; lia).
        unfold functor. rewrite Hh. destruct (decide (f'' = Cst k)) as [->|Hn].
        * rewrite lookup_insert. simpl. rewrite (Hix (Cst k)). by rewrite decide_True.
        * rewrite lookup_insert_ne by done. rewrite (Hix f''). rewrite decide_False by congruence. by rewrite app_nil_r.
  Qed.
  Lemma build_f2r_settles st sy (rs : list (wrule R)) : (forall r, r ∈ rs -> good_rule r) -> forall i ix f, exists o, settles (fun n => build_f2r n st sy i rs ix f) o.
  Proof.
    induction rs as [|r rs IH]; intros Hg i ix f; [eexists; apply settles_ret|].
    destruct (Hg r) as [_ (k & args & Hh)]; [by left|].
    destruct (IH (fun r' Hr' => Hg r' (elem_of_list_further _ _ _ Hr')) (S i) (<[Cst k := default [] (ix !! Cst k) ++ [i]]> ix) f) as [o [n0 Ho]].
    exists o, (S n0). intros [|n] Hn; [lia|]. cbn [build_f2r]. rewrite Hh. cbn [head_fn snap bind]. apply Ho. lia.
  Qed.

  Lemma f2r_ok n st f (P P' : pstate R) is : inv P -> f2r ord n st f P = Ok (is, P') ->
    inv P' /\ p_rules P' = p_rules P /\ p_c P' = p_c P /\ is = positions f (p_rules P).
  Proof.
    intros HP. unfold f2r. destruct (p_f2r P) as [ix|] eqn:Ei.
    - intros [= <- <-]. split; [done|]. split; [done|]. split; [done|]. by apply HP.
    - destruct (syms n st (p_rules P)) as [sy| |]; [|discriminate..]. cbn [bind].
      destruct (build_f2r n st (ord sy) 0 (p_rules P) ∅ f) as [[ix f']| |] eqn:Eb; [|discriminate..]. cbn [bind].
      intros [= <- <-]. apply (build_f2r_ok n st _ (p_rules P)) in Eb as [Hix ->]; [|apply HP|done|done|].
      2: { intros f0. by rewrite lookup_empty. }
      simpl. split; [|split; [done|split; [done|apply Hix]]].
      split; simpl; [apply HP..|]. by intros ? [= <-].
  Qed.

  Lemma lookup_inv n st q (P P' : pstate R) os : inv P -> lookup al ord n st q P = Ok (os, P') -> inv P' /\ p_rules P' = p_rules P.
  Proof.
    intros HP. unfold lookup. destruct (snap n st q) as [q'| |]; [|discriminate..]. cbn [bind]. destruct q' as [v|k|xs].
    - destruct (match_rules _ _ _ _ _ _ _) as [[rs c]| |]; [|discriminate..]. intros [= <- <-]. split; [|done]. destruct HP. by split.
    - discriminate.
    - destruct (head_fn n st (Fn xs)) as [f| |]; [|discriminate..]. cbn [bind].
      destruct (f2r ord n st f P) as [[ix P1]| |] eqn:Ef; [|discriminate..]. cbn [bind].
      apply f2r_ok in Ef as (HP1 & E1 & _); [|done].
      destruct (match_rules _ _ _ _ _ _ _) as [[rs c]| |]; [|discriminate..]. intros [= <- <-]. split; [|done]. destruct HP1. by split.
  Qed.

  Lemma history_inv start rs P : history wt negligible is_one al cv ord start rs P ->
    inv P /\ forall x v, prog_value I (p_rules P) x v <-> prog_value I rs x v.
  Proof.
    induction 1 as [rs c Hg Hst|rs P n st θ r P' H [IH1 IH2] Hac Hθ Hu Hh E|rs P n st q os P' H [IH1 IH2] Hac Hu E|rs P i r P' H [IH1 IH2] E].
    - split; [|done]. by split.
    - apply (update_ok n st θ) in E as [H1 H2]; [|done..]. split; [done|]. intros x v. rewrite H2, !prog_value_app.
      by setoid_rewrite IH2.
    - apply lookup_inv in E as [H1 H2]; [|done]. split; [done|]. by rewrite H2.
    - unfold pop in E. destruct (p_rules P !! i) as [r'|] eqn:Er; [|discriminate]. injection E as <- <-. simpl. split; [|done].
      split; simpl; [|done..]. intros r Hr. apply IH1. apply elem_of_app in Hr as [Hr|Hr].
      + apply elem_of_list_lookup in Hr as [j Hj]. apply lookup_take_Some in Hj as [Hj _]. by eapply elem_of_list_lookup_2.
      + apply elem_of_list_lookup in Hr as [j Hj]. rewrite lookup_drop in Hj. by eapply elem_of_list_lookup_2.
  Qed.

  Lemma merged_pop rs i r : merged wt rs -> rs !! i = Some r -> merged wt (take i rs ++ drop (S i) rs).
  Proof.
    intros Hm Hi.
    assert (H : forall j a, (take i rs ++ drop (S i) rs) !! j = Some a -> rs !! (if decide (j < i) then j else S j) = Some a).
    { intros j a Hj. pose proof (lookup_lt_Some _ _ _ Hi) as Hl. apply lookup_app_Some in Hj as [Hj|[Hle Hj]].
      - apply lookup_take_Some in Hj as [Hj Hlt]. by rewrite decide_True.
      - rewrite take_length, Nat.min_l in * by lia. rewrite decide_False by lia. rewrite lookup_drop in Hj. rewrite <- Hj. f_equal. lia. }
    intros j k a b Ha Hb Hca Hcb Hv. pose proof (Hm _ _ _ _ (H j a Ha) (H k b Hb) Hca Hcb Hv) as E. repeat case_decide; lia.
  Qed.

  Lemma history_merged rs P : history wt negligible is_one al cv ord (merged wt) rs P -> complete P.
  Proof.
    induction 1 as [rs c Hg Hst|rs P n st θ r P' H IH Hac Hθ Hu Hh E|rs P n st q os P' H IH Hac Hu E|rs P i r P' H IH E].
    - by split.
    - apply history_inv in H as [HP _]. by eapply update_complete.
    - apply history_inv in H as [HP _]. destruct IH as [Hm Hco]. pose proof (lookup_inv _ _ _ _ _ _ HP E) as [_ E1].
      split; [by rewrite E1|]. rewrite E1. intros bk Ebk. apply Hco. rewrite <- Ebk. symmetry.
      clear -E. revert E. unfold lookup, f2r. destruct (snap n st q) as [[v|k|xs]| |]; cbn [bind]; [|discriminate| |discriminate..].
      + destruct (match_rules _ _ _ _ _ _ _) as [[rs c]| |]; [|discriminate..]. by intros [= <- <-].
      + destruct (head_fn n st (Fn xs)) as [f| |]; [|discriminate..]. cbn [bind]. destruct (p_f2r P).
        * cbn [bind]. destruct (match_rules _ _ _ _ _ _ _) as [[rs c]| |]; [|discriminate..]. by intros [= <- <-].
        * destruct (syms n st (p_rules P)) as [sy| |]; [|discriminate..]. cbn [bind].
          destruct (build_f2r _ _ _ _ _ _ _) as [[ix f']| |]; [|discriminate..]. cbn [bind].
          destruct (match_rules _ _ _ _ _ _ _) as [[rs c]| |]; [|discriminate..]. by intros [= <- <-].
    - unfold pop in E. destruct (p_rules P !! i) as [r'|] eqn:Er; [|discriminate]. injection E as <- <-. destruct IH as [Hm _].
      split; simpl; [|done]. by eapply merged_pop.
  Qed.

  (** [σ] on the query and the heap, [τ] on the rule: *)
  Lemma join_solution st q ρ (r : wrule R) σ τ : rrenames ρ r ->
    (forall v, v ∈ wvars r -> ~ In (ρ v) (vars q) /\ st !! ρ v = None /\ forall w t, st !! w = Some t -> ~ In (ρ v) (vars t)) ->
    solves σ st -> sub τ (whead r) = sub σ q -> exists σ', solves σ' st /\ sub σ' (whead (rrename ρ r)) = sub σ' q.
  Proof.
    intros Hρ Hf Hσ E.
    set (σ' v := if decide (v ∈ map ρ (wvars r)) then τ (inv_on ρ (wvars r) v) else σ v).
    assert (Hin : forall v, v ∈ wvars r -> σ' (ρ v) = τ v).
    { intros v Hv. unfold σ'. rewrite decide_True by (apply elem_of_list_In, in_map; by apply elem_of_list_In).
      f_equal. apply inv_on_spec; [|by apply elem_of_list_In]. intros a b Ha Hb. apply Hρ; by apply elem_of_list_In. }
    assert (Hout : forall v, (forall u, u ∈ wvars r -> v <> ρ u) -> σ' v = σ v).
    { intros v Hv. unfold σ'. apply decide_False. intros Hm. apply elem_of_list_In, in_map_iff in Hm as (u & <- & Hu).
      by apply elem_of_list_In, Hv in Hu. }
    exists σ'. split.
    - intros v t Et. rewrite (Hout v).
      + rewrite (Hσ v t Et). apply sub_ext. intros w Hw. symmetry. apply Hout. intros u Hu ->. by destruct (Hf u Hu) as (_ & _ & H); destruct (H v t Et).
      + intros u Hu ->. destruct (Hf u Hu) as (_ & H & _). congruence.
    - transitivity (sub σ q).
      + rewrite <- E. simpl. rewrite sub_sub. apply sub_ext. intros v Hv. simpl. apply Hin. unfold wvars. apply elem_of_app. left. by apply elem_of_list_In.
      + apply sub_ext. intros w Hw. symmetry. apply Hout. intros u Hu ->. by destruct (Hf u Hu) as (H & _).
  Qed.

  Notation fresh_from := (fresh_from al).
  Notation answer := (answer al).

  Lemma match_rules_ok n st q (rs : list (wrule R)) is c os c' : acyclic st -> unbound st rs -> fresh_from c st q ->
    match_rules al n st q rs is c = Ok (os, c') ->
    (exists keep : nat -> bool, map (fun o => fst (fst o)) os = List.filter keep is /\
      forall i, i ∈ is -> (keep i = true <-> meets st q rs i)) /\ Forall (answer c st q rs) os /\ c <= c'.
  Proof.
    intros Hac Hu. revert c os c'.
    induction is as [|i is IH]; intros c os c' Hf.
    { intros [= <- <-]. split; [|split; [constructor|done]]. exists (fun _ => true). split; [done|]. intros i Hi. by apply elem_of_nil in Hi. }
    cbn [match_rules]. destruct (rs !! i) as [r|] eqn:Ei; [|discriminate].
    destruct (acyclic_resolution st Hac) as [θ Hθ].
    destruct (fresh_rule al n st c r) as [[r' c1]| |] eqn:Ef; [|discriminate..]. cbn [bind].
    destruct (unify_f n st (whead r') q) as [[st' b]| |] eqn:Eu; [|discriminate..]. cbn [bind].
    destruct (match_rules al n st q rs is c1) as [[rest c2]| |] eqn:Em; [|discriminate..]. cbn [bind]. intros [= <- <-].
    apply (fresh_rule_ok st θ Hac Hθ) in Ef as (ρ & Er' & Hρ & Hc1 & Hv).
    rewrite (unbound_rsub st θ rs r Hθ Hu (elem_of_list_lookup_2 _ _ _ Ei)) in Er', Hρ.
    apply unify_ok in Eu as (Hac' & Hsub & Hb); [|done].
    apply IH in Em as ((keep & Ek & Hk) & Hans & Hc2); [|intros j Hj; apply Hf; lia].
    assert (Hfr : forall v, v ∈ wvars r' -> ~ In v (vars q) /\ st !! v = None /\ forall w t, st !! w = Some t -> ~ In v (vars t)).
    { intros v Hvv. destruct (Hv v Hvv) as (j & -> & Hj). apply Hf. lia. }
    assert (Hmeet : meets st q rs i <-> b = true).
    { split.
      - intros (r0 & σ & τ & E0 & Hσ & E). assert (r0 = r) as -> by congruence.
        destruct (join_solution st q ρ r σ τ Hρ) as (σ' & Hσ' & E'); [|done|done|].
        + intros v Hvr. apply Hfr. rewrite Er'. unfold rrename, rsub, wvars. simpl. rewrite goals_fsub. unfold wvars in Hvr.
          apply elem_of_app in Hvr as [Hvr|Hvr]; apply elem_of_app.
          * left. apply elem_of_list_In, vars_sub. exists v. split; [by apply elem_of_list_In|by left].
          * right. apply elem_of_list_In, in_flat_map in Hvr as (b0 & Hb0 & Hv0). apply elem_of_list_In, in_flat_map.
            exists (sub (fun v => Var (ρ v)) b0). split; [by apply in_map|]. apply vars_sub. exists v. split; [done|by left].
        + destruct b; [done|]. exfalso. apply (Hb σ' Hσ'). by rewrite Er'.
      - intros ->. destruct (acyclic_resolution st' Hac') as [θ' [Hθ' _]]. apply Hb in Hθ' as [H1 H2].
        exists r, θ', (fun v => θ' (ρ v)). split; [done|]. split; [done|]. rewrite <- H2, Er'. simpl. by rewrite sub_sub. }
    split; [|split; [|lia]].
    - (* the decision for position i; repeated positions agree *)
      exists (fun j => if decide (j = i) then b else keep j). split.
      + simpl. rewrite decide_True by done.
        assert (Er : map (fun o => fst (fst o)) rest = List.filter (fun j => if decide (j = i) then b else keep j) is).
        { rewrite Ek. apply List.filter_ext_in. intros j Hj. case_decide as Hji; [|done]. subst j.
          apply elem_of_list_In in Hj. specialize (Hk i Hj). destruct b, (keep i); try done; exfalso.
          - enough (false = true) by done. apply Hk. by apply Hmeet.
          - enough (false = true) by done. apply Hmeet. by apply Hk. }
        destruct b; simpl; [f_equal|]; exact Er.
      + intros j Hj. case_decide as Hji; [subst j; symmetry; apply Hmeet|]. apply elem_of_cons in Hj as [->|Hj]; [done|]. by apply Hk.
    - assert (Hrest : Forall (answer c st q rs) rest).
      { eapply Forall_impl; [exact Hans|]. intros [[i0 r0] st0] (r1 & ρ1 & H1 & H2 & H3 & H4 & H5 & H6). exists r1, ρ1.
        split; [done|]. split; [done|]. split; [done|]. split; [done|]. split; [|done]. intros v Hv1. destruct (H5 v Hv1) as (j & -> & Hj). exists j. split; [done|lia]. }
      destruct b; [|done]. constructor; [|done]. exists r, ρ. split; [done|]. split; [done|]. split; [done|]. split; [done|]. split; [|split; [|done]].
      { intros v Hv1. destruct (Hv v Hv1) as (j & -> & Hj). exists j. split; [done|lia]. }
      destruct (acyclic_resolution st' Hac') as [θ' [Hθ' _]]. by exists θ'.
  Qed.
  Lemma match_rules_settles st q (rs : list (wrule R)) is : acyclic st -> Forall (fun i => i < length rs) is -> forall c, exists o, settles (fun n => match_rules al n st q rs is c) o.
  Proof.
    intros Hac H. destruct (acyclic_resolution st Hac) as [θ Hθ]. induction H as [|i is Hi H IH]; intros c; [eexists; apply settles_ret|].
    destruct (lookup_lt_is_Some_2 rs i Hi) as [r Er].
    destruct (fresh_rule_settles st θ Hac Hθ c r) as (r' & c1 & [n0 H0]).
    destruct (unify_settles st (whead r') q Hac) as (st' & b & [n1 H1]).
    destruct (IH c1) as [[os c2] [n2 H2]].
    eexists. exists (n0 + n1 + n2). intros n Hn. cbn [match_rules]. rewrite Er, H0 by lia. cbn [bind]. rewrite H1 by lia. cbn [bind]. rewrite H2 by lia. reflexivity.
  Qed.

  Lemma fresh_from_snap c st θ q q' n : acyclic st -> resolution st θ -> snap n st q = Ok q' -> fresh_from c st q -> fresh_from c st q'.
  Proof.
    intros Hac Hθ. revert q. induction n as [|n IH]; intros q; [done|]. cbn [snap]. destruct q as [v|k|xs]; [|by intros [= <-]..].
    destruct (st !! v) as [t|] eqn:E; [|by intros [= <-]]. intros Es Hf. apply (IH t Es).
    intros j Hj. destruct (Hf j Hj) as (_ & H2 & H3). split; [|done]. by apply (H3 v).
  Qed.

  Lemma filter_sorted (p : nat -> bool) a m : StronglySorted lt (List.filter p (seq a m)).
  Proof.
    revert a. induction m as [|m IH]; intros a; [constructor|]. simpl. destruct (p a); [|apply IH]. constructor; [apply IH|].
    apply List.Forall_forall. intros x Hx. apply filter_In in Hx as [Hx _]. apply in_seq in Hx. lia.
  Qed.
  Lemma filter_list_filter (P : nat -> Prop) `{forall i, Decision (P i)} l : filter P l = List.filter (fun i => bool_decide (P i)) l.
  Proof. induction l as [|a l IH]; [done|]. rewrite filter_cons. simpl. rewrite IH. case_decide; case_bool_decide; done. Qed.
  Lemma filter_filter (p p' : nat -> bool) l : List.filter p (List.filter p' l) = List.filter (fun i => p' i && p i) l.
  Proof. induction l as [|a l IH]; [done|]. simpl. destruct (p' a); simpl; [destruct (p a)|]; rewrite IH; done. Qed.

  Lemma lookup_ok n st θ q (P P' : pstate R) os : inv P -> acyclic st -> resolution st θ -> unbound st (p_rules P) ->
    fresh_from (p_c P) st q -> item_query (sub θ q) -> lookup al ord n st q P = Ok (os, P') ->
    StronglySorted lt (map (fun o => fst (fst o)) os) /\
    (forall i, i ∈ map (fun o => fst (fst o)) os <-> meets st q (p_rules P) i) /\
    Forall (answer (p_c P) st q (p_rules P)) os /\ p_rules P' = p_rules P.
  Proof.
    intros HP Hac Hθ Hu Hf Hq. unfold lookup. destruct (snap n st q) as [q'| |] eqn:Es; [|discriminate..]. cbn [bind].
    pose proof (fresh_from_snap _ _ _ _ _ _ Hac Hθ Es Hf) as Hf'.
    apply (snap_ok st θ Hac Hθ) in Es as (Eq & Hvar & Hnv).
    (* answers for q' are answers for q *)
    assert (Hsame : forall σ, solves σ st -> sub σ q' = sub σ q).
    { intros σ Hσ. rewrite <- (resolution_most_general st θ σ Hac Hθ Hσ q'), Eq. by apply (resolution_most_general st θ σ). }
    assert (Hme : forall i, meets st q' (p_rules P) i <-> meets st q (p_rules P) i).
    { intros i. split; intros (r & σ & τ & E1 & Hσ & E2); exists r, σ, τ; (split; [done|split; [done|]]); rewrite E2; [|symmetry]; by apply Hsame. }
    assert (Hans : forall o, answer (p_c P) st q' (p_rules P) o -> answer (p_c P) st q (p_rules P) o).
    { intros [[i r'] st'] (r & ρ & H1 & H2 & H3 & H4 & H5 & H6 & H7). exists r, ρ. split; [done|]. split; [done|]. split; [done|]. split; [done|]. split; [done|]. split; [done|].
      intros σ. rewrite H7. split; intros [Ha Hb]; (split; [done|]); [by rewrite <- (Hsame σ Ha)|by rewrite (Hsame σ Ha)]. }
    destruct q' as [v|k|xs]; [|discriminate|].
    - destruct (match_rules al n st (Var v) (p_rules P) _ _) as [[rs c]| |] eqn:Em; [|discriminate..]. cbn [bind]. intros [= <- <-].
      apply match_rules_ok in Em as ((keep & Ek & Hk) & Ha & _); [|done..].
      split; [rewrite Ek; apply filter_sorted|]. split; [|split; [|done]].
      + intros i. rewrite Ek, <- Hme, elem_of_list_In, filter_In, in_seq. split.
        * intros [Hi Hki]. apply Hk; [|done]. apply elem_of_seq. lia.
        * intros Hm. assert (Hi : i < length (p_rules P)) by (destruct Hm as (r & σ & τ & Er & _); by eapply lookup_lt_Some).
          split; [lia|]. apply Hk; [|done]. apply elem_of_seq. lia.
      + eapply Forall_impl; [exact Ha|]. exact Hans.
    - assert (Hit : item_head (sub θ (Fn xs))).
      { rewrite Eq. destruct Hq as [[v Hv]|Hq]; [|done]. rewrite Hv in Eq. done. }
      destruct Hit as (k & args & Hk0). destruct xs as [|g xs]; [done|]. cbn [sub map] in Hk0. injection Hk0 as Hg Hargs.
      destruct (head_fn n st (Fn (g :: xs))) as [f| |] eqn:Ef; [|discriminate..]. cbn [bind].
      cbn [head_fn] in Ef. apply (snap_ok st θ Hac Hθ) in Ef as (Ef & Hfv & _).
      assert (f = Cst k) as ->.
      { rewrite Hg in Ef. destruct f as [v|k'|ys]; simpl in Ef; [|done|done].
        destruct Hθ as [_ H0]. rewrite (H0 v (Hfv v eq_refl)) in Ef. done. }
      destruct (f2r ord n st (Cst k) P) as [[is P1]| |] eqn:E2; [|discriminate..]. cbn [bind].
      apply f2r_ok in E2 as (HP1 & E1 & Ec & ->); [|done]. rewrite E1, Ec.
      destruct (match_rules al n st _ (p_rules P) _ _) as [[rs c]| |] eqn:Em; [|discriminate..]. cbn [bind]. intros [= <- <-].
      apply match_rules_ok in Em as ((keep & Ek & Hk) & Ha & _); [|done..].
      unfold positions in Ek. rewrite filter_list_filter, filter_filter in Ek.
      split; [rewrite Ek; apply filter_sorted|]. split; [|split; [|done]].
      + assert (Hpos : forall i, meets st (Fn (g :: xs)) (p_rules P) i -> i ∈ positions (Cst k) (p_rules P)).
        { intros i (r & σ & τ & Er & Hσ & E). unfold positions. apply elem_of_list_filter. split.
          - rewrite Er. simpl. destruct (inv_rules P HP r (elem_of_list_lookup_2 _ _ _ Er)) as [_ (f & args' & Hh)].
            unfold functor. rewrite Hh. rewrite Hh in E. cbn [sub map] in E. injection E as E _.
            rewrite <- (resolution_most_general st θ σ Hac Hθ Hσ g), Hg in E. simpl in E. by rewrite E.
          - apply elem_of_seq. split; [lia|]. by eapply lookup_lt_Some. }
        intros i. rewrite <- Hme. rewrite Ek. rewrite elem_of_list_In, filter_In, in_seq, andb_true_iff, bool_decide_eq_true. split.
        * intros (Hi & Hfi & Hki). apply Hk; [|done]. unfold positions. apply elem_of_list_filter. split; [done|]. apply elem_of_seq. lia.
        * intros Hm. pose proof (Hpos i Hm) as Hp. pose proof (proj2 (Hk i Hp) Hm) as Hki.
          unfold positions in Hp. apply elem_of_list_filter in Hp as [Hp1 Hp2]. apply elem_of_seq in Hp2. split; [lia|done].
      + cbn [p_rules]. eapply Forall_impl; [exact Ha|]. exact Hans.
  Qed.

  Lemma syms_settles st θ (rs : list (wrule R)) : acyclic st -> resolution st θ ->
    (forall r, r ∈ rs -> good_rule r /\ ~ Fn [] ∈ goals (wbody r)) -> exists sy, settles (fun n => syms n st rs) sy.
  Proof.
    intros Hac Hθ Hg.
    assert (H : forall ts, ~ Fn [] ∈ ts -> exists sy, settles (fun n => syms_of n st ts) sy).
    { induction ts as [|t ts IH]; intros Hn; [eexists; apply settles_ret|]. apply not_elem_of_cons in Hn as [Hn1 Hn2].
      destruct (IH Hn2) as [sy [n0 H0]]. destruct t as [v|k|[|f xs]]; [..|done|].
      - exists sy, n0. intros n Hle. cbn [syms_of]. by rewrite H0.
      - exists sy, n0. intros n Hle. cbn [syms_of]. by rewrite H0.
      - destruct (snap_settles st θ Hac Hθ f) as (f' & [n1 H1] & _). exists (f' :: sy), (n0 + n1). intros n Hle. cbn [syms_of head_fn].
        rewrite H0 by lia. cbn [bind]. by rewrite H1 by lia. }
    destruct (H (concat (map (fun r => whead r :: goals (wbody r)) rs))) as [sy [n0 H0]].
    - intros Hin. apply elem_of_list_In, in_concat in Hin as (l & Hl & Hin). apply in_map_iff in Hl as (r & <- & Hr).
      apply elem_of_list_In in Hr. destruct (Hg r Hr) as [[_ (f & args & Hh)] Hb]. destruct Hin as [Hin|Hin]; [congruence|].
      apply Hb. by apply elem_of_list_In.
    - exists (remove_dups sy), n0. intros n Hn. unfold syms. by rewrite H0.
  Qed.

  Lemma positions_lt f (rs : list (wrule R)) : Forall (fun i => i < length rs) (positions f rs).
  Proof. apply Forall_forall. intros i Hi. unfold positions in Hi. apply elem_of_list_filter in Hi as [_ Hi]. apply elem_of_seq in Hi. lia. Qed.

  Lemma lookup_settles st θ q (P : pstate R) : inv P -> acyclic st -> resolution st θ ->
    (forall r, r ∈ p_rules P -> ~ Fn [] ∈ goals (wbody r)) -> item_query (sub θ q) ->
    exists o, settles (fun n => lookup al ord n st q P) o.
  Proof.
    intros HP Hac Hθ Hwf Hq. destruct (snap_settles st θ Hac Hθ q) as (q' & [n0 H0] & Eq & _).
    destruct q' as [v|k|xs].
    - destruct (match_rules_settles st (Var v) (p_rules P) (seq 0 (length (p_rules P))) Hac) with (c := p_c P) as [[os c] [n1 H1]].
      { apply Forall_forall. intros i Hi. apply elem_of_seq in Hi. lia. }
      eexists. exists (n0 + n1). intros n Hn. unfold lookup. rewrite H0 by lia. cbn [bind]. rewrite H1 by lia. reflexivity.
    - exfalso. destruct Hq as [[v Hv]|(f & args & Hh)]; rewrite <- Eq in *; done.
    - assert (Hit : item_head (sub θ (Fn xs))).
      { rewrite Eq. destruct Hq as [[v Hv]|Hq]; [|done]. rewrite Hv in Eq. done. }
      destruct Hit as (k & args & Hk0). destruct xs as [|g xs]; [done|].
      destruct (snap_settles st θ Hac Hθ g) as (f & [n1 H1] & _).
      assert (Hf2r : exists o, settles (fun n => f2r ord n st f P) o).
      { unfold f2r. destruct (p_f2r P) as [ix|]; [eexists; apply settles_ret|].
        destruct (syms_settles st θ (p_rules P) Hac Hθ) as [sy [n2 H2]]; [intros r Hr; split; [by apply HP|by apply Hwf]|].
        destruct (build_f2r_settles st (ord sy) (p_rules P) (inv_rules P HP) 0 ∅ f) as [[ix f'] [n3 H3]].
        eexists. exists (n2 + n3). intros n Hn. rewrite H2 by lia. cbn [bind]. rewrite H3 by lia. reflexivity. }
      destruct Hf2r as [[is P1] [n2 H2]].
      destruct (f2r_ok n2 st f P P1 is HP (H2 n2 (le_n _))) as (_ & E1 & Ec & ->).
      destruct (match_rules_settles st (Fn (g :: xs)) (p_rules P) (positions f (p_rules P)) Hac (positions_lt _ _) (p_c P)) as [[os c] [n3 H3]].
      eexists. exists (n0 + n1 + n2 + n3). intros n Hn. unfold lookup. rewrite H0 by lia. cbn [bind head_fn]. rewrite H1 by lia. cbn [bind].
      rewrite H2 by lia. cbn [bind]. rewrite E1, Ec, H3 by lia. reflexivity.
  Qed.
End ops.

(** * constant_folding *)
Section folding.
  Context {R : semiring} (Hcomm : forall x y : R, smul x y = smul y x).
  Context (wt : const -> R) (negligible is_one : R -> bool) (cv : nat -> nat) (sort : list term -> list term).
  Context (Hcv : forall i j, cv i = cv j -> i = j) (Hsort : forall l, Permutation (sort l) l).
  Context (Hneg : forall C, negligible C = true -> C = szero) (Hone : forall C, is_one C = true -> C = sone).
  Context (I : term -> R) (HI : respects wt I).

  Lemma perm_maps (gs gs' : list term) : Permutation gs gs' ->
    exists h k : list term -> list term, forall f : term -> term, h (map f gs) = map f gs' /\ k (map f gs') = map f gs.
  Proof.
    induction 1 as [|a l l' H (h & k & IH)|a b l|l1 l2 l3 H1 (h1 & k1 & IH1) H2 (h2 & k2 & IH2)].
    - by exists id, id.
    - exists (fun l => match l with a :: l => a :: h l | [] => [] end), (fun l => match l with a :: l => a :: k l | [] => [] end).
      intros f. simpl. by destruct (IH f) as [-> ->].
    - by exists (fun l => match l with a :: b :: l => b :: a :: l | _ => l end), (fun l => match l with a :: b :: l => b :: a :: l | _ => l end).
    - exists (fun l => h2 (h1 l)), (fun l => k1 (k2 l)). intros f. destruct (IH1 f) as [E1 E2], (IH2 f) as [E3 E4]. by rewrite E1, E4.
  Qed.

  Lemma goals_Goal (gs : list term) : goals (map (@Goal R) gs) = gs.
  Proof. induction gs as [|g gs IH]; [done|]. simpl. f_equal. exact IH. Qed.
  Lemma body_value_goals gs ys : length gs = length ys -> body_value I (map Goal gs) ys = prodl (map I ys).
  Proof. revert ys. induction gs as [|g gs IH]; intros [|y ys] H; try done. simpl. rewrite IH; [done|]. by injection H. Qed.
  Lemma prodl_perm (l l' : list R) : Permutation l l' -> prodl l = prodl l'.
  Proof.
    induction 1 as [|a l l' H IH|a b l|? ? ? ? IH1 ? IH2]; simpl; [done|by rewrite IH| |by rewrite IH1].
    by rewrite !smul_assoc, (Hcomm b a).
  Qed.

  Lemma rule_value_perm C h gs gs' x v : Permutation gs gs' ->
    rule_value I (WRule h (Val C :: map Goal gs)) x v -> rule_value I (WRule h (Val C :: map Goal gs')) x v.
  Proof.
    intros HP. destruct (perm_maps gs gs' HP) as (f & k & Hfk). apply (sum_over_bij _ _ _ _ f k).
    - intros ys (σ & H1 & H2 & H3). cbn [whead wbody] in *. change (goals (Val C :: map Goal gs)) with (goals (map (@Goal R) gs)) in H3.
      rewrite goals_Goal in H3. subst ys. destruct (Hfk (sub σ)) as [-> E2]. split; [|split; [done|]].
      + exists σ. split; [done|]. split; [done|]. cbn [wbody]. change (goals (Val C :: map Goal gs')) with (goals (map (@Goal R) gs')). by rewrite goals_Goal.
      + cbn [body_value]. f_equal. rewrite !body_value_goals by (by rewrite map_length).
        apply prodl_perm. by apply Permutation_map, Permutation_map.
    - intros ys (σ & H1 & H2 & H3). cbn [whead wbody] in *. change (goals (Val C :: map Goal gs')) with (goals (map (@Goal R) gs')) in H3.
      rewrite goals_Goal in H3. subst ys. destruct (Hfk (sub σ)) as [E1 ->]. split; [|done].
      exists σ. split; [done|]. split; [done|]. cbn [wbody]. change (goals (Val C :: map Goal gs)) with (goals (map (@Goal R) gs)). by rewrite goals_Goal.
  Qed.

  Lemma winst_val C C' h (fs : list (factor R)) x ys : winst (WRule h (Val C :: fs)) x ys -> winst (WRule h (Val C' :: fs)) x ys.
  Proof. done. Qed.

  (** Adding the coefficients of two rules with the same skeleton. *)
  Lemma skeleton_merge h h' gs gs' C C' x v v' :
    canonical cv (Fn (h :: sort gs)) = canonical cv (Fn (h' :: sort gs')) ->
    rule_value I (WRule h (Val C :: map Goal gs)) x v -> rule_value I (WRule h' (Val C' :: map Goal gs')) x v' ->
    rule_value I (WRule h (Val (sadd C C') :: map Goal gs)) x (sadd v v').
  Proof.
    intros Hk H H'. apply canonical_iff in Hk; [|done]. apply variant_sym in Hk as (ρ & Hρ & Eρ).
    apply (rule_value_perm C' h' gs' (sort gs') x v') in H'; [|by symmetry].
    set (r' := WRule h' (Val C' :: map Goal (sort gs'))) in *.
    assert (Hr : rrenames ρ r').
    { intros a b Ha Hb. apply Hρ; simpl; unfold wvars, r' in Ha, Hb; cbn [whead wbody] in Ha, Hb;
        change (goals (Val C' :: map Goal (sort gs'))) with (goals (map (@Goal R) (sort gs'))) in Ha, Hb; rewrite goals_Goal in Ha, Hb;
        rewrite <- flat_map_concat_map || idtac; by apply elem_of_list_In. }
    apply (rule_value_rename I ρ r' x v' Hr) in H'.
    assert (E : rrename ρ r' = WRule h (Val C' :: map Goal (sort gs))).
    { unfold rrename, rsub, r'. cbn [whead wbody map fsub]. unfold rename in Eρ. cbn [sub map] in Eρ. injection Eρ as E1 E2. rewrite E1, E2. f_equal. f_equal. rewrite !map_map. done. }
    rewrite E in H'. apply (rule_value_perm C' h _ gs) in H'; [|done].
    pose proof (sum_over_add _ _ _ _ _ H H') as Hs.
    eapply sum_over_ext; [|exact Hs]. intros ys _. cbn [wbody body_value]. by rewrite smul_add_l.
  Qed.

  Lemma rsub_Var (r : wrule R) : rsub Var r = r.
  Proof.
    destruct r as [h fs]. unfold rsub. simpl. rewrite sub_Var. f_equal.
    induction fs as [|[v|b] fs IH]; simpl; f_equal; try exact IH; try done. by rewrite sub_Var.
  Qed.
  Lemma fsub_Var (fs : list (factor R)) : map (fsub Var) fs = fs.
  Proof. induction fs as [|[v|b] fs IH]; simpl; f_equal; try exact IH; try done. by rewrite sub_Var. Qed.

  (** what the first pass leaves behind *)
  Definition folded (r : wrule R) : Prop :=
    exists gs, (forall g k, g ∈ gs -> g <> Cst k) /\ (wbody r = map Goal gs /\ gs <> [] \/ exists C, wbody r = Val C :: map Goal gs).

  Lemma gpart_goals (fs : list (factor R)) : exists gs, gpart wt fs = map Goal gs /\ forall g k, g ∈ gs -> g <> Cst k.
  Proof.
    induction fs as [|[v|[v|k|xs]] fs (gs & IH1 & IH2)].
    - exists []. split; [done|]. intros g k Hg. by apply elem_of_nil in Hg.
    - by exists gs.
    - exists (Var v :: gs). simpl. rewrite IH1. split; [done|]. intros g k Hg. apply elem_of_cons in Hg as [->|Hg]; [done|by apply IH2].
    - by exists gs.
    - exists (Fn xs :: gs). simpl. rewrite IH1. split; [done|]. intros g k Hg. apply elem_of_cons in Hg as [->|Hg]; [done|by apply IH2].
  Qed.

  Lemma cf_fold_ok n rs rs' : cf_fold wt negligible is_one n ∅ rs = Ok rs' ->
    Forall folded rs' /\ forall x v, prog_value I rs' x v <-> prog_value I rs x v.
  Proof.
    revert rs'. induction rs as [|r rs IH]; intros rs'.
    - intros [= <-]. split; [constructor|done].
    - cbn [cf_fold]. destruct (constant_folding_rhs wt negligible is_one n ∅ r) as [o| |] eqn:E; [|discriminate..]. cbn [bind].
      destruct (cf_fold wt negligible is_one n ∅ rs) as [rest| |]; [|discriminate..]. cbn [bind]. intros [= <-].
      destruct (IH rest eq_refl) as [IH1 IH2].
      pose proof (constant_folding_rhs_ok Hcomm wt negligible is_one Hneg Hone I HI ∅ Var acyclic_empty resolution_empty n r o E) as Ho.
      rewrite rsub_Var in Ho. destruct o as [r1|].
      + destruct Ho as (Hb & Hh & Hv). rewrite rsub_Var in Hv. split.
        * constructor; [|done]. unfold constant_folding_rhs in E.
          destruct (split_body wt n ∅ (wbody r) sone []) as [[C xs]| |] eqn:Es; [|discriminate..]. cbn [bind] in E.
          apply (split_body_ok wt ∅ Var acyclic_empty resolution_empty) in Es as [_ Ex].
          rewrite !fsub_Var in Ex. simpl in Ex. destruct (gpart_goals (wbody r)) as (gs & Eg & Hgs). rewrite Eg in Ex. subst xs.
          exists gs. split; [done|]. destruct (negligible C); [done|]. destruct (is_one C && _) eqn:E1.
          -- injection E as <-. left. split; [done|]. intros ->. apply andb_prop in E1 as [_ E1]. done.
          -- injection E as <-. right. by exists C.
        * intros x v. change (r1 :: rest) with ([r1] ++ rest). change (r :: rs) with ([r] ++ rs). rewrite !prog_value_app.
          setoid_rewrite prog_value_one. setoid_rewrite Hv. by setoid_rewrite IH2.
      + split; [done|]. intros x v. rewrite IH2. change (r :: rs) with ([r] ++ rs). rewrite prog_value_app. setoid_rewrite prog_value_one. setoid_rewrite Ho. split.
        * intros H. exists szero, v. split; [done|]. split; [done|]. by rewrite sadd_0_l.
        * intros (v1 & v2 & -> & H & ->). by rewrite sadd_0_l.
  Qed.

  (** the rules a dictionary stands for *)
  Definition entry (e : term * (term * list (factor R) * R)) : wrule R :=
    let '(_, (h, xs, C)) := e in WRule h (Val C :: xs).
  Definition skel (h : term) (gs : list term) : term := canonical cv (Fn (Cst (CStr "$skel") :: h :: sort gs)).
  Definition entry_ok (e : term * (term * list (factor R) * R)) : Prop :=
    let '(k, (h, xs, C)) := e in exists gs, xs = map Goal gs /\ k = skel h gs.

  Lemma skel_eq h gs h' gs' : skel h gs = skel h' gs' -> canonical cv (Fn (h :: sort gs)) = canonical cv (Fn (h' :: sort gs')).
  Proof.
    intros H. apply canonical_iff; [done|]. apply canonical_iff in H as (ρ & Hρ & E); [|done]. exists ρ. split.
    - intros a b Ha Hb. apply Hρ; simpl in *; done.
    - unfold rename in *. cbn [sub map] in *. injection E as E1 E2. by rewrite E1, E2.
  Qed.

  Lemma merge_skel_ok d h gs C x v v' : Forall entry_ok d ->
    prog_value I (map entry d) x v -> rule_value I (WRule h (Val C :: map Goal gs)) x v' ->
    let d' := merge_skel (skel h gs) h (map Goal gs) C d in
    Forall entry_ok d' /\ prog_value I (map entry d') x (sadd v v').
  Proof.
    intros Hd. revert v. induction Hd as [|[k [[h0 xs0] C0]] d (gs0 & -> & ->) Hd IH]; intros v Hv Hv'.
    - simpl. split; [constructor; [by exists gs|constructor]|]. apply prog_value_nil in Hv as ->. rewrite sadd_0_l. by apply prog_value_one.
    - cbn [map merge_skel] in *. change (entry _ :: map entry d) with ([entry (skel h0 gs0, (h0, map Goal gs0, C0))] ++ map entry d) in Hv.
      apply prog_value_app in Hv as (v1 & v2 & H1 & H2 & ->). apply prog_value_one in H1. cbn [entry] in H1.
      case_decide as Hk.
      + split; [constructor; [by exists gs0|done]|]. cbn [map entry].
        change (?a :: map entry d) with ([a] ++ map entry d). apply prog_value_app. exists (sadd v1 v'), v2.
        split; [|split; [done|]].
        * apply prog_value_one. eapply skeleton_merge; [by apply skel_eq|done|done].
        * rewrite <- !sadd_assoc. f_equal. apply sadd_comm.
      + destruct (IH v2 H2 Hv') as [IH1 IH2]. split; [constructor; [by exists gs0|done]|]. cbn [map].
        change (?a :: map entry ?d) with ([a] ++ map entry d). apply prog_value_app. exists v1, (sadd v2 v').
        split; [by apply prog_value_one|]. split; [done|]. by rewrite sadd_assoc.
  Qed.

  Lemma split_const_ok n r C xs : folded r -> split_const_and_symbolic wt n ∅ r = Ok (C, xs) ->
    exists gs, xs = map Goal gs /\ forall x v, rule_value I (WRule (whead r) (Val C :: map Goal gs)) x v <-> rule_value I r x v.
  Proof.
    intros (gs & Hgs & Hb). unfold split_const_and_symbolic. destruct r as [h b]. cbn [wbody whead] in *.
    destruct Hb as [[-> Hne]|(C0 & ->)].
    - destruct gs as [|g gs]; [done|]. cbn [map]. destruct (factor_const wt n ∅ (Goal g)) as [o| |] eqn:Ef; [|discriminate..]. cbn [bind].
      apply (factor_const_ok wt ∅ Var acyclic_empty resolution_empty) in Ef. simpl in Ef. rewrite sub_Var in Ef.
      assert (o = None) as ->.
      { destruct g as [v|k|ys]; [done| |done]. exfalso. by apply (Hgs (Cst k) k); [left|]. }
      intros [= <- <-]. exists (g :: gs). split; [done|]. intros x v. apply rule_value_one.
    - cbn [factor_const bind]. intros [= <- <-]. exists gs. done.
  Qed.

  Lemma cf_merge_ok n rs d d' x v w : Forall folded rs -> Forall entry_ok d -> cf_merge wt cv sort n ∅ rs d = Ok d' ->
    prog_value I (map entry d) x v -> prog_value I rs x w -> Forall entry_ok d' /\ prog_value I (map entry d') x (sadd v w).
  Proof.
    intros Hr. revert d v w. induction Hr as [|r rs Hr Hrs IH]; intros d v w Hd.
    - intros [= <-] Hv Hw. apply prog_value_nil in Hw as ->. by rewrite sadd_0_r.
    - cbn [cf_merge]. destruct (split_const_and_symbolic wt n ∅ r) as [[C xs]| |] eqn:Es; [|discriminate..]. cbn [bind].
      destruct (canonicalize cv n ∅ _) as [key| |] eqn:Ek; [|discriminate..]. cbn [bind].
      apply (canonicalize_ok ∅ Var acyclic_empty resolution_empty) in Ek. rewrite sub_Var in Ek.
      destruct (split_const_ok n r C xs Hr Es) as (gs & -> & Hval). rewrite goals_Goal in Ek.
      intros E Hv Hw. change (r :: rs) with ([r] ++ rs) in Hw. apply prog_value_app in Hw as (w1 & w2 & Hw1 & Hw2 & ->).
      apply prog_value_one, Hval in Hw1.
      destruct (merge_skel_ok d (whead r) gs C x v w1 Hd Hv Hw1) as [Hd1 Hv1].
      rewrite Ek in E. destruct (IH _ _ w2 Hd1 E Hv1 Hw2) as [H1 H2]. split; [done|]. by rewrite sadd_assoc.
  Qed.

  Definition chart_rules (ch : list (term * R)) : list (wrule R) := map (fun kv => WRule (fst kv) [Val (snd kv)]) ch.

  Lemma chart_add_ok ch h C x v v' : prog_value I (chart_rules ch) x v -> rule_value I (WRule h [Val C]) x v' ->
    prog_value I (chart_rules (chart_add (canonical cv h) C ch)) x (sadd v v').
  Proof.
    assert (Hc : forall v', rule_value I (WRule h [Val C]) x v' -> rule_value I (WRule (canonical cv h) [Val C]) x v').
    { intros u Hu. apply rule_value_const in Hu; [|done]. apply rule_value_const; [done|].
      pose proof (matches_variant h (canonical cv h) x (canonical_variant cv h Hcv)) as Hm. naive_solver. }
    revert v. induction ch as [|[k w] ch IH]; intros v Hv Hv'.
    - apply prog_value_nil in Hv as ->. simpl. apply prog_value_one. rewrite !sadd_0_l. by apply Hc.
    - cbn [chart_rules chart_add map fst snd] in *. change (?a :: map ?f ch) with ([a] ++ chart_rules ch) in Hv.
      apply prog_value_app in Hv as (v1 & v2 & H1 & H2 & ->). apply prog_value_one in H1. case_decide as Hk.
      + subst k. cbn [map fst snd]. change (?a :: map ?f ch) with ([a] ++ chart_rules ch). apply prog_value_app. exists (sadd v1 v'), v2.
        split; [|split; [done|]].
        * apply prog_value_one. apply (rule_value_merge I _ (canonical cv h) w C x _ (variant_refl _)). exists v1, v'. split; [done|]. split; [by apply Hc|done].
        * rewrite <- !sadd_assoc. f_equal. apply sadd_comm.
      + cbn [map fst snd]. change (?a :: map ?f (chart_add _ C ch)) with ([a] ++ chart_rules (chart_add (canonical cv h) C ch)).
        apply prog_value_app. exists v1, (sadd v2 v'). split; [by apply prog_value_one|]. split; [by apply IH|]. by rewrite sadd_assoc.
  Qed.

  Lemma cf_emit_ok n d ch sy ch' sy' x v : cf_emit is_one cv n ∅ d ch sy = Ok (ch', sy') ->
    prog_value I (sy ++ chart_rules ch ++ map entry d) x v -> prog_value I (sy' ++ chart_rules ch') x v.
  Proof.
    revert ch sy. induction d as [|[k [[h xs] C]] d IH]; intros ch sy.
    - intros [= <- <-]. simpl. by rewrite app_nil_r.
    - cbn [cf_emit]. destruct xs as [|f xs].
      + destruct (canonicalize cv n ∅ h) as [kh| |] eqn:Ek; [|discriminate..]. cbn [bind].
        apply (canonicalize_ok ∅ Var acyclic_empty resolution_empty) in Ek. rewrite sub_Var in Ek. subst kh.
        intros E Hv. apply (IH _ _ E). apply prog_value_app in Hv as (v1 & v2 & H1 & H2 & ->). apply prog_value_app in H2 as (v3 & v4 & H3 & H4 & ->).
        cbn [map entry] in H4. change (?a :: map entry d) with ([a] ++ map entry d) in H4. apply prog_value_app in H4 as (v5 & v6 & H5 & H6 & ->).
        apply prog_value_app. exists v1, (sadd (sadd v3 v5) v6). split; [done|]. split.
        * apply prog_value_app. exists (sadd v3 v5), v6. split; [|done]. apply chart_add_ok; [done|]. by apply prog_value_one.
        * by rewrite !sadd_assoc.
      + intros E Hv. apply (IH _ _ E). apply prog_value_app in Hv as (v1 & v2 & H1 & H2 & ->). apply prog_value_app in H2 as (v3 & v4 & H3 & H4 & ->).
        cbn [map entry] in H4. change (?a :: map entry d) with ([a] ++ map entry d) in H4. apply prog_value_app in H4 as (v5 & v6 & H5 & H6 & ->).
        apply prog_value_app. exists (sadd v1 v5), (sadd v3 v6). split; [|split].
        * apply prog_value_app. exists v1, v5. split; [done|]. split; [|done]. apply prog_value_one. apply prog_value_one in H5.
          destruct (is_one C) eqn:E1; [|done]. apply Hone in E1 as ->. exact (proj1 (rule_value_one I h (f :: xs) x v5) H5).
        * apply prog_value_app. by exists v3, v6.
        * rewrite <- !sadd_assoc. f_equal. rewrite !sadd_assoc. f_equal. apply sadd_comm.
  Qed.

  Lemma constant_folding_ok n rs rs' x v : constant_folding wt negligible is_one cv sort n ∅ rs = Ok rs' ->
    prog_value I rs x v -> prog_value I rs' x v.
  Proof.
    unfold constant_folding. destruct (cf_fold wt negligible is_one n ∅ rs) as [rs1| |] eqn:E1; [|discriminate..]. cbn [bind].
    destruct (cf_merge wt cv sort n ∅ rs1 []) as [d| |] eqn:E2; [|discriminate..]. cbn [bind].
    destruct (cf_emit is_one cv n ∅ d [] []) as [[ch sy]| |] eqn:E3; [|discriminate..]. cbn [bind]. intros [= <-] Hv.
    destruct (cf_fold_ok n rs rs1 E1) as [Hf Hv1]. apply Hv1 in Hv.
    destruct (cf_merge_ok n rs1 [] d x szero v Hf) as [Hd Hv2]; [constructor|done|by apply prog_value_nil|done|]. rewrite sadd_0_l in Hv2.
    exact (cf_emit_ok n d [] [] ch sy x v E3 Hv2).
  Qed.

  (** It always returns. *)
  Lemma constant_folding_settles rs : exists rs', settles (fun n => constant_folding wt negligible is_one cv sort n ∅ rs) rs'.
  Proof.
    assert (H1 : exists l, settles (fun n => cf_fold wt negligible is_one n ∅ rs) l).
    { induction rs as [|r rs0 [l [n0 IH]]]; [eexists; apply settles_ret|].
      destruct (constant_folding_rhs_settles wt negligible is_one ∅ Var acyclic_empty resolution_empty r) as [o [n1 H]].
      eexists. exists (n0 + n1). intros n Hn. cbn [cf_fold]. rewrite H by lia. cbn [bind]. rewrite IH by lia. reflexivity. }
    assert (H2 : forall l d, exists d', settles (fun n => cf_merge wt cv sort n ∅ l d) d').
    { induction l as [|r l IH]; intros d; [eexists; apply settles_ret|].
      assert (Hs : exists o, settles (fun n => split_const_and_symbolic wt n ∅ r) o).
      { unfold split_const_and_symbolic. destruct (wbody r) as [|f fs]; [eexists; apply settles_ret|].
        destruct (factor_const_settles wt ∅ Var acyclic_empty resolution_empty f) as [n0 H].
        eexists (match const_of wt (fsub Var f) with Some v => (v, fs) | None => (sone, f :: fs) end). exists n0. intros n Hn. rewrite H by lia. cbn [bind]. by case_match. }
      destruct Hs as [[C xs] [n0 Hs]].
      destruct (canonicalize_settles ∅ Var acyclic_empty resolution_empty cv (Fn (Cst (CStr "$skel") :: whead r :: sort (goals xs)))) as [n1 Hk].
      destruct (IH (merge_skel (canonical cv (sub Var (Fn (Cst (CStr "$skel") :: whead r :: sort (goals xs))))) (whead r) xs C d)) as [d' [n2 Hd]].
      exists d', (n0 + n1 + n2). intros n Hn. cbn [cf_merge]. rewrite Hs by lia. cbn [bind]. rewrite Hk by lia. cbn [bind]. apply Hd. lia. }
    assert (H3 : forall d ch sy, exists o, settles (fun n => cf_emit is_one cv n ∅ d ch sy) o).
    { induction d as [|[k [[h xs] C]] d IH]; intros ch sy; [eexists; apply settles_ret|]. destruct xs as [|f xs].
      - destruct (canonicalize_settles ∅ Var acyclic_empty resolution_empty cv h) as [n1 Hk].
        destruct (IH (chart_add (canonical cv (sub Var h)) C ch) sy) as [o [n2 H]].
        exists o, (n1 + n2). intros n Hn. cbn [cf_emit]. rewrite Hk by lia. cbn [bind]. apply H. lia.
      - destruct (IH ch (sy ++ [WRule h (if is_one C then f :: xs else Val C :: f :: xs)])) as [o [n2 H]].
        exists o, n2. intros n Hn. cbn [cf_emit]. apply H. lia. }
    destruct H1 as [l [n1 H1]]. destruct (H2 l []) as [d [n2 Hd]]. destruct (H3 d [] []) as [[ch sy] [n3 He]].
    eexists. exists (n1 + n2 + n3). intros n Hn. unfold constant_folding. rewrite H1 by lia. cbn [bind]. rewrite Hd by lia. cbn [bind]. rewrite He by lia. reflexivity.
  Qed.
End folding.
