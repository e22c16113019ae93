(** Proofs about unfold: the new rules have exactly the instances that arise by
    replacing the subgoal with an instance of a rule for it. *)
From Coq Require Import List.
From stdpp Require Import gmap.
From Coq Require Import Lia Sorted.
From Verif Require Import PyBase Semiring TermModel TermSpec TermProofs CoverProofs ChartProofs SetsModel SetsProofs FuelProofs UnifyProofs SolverProofs
  UpdateModel UpdateSpec UpdateProofs TransSpec TransProofs TransModel.
Import ListNotations.

(** * Reading a substitution off an instance *)
Fixpoint find_var (v : nat) (T X : term) {struct T} : option term :=
  match T, X with
  | Var w, _ => if decide (w = v) then Some X else None
  | Fn ts, Fn xs =>
      (fix go (ts xs : list term) {struct ts} : option term :=
         match ts, xs with
         | t :: ts, x :: xs => match find_var v t x with Some y => Some y | None => go ts xs end
         | _, _ => None
         end) ts xs
  | _, _ => None
  end.
Lemma find_var_sub v T σ : find_var v T (sub σ T) = if decide (In v (vars T)) then Some (σ v) else None.
Proof.
  induction T as [w|k|ts IH] using term_ind'.
  - simpl. destruct (decide (w = v)) as [->|Hn]; [by rewrite decide_True by (by left)|]. rewrite decide_False; [done|]. by intros [?|[]].
  - done.
  - cbn [sub find_var vars]. induction ts as [|t ts IHt]; [done|]. cbn [map flat_map].
    apply Forall_cons in IH as [IH1 IH2]. rewrite IH1. destruct (decide (In v (vars t))) as [H|H].
    + rewrite decide_True; [done|]. apply in_app_iff. by left.
    + rewrite (IHt IH2). destruct (decide (In v (flat_map vars ts))) as [H'|H'].
      * rewrite decide_True; [done|]. apply in_app_iff. by right.
      * rewrite decide_False; [done|]. rewrite in_app_iff. tauto.
Qed.

Definition c0 : const := CInt 0.
Definition c1 : const := CInt 1.

Section unfold.
  Context {R : semiring}.

  Lemma rterm_sub σ (r : wrule R) : sub σ (rterm r) = rterm (rsub σ r).
  Proof. unfold rterm. cbn [sub map rsub whead wbody]. by rewrite goals_fsub. Qed.
  Lemma rterm_vars (r : wrule R) : vars (rterm r) = wvars r.
  Proof. unfold rterm, wvars. simpl. done. Qed.
  Lemma fsub_fsub σ τ (fs : list (factor R)) : map (fsub σ) (map (fsub τ) fs) = map (fsub (fun v => sub σ (τ v))) fs.
  Proof. rewrite map_map. apply map_ext. intros [v|b]; simpl; [done|by rewrite sub_sub]. Qed.
  Lemma fsub_ext σ τ (fs : list (factor R)) : (forall v, v ∈ flat_map vars (goals fs) -> σ v = τ v) -> map (fsub σ) fs = map (fsub τ) fs.
  Proof.
    intros H. apply map_ext_in. intros [v|b] Hb; [done|]. simpl. f_equal. apply sub_ext. intros v Hv. apply H.
    apply elem_of_list_In, in_flat_map. exists b. split; [|done]. apply elem_of_list_In, elem_of_list_omap. exists (Goal b). split; [by apply elem_of_list_In|done].
  Qed.
  Lemma goals_app (fs fs' : list (factor R)) : goals (fs ++ fs') = goals fs ++ goals fs'.
  Proof. unfold goals. apply omap_app. Qed.
  Lemma goals_inst σ (r : wrule R) x fs : sub σ (whead r) = x -> map (fsub σ) (wbody r) = fs -> sub σ (rterm r) = Fn (x :: goals fs).
  Proof. intros <- <-. unfold rterm. simpl. by rewrite goals_fsub. Qed.

  Lemma inst_rename ρ (r : wrule R) x fs : rrenames ρ r -> inst (rrename ρ r) x fs <-> inst r x fs.
  Proof.
    intros Hρ. split.
    - intros (σ & H1 & H2 & H3). exists (fun v => σ (ρ v)). split; [intros v; apply H1|]. simpl in *. split.
      + rewrite <- H2. by rewrite sub_sub.
      + rewrite <- H3. by rewrite fsub_fsub.
    - intros (σ & H1 & H2 & H3). set (τ v := σ (inv_on ρ (wvars r) v)).
      assert (Hτ : forall v, v ∈ wvars r -> τ (ρ v) = σ v).
      { intros v Hv. unfold τ. f_equal. apply inv_on_spec; [|by apply elem_of_list_In]. intros a b Ha Hb. apply Hρ; by apply elem_of_list_In. }
      exists τ. split; [intros v; apply H1|]. simpl. split.
      + rewrite <- H2, sub_sub. apply sub_ext. intros v Hv. simpl. apply Hτ. unfold wvars. apply elem_of_app. left. by apply elem_of_list_In.
      + rewrite <- H3, fsub_fsub. apply fsub_ext. intros v Hv. simpl. apply Hτ. unfold wvars. apply elem_of_app. by right.
  Qed.

  (** instances of a rule under bindings *)
  Lemma inst_rsub st θ (t : wrule R) x fs : acyclic st -> resolution st θ ->
    inst (rsub θ t) x fs <-> exists σ, (forall v, ground (σ v)) /\ solves σ st /\ sub σ (whead t) = x /\ map (fsub σ) (wbody t) = fs.
  Proof.
    intros Hac Hθ. split.
    - intros (σ & H1 & H2 & H3). exists (fun v => sub σ (θ v)). split; [intros v; by apply ground_sub_all|]. split.
      + intros v u Hv. rewrite (proj1 Hθ v u Hv). by rewrite sub_sub.
      + simpl in *. rewrite <- sub_sub, <- fsub_fsub. done.
    - intros (σ & H1 & H2 & H3 & H4). exists σ. split; [done|]. cbn [rsub whead wbody].
      rewrite (resolution_most_general st θ σ Hac Hθ H2). split; [done|]. rewrite <- H4, map_map. apply map_ext. intros [v|b]; [done|].
      simpl. by rewrite (resolution_most_general st θ σ Hac Hθ H2).
  Qed.

  Context (al : nat -> nat) (Hal : forall i j, al i = al j -> i = j) (minf : R) (is_one : R -> bool).

  (** * One new rule *)
  Section one.
  Context (c : nat) (r : wrule R) (j : nat) (b : term) (rs : list (wrule R)).
  Context (Hb : wbody r !! j = Some (Goal b)).
  Context (Hf : forall v i, v ∈ wvars r -> c <= i -> v <> al i).
  Notation body s := (take j (wbody r) ++ wbody s ++ drop (S j) (wbody r)).
  Notation m := (length (wbody r) - S j).

  Lemma body_r : wbody r = take j (wbody r) ++ Goal b :: drop (S j) (wbody r).
  Proof. symmetry. by apply take_drop_middle. Qed.
  Lemma len_take : length (take j (wbody r)) = j.
  Proof. apply lookup_lt_Some in Hb. apply take_length_le. lia. Qed.
  Lemma len_drop : length (drop (S j) (wbody r)) = m.
  Proof. by rewrite drop_length. Qed.
  Lemma b_vars v : In v (vars b) -> v ∈ wvars r.
  Proof.
    intros Hv. unfold wvars. apply elem_of_app. right. apply elem_of_list_In, in_flat_map. exists b. split; [|done].
    apply elem_of_list_In, elem_of_list_omap. exists (Goal b). split; [by eapply elem_of_list_lookup_2|done].
  Qed.
  Lemma inst_r σ L y Q : length L = j -> map (fsub σ) (wbody r) = L ++ Goal y :: Q ->
    map (fsub σ) (take j (wbody r)) = L /\ y = sub σ b /\ map (fsub σ) (drop (S j) (wbody r)) = Q.
  Proof.
    intros HL E. rewrite body_r, map_app in E. cbn [map] in E. apply app_inj_1 in E as [E1 E2].
    - cbn [fsub] in E2. by injection E2 as E3 E4.
    - by rewrite map_length, len_take.
  Qed.

  Section combine.
  Context (s : wrule R) (ρ : nat -> nat) (Hρ : rrenames ρ s).
  Context (Hnew : forall v, v ∈ wvars (rrename ρ s) -> exists i, v = al i /\ c <= i).
  Notation s' := (rrename ρ s).
  Notation t0 := (WRule (whead r) (body s')).
  Context (st : store) (θ : nat -> term) (Hac : acyclic st) (Hθ : resolution st θ).
  Context (Hst : forall σ, solves σ st <-> sub σ (whead s') = sub σ b).

  Lemma s_vars v : v ∈ wvars s -> ρ v ∈ wvars s'.
  Proof.
    unfold wvars. rewrite !elem_of_app. intros [H|H].
    - left. simpl. apply elem_of_list_In, vars_sub. exists v. split; [by apply elem_of_list_In|by left].
    - right. simpl. rewrite goals_fsub. apply elem_of_list_In, in_flat_map in H as (g & Hg & Hv). apply elem_of_list_In, in_flat_map.
      exists (sub (fun v => Var (ρ v)) g). split; [by apply in_map|]. apply vars_sub. exists v. split; [done|by left].
  Qed.

  (** [σ1] on the rule, [σ2] on the inlined rule *)
  Lemma combine_subst σ1 σ2 : (forall v, ground (σ1 v)) -> (forall v, ground (σ2 v)) ->
    exists σ, (forall v, ground (σ v)) /\ (forall v, v ∈ wvars r -> σ v = σ1 v) /\ (forall v, v ∈ wvars s -> σ (ρ v) = σ2 v).
  Proof.
    intros G1 G2. exists (fun v => if decide (v ∈ map ρ (wvars s)) then σ2 (inv_on ρ (wvars s) v) else σ1 v). split; [|split].
    - intros v. case_decide; done.
    - intros v Hv. apply decide_False. intros H. apply elem_of_list_In, in_map_iff in H as (u & <- & Hu). apply elem_of_list_In in Hu.
      destruct (Hnew (ρ u) (s_vars u Hu)) as (i & E & Hi). by apply (Hf _ i Hv Hi).
    - intros v Hv. rewrite decide_True by (apply elem_of_list_In, in_map; by apply elem_of_list_In).
      f_equal. apply inv_on_spec; [|by apply elem_of_list_In]. intros a a' Ha Ha'. apply Hρ; by apply elem_of_list_In.
  Qed.

  Lemma inst_combine x L zs Q y : length L = j -> length zs = length (wbody s) ->
    inst r x (L ++ Goal y :: Q) -> inst s y zs ->
    exists σ, (forall v, ground (σ v)) /\ solves σ st /\ sub σ (whead r) = x /\ map (fsub σ) (body s') = L ++ zs ++ Q /\ sub σ b = y.
  Proof.
    intros HL Hz (σ1 & G1 & E1 & E2) (σ2 & G2 & E3 & E4). destruct (combine_subst σ1 σ2 G1 G2) as (σ & G & H1 & H2).
    apply (inst_r σ1) in E2 as (E2 & Ey & E2'); [|done].
    assert (Hr : forall fs : list (factor R), (forall v, v ∈ flat_map vars (goals fs) -> v ∈ flat_map vars (goals (wbody r))) -> map (fsub σ) fs = map (fsub σ1) fs).
    { intros fs H. apply fsub_ext. intros v Hv. apply H1. unfold wvars. apply elem_of_app. right. by apply H. }
    assert (Hb' : sub σ b = y).
    { rewrite Ey. apply sub_ext. intros v Hv. by apply H1, b_vars. }
    exists σ. split; [done|]. split; [|split; [|split; [|done]]].
    - apply Hst. rewrite Hb', <- E3. cbn [rrename rsub whead]. rewrite sub_sub. apply sub_ext. intros v Hv. simpl. apply H2.
      unfold wvars. apply elem_of_app. left. by apply elem_of_list_In.
    - rewrite <- E1. apply sub_ext. intros v Hv. apply H1. unfold wvars. apply elem_of_app. left. by apply elem_of_list_In.
    - rewrite !map_app, <- E2, <- E2', <- E4. f_equal; [|f_equal].
      + apply Hr. intros v Hv. rewrite body_r, goals_app, flat_map_app. apply elem_of_app. by left.
      + cbn [rrename rsub wbody]. rewrite fsub_fsub. apply fsub_ext. intros v Hv. simpl. apply H2. unfold wvars. apply elem_of_app. by right.
      + apply Hr. intros v Hv. rewrite body_r, goals_app, flat_map_app. apply elem_of_app. right. simpl. apply elem_of_app. by right.
  Qed.
  Lemma inst_split σ x L zs Q : length L = j -> length zs = length (wbody s) -> (forall v, ground (σ v)) -> solves σ st ->
    sub σ (whead r) = x -> map (fsub σ) (body s') = L ++ zs ++ Q ->
    inst r x (L ++ Goal (sub σ b) :: Q) /\ inst s (sub σ b) zs.
  Proof.
    intros HL Hz G Hs E1 E2. rewrite !map_app in E2. apply app_inj_1 in E2 as [E2 E3]; [|by rewrite map_length, len_take].
    apply app_inj_1 in E3 as [E3 E4]; [|cbn [rrename rsub wbody]; by rewrite !map_length].
    split.
    - exists σ. split; [done|]. split; [done|]. rewrite body_r, map_app. cbn [map fsub]. by rewrite E2, E4.
    - exists (fun v => σ (ρ v)). split; [intros v; apply G|]. apply Hst in Hs. cbn [rrename rsub whead wbody] in Hs, E3.
      rewrite sub_sub in Hs. rewrite fsub_fsub in E3. done.
  Qed.

  (** nothing is lost *)
  Lemma kept_vars : kept r s j -> forall v, In v (vars (sub θ b)) -> v ∈ wvars (rsub θ t0).
  Proof.
    intros Hk v Hv. destruct (decide (v ∈ wvars (rsub θ t0))) as [|Hn]; [done|]. exfalso.
    set (σ0 := fun _ : nat => Cst c0). set (σ1 := fun u => if decide (u = v) then Cst c1 else Cst c0).
    assert (G0 : forall u, ground (σ0 u)) by done. assert (G1 : forall u, ground (σ1 u)) by (intros u; unfold σ1; by case_decide).
    assert (Hs : forall τ, solves (fun u => sub τ (θ u)) st).
    { intros τ u w Hu. rewrite (proj1 Hθ u w Hu). by rewrite sub_sub. }
    assert (Heq : forall u, u ∈ wvars (rsub θ t0) -> σ0 u = σ1 u).
    { intros u Hu. unfold σ0, σ1. rewrite decide_False; [done|]. by intros ->. }
    assert (E : rsub σ0 (rsub θ t0) = rsub σ1 (rsub θ t0)).
    { unfold rsub at 1 3. f_equal.
      - apply sub_ext. intros u Hu. apply Heq. unfold wvars. apply elem_of_app. left. by apply elem_of_list_In.
      - apply fsub_ext. intros u Hu. apply Heq. unfold wvars. apply elem_of_app. by right. }
    injection E as Eh Eb.
    pose proof (fun τ G L zs Q x HL Hz => inst_split (fun u => sub τ (θ u)) x L zs Q HL Hz (fun u => ground_sub_all τ (θ u) G) (Hs τ)) as Hsp.
    set (L := map (fsub (fun u => sub σ0 (θ u))) (take j (wbody r))).
    set (zs := map (fsub (fun u => sub σ0 (θ u))) (wbody s')).
    set (Q := map (fsub (fun u => sub σ0 (θ u))) (drop (S j) (wbody r))).
    assert (HL : length L = j) by (unfold L; by rewrite map_length, len_take).
    assert (Hz : length zs = length (wbody s)) by (unfold zs; cbn [rrename rsub wbody]; by rewrite !map_length).
    rewrite !fsub_fsub in Eb. rewrite !sub_sub in Eh.
    destruct (Hsp σ0 G0 L zs Q _ HL Hz eq_refl ltac:(by rewrite !map_app)) as [A1 A2].
    destruct (Hsp σ1 G1 L zs Q _ HL Hz (eq_sym Eh) ltac:(refine (eq_trans (eq_sym Eb) _); by rewrite !map_app)) as [B1 B2].
    pose proof (Hk _ _ _ _ _ _ HL A1 A2 B1 B2) as Ey. rewrite <- !sub_sub in Ey.
    pose proof (sub_ext_inv σ0 σ1 _ Ey v Hv) as Ev. unfold σ0, σ1 in Ev. by rewrite decide_True in Ev.
  Qed.

  (** variables that stand for values stay variables *)
  Lemma kept_values : values_kept r s b ->
    (forall v, Goal (Var v) ∈ wbody r -> exists u, θ v = Var u) /\ (forall v, Goal (Var v) ∈ wbody s -> exists u, θ (ρ v) = Var u).
  Proof.
    intros Hvk. destruct Hvk as (σ & τ & E & H1 & H2).
    { exists θ, (fun v => θ (ρ v)). assert (E : sub θ (whead s') = sub θ b) by (apply Hst, Hθ). rewrite <- E.
      cbn [rrename rsub whead]. by rewrite sub_sub. }
    assert (Hbv : forall (q : wrule R) v, Goal (Var v) ∈ wbody q -> v ∈ wvars q).
    { intros q v Hv. unfold wvars. apply elem_of_app. right. apply elem_of_list_In, in_flat_map. exists (Var v). split; [|by left].
      apply elem_of_list_In, elem_of_list_omap. by exists (Goal (Var v)). }
    set (π v := if decide (v ∈ map ρ (wvars s)) then τ (inv_on ρ (wvars s) v) else σ v).
    assert (P1 : forall v, v ∈ wvars r -> π v = σ v).
    { intros v Hv. apply decide_False. intros H. apply elem_of_list_In, in_map_iff in H as (u & <- & Hu). apply elem_of_list_In in Hu.
      destruct (Hnew (ρ u) (s_vars u Hu)) as (i & Ei & Hi). by apply (Hf _ i Hv Hi). }
    assert (P2 : forall v, v ∈ wvars s -> π (ρ v) = τ v).
    { intros v Hv. unfold π. rewrite decide_True by (apply elem_of_list_In, in_map; by apply elem_of_list_In).
      f_equal. apply inv_on_spec; [|by apply elem_of_list_In]. intros a a' Ha Ha'. apply Hρ; by apply elem_of_list_In. }
    assert (Hs : solves π st).
    { apply Hst. cbn [rrename rsub whead]. rewrite sub_sub. transitivity (sub τ (whead s)).
      - apply sub_ext. intros v Hv. simpl. apply P2. unfold wvars. apply elem_of_app. left. by apply elem_of_list_In.
      - rewrite <- E. symmetry. apply sub_ext. intros v Hv. by apply P1, b_vars. }
    assert (Hπ : forall v, sub π (θ v) = π v) by (intros v; exact (resolution_most_general st θ π Hac Hθ Hs (Var v))).
    assert (Hvar : forall v u, π v = Var u -> exists u', θ v = Var u').
    { intros v u Eu. rewrite <- Hπ in Eu. destruct (θ v); try discriminate. eauto. }
    split.
    - intros v Hv. destruct (H1 v Hv) as [u Eu]. apply (Hvar v u). rewrite P1; [done|by apply Hbv].
    - intros v Hv. destruct (H2 v Hv) as [u Eu]. apply (Hvar (ρ v) u). rewrite P2; [done|by apply Hbv].
  Qed.
  End combine.
  End one.

  Lemma collect_elem vs l v : v ∈ collect vs l <-> v ∈ vs \/ v ∈ l.
  Proof.
    unfold collect. revert vs. induction l as [|u l IH]; intros vs; simpl.
    - rewrite elem_of_nil. tauto.
    - rewrite IH, elem_of_cons. unfold oset_add. destruct (existsb (Nat.eqb u) vs) eqn:E.
      + apply existsb_exists in E as (u' & Hu & ->%Nat.eqb_eq). apply elem_of_list_In in Hu. split; [tauto|]. intros [?|[->|?]]; tauto.
      + rewrite elem_of_app, elem_of_list_singleton. tauto.
  Qed.
  Lemma fle_foldM {A S} (f g : A -> S -> res S) l : (forall a s, fle (f a s) (g a s)) -> forall s, fle (foldM f l s) (foldM g l s).
  Proof. intros H. induction l as [|a l IH]; intros s; [apply fle_refl|]. simpl. apply fle_bind; [done|]. intros; apply IH. Qed.
  Lemma mono_term_vars st x vs : mono (fun n => term_vars n st x vs).
  Proof.
    intros n. revert x vs. induction n as [|n IH]; intros x vs; [done|].
    change (term_vars (S (S n)) st x vs) with
      (match x with
       | Var v => match st !! v with None => Ok (oset_add v vs) | Some t => term_vars (S n) st t vs end
       | Fn xs => foldM (term_vars (S n) st) xs vs
       | Cst _ => Ok vs
       end).
    cbn [term_vars]. destruct x as [v|k|xs]; [|apply fle_refl|by apply fle_foldM]. destruct (st !! v); [apply IH|apply fle_refl].
  Qed.
  Lemma term_vars_settles st θ x : acyclic st -> resolution st θ -> settles (fun n => term_vars n st x []) (collect [] (vars (sub θ x))).
  Proof.
    intros Hac Hθ. destruct (acyclic_weighted _ Hac) as [w Hw]. exists (tw w x). intros n Hn. by apply (term_vars_spec st w θ).
  Qed.
  Lemma term_vars_ok st θ n x vs : acyclic st -> resolution st θ -> term_vars n st x [] = Ok vs -> vs = collect [] (vars (sub θ x)).
  Proof. intros Hac Hθ E. exact (mono_settles _ n _ _ (mono_term_vars st x []) E (term_vars_settles st θ x Hac Hθ)). Qed.

  Definition midp (t : wrule R) (Y : term) (x : term) (fs : list (factor R)) : term :=
    sub (fun v => default (Cst c0) (find_var v (rterm t) (Fn (x :: goals fs)))) Y.
  Lemma midp_sub (t : wrule R) Y τ x fs : (forall v, In v (vars Y) -> v ∈ wvars t) -> sub τ (whead t) = x -> map (fsub τ) (wbody t) = fs ->
    midp t Y x fs = sub τ Y.
  Proof.
    intros HY E1 E2. unfold midp. apply sub_ext. intros v Hv. rewrite <- (goals_inst τ t x fs E1 E2), find_var_sub, rterm_vars.
    rewrite decide_True; [done|]. by apply elem_of_list_In, HY.
  Qed.

  Section rule.
  Context (c : nat) (r : wrule R) (j : nat) (b : term) (rs : list (wrule R)).
  Context (Hb : wbody r !! j = Some (Goal b)).
  Context (Hf : forall v i, v ∈ wvars r -> c <= i -> v <> al i).
  Context (Hk : forall s, s ∈ rs -> kept r s j).
  Context (only : Prop) (Hvk : only -> (forall v, b <> Var v) /\ forall s, s ∈ rs -> values_kept r s b).
  Notation m := (length (wbody r) - S j).

  Definition new_ok (u : nat * wrule R) (Y : term) : Prop :=
    exists s, rs !! fst u = Some s /\ length (wbody (snd u)) = j + length (wbody s) + m /\
    (forall x L zs Q y, length L = j -> length zs = length (wbody s) -> inst r x (L ++ Goal y :: Q) -> inst s y zs ->
       inst (snd u) x (L ++ zs ++ Q) /\ midp (snd u) Y x (L ++ zs ++ Q) = y) /\
    (forall x L zs Q, length L = j -> length zs = length (wbody s) -> inst (snd u) x (L ++ zs ++ Q) ->
       inst r x (L ++ Goal (midp (snd u) Y x (L ++ zs ++ Q)) :: Q) /\ inst s (midp (snd u) Y x (L ++ zs ++ Q)) zs) /\
    (forall L vs Q k y ws, length L = j -> length vs = length (wbody s) -> length Q = m ->
       leafy only (snd u) (L ++ vs ++ Q) <-> leafy only r (L ++ WNode k y ws :: Q) /\ leafy only s vs).

  Lemma value_like_sub (θ : nat -> term) (f : factor R) (t : wderiv R) : (forall v, f = Goal (Var v) -> exists u, θ v = Var u) ->
    value_like (fsub θ f) t <-> value_like f t.
  Proof.
    intros Hθ. unfold value_like. split; intros H v E.
    - subst f. destruct (Hθ v eq_refl) as [u Eu]. apply (H u). cbn. by rewrite Eu.
    - destruct f as [|[u| |]]; try discriminate. by apply (H u).
  Qed.
  Lemma values_like_sub (θ : nat -> term) (fs : list (factor R)) (ts : list (wderiv R)) : (forall v, Goal (Var v) ∈ fs -> exists u, θ v = Var u) ->
    Forall2 value_like (map (fsub θ) fs) ts <-> Forall2 value_like fs ts.
  Proof.
    intros Hθ. revert ts. induction fs as [|f fs IH]; intros ts.
    - split; by inversion 1; subst; constructor.
    - destruct ts as [|t ts]; [split; inversion 1|]. cbn [map]. rewrite !Forall2_cons, value_like_sub, IH; [done| |].
      + intros v Hv. apply Hθ. by apply elem_of_list_further.
      + intros v ->. apply Hθ. by apply elem_of_list_here.
  Qed.

  (** no variable is lost, so the new rule is a renamed copy of the rule with the
      inlined body *)
  Lemma inline_shape n s ρ st θ c2 t c3 : s ∈ rs -> acyclic st -> resolution st θ ->
    (forall σ, solves σ st <-> sub σ (whead (rrename ρ s)) = sub σ b) ->
    inline al minf is_one n r j (rrename ρ s) st c2 = Ok (t, c3) ->
    let t0 := WRule (whead r) (take j (wbody r) ++ wbody (rrename ρ s) ++ drop (S j) (wbody r)) in
    (forall v, In v (vars (sub θ b)) -> v ∈ wvars (rsub θ t0)) /\
    exists ρ', t = rrename ρ' (rsub θ t0) /\ rrenames ρ' (rsub θ t0).
  Proof.
    intros Hs Hac Hθ Hst' Hin t0.
    pose proof (kept_vars r j b Hb s ρ st θ Hθ Hst' (Hk s Hs)) as Hkept. fold t0 in Hkept. split; [done|].
    unfold inline in Hin. fold t0 in Hin.
    destruct (term_vars n st (rterm (rrename ρ s)) []) as [vs| |] eqn:Ev; [|discriminate..]. cbn [bind] in Hin.
    destruct (term_vars n st (rterm t0) []) as [vt| |] eqn:Et; [|discriminate..]. cbn [bind] in Hin.
    apply (term_vars_ok st θ) in Ev, Et; [|done..].
    rewrite rterm_sub, rterm_vars in Ev, Et.
    assert (Hall : forallb (fun v => existsb (Nat.eqb v) vt) vs = true).
    { apply forallb_forall. intros v Hv. apply existsb_exists. exists v. split; [|apply Nat.eqb_refl]. apply elem_of_list_In in Hv. apply elem_of_list_In.
      subst vs vt. apply collect_elem in Hv. destruct Hv as [Hv|Hv]; [by apply elem_of_nil in Hv|]. apply collect_elem. right.
      unfold wvars in Hv. apply elem_of_app in Hv as [Hv|Hv].
      - apply Hkept. apply elem_of_list_In in Hv. cbn [rsub whead] in Hv. assert (E : sub θ (whead (rrename ρ s)) = sub θ b) by (apply Hst', Hθ).
        by rewrite <- E.
      - unfold wvars. apply elem_of_app. right. cbn [rsub wbody] in *. unfold t0. cbn [wbody]. rewrite !map_app, !goals_app, !flat_map_app.
        apply elem_of_app. right. apply elem_of_app. by left. }
    rewrite Hall in Hin. apply (fresh_rule_ok al Hal st θ Hac Hθ) in Hin as (ρ' & -> & Hρ' & _). by exists ρ'.
  Qed.

  Lemma inline_ok n k s' st c2 t c3 : answer al c ∅ b rs (k, s', st) ->
    inline al minf is_one n r j s' st c2 = Ok (t, c3) -> exists Y, new_ok (k, t) Y.
  Proof.
    intros (s & ρ & Hs & Hρ & -> & Hac & Hnew & _ & Hst) Hin. destruct (acyclic_resolution _ Hac) as [θ Hθ].
    assert (Hst' : forall σ, solves σ st <-> sub σ (whead (rrename ρ s)) = sub σ b).
    { intros σ. rewrite Hst. split; [tauto|]. intros H. split; [|done]. intros v u Hv. by rewrite lookup_empty in Hv. }
    destruct (inline_shape n s ρ st θ c2 t c3 (elem_of_list_lookup_2 _ _ _ Hs) Hac Hθ Hst' Hin) as (Hkept & ρ' & -> & Hρ').
    set (t0 := WRule (whead r) (take j (wbody r) ++ wbody (rrename ρ s) ++ drop (S j) (wbody r))) in *.
    set (Y := sub (fun v => Var (ρ' v)) (sub θ b)).
    assert (HY : forall v, In v (vars Y) -> v ∈ wvars (rrename ρ' (rsub θ t0))).
    { intros v Hv. unfold Y in Hv. apply vars_sub in Hv as (u & Hu & Hv). apply Hkept in Hu. destruct Hv as [<-|[]].
      by apply s_vars. }
    exists Y, s. cbn [fst snd]. split; [done|]. split; [|split; [|split]].
    - cbn [rrename rsub wbody t0]. rewrite !map_length, !app_length. cbn [rrename rsub wbody]. rewrite !map_length.
      rewrite (len_take r j b Hb), len_drop. lia.
    - intros x L zs Q y HL Hz H1 H2. destruct (inst_combine c r j b Hb Hf s ρ Hρ Hnew st Hst' x L zs Q y HL Hz H1 H2) as (σ & G & Hsv & E1 & E2 & E3).
      assert (Hi : inst (rrename ρ' (rsub θ t0)) x (L ++ zs ++ Q)).
      { apply inst_rename; [done|]. apply (inst_rsub st θ); [done..|]. by exists σ. }
      split; [done|]. destruct Hi as (τ & Gτ & T1 & T2). rewrite (midp_sub _ _ τ _ _ HY T1 T2).
      set (σ3 v := sub τ (sub (fun v => Var (ρ' v)) (θ v))).
      assert (G3 : forall v, ground (σ3 v)) by (intros v; by apply ground_sub_all).
      assert (S3 : solves σ3 st).
      { intros v u Hv. unfold σ3. rewrite (proj1 Hθ v u Hv), !sub_sub. apply sub_ext. intros w _. by rewrite sub_sub. }
      assert (E : forall a, sub σ3 a = sub τ (sub (fun v => Var (ρ' v)) (sub θ a))).
      { intros a. unfold σ3. rewrite !sub_sub. apply sub_ext. intros w _. by rewrite sub_sub. }
      destruct (inst_split r j b Hb s ρ st Hst' σ3 x L zs Q HL Hz G3 S3) as [I1 I2].
      + rewrite E. rewrite <- T1. done.
      + rewrite <- T2. cbn [rrename rsub wbody t0]. rewrite !fsub_fsub. apply map_ext. intros [v|a]; [done|]. cbn [fsub]. rewrite E.
        by rewrite !sub_sub.
      + unfold Y. rewrite <- E. symmetry. apply (Hk s (elem_of_list_lookup_2 _ _ _ Hs) x L Q zs); done.
    - intros x L zs Q HL Hz (τ & Gτ & T1 & T2). rewrite (midp_sub _ _ τ _ _ HY T1 T2).
      set (σ3 v := sub τ (sub (fun v => Var (ρ' v)) (θ v))).
      assert (G3 : forall v, ground (σ3 v)) by (intros v; by apply ground_sub_all).
      assert (S3 : solves σ3 st).
      { intros v u Hv. unfold σ3. rewrite (proj1 Hθ v u Hv), !sub_sub. apply sub_ext. intros w _. by rewrite sub_sub. }
      assert (E : forall a, sub σ3 a = sub τ (sub (fun v => Var (ρ' v)) (sub θ a))).
      { intros a. unfold σ3. rewrite !sub_sub. apply sub_ext. intros w _. by rewrite sub_sub. }
      unfold Y. rewrite <- E. apply (inst_split r j b Hb s ρ st Hst' σ3 x L zs Q HL Hz G3 S3).
      + rewrite E. rewrite <- T1. done.
      + rewrite <- T2. cbn [rrename rsub wbody t0]. rewrite !fsub_fsub. apply map_ext. intros [v|a]; [done|]. cbn [fsub]. rewrite E.
        by rewrite !sub_sub.
    - intros L us Q k0 y ws HL Hv HQ. unfold leafy. cbn [rrename rsub wbody t0].
      enough (only -> Forall2 value_like (map (fsub (fun v => Var (ρ' v))) (map (fsub θ) (take j (wbody r) ++ map (fsub (fun v => Var (ρ v))) (wbody s) ++ drop (S j) (wbody r)))) (L ++ us ++ Q) <->
        Forall2 value_like (wbody r) (L ++ WNode k0 y ws :: Q) /\ Forall2 value_like (wbody s) us) by tauto.
      intros Ho. destruct (Hvk Ho) as [Hbn Hvs].
      destruct (kept_values c r j b Hb Hf s ρ Hρ Hnew st θ Hac Hθ Hst' (Hvs s (elem_of_list_lookup_2 _ _ _ Hs))) as [V1 V2].
      rewrite values_like_sub by (intros v _; by eexists). rewrite !map_app, fsub_fsub.
      rewrite (body_r r j b Hb) at 3.
      assert (HLt : length (map (fsub θ) (take j (wbody r))) = length L) by (rewrite map_length, (len_take r j b Hb); done).
      assert (HLt' : length (take j (wbody r)) = length L) by (rewrite (len_take r j b Hb); done).
      assert (Hsplit : forall (A1 A2 : list (factor R)) (U1 U2 : list (wderiv R)), length A1 = length U1 ->
        Forall2 value_like (A1 ++ A2) (U1 ++ U2) <-> Forall2 value_like A1 U1 /\ Forall2 value_like A2 U2).
      { intros A1 A2 U1 U2 Hl. split; [by apply Forall2_app_inv|]. intros [? ?]. by apply Forall2_app. }
      rewrite !Hsplit by (rewrite ?map_length; done). rewrite Forall2_cons.
      rewrite !values_like_sub.
      + split; [intros (? & ? & ?)|intros ((? & _ & ?) & ?)]; repeat split; try done. intros v [= E]. by apply Hbn in E.
      + intros v Hv'. apply V1. rewrite <- (take_drop (S j)). apply elem_of_app. by right.
      + intros v Hv'. cbn. by apply V2.
      + intros v Hv'. apply V1. rewrite <- (take_drop j). apply elem_of_app. by left.
  Qed.

  Lemma inline_all_ok n os c2 us c3 : Forall (answer al c ∅ b rs) os -> inline_all al minf is_one n r j os c2 = Ok (us, c3) ->
    map fst us = map (fun o => fst (fst o)) os /\ exists ys, Forall2 new_ok us ys.
  Proof.
    intros Hos. revert c2 us c3. induction Hos as [|[[k s] st] os Ho _ IH]; intros c2 us c3 E; cbn [inline_all] in E.
    - injection E as <- <-. split; [done|]. exists []. constructor.
    - destruct (inline al minf is_one n r j s st c2) as [[t c4]| |] eqn:Ei; [|discriminate..]. cbn [bind] in E.
      destruct (inline_all al minf is_one n r j os c4) as [[us' c5]| |] eqn:Ea; [|discriminate..]. cbn [bind] in E. injection E as <- <-.
      destruct (IH _ _ _ Ea) as (E1 & ys & H). destruct (inline_ok _ _ _ _ _ _ _ Ho Ei) as [Y HY].
      split; [cbn [map]; by rewrite E1|]. exists (Y :: ys). by constructor.
  Qed.
  End rule.

  Context (ord : list term -> list term) (is_input : term -> bool) (eqr : wrule R -> wrule R -> bool).
  Context (Heq : forall r s, eqr r s = true <-> r = s).

  Lemma remove_rule_ok (r : wrule R) rs new : remove_rule eqr r rs = Ok new -> exists i, rs !! i = Some r /\ new = delete i rs.
  Proof.
    revert new. induction rs as [|s rs IH]; intros new E; [done|]. cbn [remove_rule] in E. destruct (eqr s r) eqn:Es.
    - apply Heq in Es as ->. injection E as <-. by exists 0.
    - destruct (remove_rule eqr r rs) as [rs'| |]; [|discriminate..]. cbn [bind] in E. injection E as <-.
      destruct (IH rs' eq_refl) as (i & Hi & ->). by exists (S i).
  Qed.
  Lemma remove_rule_returns (r : wrule R) rs : r ∈ rs -> exists new, remove_rule eqr r rs = Ok new.
  Proof.
    induction 1 as [s rs|s s' rs _ [new IH]]; cbn [remove_rule].
    - rewrite (proj2 (Heq s s) eq_refl). eauto.
    - destruct (eqr s' s); [eauto|]. rewrite IH. cbn. eauto.
  Qed.

  Lemma inv_new wt cv (rs : list (wrule R)) c : (forall r, r ∈ rs -> good_rule r) -> inv wt cv (p_new rs c).
  Proof. intros H. split; [done|by intros ? [=]|by intros ? [=]]. Qed.

  (** what [unfold] returns, for any program of definitions *)
  Lemma unfold_shape (only : Prop) n i j (defs rs : list (wrule R)) c r b rs' ix c' :
    (forall s, s ∈ defs -> good_rule s) -> rs !! i = Some r -> wbody r !! j = Some (Goal b) -> item_query b ->
    (forall v k, v ∈ wvars r -> c <= k -> v <> al k) ->
    (forall s, s ∈ defs -> kept r s j) ->
    (only -> (forall v, b <> Var v) /\ forall s, s ∈ defs -> values_kept r s b) ->
    unfold_by al ord is_input minf is_one eqr n i j defs rs c = Ok (rs', ix, c') ->
    exists i' us mid, rs !! i' = Some r /\ rs' = delete i' rs ++ map snd us /\
      ix = combine (seq (length (delete i' rs)) (length us)) (map fst us) /\ NoDup (map fst us) /\
      (forall p k t, us !! p = Some (k, t) -> exists s, defs !! k = Some s /\ length (wbody t) = j + length (wbody s) + (length (wbody r) - S j) /\
        (forall x L zs Q y, length L = j -> length zs = length (wbody s) -> inst r x (L ++ Goal y :: Q) -> inst s y zs ->
           inst t x (L ++ zs ++ Q) /\ mid p x (L ++ zs ++ Q) = y) /\
        (forall x L zs Q, length L = j -> length zs = length (wbody s) -> inst t x (L ++ zs ++ Q) ->
           inst r x (L ++ Goal (mid p x (L ++ zs ++ Q)) :: Q) /\ inst s (mid p x (L ++ zs ++ Q)) zs) /\
        (forall L vs Q k y ws, length L = j -> length vs = length (wbody s) -> length Q = length (wbody r) - S j ->
           leafy only t (L ++ vs ++ Q) <-> leafy only r (L ++ WNode k y ws :: Q) /\ leafy only s vs)) /\
      (forall k s x L y Q zs, defs !! k = Some s -> length L = j -> inst r x (L ++ Goal y :: Q) -> inst s y zs -> k ∈ map fst us).
  Proof.
    intros Hg Hr Hb Hq Hf Hk Hvk E. unfold unfold_by in E. rewrite Hr in E.
    destruct (remove_rule eqr r rs) as [new| |] eqn:Er; [|discriminate..]. cbn [bind] in E. rewrite Hb in E.
    destruct (negb (safe_inline is_input (Goal b))); [discriminate|].
    destruct (lookup al ord n ∅ b (p_new defs c)) as [[os P']| |] eqn:El; [|discriminate..]. cbn [bind] in E.
    destruct (inline_all al minf is_one n r j os (p_c P')) as [[us c4]| |] eqn:Ea; [|discriminate..]. cbn [bind] in E. injection E as <- <- <-.
    apply remove_rule_ok in Er as (i' & Hi' & ->).
    pose proof (b_vars r j b Hb) as Hbv.
    apply (lookup_ok (fun _ => szero) al al Hal ord n ∅ Var b) in El.
    2: { by apply inv_new. }
    2: { by apply acyclic_empty. }
    2: { by apply resolution_empty. }
    2: { intros ? ? ? ?. apply lookup_empty. }
    2: { intros k Hc. split; [|split].
         - intros Hv. by apply (Hf _ k (Hbv _ Hv) Hc).
         - apply lookup_empty.
         - intros w t Hw. by rewrite lookup_empty in Hw. }
    2: { by rewrite sub_Var. }
    cbn [p_rules p_new p_c] in El. destruct El as (Hsort & Hmeet & Hans & HP).
    destruct (inline_all_ok c r j b defs Hb Hf Hk only Hvk n os _ us c4 Hans Ea) as (E1 & ys & Hys).
    set (mid p x fs := match us !! p, ys !! p with Some u, Some Y => midp (snd u) Y x fs | _, _ => Cst c0 end).
    exists i', us, mid. split; [done|]. split; [done|]. split; [done|]. split; [|split].
    - rewrite E1. clear - Hsort. induction Hsort as [|k l _ IH Hall]; [constructor|]. constructor; [|done].
      intros H. rewrite Forall_forall in Hall. apply Hall in H. lia.
    - intros p k t Hp. destruct (Forall2_lookup_l _ _ _ _ _ Hys Hp) as (Y & HYp & s & Hs & Hlen & Hfw & Hbw & Hlf). cbn [fst snd] in *.
      exists s. split; [done|]. split; [done|]. unfold mid. rewrite Hp, HYp. cbn [snd]. split; [done|]. split; [done|]. done.
    - intros k s x L y Q zs Hs HL (σ1 & G1 & _ & E2) (σ2 & G2 & E3 & _). rewrite E1. apply Hmeet.
      apply (inst_r r j b Hb σ1) in E2 as (_ & -> & _); [|done]. exists s, σ1, σ2. split; [done|]. split; [|done].
      intros v t Hv. by rewrite lookup_empty in Hv.
  Qed.
  (** the subgoal is an item that is not a leaf *)
  Lemma goal_shape (r : wrule R) j b (base : term -> Prop) : wbody r !! j = Some (Goal b) -> (forall σ, (forall v, ground (σ v)) -> ~ base (sub σ b)) ->
    forall x L f Q, length L = j -> inst r x (L ++ f :: Q) -> exists y, f = Goal y /\ ~ base y.
  Proof.
    intros Hb Hbase x L f Q HL (σ & G & _ & E2). rewrite (body_r r j b Hb), map_app in E2. cbn [map fsub] in E2.
    apply app_inj_1 in E2 as [_ E2]; [|by rewrite map_length, (len_take r j b Hb)]. injection E2 as <- _. eauto.
  Qed.

  Lemma unfold_ok (only : Prop) n i j (rs : list (wrule R)) c r b base rs' ix c' :
    (forall r, r ∈ rs -> good_rule r) -> rs !! i = Some r -> wbody r !! j = Some (Goal b) -> item_query b ->
    (forall v k, v ∈ wvars r -> c <= k -> v <> al k) ->
    (forall s, s ∈ rs -> kept r s j) -> (forall σ, (forall v, ground (σ v)) -> ~ base (sub σ b)) ->
    (only -> (forall v, b <> Var v) /\ forall s, s ∈ rs -> values_kept r s b) ->
    unfold al ord is_input minf is_one eqr n i j rs c = Ok (rs', ix, c') ->
    same_meaning (wderives only rs base) (wderives only rs' base).
  Proof.
    intros Hg Hr Hb Hq Hf Hk Hbase Hvk E. unfold TransModel.unfold in E.
    destruct (unfold_shape only _ _ _ _ _ _ _ _ _ _ _ Hg Hr Hb Hq Hf Hk Hvk E) as (i' & us & mid & Hi' & -> & _ & HN & HA & HB).
    apply (unfold_same_meaning only rs base i' j r us mid Hi'); [by eapply lookup_lt_Some|done|exact HA|exact HB|].
    by eapply goal_shape.
  Qed.

  Lemma inline_settles st (r s : wrule R) j c : acyclic st -> exists t c', settles (fun n => inline al minf is_one n r j s st c) (t, c').
  Proof.
    intros Hac. destruct (acyclic_resolution _ Hac) as [θ Hθ]. unfold inline.
    pose proof (term_vars_settles st θ (rterm s) Hac Hθ) as H1.
    pose proof (term_vars_settles st θ (rterm (WRule (whead r) (take j (wbody r) ++ wbody s ++ drop (S j) (wbody r)))) Hac Hθ) as H2.
    destruct (fresh_rule_settles al Hal st θ Hac Hθ c
      (if forallb (fun v => existsb (Nat.eqb v) (collect [] (vars (sub θ (rterm (WRule (whead r) (take j (wbody r) ++ wbody s ++ drop (S j) (wbody r)))))))) (collect [] (vars (sub θ (rterm s))))
       then WRule (whead r) (take j (wbody r) ++ wbody s ++ drop (S j) (wbody r))
       else if is_one minf then WRule (whead r) (take j (wbody r) ++ wbody s ++ drop (S j) (wbody r))
       else WRule (whead r) ((take j (wbody r) ++ wbody s ++ drop (S j) (wbody r)) ++ [Val minf]))) as (t & c' & H3).
    exists t, c'. eapply settles_bind; [exact H1|]. eapply settles_bind; [exact H2|]. exact H3.
  Qed.
  Lemma inline_all_settles (r : wrule R) j os : Forall (fun o => acyclic (snd o)) os -> forall c, exists us c', settles (fun n => inline_all al minf is_one n r j os c) (us, c').
  Proof.
    induction 1 as [|[[k s] st] os Ho _ IH]; intros c; [by exists [], c, 0|]. cbn [snd] in Ho.
    destruct (inline_settles st r s j c Ho) as (t & c1 & H1). destruct (IH c1) as (us & c2 & H2). exists ((k, t) :: us), c2.
    cbn [inline_all]. eapply settles_bind; [exact H1|]. eapply settles_bind; [exact H2|]. by exists 0.
  Qed.
  Lemma unfold_settles i j (rs : list (wrule R)) c r b :
    (forall r, r ∈ rs -> good_rule r) -> rs !! i = Some r -> wbody r !! j = Some (Goal b) -> item_query b ->
    (forall r, r ∈ rs -> ~ Fn [] ∈ goals (wbody r)) ->
    (forall v k, v ∈ wvars r -> c <= k -> v <> al k) -> is_input b = false ->
    exists o, settles (fun n => unfold al ord is_input minf is_one eqr n i j rs c) o.
  Proof.
    intros Hg Hr Hb Hq Hfn Hf Hin. unfold TransModel.unfold, unfold_by. rewrite Hr, Hb.
    destruct (remove_rule_returns r rs (elem_of_list_lookup_2 _ _ _ Hr)) as [new ->]. cbn [bind].
    assert (Hsafe : safe_inline (R := R) is_input (Goal b) = true).
    { destruct Hq as [[v ->]|(f & args & ->)]; cbn; by rewrite Hin. }
    rewrite Hsafe. cbn [negb].
    destruct (lookup_settles (fun _ => szero) al al Hal ord ∅ Var b (p_new rs c)) as [[os P'] Hl].
    { by apply inv_new. } { by apply acyclic_empty. } { by apply resolution_empty. } { done. } { by rewrite sub_Var. }
    assert (Hac : Forall (fun o => acyclic (snd o)) os).
    { destruct Hl as [n0 Hl]. specialize (Hl n0 (le_n _)). apply (lookup_ok (fun _ => szero) al al Hal ord n0 ∅ Var b) in Hl.
      - destruct Hl as (_ & _ & Hans & _). eapply Forall_impl; [exact Hans|]. intros [[k s] st]. by intros (? & ? & _ & _ & _ & ? & _).
      - by apply inv_new.
      - by apply acyclic_empty.
      - by apply resolution_empty.
      - intros ? ? ? ?. apply lookup_empty.
      - intros k Hc. split; [|split].
        + intros Hv. by apply (Hf _ k (b_vars r j b Hb _ Hv) Hc).
        + apply lookup_empty.
        + intros w t Hw. by rewrite lookup_empty in Hw.
      - by rewrite sub_Var. }
    destruct (inline_all_settles r j os Hac (p_c P')) as (us & c2 & Ha).
    eexists. eapply settles_bind; [exact Hl|]. eapply settles_bind; [exact Ha|]. by exists 0.
  Qed.
End unfold.
