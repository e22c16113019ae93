(** The rules made by the slash and left-corner transformations, and their instances. *)
From Coq Require Import List.
From stdpp Require Import gmap.
From Coq Require Import Lia.
From Coq Require String Ascii.
From Verif Require Import PyBase Semiring TermModel TermSpec TermProofs ChartProofs SetsModel SetsSpec SetsProofs FuelProofs UnifyProofs SolverProofs CoverProofs
  PruneModel NamesModel UpdateModel UpdateSpec UpdateProofs TransSpec TransProofs TransModel UnfoldProofs LinearProofs SlashSpec SlashModel SlashProofs CoarseProofs.
Import String.StringSyntax Ascii.AsciiSyntax.
Import ListNotations.

(** * Finite choice, and deciding common instances *)
Lemma fin_choice (P : nat -> Prop) n : (forall k, k < n -> P k \/ ~ P k) -> exists f : nat -> bool, forall k, k < n -> f k = true <-> P k.
Proof.
  induction n as [|n IH]; intros H; [exists (fun _ => false); lia|].
  destruct IH as [f Hf]; [intros k Hk; apply H; lia|]. destruct (H n ltac:(lia)) as [Hn|Hn].
  - exists (fun k => if decide (k = n) then true else f k). intros k Hk. destruct (decide (k = n)) as [->|Hne]; [done|]. apply Hf. lia.
  - exists (fun k => if decide (k = n) then false else f k). intros k Hk. destruct (decide (k = n)) as [->|Hne]; [done|]. apply Hf. lia.
Qed.
Lemma exists_em {A} (P : A -> Prop) (l : list A) : (forall a, a ∈ l -> P a \/ ~ P a) -> (exists a, a ∈ l /\ P a) \/ ~ exists a, a ∈ l /\ P a.
Proof.
  induction l as [|a l IH]; intros H; [right; by intros (a & ?%elem_of_nil & _)|].
  destruct (H a ltac:(left)) as [Ha|Ha]; [left; exists a; split; [left|done]|].
  destruct IH as [IH|IH]; [intros b Hb; apply H; by right|left|right].
  - destruct IH as (b & Hb & HP). exists b. split; [by right|done].
  - intros (b & [->|Hb]%elem_of_cons & HP); [done|]. apply IH. eauto.
Qed.
Lemma unify_em a b : (exists σ, sub σ a = sub σ b) \/ ~ exists σ, sub σ a = sub σ b.
Proof. destruct (unifies_settles a b) as ([|] & _ & H); [left|right]; [by apply H|]. intros Hn. apply H in Hn. done. Qed.
Definition meet3 (a b d : term) : Prop := exists g, gr_inst a g /\ gr_inst b g /\ gr_inst d g.
Lemma gr_rename (ρ : nat -> nat) a g : (forall u v, ρ u = ρ v -> u = v) -> gr_inst (rename ρ a) g <-> gr_inst a g.
Proof. intros H. symmetry. apply gr_variant. exists ρ. split; [|done]. intros u v _ _. apply H. Qed.
Lemma rename_range ρ t v : In v (vars (rename ρ t)) -> exists u, v = ρ u.
Proof. rewrite vars_rename. intros (u & <- & _)%in_map_iff. eauto. Qed.
Lemma meet3_em a b d : meet3 a b d \/ ~ meet3 a b d.
Proof.
  set (r0 v := 3 * v). set (r1 v := 3 * v + 1). set (r2 v := 3 * v + 2).
  assert (H0 : forall u v, r0 u = r0 v -> u = v) by (unfold r0; lia).
  assert (H1 : forall u v, r1 u = r1 v -> u = v) by (unfold r1; lia).
  assert (H2 : forall u v, r2 u = r2 v -> u = v) by (unfold r2; lia).
  destruct (unify_em (Fn [rename r0 a; rename r0 a]) (Fn [rename r1 b; rename r2 d])) as [[σ H]|H]; [left|right].
  - cbn in H. injection H as E1 E2. exists (sub z0 (sub σ (rename r0 a))).
    assert (Hg : ground (sub z0 (sub σ (rename r0 a)))) by (by apply ground_sub_all).
    rewrite <- (gr_rename r0 a _ H0), <- (gr_rename r1 b _ H1), <- (gr_rename r2 d _ H2). unfold gr_inst.
    split; [|split]; (split; [done|]); exists (fun v => sub z0 (σ v)); rewrite <- sub_sub; congruence.
  - intros (g & A & B & D). apply H. clear H.
    rewrite <- (gr_rename r0 a _ H0) in A. rewrite <- (gr_rename r1 b _ H1) in B. rewrite <- (gr_rename r2 d _ H2) in D.
    destruct A as [_ [σ0 A]], B as [_ [σ1 B]], D as [_ [σ2 D]].
    set (σ v := if decide (v `mod` 3 = 0) then σ0 v else if decide (v `mod` 3 = 1) then σ1 v else σ2 v). exists σ.
    assert (EA : sub σ (rename r0 a) = g).
    { rewrite <- A. apply sub_ext. intros v (u & ->)%rename_range. unfold σ, r0. rewrite decide_True; [done|].
      rewrite Nat.mul_comm. by apply Nat.mod_mul. }
    assert (EB : sub σ (rename r1 b) = g).
    { rewrite <- B. apply sub_ext. intros v (u & ->)%rename_range. unfold σ, r1. rewrite Nat.add_comm, Nat.mul_comm, Nat.mod_add by done. done. }
    assert (ED : sub σ (rename r2 d) = g).
    { rewrite <- D. apply sub_ext. intros v (u & ->)%rename_range. unfold σ, r2. rewrite Nat.add_comm, Nat.mul_comm, Nat.mod_add by done. done. }
    cbn. by rewrite EA, EB, ED.
Qed.
Lemma meet_em a b : meet a b \/ ~ meet a b.
Proof. destruct (meet3_em a a b) as [(g & A & _ & B)|H]; [left; by exists g|right]. intros (g & A & B). apply H. by exists g. Qed.
Lemma meet_sym a b : meet a b -> meet b a.
Proof. intros (g & A & B). by exists g. Qed.
Lemma meet_variant a a' b : variant a a' -> meet a b <-> meet a' b.
Proof. intros Hv. split; intros (g & A & B); exists g; (split; [|done]); by apply (gr_variant a a' g Hv). Qed.

(** * Combining substitutions *)
Definition comb (V : list nat) (σ τ : nat -> term) (v : nat) : term := if decide (v ∈ V) then σ v else τ v.
Lemma comb_in V σ τ t : (forall v, In v (vars t) -> v ∈ V) -> sub (comb V σ τ) t = sub σ t.
Proof. intros H. apply sub_ext. intros v Hv. unfold comb. rewrite decide_True; [done|]. by apply H. Qed.
Lemma comb_out V σ τ t : (forall v, In v (vars t) -> v ∉ V) -> sub (comb V σ τ) t = sub τ t.
Proof. intros H. apply sub_ext. intros v Hv. unfold comb. rewrite decide_False; [done|]. by apply H. Qed.
Lemma comb_ground V σ τ : (forall v, ground (σ v)) -> (forall v, ground (τ v)) -> forall v, ground (comb V σ τ v).
Proof. intros H1 H2 v. unfold comb. by destruct (decide _). Qed.

Section runs.
  Context {R : semiring} (al cv : nat -> nat) (Hal : forall i j, al i = al j -> i = j).
  Implicit Types (r : wrule R).
  Lemma fsub_ext σ τ (fs : list (factor R)) : (forall v, In v (flat_map vars (goals fs)) -> σ v = τ v) -> map (fsub σ) fs = map (fsub τ) fs.
  Proof.
    intros H. induction fs as [|[k|b] fs IH]; [done|..]; cbn [map fsub].
    - f_equal. by apply IH.
    - f_equal; [f_equal; apply sub_ext; intros v Hv; apply H; cbn; apply in_or_app; by left|]. apply IH. intros v Hv. apply H. cbn. apply in_or_app. by right.
  Qed.
  Lemma fresh_inst st n c r r' c' : acyclic st -> fresh_rule al n st c r = Ok (r', c') ->
    c <= c' /\ forall x fs, inst r' x fs <-> exists σ, (forall v, ground (σ v)) /\ solves σ st /\ sub σ (whead r) = x /\ map (fsub σ) (wbody r) = fs.
  Proof.
    intros Hac E. destruct (acyclic_resolution st Hac) as [θ Hθ].
    destruct (fresh_rule_ok al Hal st θ Hac Hθ n c r r' c' E) as (ρ & Er & Hρ & Hc & _). rewrite Er. split; [done|]. intros x fs. rewrite (inst_rename ρ _ x fs Hρ).
    assert (Hmg : forall σ t, solves σ st -> sub σ (sub θ t) = sub σ t) by (intros; by apply (resolution_most_general st θ)).
    assert (Hfm : forall σ (l : list (factor R)), map (fsub σ) (map (fsub θ) l) = map (fsub (fun v => sub σ (θ v))) l).
    { intros σ l. rewrite map_map. apply map_ext. intros [k|b]; [done|]. cbn. by rewrite sub_sub. }
    split.
    - intros (σ & H1 & H2 & H3). cbn [whead wbody rsub] in *. exists (fun v => sub σ (θ v)).
      split; [intros v; by apply ground_sub_all|]. split; [|split].
      + destruct Hθ as [Hs _]. intros v t Ev. rewrite (Hs v t Ev). by rewrite sub_sub.
      + rewrite <- H2. by rewrite sub_sub.
      + rewrite <- H3. by rewrite Hfm.
    - intros (σ & H1 & H2 & H3 & H4). exists σ. cbn [whead wbody rsub]. split; [done|]. split.
      + rewrite <- H3. by apply Hmg.
      + rewrite <- H4, map_map. apply map_ext. intros [k|b]; [done|]. cbn. f_equal. by apply Hmg.
  Qed.
  Lemma solves_empty σ : solves σ ∅.
  Proof. intros v t Ev. by rewrite lookup_empty in Ev. Qed.
  Lemma fresh_inst0 n c r r' c' : fresh_rule al n ∅ c r = Ok (r', c') -> c <= c' /\ forall x fs, inst r' x fs <-> inst r x fs.
  Proof.
    intros E. apply (fresh_inst ∅ _ _ _ _ _ acyclic_empty) in E as [Hc H]. split; [done|]. intros x fs. rewrite H. split.
    - intros (σ & H1 & _ & H2 & H3). by exists σ.
    - intros (σ & H1 & H2 & H3). exists σ. split; [done|]. split; [apply solves_empty|done].
  Qed.

  Lemma any_unifies_run n st ys x b : acyclic st -> any_unifies n st ys x = Ok b ->
    (b = true <-> exists y, y ∈ ys /\ exists σ, solves σ st /\ sub σ y = sub σ x).
  Proof.
    intros Hac. induction ys as [|y ys IH]; intros E; cbn [any_unifies] in E.
    - injection E as <-. split; [done|]. by intros (y & ?%elem_of_nil & _).
    - destruct (unifies n st y x) as [u| |] eqn:Eu; [|discriminate..]. cbn [bind] in E. apply (unifies_heap n st y x u Hac) in Eu. destruct u.
      + injection E as <-. split; [intros _|done]. exists y. split; [left|by apply Eu].
      + rewrite (IH E). split.
        * intros (z & Hz & Hs). exists z. split; [by right|done].
        * intros (z & [->|Hz]%elem_of_cons & Hs); [by apply Eu in Hs|eauto].
  Qed.
  Lemma is_useful_run n st z ys b : acyclic st -> is_useful_in n st z ys = Ok b ->
    (b = true <-> exists y, y ∈ ys /\ exists σ, solves σ st /\ sub σ z = sub σ y).
  Proof.
    intros Hac. induction ys as [|y ys IH]; intros E; cbn [is_useful_in] in E.
    - injection E as <-. split; [done|]. by intros (y & ?%elem_of_nil & _).
    - destruct (unifies n st z y) as [u| |] eqn:Eu; [|discriminate..]. cbn [bind] in E. apply (unifies_heap n st z y u Hac) in Eu. destruct u.
      + injection E as <-. split; [intros _|done]. exists y. split; [left|by apply Eu].
      + rewrite (IH E). split.
        * intros (w & Hw & Hs). exists w. split; [by right|done].
        * intros (w & [->|Hw]%elem_of_cons & Hs); [by apply Eu in Hs|eauto].
  Qed.
  Definition item (t : term) : Prop := item_head t /\ is_builtin t = false.
  Lemma item_not_const t : item t -> is_const t || is_builtin t = false.
  Proof. intros [(f & args & ->) H]. by rewrite H. Qed.
  Lemma item_variant t t' : variant t t' -> item t -> item t'.
  Proof.
    intros (ρ & _ & ->) [(f & args & ->) H]. unfold rename. cbn. split; [by eexists _, _|]. cbn [is_builtin] in *. by rewrite map_length.
  Qed.
  Lemma item_sig t t' : sig t = sig t' -> item t -> item_head t' -> item t'.
  Proof.
    intros E [(f & args & ->) H] (g & l & ->). cbn in E. injection E as -> E. split; [by eexists _, _|]. cbn [is_builtin] in *. by rewrite <- E.
  Qed.
  Lemma is_exogenous_run inputs n st t b : acyclic st -> item t -> is_exogenous inputs n st t = Ok b ->
    (b = true <-> exists y, y ∈ inputs /\ exists σ, solves σ st /\ sub σ y = sub σ t).
  Proof.
    intros Hac Hi E. unfold is_exogenous in E. destruct (snap n st t) as [y| |] eqn:Es; [|discriminate..]. cbn [bind] in E.
    assert (y = t) as ->.
    { destruct Hi as [(f & args & ->) _]. destruct n; cbn in Es; [discriminate|]. congruence. }
    rewrite (item_not_const t Hi) in E. by apply (any_unifies_run n st inputs t b Hac).
  Qed.
  Lemma covers_run n x y b : disjoint_vars x y -> covers n x y = Ok b -> (b = true <-> instance_of x y).
  Proof.
    intros Hd E. unfold covers in E. destruct (cover n ∅ x y) as [[s b']| |] eqn:Ec; [|discriminate..]. injection E as <-.
    destruct (covers_spec (n + tsize y) x y Hd ltac:(lia)) as (s' & b2 & Ec' & Hb & _).
    rewrite (cover_mono _ (n + tsize y) _ _ _ _ Ec ltac:(lia)) in Ec'. by injection Ec' as <- <-.
  Qed.
End runs.

Section concrete.
  Context {R : semiring} (al cv : nat -> nat) (Hal : forall i j, al i = al j -> i = j) (Halcv : forall i j, al i <> cv j).
  Context (inputs : list term) (positions : nat -> option nat) (lc : bool) (rs : list (wrule R)) (c0 : nat).
  (** the program *)
  Context (Hitems : Forall item (node_terms inputs rs)).
  Context (Hfresh : forall r v k, r ∈ rs -> v ∈ wvars r -> c0 <= k -> v <> al k).
  Context (Hinp : forall y v, y ∈ inputs -> In v (vars y) -> (forall r, r ∈ rs -> v ∉ wvars r) /\ (forall k, c0 <= k -> v <> al k) /\ (forall k, v <> cv k)).
  Context (Hpos : forall i r j, rs !! i = Some r -> positions i = Some j -> exists b, wbody r !! j = Some (Goal b) /\ item b).
  Context (Hsig : forall y r, y ∈ inputs -> r ∈ rs -> sig y <> sig (whead r)).
  (** the item that is slashed out *)
  Context (x : term) (c1 : nat) (Hx : from al c0 c1 x) (Hc1 : c0 <= c1).
  (** the nodes *)
  Context (nodes : list term) (c2 : nat) (Hc2 : c1 <= c2).
  Context (Hncv : Forall (fromcv cv) nodes) (Hnit : Forall item nodes).
  Context (useful : list term) (Hus : forall u, u ∈ useful <-> u = x \/ exists i r j, rs !! i = Some r /\ positions i = Some j /\ wbody r !! j = Some (Goal u)).
  Context (slash_fn other_fn : String.string).

  Definition ug (z : term) : Prop := exists u, u ∈ useful /\ exists σ, sub σ z = sub σ u.
  #[local] Instance ground_decision t : Decision (ground t).
  Proof. unfold ground. apply _. Defined.
  Definition Xb (z : term) : bool := match decide (ground z) with left H => if gr_dec x z H then true else false | right _ => false end.
  Lemma Xb_spec z : Xb z = true <-> gr_inst x z.
  Proof.
    unfold Xb. destruct (decide (ground z)) as [H|H]; [|split; [done|by intros [? _]]]. destruct (gr_dec x z H); done.
  Qed.
  Lemma Xb_false z : Xb z = false <-> ~ gr_inst x z.
  Proof. rewrite <- Xb_spec. destruct (Xb z); naive_solver. Qed.
  Definition N (p : nat) (z : term) : Prop := exists y, nodes !! p = Some y /\ gr_inst y z.

  Context (up ex mx endo ro con zex : nat -> bool).
  Context (Bup : forall i r, rs !! i = Some r -> up i = true <-> ug (whead r)).
  Context (Bex : forall i r j b, rs !! i = Some r -> positions i = Some j -> wbody r !! j = Some (Goal b) -> ex i = true <-> exists y, y ∈ inputs /\ meet y b).
  Context (Bmx : forall i r j b, rs !! i = Some r -> positions i = Some j -> wbody r !! j = Some (Goal b) -> mx i = true <-> meet x b).
  Context (Bendo : forall p y, nodes !! p = Some y -> endo p = true <-> ~ exists u, u ∈ inputs /\ meet u y).
  Context (Bro : forall p y, nodes !! p = Some y -> ro p = true <-> endo p = true /\ (forall v, x <> Var v) /\ exists u, u ∈ useful /\ meet y u).
  Context (Bcon : forall p y, nodes !! p = Some y -> con p = true <-> meet x y).
  Context (Bzex : forall p y, nodes !! p = Some y -> zex p = true <-> exists u, u ∈ inputs /\ meet3 x y u).

  Notation slf := (CStr slash_fn).
  Notation otf := (CStr other_fn).
  Notation nmf := (CStr "$not_matches").
  Notation tok := (Cst (CStr "lam")).
  Notation kin := (kinst lc rs Xb slf otf nmf tok positions up ex N endo ro con zex).
  Notation otm y := (Fn [Cst otf; y]).
  Definition G (K : skind) (t : wrule R) : Prop := forall y fs, inst t y fs <-> kin K y fs.

  (** variables *)
  Lemma goal_wvars (r : wrule R) j b v : wbody r !! j = Some (Goal b) -> In v (vars b) -> v ∈ wvars r.
  Proof.
    intros Hb Hv. unfold wvars. apply elem_of_app. right. apply elem_of_list_In, in_flat_map. exists b. split; [|done].
    apply elem_of_list_In, elem_of_goals. by eapply elem_of_list_lookup_2.
  Qed.
  Lemma head_wvars (r : wrule R) v : In v (vars (whead r)) -> v ∈ wvars r.
  Proof. intros Hv. unfold wvars. apply elem_of_app. left. by apply elem_of_list_In. Qed.
  Lemma x_rule (r : wrule R) v : r ∈ rs -> v ∈ wvars r -> ~ In v (vars x).
  Proof. intros Hr Hv Hvx. destruct (Hx v Hvx) as (k & -> & Hk). apply (Hfresh r (al k) k Hr Hv); [lia|done]. Qed.
  Lemma x_goal i (r : wrule R) j b : rs !! i = Some r -> wbody r !! j = Some (Goal b) -> disjoint_vars x b.
  Proof. intros Hr Hb v H1 H2. eapply x_rule; [by eapply elem_of_list_lookup_2|by eapply goal_wvars|done]. Qed.
  Lemma inp_rule u (r : wrule R) t : u ∈ inputs -> r ∈ rs -> (forall v, In v (vars t) -> v ∈ wvars r) -> disjoint_vars u t.
  Proof. intros Hu Hr Ht v H1 H2. destruct (Hinp u v Hu H1) as (H & _ & _). apply (H r Hr). by apply Ht. Qed.
  Lemma inp_al u t c c' : u ∈ inputs -> c0 <= c -> from al c c' t -> disjoint_vars u t.
  Proof. intros Hu Hc Ht v H1 H2. destruct (Ht v H2) as (k & -> & Hk). destruct (Hinp u _ Hu H1) as (_ & H & _). apply (H k); [lia|done]. Qed.
  Lemma inp_cv u t : u ∈ inputs -> fromcv cv t -> disjoint_vars u t.
  Proof. intros Hu Ht v H1 H2. destruct (Ht v H2) as (k & ->). destruct (Hinp u _ Hu H1) as (_ & _ & H). by apply (H k). Qed.
  Lemma al_al t t' c c' d d' : from al c c' t -> from al d d' t' -> c' <= d -> disjoint_vars t t'.
  Proof. intros H H' Hle v H1 H2. destruct (H v H1) as (k & -> & Hk), (H' _ H2) as (k' & E & Hk'). apply Hal in E. lia. Qed.
  Lemma al_rule t c c' (r : wrule R) v : r ∈ rs -> c0 <= c -> from al c c' t -> In v (vars t) -> v ∉ wvars r.
  Proof. intros Hr Hc Ht Hv Hw. destruct (Ht v Hv) as (k & -> & Hk). apply (Hfresh r _ k Hr Hw); [lia|done]. Qed.
  Lemma head_item r : r ∈ rs -> item (whead r).
  Proof.
    intros Hr. rewrite Forall_forall in Hitems. apply Hitems. unfold node_terms. apply elem_of_app. right.
    apply elem_of_list_In, in_flat_map. exists r. split; [by apply elem_of_list_In|by left].
  Qed.
  Lemma input_item u : u ∈ inputs -> item u.
  Proof. intros Hu. rewrite Forall_forall in Hitems. apply Hitems. apply elem_of_app. by left. Qed.
  Lemma goal_node i (r : wrule R) b j : rs !! i = Some r -> wbody r !! j = Some (Goal b) -> item b -> b ∈ node_terms inputs rs.
  Proof.
    intros Hr Hb Hi. apply elem_of_app. right. apply elem_of_list_In, in_flat_map. exists r.
    split; [apply elem_of_list_In; by eapply elem_of_list_lookup_2|]. right. apply filter_In. split.
    - apply elem_of_list_In, elem_of_goals. by eapply elem_of_list_lookup_2.
    - by rewrite (item_not_const b Hi).
  Qed.
  Lemma head_node r : r ∈ rs -> whead r ∈ node_terms inputs rs.
  Proof. intros Hr. apply elem_of_app. right. apply elem_of_list_In, in_flat_map. exists r. split; [by apply elem_of_list_In|by left]. Qed.
  Lemma useful_al u t c c' : u ∈ useful -> c1 <= c -> from al c c' t -> disjoint_vars t u.
  Proof.
    intros Hu Hc Ht v H1 H2. destruct (Ht v H1) as (k & -> & Hk). apply Hus in Hu as [->|(i & r & j & Hr & _ & Hb)].
    - destruct (Hx _ H2) as (k' & E & Hk'). apply Hal in E. lia.
    - apply (Hfresh r (al k) k); [by eapply elem_of_list_lookup_2|by eapply goal_wvars|lia|done].
  Qed.
  Lemma sig_meet a b : item_head a -> item_head b -> meet a b -> sig a = sig b.
  Proof. intros Ha Hb (g & A & B). rewrite <- (gr_sig a g Ha A). by apply gr_sig. Qed.
  Lemma head_not_input u r t : u ∈ inputs -> r ∈ rs -> item_head t -> meet u t -> meet t (whead r) -> False.
  Proof.
    intros Hu Hr Ht H1 H2. apply (Hsig u r Hu Hr). rewrite (sig_meet u t); [|by apply input_item|done|done].
    apply sig_meet; [done|by apply head_item|done].
  Qed.

  (** calls *)
  Lemma mk_other_run n st z o : acyclic st -> item z -> mk_other inputs other_fn useful n st z = Ok o ->
    exists e : bool, (e = true <-> exists y, y ∈ inputs /\ exists σ, solves σ st /\ sub σ y = sub σ z) /\
      if e then o = z else exists u : bool, (u = true <-> exists y, y ∈ useful /\ exists σ, solves σ st /\ sub σ z = sub σ y) /\ o = if u then otm z else z.
  Proof.
    intros Hac Hi E. unfold mk_other in E. destruct (is_exogenous inputs n st z) as [e| |] eqn:Ee; [|discriminate..]. cbn [bind] in E.
    apply (is_exogenous_run inputs n st z e Hac Hi) in Ee. exists e. split; [done|]. destruct e; [by injection E as <-|].
    destruct (is_useful useful n st z) as [u| |] eqn:Eu; [|discriminate..]. cbn [bind] in E. injection E as <-.
    exists u. split; [|done]. by apply (is_useful_run n st z useful u Hac).
  Qed.
  Lemma ex_solves (P : (nat -> term) -> Prop) : (exists σ, solves σ ∅ /\ P σ) <-> exists σ, P σ.
  Proof. split; intros [σ H]; exists σ; [apply H|split; [apply solves_empty|done]]. Qed.
  Lemma useful0_run n z u : is_useful useful n ∅ z = Ok u -> (u = true <-> ug z).
  Proof.
    intros E. rewrite (is_useful_run n ∅ z useful u acyclic_empty E). unfold ug. split; intros (y & Hy & Hs); exists y; (split; [done|]);
    by apply (ex_solves (fun σ => sub σ z = sub σ y)).
  Qed.
  Lemma other_head i r n o : rs !! i = Some r -> mk_other inputs other_fn useful n ∅ (whead r) = Ok o -> o = if up i then otm (whead r) else whead r.
  Proof.
    intros Hr E. pose proof (elem_of_list_lookup_2 _ _ _ Hr) as Hr'. apply mk_other_run in E as (e & He & Ho); [|apply acyclic_empty|by apply head_item].
    destruct e.
    - exfalso. destruct (proj1 He eq_refl) as (y & Hy & σ & _ & Hσ). apply (head_not_input y r (whead r) Hy Hr'); [by apply head_item| |].
      + by apply (meet_unify σ σ).
      + by apply (meet_unify σ σ).
    - destruct Ho as (u & Hu & ->). replace u with (up i); [done|]. apply eq_true_iff_eq. rewrite (Bup i r Hr), Hu. unfold ug.
      split; intros (y & Hy & Hs); exists y; (split; [done|]); by apply (ex_solves (fun σ => sub σ (whead r) = sub σ y)).
  Qed.
  Lemma other_goal i r j b n o : rs !! i = Some r -> positions i = Some j -> wbody r !! j = Some (Goal b) ->
    mk_other inputs other_fn useful n ∅ b = Ok o -> o = if ex i then b else otm b.
  Proof.
    intros Hr Hj Hb E. pose proof (elem_of_list_lookup_2 _ _ _ Hr) as Hr'. destruct (Hpos i r j Hr Hj) as (b' & Hb' & Hi).
    rewrite Hb in Hb'. injection Hb' as <-. apply mk_other_run in E as (e & He & Ho); [|apply acyclic_empty|done].
    replace (ex i) with e.
    - destruct e; [done|]. destruct Ho as (u & Hu & ->). replace u with true; [done|]. symmetry. apply Hu. exists b. split.
      + apply Hus. right. by exists i, r, j.
      + exists Var. split; [apply solves_empty|done].
    - apply eq_true_iff_eq. rewrite He, (Bex i r j b Hr Hj Hb). split; intros (y & Hy & Hs); exists y; (split; [done|]).
      + destruct Hs as (σ & _ & Hσ). by apply (meet_unify σ σ).
      + apply ex_solves. apply unify_meet; [|done]. eapply inp_rule; [done|exact Hr'|]. intros v Hv. by eapply goal_wvars.
  Qed.

  (** ** The rules for rules *)
  Definition rk (i : nat) : list skind :=
    match positions i with None => [KO i] | Some _ => KSS i :: if mx i then [] else [KOO i] end.
  Lemma body_split (r : wrule R) j b : wbody r !! j = Some (Goal b) -> wbody r = take j (wbody r) ++ Goal b :: drop (S j) (wbody r).
  Proof. intros H. symmetry. by apply take_drop_middle. Qed.
  Lemma inst_split i r j b y fs : rs !! i = Some r -> wbody r !! j = Some (Goal b) ->
    inst r y fs <-> exists σ, (forall v, ground (σ v)) /\ sub σ (whead r) = y /\
      fs = map (fsub σ) (take j (wbody r)) ++ Goal (sub σ b) :: map (fsub σ) (drop (S j) (wbody r)).
  Proof.
    intros Hr Hb. assert (E : forall σ, map (fsub σ) (wbody r) = map (fsub σ) (take j (wbody r)) ++ Goal (sub σ b) :: map (fsub σ) (drop (S j) (wbody r))).
    { intros σ. rewrite (body_split r j b Hb) at 1. by rewrite map_app. }
    split; intros (σ & H1 & H2 & H3); exists σ; (split; [done|]); (split; [done|]); [by rewrite <- E|by rewrite E].
  Qed.
  Lemma split_unique {A} (l1 l1' : list A) a a' l2 l2' : length l1 = length l1' -> l1 ++ a :: l2 = l1' ++ a' :: l2' -> l1 = l1' /\ a = a' /\ l2 = l2'.
  Proof. intros Hl E. apply app_inj_1 in E as [-> E]; [|done]. by injection E as -> ->. Qed.
  Lemma take_len (r : wrule R) j b (f : factor R -> factor R) : wbody r !! j = Some (Goal b) -> length (map f (take j (wbody r))) = j.
  Proof. intros H. rewrite map_length, take_length. apply lookup_lt_Some in H. lia. Qed.
  Lemma fsub_comb_in V σ τ (r : wrule R) (fs : list (factor R)) : (forall b, Goal b ∈ fs -> Goal b ∈ wbody r) -> (forall v, v ∈ wvars r -> v ∈ V) ->
    map (fsub (comb V σ τ)) fs = map (fsub σ) fs.
  Proof.
    intros Hb HV. apply fsub_ext. intros v Hv. apply in_flat_map in Hv as (b & Hb' & Hv). apply elem_of_list_In, elem_of_goals, Hb in Hb'.
    unfold comb. rewrite decide_True; [done|]. apply HV. apply elem_of_list_lookup in Hb' as [j Hj]. by eapply goal_wvars.
  Qed.
  Lemma take_goal (r : wrule R) j b : Goal b ∈ take j (wbody r) -> Goal b ∈ wbody r.
  Proof. intros H. rewrite <- (take_drop j (wbody r)). apply elem_of_app. by left. Qed.
  Lemma drop_goal (r : wrule R) j b : Goal b ∈ drop j (wbody r) -> Goal b ∈ wbody r.
  Proof. intros H. rewrite <- (take_drop j (wbody r)). apply elem_of_app. by right. Qed.

  Lemma KO_ok i r h' : rs !! i = Some r -> positions i = None -> h' = (if up i then otm (whead r) else whead r) ->
    G (KO i) (WRule h' (wbody r)).
  Proof.
    intros Hr Hn -> y fs. cbn [kinst]. split.
    - intros (σ & H1 & H2 & H3). cbn [whead wbody] in *. exists r, (sub σ (whead r)). split; [done|]. split; [done|]. split; [by exists σ|].
      rewrite <- H2. unfold hd, ot. by destruct (up i).
    - intros (r' & y' & Hr' & _ & (σ & H1 & H2 & H3) & ->). rewrite Hr in Hr'. injection Hr' as <-. exists σ. cbn [whead wbody].
      split; [done|]. split; [|done]. unfold hd, ot. destruct (up i); cbn; congruence.
  Qed.
  Lemma KOO_ok i r j b : rs !! i = Some r -> positions i = Some j -> wbody r !! j = Some (Goal b) -> mx i = false ->
    G (KOO i) (WRule (if up i then otm (whead r) else whead r) (take j (wbody r) ++ Goal (if ex i then b else otm b) :: drop (S j) (wbody r))).
  Proof.
    intros Hr Hj Hb Hm y fs. cbn [kinst]. split.
    - intros (σ & H1 & H2 & H3). cbn [whead wbody] in *.
      exists r, (sub σ (whead r)), (map (fsub σ) (take j (wbody r))), (sub σ b), (map (fsub σ) (drop (S j) (wbody r))).
      split; [done|]. split; [by rewrite (take_len r j b)|]. split; [apply (inst_split i r j b _ _ Hr Hb); by exists σ|].
      split; [|split].
      + apply Xb_false. intros Hin. assert (mx i = true); [|congruence]. apply (Bmx i r j b Hr Hj Hb). exists (sub σ b). split; [done|]. by apply gr_sub.
      + rewrite <- H2. unfold hd, ot. by destruct (up i).
      + rewrite <- H3, map_app. cbn [map fsub]. unfold exs, ot. by destruct (ex i).
    - intros (r' & y' & A & b' & Q & Hr' & Hj' & Hin & HX & -> & ->). rewrite Hr in Hr'. injection Hr' as <-.
      rewrite Hj in Hj'. injection Hj' as Hl. apply (inst_split i r j b _ _ Hr Hb) in Hin as (σ & H1 & H2 & H3).
      apply split_unique in H3 as (-> & [= ->] & ->); [|by rewrite (take_len r j b)].
      exists σ. cbn [whead wbody]. split; [done|]. split.
      + unfold hd, ot. destruct (up i); cbn; congruence.
      + rewrite map_app. cbn [map fsub]. unfold exs, ot. by destruct (ex i).
  Qed.
  Lemma KSS_ok i r j b tmp : rs !! i = Some r -> positions i = Some j -> wbody r !! j = Some (Goal b) -> (forall r, r ∈ rs -> tmp ∉ wvars r) ->
    G (KSS i) (if lc then WRule (mk_slash slash_fn (Var tmp) b) (take j (wbody r) ++ drop (S j) (wbody r) ++ [Goal (mk_slash slash_fn (Var tmp) (whead r))])
               else WRule (mk_slash slash_fn (whead r) x) (take j (wbody r) ++ Goal (mk_slash slash_fn b x) :: drop (S j) (wbody r))).
  Proof.
    intros Hr Hj Hb Htmp y fs. pose proof (elem_of_list_lookup_2 _ _ _ Hr) as Hr'. cbn [kinst]. unfold mk_slash, sl. split.
    - intros (σ & H1 & H2 & H3). exists r, (sub σ (whead r)), (map (fsub σ) (take j (wbody r))), (sub σ b), (map (fsub σ) (drop (S j) (wbody r))).
      split; [done|]. split; [by rewrite (take_len r j b)|]. split; [apply (inst_split i r j b _ _ Hr Hb); by exists σ|].
      destruct lc; cbn [whead wbody] in *.
      + exists (σ tmp). split; [done|]. split; [by rewrite <- H2|]. rewrite <- H3, !map_app. done.
      + exists (sub σ x). split; [by apply ground_sub_all|]. split; [apply Xb_spec; by apply gr_sub|]. split; [by rewrite <- H2|]. by rewrite <- H3, map_app.
    - intros (r1 & y' & A & b' & Q & Hr1 & Hj' & Hin & Hrest). rewrite Hr in Hr1. injection Hr1 as <-. rewrite Hj in Hj'. injection Hj' as Hl.
      apply (inst_split i r j b _ _ Hr Hb) in Hin as (σ & H1 & H2 & H3). apply split_unique in H3 as (-> & [= ->] & ->); [|by rewrite (take_len r j b)].
      assert (HV : forall τ t, (forall v, In v (vars t) -> v ∈ wvars r) -> sub (comb (wvars r) σ τ) t = sub σ t) by (intros; by apply comb_in).
      assert (Hh : forall τ, sub (comb (wvars r) σ τ) (whead r) = y') by (intros τ; rewrite HV; [done|]; intros v; apply head_wvars).
      assert (Hbb : forall τ, sub (comb (wvars r) σ τ) b = sub σ b) by (intros τ; apply HV; intros v; by eapply goal_wvars).
      assert (Hta : forall τ, map (fsub (comb (wvars r) σ τ)) (take j (wbody r)) = map (fsub σ) (take j (wbody r))).
      { intros τ. apply (fsub_comb_in _ _ _ r); [apply take_goal|done]. }
      assert (Hdr : forall τ, map (fsub (comb (wvars r) σ τ)) (drop (S j) (wbody r)) = map (fsub σ) (drop (S j) (wbody r))).
      { intros τ. apply (fsub_comb_in _ _ _ r); [apply drop_goal|done]. }
      destruct lc.
      + destruct Hrest as (t & Ht & -> & ->). exists (comb (wvars r) σ (fun _ => t)). split; [by apply comb_ground|]. cbn [whead wbody].
        assert (Et : sub (comb (wvars r) σ (fun _ => t)) (Var tmp) = t) by (cbn; unfold comb; rewrite decide_False; [done|by apply Htmp]).
        cbn [sub] in Et. split; [cbn [sub map]; by rewrite Et, Hbb|]. rewrite !map_app. cbn [map fsub sub]. by rewrite Hta, Hdr, Et, Hh.
      + destruct Hrest as (z & Hz & HX & -> & ->). apply Xb_spec, gr_matches in HX as (τ & Hτ & <-).
        exists (comb (wvars r) σ τ). split; [by apply comb_ground|]. cbn [whead wbody].
        assert (Et : sub (comb (wvars r) σ τ) x = sub τ x) by (apply comb_out; intros v Hv Hw; by eapply x_rule).
        split; [cbn [sub map]; by rewrite Et, Hh|]. rewrite !map_app. cbn [map fsub sub]. by rewrite Hta, Hdr, Et, Hbb.
  Qed.
  Lemma KB_ok tmp : G KB (if lc then WRule (mk_slash slash_fn (Var tmp) (Var tmp)) [] else WRule (mk_slash slash_fn x x) []).
  Proof.
    intros y fs. cbn [kinst]. unfold mk_slash, sl. destruct lc; split.
    - intros (σ & H1 & H2 & H3). exists (σ tmp). split; [done|]. split; [done|]. by split.
    - intros (z & Hz & _ & -> & ->). by exists (fun _ => z).
    - intros (σ & H1 & H2 & H3). exists (sub σ x). split; [by apply ground_sub_all|]. split; [intros _; apply Xb_spec; by apply gr_sub|]. by split.
    - intros (z & Hz & HX & -> & ->). specialize (HX eq_refl). apply Xb_spec, gr_matches in HX as (τ & Hτ & <-). by exists τ.
  Qed.
  Lemma G_fresh K n c t t' c' : fresh_rule al n ∅ c t = Ok (t', c') -> G K t -> c <= c' /\ G K t'.
  Proof. intros E HG. apply (fresh_inst0 al Hal) in E as [Hc H]. split; [done|]. intros y fs. rewrite H. apply HG. Qed.

  Lemma rule_loop_run n tmp rest i c L c' : (forall r, r ∈ rs -> tmp ∉ wvars r) -> rest = drop i rs ->
    rule_loop al inputs positions lc slash_fn other_fn x useful n (Var tmp) rest i c = Ok (L, c') ->
    c <= c' /\ Forall2 G (flat_map rk (seq i (length rest))) L.
  Proof.
    intros Htmp. revert i c L c'. induction rest as [|r rest IH]; intros i c L c' Hd E; cbn [rule_loop] in E.
    { injection E as <- <-. split; [done|]. constructor. }
    assert (Hr : rs !! i = Some r) by (rewrite <- (Nat.add_0_r i), <- lookup_drop, <- Hd; done).
    assert (Hd' : rest = drop (S i) rs).
    { pose proof (f_equal (drop 1) Hd) as H. rewrite drop_drop in H. cbn [drop] in H. rewrite drop_0 in H. rewrite H. f_equal. lia. }
    cbn [length seq flat_map]. unfold rk at 1. destruct (positions i) as [j|] eqn:Hj.
    - destruct (Hpos i r j Hr Hj) as (b & Hb & Hi). rewrite Hb in E.
      destruct (unifies n ∅ x b) as [u| |] eqn:Eu; [|discriminate..]. cbn [bind] in E. apply unifies_ok in Eu.
      assert (Hmx : mx i = u).
      { apply eq_true_iff_eq. rewrite (Bmx i r j b Hr Hj Hb), Eu. split; [apply unify_meet; by eapply x_goal|]. intros [σ Hσ]. by apply (meet_unify σ σ). }
      match type of E with (let* ok := ?X in _) = _ => destruct X as [ok| |] eqn:Eok; [|discriminate..] end. cbn [bind] in E.
      destruct ok; [|discriminate]. cbn [negb] in E.
      match type of E with (let* _ := ?X in _) = _ => destruct X as [[ss c1']| |] eqn:Es; [|discriminate..] end. cbn [bind] in E.
      assert (HS : c <= c1' /\ G (KSS i) ss).
      { pose proof (KSS_ok i r j b tmp Hr Hj Hb Htmp) as HG. destruct lc; by eapply G_fresh. }
      match type of E with (let* _ := ?X in _) = _ => destruct X as [[oo c2']| |] eqn:Eo; [|discriminate..] end. cbn [bind] in E.
      assert (HO : c1' <= c2' /\ Forall2 G (if mx i then [] else [KOO i]) oo).
      { rewrite Hmx. destruct u; [injection Eo as <- <-; by split|].
        destruct (mk_other inputs other_fn useful n ∅ (whead r)) as [h'| |] eqn:Eh; [|discriminate..]. cbn [bind] in Eo.
        destruct (mk_other inputs other_fn useful n ∅ b) as [b'| |] eqn:Eb; [|discriminate..]. cbn [bind] in Eo.
        apply (other_head i r) in Eh; [|done]. apply (other_goal i r j b) in Eb; [|done..].
        match type of Eo with (let* _ := ?X in _) = _ => destruct X as [[oo1 c3']| |] eqn:Ef; [|discriminate..] end. cbn [bind] in Eo. injection Eo as <- <-.
        rewrite Eh, Eb in Ef. apply (G_fresh (KOO i)) in Ef as [? ?]; [split; [done|by constructor]|]. by eapply KOO_ok. }
      match type of E with (let* _ := ?X in _) = _ => destruct X as [[L1 c3']| |] eqn:EL; [|discriminate..] end. cbn [bind] in E. injection E as <- <-.
      destruct (IH (S i) _ _ _ Hd' EL) as [Hc HL]. split; [lia|]. cbn [app]. constructor; [apply HS|]. apply Forall2_app; [apply HO|done].
    - destruct (is_useful useful n ∅ (whead r)) as [u| |] eqn:Eu; [|discriminate..]. cbn [bind] in E. apply useful0_run in Eu.
      match type of E with (let* _ := ?X in _) = _ => destruct X as [h'| |] eqn:Eh; [|discriminate..] end. cbn [bind] in E.
      assert (Hh : h' = if up i then otm (whead r) else whead r).
      { destruct u; [by apply (other_head i r n)|]. injection Eh as <-. destruct (up i) eqn:Ei; [|done]. apply (Bup i r Hr) in Ei. by apply Eu in Ei. }
      match type of E with (let* _ := ?X in _) = _ => destruct X as [[o c1']| |] eqn:Ef; [|discriminate..] end. cbn [bind] in E.
      match type of E with (let* _ := ?X in _) = _ => destruct X as [[L1 c3']| |] eqn:EL; [|discriminate..] end. cbn [bind] in E. injection E as <- <-.
      apply (G_fresh (KO i)) in Ef as [Hc HG]; [|by apply KO_ok]. destruct (IH (S i) _ _ _ Hd' EL) as [Hc' HL]. split; [lia|]. cbn [app]. by constructor.
  Qed.
  Lemma rule_loop_covers n tmp rest i c L c' : rest = drop i rs ->
    rule_loop al inputs positions lc slash_fn other_fn x useful n tmp rest i c = Ok (L, c') ->
    forall k r j b, i <= k -> rs !! k = Some r -> positions k = Some j -> wbody r !! j = Some (Goal b) -> mx k = true -> instance_of x b.
  Proof.
    revert i c L c'. induction rest as [|r rest IH]; intros i c L c' Hd E; cbn [rule_loop] in E.
    { intros k r j b Hk Hr. apply lookup_lt_Some in Hr. apply (f_equal length) in Hd. rewrite drop_length in Hd. cbn in Hd. lia. }
    assert (Hr : rs !! i = Some r) by (rewrite <- (Nat.add_0_r i), <- lookup_drop, <- Hd; done).
    assert (Hd' : rest = drop (S i) rs).
    { pose proof (f_equal (drop 1) Hd) as H. rewrite drop_drop in H. cbn [drop] in H. rewrite drop_0 in H. rewrite H. f_equal. lia. }
    intros k rk j b Hk Hrk Hj Hb Hm. destruct (decide (k = i)) as [->|Hne].
    - rewrite Hr in Hrk. injection Hrk as <-. rewrite Hj, Hb in E.
      destruct (unifies n ∅ x b) as [u| |] eqn:Eu; [|discriminate..]. cbn [bind] in E. apply unifies_ok in Eu.
      apply (Bmx i r j b Hr Hj Hb), unify_meet, Eu in Hm; [|by eapply x_goal]. subst u.
      destruct (covers n x b) as [ok| |] eqn:Ec; [|discriminate..]. cbn [bind] in E. destruct ok; [|discriminate].
      apply covers_run in Ec; [|by eapply x_goal]. by apply Ec.
    - assert (Hrest : exists c2' L2 c3', rule_loop al inputs positions lc slash_fn other_fn x useful n tmp rest (S i) c2' = Ok (L2, c3')).
      { destruct (positions i) as [j'|].
        - destruct (wbody r !! j') as [[v|b']|]; [discriminate| |discriminate].
          destruct (unifies n ∅ x b') as [u| |]; [|discriminate..]. cbn [bind] in E.
          repeat match type of E with
            | (let* _ := ?X in _) = _ => destruct X as [?| |] eqn:?; [|discriminate..]; cbn [bind] in E
            | (let '(_, _) := ?p in _) = _ => destruct p
            | (if negb ?b then _ else _) = _ => destruct b; cbn [negb] in E; [|discriminate]
            end. eauto.
        - repeat match type of E with
            | (let* _ := ?X in _) = _ => destruct X as [?| |] eqn:?; [|discriminate..]; cbn [bind] in E
            | (let '(_, _) := ?p in _) = _ => destruct p
            end. eauto. }
      destruct Hrest as (c2' & L2 & c3' & E2). eapply (IH (S i) _ _ _ Hd' E2 k rk j b); [lia|done..].
  Qed.

  (** ** The recovery rules *)
  Definition qk (p q : nat) : list skind := if con q then [KRSO p q] else [].
  Definition nk (p : nat) : list skind :=
    if endo p then (if ro p then [KRO p] else []) ++ flat_map (qk p) (seq 0 (length nodes)) else [].
  Lemma node_item p y : nodes !! p = Some y -> item y /\ fromcv cv y.
  Proof. intros H. apply elem_of_list_lookup_2 in H. rewrite Forall_forall in Hnit, Hncv. auto. Qed.

  Lemma vars_elem t v : In v (vars t) -> v ∈ vars t.
  Proof. intros H. by apply elem_of_list_In. Qed.
  Lemma KRSO_ok n n' p q y z y' z' st o t c c' d d' d'' : nodes !! p = Some y -> nodes !! q = Some z -> variant y y' -> variant z z' ->
    c1 <= c -> c <= c' -> c' <= d -> from al c c' y' -> from al d d' z' -> endo p = true ->
    unify_f n' ∅ x z' = Ok (st, true) -> mk_other inputs other_fn useful n st z' = Ok o ->
    fresh_rule al n st d' (WRule y' [Goal o; Goal (mk_slash slash_fn y' z')]) = Ok (t, d'') ->
    d' <= d'' /\ G (KRSO p q) t.
  Proof.
    intros Hp Hq Hvy Hvz Hc Hcc Hd Hy' Hz' He Eu Eo Ef. destruct (unify_ok n' ∅ x z' st true acyclic_empty Eu) as (Hac & _ & Hs).
    assert (Hs' : forall σ, solves σ st <-> sub σ x = sub σ z') by (intros σ; rewrite Hs; split; [tauto|]; split; [apply solves_empty|done]). clear Hs.
    pose proof (node_item q z Hq) as [Hzi _]. pose proof (item_variant _ _ Hvz Hzi) as Hzi'.
    assert (Hxy : disjoint_vars x y') by (by eapply al_al). assert (Hyz : disjoint_vars y' z') by (by eapply al_al).
    assert (Hxz : disjoint_vars x z') by (eapply al_al; [exact Hx|exact Hz'|lia]).
    assert (Ho : o = if zex q then z' else otm z').
    { apply (mk_other_run n st z' o Hac Hzi') in Eo as (e & Hee & Ho). replace (zex q) with e.
      - destruct e; [done|]. destruct Ho as (u & Hu & ->). replace u with true; [done|]. symmetry. apply Hu. exists x. split; [apply Hus; by left|].
        destruct (acyclic_resolution st Hac) as [θ Hθ]. exists θ. split; [apply Hθ|]. symmetry. apply Hs', Hθ.
      - apply eq_true_iff_eq. rewrite Hee, (Bzex q z Hq). split; intros (u & Hu & Hm); exists u; (split; [done|]).
        + destruct Hm as (σ & H1 & H2). apply Hs' in H1. exists (sub z0 (sub σ z')). rewrite (gr_variant z z' _ Hvz).
          split; [|split]; (split; [by apply ground_sub_all|]); exists (fun v => sub z0 (σ v)); rewrite <- sub_sub; congruence.
        + destruct Hm as (g & A & B & D). apply (gr_variant z z' _ Hvz) in B.
          destruct A as [Hg [σ1 A]], B as [_ [σ2 B]], D as [_ [σ3 D]]. exists (comb (vars x) σ1 (comb (vars z') σ2 σ3)).
          assert (E1 : sub (comb (vars x) σ1 (comb (vars z') σ2 σ3)) x = g) by (rewrite comb_in; [done|exact (vars_elem _)]).
          assert (E2 : sub (comb (vars x) σ1 (comb (vars z') σ2 σ3)) z' = g).
          { rewrite comb_out; [rewrite comb_in; [done|exact (vars_elem _)]|]. intros v Hv Hv'. apply elem_of_list_In in Hv'. by apply (Hxz v). }
          assert (E3 : sub (comb (vars x) σ1 (comb (vars z') σ2 σ3)) u = g).
          { rewrite comb_out; [rewrite comb_out; [done|]|].
            - intros v Hv Hv'. apply elem_of_list_In in Hv'. by apply (inp_al u z' d d' Hu ltac:(lia) Hz' v).
            - intros v Hv Hv'. apply elem_of_list_In in Hv'. by apply (inp_al u x c0 c1 Hu ltac:(lia) Hx v). }
          split; [apply Hs'|]; congruence. }
    apply (fresh_inst al Hal st) in Ef as [Hd'' HG]; [|done]. split; [done|]. intros w fs. rewrite HG. clear HG. cbn [kinst whead wbody]. unfold mk_slash, sl. split.
    - intros (σ & H1 & H2 & H3 & H4). split; [done|]. split.
      { exists y. split; [done|]. apply (gr_variant y y' w Hvy). rewrite <- H3. by apply gr_sub. }
      exists (sub σ z'). split; [exists z; split; [done|]; apply (gr_variant z z' _ Hvz); by apply gr_sub|]. split.
      + apply Xb_spec. apply Hs' in H2. rewrite <- H2. by apply gr_sub.
      + rewrite <- H4. cbn [map fsub sub]. rewrite H3, Ho. unfold exs, ot. by destruct (zex q).
    - intros (_ & (y1 & Hy1 & Hw) & zz & (z1 & Hz1 & Hzz) & HX & ->). rewrite Hp in Hy1. injection Hy1 as <-. rewrite Hq in Hz1. injection Hz1 as <-.
      apply (gr_variant y y' w Hvy), gr_matches in Hw as (σ1 & G1 & E1). apply (gr_variant z z' zz Hvz), gr_matches in Hzz as (σ2 & G2 & E2).
      apply Xb_spec, gr_matches in HX as (σ3 & G3 & E3).
      set (σ := comb (vars y') σ1 (comb (vars z') σ2 σ3)).
      assert (F1 : sub σ y' = w) by (unfold σ; rewrite comb_in; [done|exact (vars_elem _)]).
      assert (F2 : sub σ z' = zz).
      { unfold σ. rewrite comb_out; [rewrite comb_in; [done|exact (vars_elem _)]|]. intros v Hv Hv'. apply elem_of_list_In in Hv'. by apply (Hyz v). }
      assert (F3 : sub σ x = zz).
      { unfold σ. rewrite comb_out; [rewrite comb_out; [done|]|].
        - intros v Hv Hv'. apply elem_of_list_In in Hv'. by apply (Hxz v).
        - intros v Hv Hv'. apply elem_of_list_In in Hv'. by apply (Hxy v). }
      exists σ. split; [unfold σ; apply comb_ground; [done|by apply comb_ground]|]. split; [apply Hs'; congruence|]. split; [done|].
      cbn [map fsub sub]. rewrite F1, F2, Ho. unfold exs, ot. destruct (zex q); cbn [sub map]; by rewrite F2.
  Qed.

  Lemma rso_loop_run n p y y' c c' rest q d L d' : nodes !! p = Some y -> variant y y' -> c1 <= c -> c <= c' -> from al c c' y' -> endo p = true ->
    c' <= d -> rest = drop q nodes ->
    rso_loop (R := R) al inputs slash_fn other_fn x useful n y' rest d = Ok (L, d') ->
    d <= d' /\ Forall2 G (flat_map (qk p) (seq q (length rest))) L.
  Proof.
    intros Hp Hvy Hc Hcc Hy' He. revert q d L d'. induction rest as [|z rest IH]; intros q d L d' Hd Hdr E; cbn [rso_loop] in E.
    { injection E as <- <-. split; [done|constructor]. }
    assert (Hq : nodes !! q = Some z) by (rewrite <- (Nat.add_0_r q), <- lookup_drop, <- Hdr; done).
    assert (Hdr' : rest = drop (S q) nodes).
    { pose proof (f_equal (drop 1) Hdr) as H. rewrite drop_drop in H. cbn [drop] in H. rewrite drop_0 in H. rewrite H. f_equal. lia. }
    destruct (fresh al n ∅ d z) as [[z' d1]| |] eqn:Ez; [|discriminate..]. cbn [bind] in E. apply (fresh_run al Hal) in Ez as (Hvz & Hd1 & Hz').
    destruct (unify_f n ∅ x z') as [[st u]| |] eqn:Eu; [|discriminate..]. cbn [bind] in E.
    match type of E with (let* _ := ?X in _) = _ => destruct X as [[L1 d2]| |] eqn:E1; [|discriminate..] end. cbn [bind] in E.
    match type of E with (let* _ := ?X in _) = _ => destruct X as [[L2 d3]| |] eqn:E2; [|discriminate..] end. cbn [bind] in E. injection E as <- <-.
    assert (Hu : con q = u).
    { apply eq_true_iff_eq. rewrite (Bcon q z Hq). pose proof (unifies_ok _ _ _ _ (unify_unifies _ _ _ _ _ _ Eu)) as Hu.
      rewrite Hu. split.
      - intros Hm. apply unify_meet; [eapply al_al; [exact Hx|exact Hz'|lia]|]. apply meet_sym, (meet_variant z z' x Hvz), meet_sym, Hm.
      - intros [σ Hσ]. apply meet_sym, (meet_variant z z' x Hvz). apply (meet_unify σ σ). by symmetry. }
    assert (H1 : d1 <= d2 /\ Forall2 G (qk p q) L1).
    { unfold qk. rewrite Hu. destruct u; [|injection E1 as <- <-; by split].
      destruct (mk_other inputs other_fn useful n st z') as [o| |] eqn:Eo; [|discriminate..]. cbn [bind] in E1.
      match type of E1 with (let* _ := ?X in _) = _ => destruct X as [[t d4]| |] eqn:Ef; [|discriminate..] end. cbn [bind] in E1. injection E1 as <- <-.
      destruct (KRSO_ok n n p q y z y' z' st o t c c' d d1 d4 Hp Hq Hvy Hvz Hc Hcc Hd Hy' Hz' He Eu Eo Ef) as [Hle HG]. split; [done|by constructor]. }
    destruct (IH (S q) d2 L2 d3) as [H2 H3]; [lia|done|done|]. split; [lia|]. cbn [length seq flat_map]. apply Forall2_app; [apply H1|done].
  Qed.

  Lemma KRO_ok p y y' : nodes !! p = Some y -> variant y y' -> ro p = true ->
    G (KRO p) (WRule y' (Goal (otm y') :: map Goal (if con p then [not_matches y'] else []))).
  Proof.
    intros Hp Hvy Hro w fs. cbn [kinst]. unfold ot, nm, not_matches. split.
    - intros (σ & H1 & H2 & H3). cbn [whead wbody] in *. split; [done|]. split.
      + exists y. split; [done|]. apply (gr_variant y y' w Hvy). rewrite <- H2. by apply gr_sub.
      + rewrite <- H3, <- H2. by destruct (con p).
    - intros (_ & (y1 & Hy1 & Hw) & ->). rewrite Hp in Hy1. injection Hy1 as <-. apply (gr_variant y y' w Hvy), gr_matches in Hw as (σ & G1 & <-).
      exists σ. split; [done|]. split; [done|]. cbn [wbody]. by destruct (con p).
  Qed.
  Lemma node_loop_run n rest p d L d' : c2 <= d -> rest = drop p nodes ->
    node_loop (R := R) al inputs slash_fn other_fn x useful n nodes rest d = Ok (L, d') ->
    d <= d' /\ Forall2 G (flat_map nk (seq p (length rest))) L.
  Proof.
    revert p d L d'. induction rest as [|y rest IH]; intros p d L d' Hd Hdr E; cbn [node_loop] in E.
    { injection E as <- <-. split; [done|constructor]. }
    assert (Hp : nodes !! p = Some y) by (rewrite <- (Nat.add_0_r p), <- lookup_drop, <- Hdr; done).
    assert (Hdr' : rest = drop (S p) nodes).
    { pose proof (f_equal (drop 1) Hdr) as H. rewrite drop_drop in H. cbn [drop] in H. rewrite drop_0 in H. rewrite H. f_equal. lia. }
    destruct (node_item p y Hp) as [Hyi Hycv]. cbn [length seq flat_map].
    destruct (is_exogenous inputs n ∅ y) as [e| |] eqn:Ee; [|discriminate..]. cbn [bind] in E. apply is_exogenous_run in Ee; [|apply acyclic_empty|done].
    assert (He : endo p = negb e).
    { destruct e; cbn [negb].
      - apply not_true_is_false. intros Ht. apply (Bendo p y Hp) in Ht. apply Ht. destruct (proj1 Ee eq_refl) as (u & Hu & σ & _ & Hσ).
        exists u. split; [done|]. by apply (meet_unify σ σ).
      - apply (Bendo p y Hp). intros (u & Hu & Hm). assert (false = true); [|done]. apply Ee. exists u. split; [done|].
        apply (ex_solves (fun σ => sub σ u = sub σ y)). apply unify_meet; [by apply inp_cv|done]. }
    unfold nk at 1. rewrite He. destruct e; cbn [negb].
    { cbn [app]. by apply (IH (S p)). }
    destruct (fresh al n ∅ d y) as [[y' d1]| |] eqn:Ey; [|discriminate..]. cbn [bind] in E. apply (fresh_run al Hal) in Ey as (Hvy & Hd1 & Hy').
    destruct (is_useful useful n ∅ y') as [u| |] eqn:Eu; [|discriminate..]. cbn [bind] in E. apply useful0_run in Eu.
    match type of E with (let* _ := ?X in _) = _ => destruct X as [[L1 d2]| |] eqn:E1; [|discriminate..] end. cbn [bind] in E.
    match type of E with (let* _ := ?X in _) = _ => destruct X as [[L2 d3]| |] eqn:E2; [|discriminate..] end. cbn [bind] in E.
    match type of E with (let* _ := ?X in _) = _ => destruct X as [[L3 d4]| |] eqn:E3; [|discriminate..] end. cbn [bind] in E. injection E as <- <-.
    assert (Hu : u = true <-> exists w, w ∈ useful /\ meet y w).
    { rewrite Eu. unfold ug. split; intros (w & Hw & Hm); exists w; (split; [done|]).
      - destruct Hm as [σ Hσ]. apply (meet_variant y y' w Hvy). by apply (meet_unify σ σ).
      - apply unify_meet; [eapply useful_al; [done| |exact Hy']; lia|]. by apply (meet_variant y y' w Hvy). }
    assert (H1 : d1 <= d2 /\ Forall2 G (if ro p then [KRO p] else []) L1).
    { destruct u.
      - destruct (fresh al n ∅ d1 x) as [[a d5]| |] eqn:Ea; [|discriminate..]. cbn [bind] in E1. apply (fresh_run al Hal) in Ea as (Hva & Hd5 & Ha).
        destruct (not_matches3 n a y') as [cs| |] eqn:Ec; [|discriminate..]. cbn [bind] in E1.
        assert (Hv : (exists v, x = Var v) \/ ~ exists v, x = Var v) by (destruct x; [left; eauto|right; by intros [v ?]..]).
        destruct Hv as [[v Hv]|Hnv].
        + rewrite Hv in Hva. destruct Hva as (ρ & _ & ->). cbn in Ec. injection Ec as <-. cbn in E1. injection E1 as <- <-.
          replace (ro p) with false; [split; [lia|constructor]|]. symmetry. apply not_true_is_false. intros Hr. apply (Bro p y Hp) in Hr as (_ & Hr & _). by destruct (Hr v).
        + assert (Hr : ro p = true).
          { apply (Bro p y Hp). split; [by rewrite He|]. split; [intros v ->; eauto|by apply Hu]. }
          assert (Hcs : cs = [if con p then [not_matches y'] else []]).
          { destruct a as [w|k|l].
            - exfalso. apply Hnv. destruct Hva as (ρ & _ & E'). destruct x; cbn in E'; try discriminate. eauto.
            - cbn [not_matches3] in Ec. destruct (unifies n ∅ _ y') as [b| |] eqn:Eb; [|discriminate..]. cbn [bind] in Ec.
              assert (Hb : con p = b).
              { apply eq_true_iff_eq. rewrite (Bcon p y Hp), (unifies_ok _ _ _ _ Eb). split.
                - intros Hm. apply unify_meet; [intros v []|]. apply (meet_variant x _ y' Hva), meet_sym, (meet_variant y y' x Hvy), meet_sym, Hm.
                - intros [σ Hσ]. apply meet_sym, (meet_variant y y' x Hvy), meet_sym, (meet_variant x _ y' Hva). by apply (meet_unify σ σ). }
              rewrite Hb. destruct b; by injection Ec as <-.
            - cbn [not_matches3] in Ec. destruct (unifies n ∅ _ y') as [b| |] eqn:Eb; [|discriminate..]. cbn [bind] in Ec.
              assert (Hb : con p = b).
              { apply eq_true_iff_eq. rewrite (Bcon p y Hp), (unifies_ok _ _ _ _ Eb). split.
                - intros Hm. apply unify_meet.
                  + intros v H1 H2. by apply (al_al y' (Fn l) d d1 d1 d5 Hy' Ha ltac:(lia) v).
                  + apply (meet_variant x _ y' Hva), meet_sym, (meet_variant y y' x Hvy), meet_sym, Hm.
                - intros [σ Hσ]. apply meet_sym, (meet_variant y y' x Hvy), meet_sym, (meet_variant x _ y' Hva). by apply (meet_unify σ σ). }
              rewrite Hb. destruct b; by injection Ec as <-. }
          rewrite Hcs in E1. destruct (mk_other inputs other_fn useful n ∅ y') as [o| |] eqn:Eo; [|discriminate..]. cbn [bind] in E1.
          apply mk_other_run in Eo as (e & Hee & Ho); [|apply acyclic_empty|by eapply item_variant].
          destruct e.
          { exfalso. assert (endo p = true) as Ht by (by rewrite He). apply (Bendo p y Hp) in Ht. apply Ht.
            destruct (proj1 Hee eq_refl) as (w & Hw & σ & _ & Hσ). exists w. split; [done|]. apply meet_sym, (meet_variant y y' w Hvy). apply (meet_unify σ σ). by symmetry. }
          destruct Ho as (u & Hu' & Ho). assert (Ho' : o = otm y').
          { rewrite Ho. replace u with true; [done|]. symmetry. apply Hu'. destruct (proj1 Eu eq_refl) as (w & Hw & Hs). exists w. split; [done|].
            by apply (ex_solves (fun σ => sub σ y' = sub σ w)). }
          cbn [add_ro] in E1. match type of E1 with (let* _ := ?X in _) = _ => destruct X as [[t d6]| |] eqn:Ef; [|discriminate..] end. cbn [bind] in E1. injection E1 as <- <-.
          rewrite Ho' in Ef. apply (G_fresh (KRO p)) in Ef as [Hle HG]; [|by eapply KRO_ok]. rewrite Hr. split; [lia|]. by constructor.
      - injection E1 as <- <-. replace (ro p) with false; [split; [lia|constructor]|]. symmetry. apply not_true_is_false. intros Hr.
        apply (Bro p y Hp) in Hr as (_ & _ & Hr). by apply Hu in Hr. }
    destruct (rso_loop_run n p y y' d d1 nodes 0 d2 L2 d3) as [H2 H3]; [done|done|lia|done|done|by rewrite He|lia|by rewrite drop_0|done|].
    destruct (IH (S p) d3 L3 d4) as [H4 H5]; [lia|done|done|]. split; [lia|]. rewrite app_assoc. apply Forall2_app; [|done]. apply Forall2_app; [apply H1|done].
  Qed.
End concrete.
