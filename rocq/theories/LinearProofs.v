(** Proofs about linearize: splitting off one subgoal, and the loop. *)
From Coq Require Import List.
From stdpp Require Import gmap.
From Coq Require Import Lia.
From Coq Require String Ascii.
Import String.StringSyntax Ascii.AsciiSyntax.
From Verif Require Import PyBase Semiring TermModel TermSpec TermProofs CoverProofs SetsModel SetsProofs FuelProofs UnifyProofs
  PruneModel NamesModel NamesProps UpdateModel UpdateSpec UpdateProofs TransSpec TransProofs TransModel UnfoldProofs.
Import ListNotations.

(** * unifies, at any fuel *)
Lemma unify_bad {T} n x y (k : body T) st t :
  match unify_f n st x y with Ok _ => True | _ => snd (unify n x y k (st, t)) <> Done end.
Proof.
  revert x y k st t. induction n as [|n IH]; intros x y k st t; [done|].
  unfold unify_f in *. cbn -[Nat.eqb].
  assert (Hbind : forall v y was,
    match (let* o := occurs_check n st v y in if o then Ok (st, false) else Ok (<[v:=y]> st, true)) with
    | Ok _ => True
    | _ => snd match occurs_check n st v y with
        | Ok true => (st, t, Done)
        | Ok false => let '(st', t', o) := k (<[v:=y]> st, t) in (restore st' v was, t', o)
        | Raise e => (st, t, Exc e)
        | OutOfFuel => (st, t, Fuel)
        end <> Done end).
  { intros v y0 was. destruct (occurs_check n st v y0) as [[|]| |]; cbn; done. }
  destruct (py_eq n st x y) as [[|]| |]; cbn -[Nat.eqb]; try done.
  destruct x as [v|c|xs].
  - destruct (st !! v) as [tm|] eqn:Ev; [apply IH|].
    destruct y as [u|d|ys]; [|by apply Hbind|by apply Hbind].
    destruct (st !! u) as [tm|] eqn:Eu; [apply IH|by apply Hbind].
  - destruct y as [u|d|ys]; [apply IH|done|done].
  - destruct y as [u|d|ys]; [apply IH|done|].
    destruct (Nat.eqb_spec (length xs) (length ys)) as [Hlen|]; [|done].
    revert ys Hlen k st t Hbind. clear -IH.
    induction xs as [|x xs IHxs]; intros [|y ys] Hlen k st t _; try done.
    match goal with |- context [unify n x y ?k' (st, t)] => pose proof (IH x y k' st t) as H1; pose proof (unify_cps n x y k' st t) as H2 end.
    unfold unify_f in H2.
    destruct (ugen py_eq occurs_check n st x y) as [[st1 [|]]| |]; cbn -[Nat.eqb]; try done.
    destruct H2 as (tr1 & Hu1 & ->).
    specialize (IHxs ys ltac:(simpl in Hlen; lia) k st1 t).
    feed specialize IHxs; [|].
    { intros v y0 was. destruct (occurs_check n st1 v y0) as [[|]| |]; cbn; done. }
    revert IHxs.
    match goal with |- match ?e with _ => _ end -> _ => destruct e as [[st2 b2]| |] end; try done;
    match goal with |- snd ?e <> _ -> _ => destruct e as [[s t'] o] end; done.
Qed.

Lemma unifies_ok n x y b : unifies n ∅ x y = Ok b -> (b = true <-> exists σ, sub σ x = sub σ y).
Proof.
  intros H. destruct (unifies_settles x y) as (b0 & [n0 H0] & Hb0).
  enough (E : b = b0) by (by rewrite E).
  pose proof (unify_bad n x y (fun s => ((fst s, true), Done)) ∅ false) as Hbad.
  pose proof (unify_cps n x y (fun s => ((fst s, true), Done)) ∅ false) as Hc.
  pose proof (unify_cps (max n n0) x y (fun s => ((fst s, true), Done)) ∅ false) as Hc2.
  specialize (H0 (max n n0) ltac:(lia)).
  destruct (unify_f n ∅ x y) as [[st' b1]| |] eqn:Ef.
  - rewrite (mono_ok _ n (max n n0) _ (mono_unify_f ∅ x y) ltac:(lia) Ef) in Hc2.
    unfold unifies, body in *. destruct b1.
    + destruct Hc as (? & _ & Hc), Hc2 as (? & _ & Hc2). rewrite Hc in H. rewrite Hc2 in H0. cbn in H, H0. congruence.
    + rewrite Hc in H. rewrite Hc2 in H0. congruence.
  - exfalso. unfold unifies, body in *. destruct (unify n x y _ _) as [[? ?] []]; cbn in *; done.
  - exfalso. unfold unifies, body in *. destruct (unify n x y _ _) as [[? ?] []]; cbn in *; done.
Qed.

Section linear.
  Local Open Scope string_scope.
  Local Open Scope list_scope.
  Context {R : semiring}.

  (** * Lists of equivalent rules *)
  Definition requiv (only : Prop) (r s : wrule R) : Prop :=
    length (wbody r) = length (wbody s) /\ (forall x fs, inst r x fs <-> inst s x fs) /\ (forall ts, leafy only r ts <-> leafy only s ts).
  Lemma requiv_refl only r : requiv only r r.
  Proof. done. Qed.
  Lemma requiv_sym only r s : requiv only r s -> requiv only s r.
  Proof. intros (H1 & H2 & H3). split; [done|]. split; intros; by symmetry. Qed.
  Lemma requiv_trans only r s t : requiv only r s -> requiv only s t -> requiv only r t.
  Proof.
    intros (H1 & H2 & H3) (H1' & H2' & H3'). split; [congruence|]. split; intros.
    - by rewrite H2.
    - by rewrite H3.
  Qed.

  Definition invert (f : nat -> nat) (n j : nat) : nat := default 0 (head (filter (fun i => f i = j) (seq 0 n))).
  Lemma invert_ok f n i : (forall a b, f a = f b -> a = b) -> i < n -> invert f n (f i) = i.
  Proof.
    intros Hf Hi. unfold invert. destruct (filter (fun a => f a = f i) (seq 0 n)) as [|a l] eqn:E.
    - exfalso. assert (H : i ∈ filter (fun a => f a = f i) (seq 0 n)) by (apply elem_of_list_filter; split; [done|apply elem_of_seq; lia]).
      rewrite E in H. by apply elem_of_nil in H.
    - cbn. assert (H : a ∈ filter (fun a => f a = f i) (seq 0 n)) by (rewrite E; left).
      apply elem_of_list_filter in H as [H _]. by apply Hf.
  Qed.

  Lemma aligned_id only rs1 rs2 (p1 p2 : nat -> nat) :
    (forall k s, rs1 !! k = Some s -> exists s', rs2 !! p1 k = Some s' /\ p2 (p1 k) = k /\ requiv only s s') ->
    TransProofs.aligned only rs1 rs2 p1 p2 (fun k => seq 0 (length (default [] (wbody <$> rs1 !! k)))) (fun k => seq 0 (length (default [] (wbody <$> rs2 !! k)))).
  Proof.
    intros H k s Hs. destruct (H k s Hs) as (s' & Hs' & Ep & Hl & Hi & Hf). exists s'. split; [done|]. split; [done|].
    rewrite Hs, Hs'. cbn. unfold id. split; [done|]. split; [|split].
    - intros l El. rewrite <- Hl, <- El. by rewrite !permute_seq.
    - intros x fs Hx. rewrite <- (inst_length _ _ _ Hx), permute_seq. by apply Hi.
    - intros ts Et Hts. rewrite <- Et, permute_seq. by apply Hf.
  Qed.

  Lemma perm_meaning only (rs1 rs rs2 : list (wrule R)) base : rs1 ≡ₚ rs -> Forall2 (requiv only) rs rs2 ->
    same_meaning (wderives only rs1 base) (wderives only rs2 base).
  Proof.
    intros Hp Hf. apply Permutation_inj in Hp as (Hlen & f & Hinj & Hlk).
    pose (g := invert f (length rs1)).
    assert (Hgf : forall k, k < length rs1 -> g (f k) = k) by (intros k Hk; apply invert_ok; [apply Hinj|done]).
    assert (Hfg : forall k s, rs !! k = Some s -> f (g k) = k /\ rs1 !! g k = Some s).
    { intros k s Hk.
      assert (Hsurj : exists a, a < length rs1 /\ f a = k).
      { assert (HP : map f (seq 0 (length rs1)) ≡ₚ seq 0 (length rs)).
        { apply submseteq_Permutation_length_eq; [by rewrite map_length, !seq_length|]. apply NoDup_submseteq.
          - apply (NoDup_fmap_2 f), NoDup_seq.
          - intros b Hb. apply elem_of_list_In, in_map_iff in Hb as (a & <- & Ha%elem_of_list_In%elem_of_seq). apply elem_of_seq.
            destruct (lookup_lt_is_Some_2 rs1 a ltac:(lia)) as [z Hz]. rewrite Hlk in Hz. apply lookup_lt_Some in Hz. lia. }
        assert (Hk' : k ∈ map f (seq 0 (length rs1))) by (rewrite HP; apply elem_of_seq; apply lookup_lt_Some in Hk; lia).
        apply elem_of_list_In, in_map_iff in Hk' as (a & <- & Ha%elem_of_list_In%elem_of_seq). exists a. split; [lia|done]. }
      destruct Hsurj as (a & Ha & <-). unfold g. rewrite Hgf by done. split; [done|]. by rewrite Hlk. }
    refine (align_same_meaning only rs1 rs2 base f g _ _ _ (aligned_id only rs1 rs2 f g _) (aligned_id only rs2 rs1 g f _)).
    - left. intros k s ->. done.
    - intros k s Hk. pose proof (lookup_lt_Some _ _ _ Hk) as Hl. rewrite Hlk in Hk.
      destruct (Forall2_lookup_l _ _ _ _ _ Hf Hk) as (s' & Hs' & Hr). exists s'. split; [done|]. split; [by apply Hgf|done].
    - intros k s Hk. destruct (Forall2_lookup_r _ _ _ _ _ Hf Hk) as (s' & Hs' & Hr). destruct (Hfg _ _ Hs') as [E1 E2].
      exists s'. split; [done|]. split; [done|]. by apply requiv_sym.
  Qed.

  (** * Splitting off a subgoal *)
  Definition has_fn (g : String.string) (x : term) : Prop := exists args, x = Fn (Cst (CStr g) :: args).
  (** the functor [g] is not used in the rule *)
  Definition avoids (g : String.string) (s : wrule R) : Prop :=
    (exists a args, whead s = Fn (Cst a :: args) /\ a <> CStr g) /\
    forall b, b ∈ goals (wbody s) -> (exists v, b = Var v) \/ (exists k, b = Cst k) \/ exists a args, b = Fn (Cst a :: args) /\ a <> CStr g.
  Lemma avoids_head g s x fs : avoids g s -> inst s x fs -> ~ has_fn g x.
  Proof. intros [(a & args & E & Hn) _] (σ & _ & <- & _) [args' E']. rewrite E in E'. injection E' as -> _. done. Qed.

  Section split.
  Context (base : term -> Prop) (rs : list (wrule R)) (i k : nat) (r : wrule R) (f : const) (args : list term) (g : String.string).
  Notation y := (Fn (Cst f :: args)).
  Notation h := (Fn (Cst (CStr g) :: args)).
  Context (Hi : rs !! i = Some r) (Hk : wbody r !! k = Some (Goal y)).
  Context (Hav : forall s, s ∈ rs -> avoids g s) (Hbase : forall x, base x -> ~ has_fn g x).
  Context (r' t : wrule R) (Hr' : requiv True r' (WRule (whead r) (<[k := Goal h]> (wbody r)))) (Ht : requiv True t (WRule h [Goal y])).
  Notation new := (<[i := r']> (rs ++ [t])).
  Notation B1 := (take k (wbody r)).
  Notation B2 := (drop (S k) (wbody r)).

  Lemma split_body_eq : wbody r = B1 ++ Goal y :: B2.
  Proof. symmetry. by apply take_drop_middle. Qed.
  Lemma split_body_new : <[k := Goal h]> (wbody r) = B1 ++ Goal h :: B2.
  Proof. apply insert_take_drop. by eapply lookup_lt_Some. Qed.
  Lemma split_B1 : length B1 = k.
  Proof. apply lookup_lt_Some in Hk. apply take_length_le. lia. Qed.
  Lemma new_eq : new = <[i := r']> rs ++ [t].
  Proof. apply insert_app_l. by eapply lookup_lt_Some. Qed.

  Definition mid0 (p : nat) (x : term) (fs : list (factor R)) : term :=
    match fs !! k with Some (Goal (Fn (_ :: a))) => Fn (Cst (CStr g) :: a) | _ => Cst c0 end.

  Lemma leafy_split (a b : factor R) (L Q : list (wderiv R)) u v : length L = k ->
    (forall w, a <> Goal (Var w)) -> (forall w, b <> Goal (Var w)) ->
    leafy True (WRule (whead r) (B1 ++ a :: B2)) (L ++ u :: Q) <-> leafy True (WRule (whead r) (B1 ++ b :: B2)) (L ++ v :: Q).
  Proof.
    intros HL Ha Hb.
    assert (H : forall (a b : factor R) u v, (forall w, b <> Goal (Var w)) ->
      leafy True (WRule (whead r) (B1 ++ a :: B2)) (L ++ u :: Q) -> leafy True (WRule (whead r) (B1 ++ b :: B2)) (L ++ v :: Q)).
    { clear Ha Hb a b u v. intros a b u v Hb H Ho. specialize (H Ho). cbn [wbody] in *.
      apply Forall2_app_inv in H as [H1 H2]; [|by rewrite split_B1]. apply Forall2_app; [done|].
      apply Forall2_cons in H2 as [_ H2]. constructor; [|done]. intros w E. by apply Hb in E. }
    split; apply H; done.
  Qed.

  Lemma split_unfold : same_meaning (wderives True new base) (wderives True (delete i new ++ [r]) base).
  Proof.
    destruct Hr' as (Hl1 & Hi1 & Hf1), Ht as (Hl2 & Hi2 & Hf2). cbn [wbody length] in Hl2. cbn [wbody] in Hl1. rewrite insert_length in Hl1.
    pose proof (lookup_lt_Some _ _ _ Hi) as Hil. pose proof (lookup_lt_Some _ _ _ Hk) as Hkl.
    assert (Hnew : new !! i = Some r') by (apply list_lookup_insert; rewrite app_length; cbn; lia).
    assert (Hnt : new !! length rs = Some t).
    { rewrite new_eq. rewrite lookup_app_r; rewrite insert_length; [|lia]. by rewrite Nat.sub_diag. }
    assert (Hmidr : forall σ x L0 Q0, length L0 = k -> map (fsub σ) (wbody r) = L0 ++ Goal (sub σ y) :: Q0 ->
      mid0 0 x (L0 ++ Goal (sub σ y) :: Q0) = sub σ h).
    { intros σ x L0 Q0 HL0 _. unfold mid0. rewrite list_lookup_middle by done. done. }
    assert (Hinsr : forall x L0 y0 Q0, length L0 = k -> inst r' x (L0 ++ Goal y0 :: Q0) <->
      exists σ, (forall v, ground (σ v)) /\ sub σ (whead r) = x /\ map (fsub σ) B1 = L0 /\ y0 = sub σ h /\ map (fsub σ) B2 = Q0).
    { intros x L0 y0 Q0 HL0. rewrite Hi1. unfold inst. cbn [whead wbody]. split.
      - intros (σ & G & E1 & E2). exists σ. rewrite split_body_new, map_app in E2. cbn [map] in E2.
        apply app_inj_1 in E2 as [E2 E3]; [|by rewrite map_length, split_B1]. cbn [fsub] in E3. injection E3 as E3 E4. done.
      - intros (σ & G & E1 & E2 & E3 & E4). exists σ. split; [done|]. split; [done|]. rewrite split_body_new, map_app, E2. cbn [map fsub]. by rewrite E4, E3. }
    refine (unfold_same_meaning True new base i k r' [(length rs, r)] mid0 Hnew ltac:(lia) _ _ _ _).
    - cbn. apply NoDup_singleton.
    - intros p k0 t0 Hp. destruct p as [|p]; [|done]. injection Hp as <- <-. exists t. split; [done|]. rewrite Hl1, Hl2. cbn [length]. split; [lia|]. split; [|split].
      + intros x L zs Q y0 HL Hz H1 H2. apply Hinsr in H1 as (σ & G & E1 & E2 & E3 & E4); [|done].
        apply Hi2 in H2 as (τ & _ & F1 & F2). cbn [whead wbody] in F1, F2. rewrite E3 in F1. cbn [sub map] in F1. injection F1 as F1.
        assert (Ez : zs = [Goal (sub σ y)]) by (rewrite <- F2; cbn; by rewrite F1).
        rewrite Ez. cbn [app]. assert (Eb : map (fsub σ) (wbody r) = L ++ Goal (sub σ y) :: Q).
        { rewrite split_body_eq, map_app, E2. cbn [map]. by rewrite E4. }
        split; [by exists σ|]. exact (eq_trans (Hmidr σ x L Q HL Eb) (eq_sym E3)).
      + intros x L zs Q HL Hz (σ & G & E1 & E2). rewrite split_body_eq, map_app in E2. cbn [map] in E2.
        apply app_inj_1 in E2 as [E2 E3]; [|by rewrite map_length, split_B1]. destruct zs as [|z [|? ?]]; [done| |done]. cbn [app] in E3. injection E3 as <- E3.
        assert (Eb : map (fsub σ) (wbody r) = L ++ Goal (sub σ y) :: Q).
        { rewrite split_body_eq, map_app, E2. cbn [map]. by rewrite E3. }
        pose proof (Hmidr σ x L Q HL Eb) as Em. cbn [app fsub sub map] in Em |- *. rewrite Em. split.
        * apply Hinsr; [done|]. by exists σ.
        * apply Hi2. by exists σ.
      + intros L vs Q k0 y0 ws HL Hv HQ. destruct vs as [|v [|? ?]]; [done| |done]. cbn [app].
        rewrite (Hf1 (L ++ WNode k0 y0 ws :: Q)), (Hf2 [v]). rewrite split_body_new.
        assert (Hlt : leafy True (WRule h [Goal y]) [v]) by (intros _; constructor; [|constructor]; by intros ? ?).
        assert (Er : leafy True r (L ++ v :: Q) <-> leafy True (WRule (whead r) (B1 ++ Goal y :: B2)) (L ++ v :: Q)).
        { unfold leafy. cbn [wbody]. by rewrite <- split_body_eq. }
        rewrite Er, (leafy_split (Goal y) (Goal h) L Q v (WNode k0 y0 ws)) by done. tauto.
    - intros k0 s x L y0 Q zs Hs HL H1 H2. apply Hinsr in H1 as (σ & G & E1 & E2 & E3 & E4); [|done]. cbn. apply elem_of_list_singleton.
      rewrite new_eq in Hs. apply lookup_app_Some in Hs as [Hs|[Hge Hs]].
      + exfalso. assert (Hg : has_fn g y0) by (exists (map (sub σ) args); exact E3).
        destruct (decide (k0 = i)) as [->|Hne].
        * rewrite list_lookup_insert in Hs by done. injection Hs as <-. apply Hi1 in H2 as (τ & Gτ & F1 & _). cbn [whead] in F1.
          apply (avoids_head g r y0 (map (fsub τ) (wbody r))); [|by exists τ|done]. apply Hav. by eapply elem_of_list_lookup_2.
        * rewrite list_lookup_insert_ne in Hs by done. apply (avoids_head g s y0 zs); [|done|done]. apply Hav. by eapply elem_of_list_lookup_2.
      + rewrite insert_length in Hge, Hs. apply lookup_lt_Some in Hs. cbn in Hs. lia.
    - intros x L f0 Q HL H1. apply Hi1 in H1 as (σ & G & E1 & E2). cbn [whead wbody] in *. rewrite split_body_new, map_app in E2. cbn [map] in E2.
      apply app_inj_1 in E2 as [_ E2]; [|by rewrite map_length, split_B1]. cbn [fsub] in E2. injection E2 as <- _. eexists. split; [done|].
      intros Hb. apply Hbase in Hb. apply Hb. by eexists.
  Qed.

  Lemma split_meaning : same_meaning (wderives True rs base)
    (fun d => wderives True new base d /\ forall x, wroot d = Goal x -> ~ has_fn g x).
  Proof.
    pose proof (lookup_lt_Some _ _ _ Hi) as Hil.
    apply same_meaning_sym.
    assert (H1 : same_meaning (wderives True new base) (wderives True (rs ++ [t]) base)).
    { eapply same_meaning_trans; [exact split_unfold|]. apply (perm_meaning _ _ (rs ++ [t])).
      - rewrite new_eq.
        rewrite (delete_take_drop (<[i := r']> rs ++ [t])). rewrite take_app_le by (rewrite insert_length; lia). rewrite take_insert by lia.
        rewrite drop_app_le by (rewrite insert_length; lia). rewrite drop_insert_gt by lia.
        rewrite <- (take_drop_middle rs i r Hi) at 3. solve_Permutation.
      - clear. induction (rs ++ [t]); constructor; [apply requiv_refl|done]. }
    apply (same_meaning_root _ _ (fun f => forall x, f = Goal x -> ~ has_fn g x)) in H1.
    refine (same_meaning_iff _ _ _ _ (fun d => iff_refl _) _ H1).
    assert (Hroot : forall d, wderives True rs base d -> forall x, wroot d = Goal x -> ~ has_fn g x).
    { intros d Hd x Ex. destruct Hd as [v|z Hz|k0 s z ds Hs Hin _ _]; [done|injection Ex as <-; by apply Hbase|]. injection Ex as <-.
      eapply avoids_head; [|exact Hin]. apply Hav. by eapply elem_of_list_lookup_2. }
    assert (Hdrop : forall d, (forall x, wroot d = Goal x -> ~ has_fn g x \/ exists z, d = TLeaf z) -> wderives True (rs ++ [t]) base d <-> wderives True rs base d).
    { apply (drop_meaning rs [t] base (fun x => ~ has_fn g x)).
      - intros s x fs Hs Hin. split; [by eapply avoids_head; [apply Hav|]|]. destruct Hin as (σ & _ & _ & <-). rewrite Forall2_fmap_r.
        apply Forall_Forall2_diag, Forall_forall. intros b Hb z Ez. destruct b as [v|b]; [done|]. cbn [fsub] in Ez. injection Ez as <-.
        destruct (proj2 (Hav s Hs) b) as [[v ->]|[[a ->]|(a & as' & -> & Ha)]].
        + apply elem_of_list_omap. by exists (Goal b).
        + left. by exists v.
        + right. by intros [? [=]].
        + right. intros [? E]. cbn [sub map] in E. injection E as -> _. done.
      - intros d x fs Hd Hin Hx. apply elem_of_list_singleton in Hd as ->. apply Ht in Hin as (σ & _ & E & _). cbn [whead] in E. apply Hx. rewrite <- E. by eexists. }
    intros d. split.
    - intros [Hd Hx]. apply Hdrop; [|done]. intros x Ex. left. by apply Hx.
    - intros Hd. pose proof (Hroot d Hd) as Hx. split; [|done]. apply Hdrop; [|done]. intros x Ex. left. by apply Hx.
  Qed.
  End split.

  (** * Renamed rules *)
  Lemma value_like_rename ρ (f : factor R) t : value_like (fsub (fun v => Var (ρ v)) f) t <-> value_like f t.
  Proof.
    unfold value_like. split; intros H v E.
    - apply (H (ρ v)). by rewrite E.
    - destruct f as [?|[w|?|?]]; try done. by eapply H.
  Qed.
  Lemma requiv_rename only ρ (r : wrule R) : rrenames ρ r -> requiv only (rrename ρ r) r.
  Proof.
    intros Hρ. split; [cbn; by rewrite map_length|]. split.
    - intros. by apply inst_rename.
    - intros ts. unfold leafy. cbn [wbody rrename rsub]. enough (Forall2 value_like (map (fsub (fun v => Var (ρ v))) (wbody r)) ts <-> Forall2 value_like (wbody r) ts) by tauto.
      rewrite Forall2_fmap_l. split; intros H; eapply Forall2_impl; try exact H; intros f t; cbn; apply value_like_rename.
  Qed.

  Context (al : nat -> nat) (Hal : forall i j, al i = al j -> i = j).
  Lemma fresh_ok0 n c (r r' : wrule R) c' : fresh_rule al n ∅ c r = Ok (r', c') ->
    exists ρ, r' = rrename ρ r /\ rrenames ρ r /\ c <= c'.
  Proof.
    intros H. apply (fresh_rule_ok al Hal ∅ Var acyclic_empty resolution_empty) in H as (ρ & H1 & H2 & H3 & _).
    rewrite rsub_Var in H1, H2. eauto.
  Qed.
  Lemma fresh_settles0 c (r : wrule R) : exists ρ c', settles (fun n => fresh_rule al n ∅ c r) (rrename ρ r, c').
  Proof.
    destruct (fresh_rule_settles al Hal ∅ Var acyclic_empty resolution_empty c r) as (r' & c' & [n0 H]).
    pose proof (H n0 ltac:(lia)) as H'. apply fresh_ok0 in H' as (ρ & -> & _). exists ρ, c'. by exists n0.
  Qed.

  (** * Names *)
  Definition gname (j : nat) : String.string := fst (gen_functor "$gen" (pred j)).
  Lemma gname_S j : gname (S j) = fst (gen_functor "$gen" j).
  Proof. done. Qed.
  Lemma gname_inj i j : 0 < i -> 0 < j -> gname i = gname j -> i = j.
  Proof.
    destruct i, j; try lia. intros _ _ H. unfold gname, gen_functor in H. cbn [pred fst] in H. apply append_inj_l, str_nat_inj in H. lia.
  Qed.

  (** terms whose functor is a constant, in [N] if it is a string *)
  Definition named (N : String.string -> Prop) (x : term) : Prop :=
    exists a args, x = Fn (Cst a :: args) /\ forall f, a = CStr f -> N f.
  Definition named_rule (N : String.string -> Prop) (s : wrule R) : Prop :=
    named N (whead s) /\ forall b, b ∈ goals (wbody s) -> (exists v, b = Var v) \/ (exists k, b = Cst k) \/ named N b.
  Lemma named_mono (N M : String.string -> Prop) s : (forall f, N f -> M f) -> named_rule N s -> named_rule M s.
  Proof.
    intros H [(a & args & H1 & H2) H3]. split.
    - exists a, args. eauto.
    - intros b Hb. destruct (H3 b Hb) as [?|[?|(a' & args' & ? & ?)]]; [by left|by right; left|]. right; right. exists a', args'. eauto.
  Qed.
  Lemma named_avoids N g s : named_rule N s -> ~ N g -> avoids g s.
  Proof.
    intros [(a & args & H1 & H2) H3] Hg. split.
    - exists a, args. split; [done|]. intros ->. by apply Hg, H2.
    - intros b Hb. destruct (H3 b Hb) as [?|[?|(a' & args' & ? & H4)]]; [by left|by right; left|]. right; right. exists a', args'. split; [done|].
      intros ->. by apply Hg, H4.
  Qed.
  Lemma named_rename N ρ s : named_rule N s -> named_rule N (rrename ρ s).
  Proof.
    assert (Hn : forall x, named N x -> named N (sub (fun v => Var (ρ v)) x)).
    { intros x (a & args & -> & H). exists a. eexists. split; [done|done]. }
    intros [H1 H3]. split; [by apply Hn|]. intros b Hb. cbn [wbody rrename rsub] in Hb. rewrite goals_fsub in Hb.
    apply elem_of_list_In, in_map_iff in Hb as (b0 & <- & Hb%elem_of_list_In). destruct (H3 b0 Hb) as [[v ->]|[[k ->]|H]].
    - left. by eexists.
    - right; left. by exists k.
    - right; right. by apply Hn.
  Qed.

  Definition names (sy : list String.string) (g : nat) (f : String.string) : Prop :=
    f ∈ sy \/ exists j, 0 < j <= g /\ f = gname j.
  Lemma gen_ok sy g name g' : prog_gen_functor sy "$gen" g = Ok (name, g') ->
    g' = S g /\ name = gname g' /\ name ∉ sy /\ ~ names sy g name.
  Proof.
    unfold prog_gen_functor. destruct (gen_functor "$gen" g) as [f i] eqn:E. destruct (decide (f ∈ sy)) as [|Hn]; [done|]. intros [= <- <-].
    unfold gen_functor in E. injection E as E1 <-. split; [done|]. split; [by rewrite <- E1|]. split; [done|].
    intros [?|(j & Hj & ->)]; [done|]. assert (E : gname (S g) = gname j) by (rewrite <- E1; done). apply gname_inj in E; lia.
  Qed.

  (** * The loop *)
  Lemma elem_of_goals (fs : list (factor R)) b : b ∈ goals fs <-> Goal b ∈ fs.
  Proof.
    unfold goals. rewrite elem_of_list_omap. split.
    - intros (f & Hf & E). destruct f; [done|]. injection E as ->. done.
    - intros H. by exists (Goal b).
  Qed.

  Lemma split_all_meaning n sy tmps : forall (rs : list (wrule R)) g c rs' g' c' (base : term -> Prop),
    split_all al n sy tmps rs g c = Ok (rs', g', c') ->
    (forall s, s ∈ rs -> named_rule (names sy g) s) ->
    (forall x j, base x -> g < j -> ~ has_fn (gname j) x) ->
    g <= g' /\ (forall s, s ∈ rs' -> named_rule (names sy g') s) /\
    same_meaning (wderives True rs base)
      (fun d => wderives True rs' base d /\ forall x, wroot d = Goal x -> forall j, g < j <= g' -> ~ has_fn (gname j) x).
  Proof.
    induction tmps as [|[i k] tmps IH]; intros rs g c rs' g' c' base H Hn Hb.
    - cbn in H. injection H as <- <- <-. split; [done|]. split; [done|].
      refine (same_meaning_iff _ _ _ _ (fun d => iff_refl _) _ (same_meaning_refl _)). intros d. split; [|by intros []].
      intros Hd. split; [done|]. intros x _ j Hj. lia.
    - cbn [split_all] in H. destruct (rs !! i) as [r|] eqn:Hi; [|done].
      destruct (prog_gen_functor sy "$gen" g) as [[name g1]| |] eqn:Eg; [|done..]. cbn [bind] in H.
      apply gen_ok in Eg as (-> & -> & Hsy & Hnot).
      destruct (wbody r !! k) as [[|[| |[|f args]]]|] eqn:Hk; try done.
      destruct (fresh_rule al n ∅ c _) as [[t c1]| |] eqn:Et; [|done..]. cbn [bind] in H.
      destruct (fresh_rule al n ∅ c1 _) as [[r' c2]| |] eqn:Er; [|done..]. cbn [bind] in H.
      apply fresh_ok0 in Et as (ρ1 & -> & Hρ1 & _). apply fresh_ok0 in Er as (ρ2 & -> & Hρ2 & _).
      pose proof (elem_of_list_lookup_2 _ _ _ Hi) as Hir. pose proof (Hn r Hir) as Hr.
      assert (Hy : named (names sy g) (Fn (f :: args))).
      { assert (Hg : Fn (f :: args) ∈ goals (wbody r)) by (apply elem_of_goals; by apply (elem_of_list_lookup_2 _ k)).
        destruct (proj2 Hr _ Hg) as [[? ?]|[[? ?]|?]]; done. }
      pose proof Hy as (a & args' & Ey & Ha). injection Ey as -> <-.
      assert (Hmono : forall f, names sy g f -> names sy (S g) f).
      { intros f [?|(j & Hj & ->)]; [by left|]. right. exists j. split; [lia|done]. }
      assert (Hh : named (names sy (S g)) (Fn (Cst (CStr (gname (S g))) :: args))).
      { exists (CStr (gname (S g))), args. split; [done|]. intros f [= <-]. right. exists (S g). split; [lia|done]. }
      apply (IH _ _ _ _ _ _ base) in H as (Hle & Hn' & Hm).
      + split; [lia|]. split; [done|].
        assert (Hsm := split_meaning base rs i k r a args (gname (S g)) Hi Hk
          (fun s Hs => named_avoids _ _ _ (Hn s Hs) Hnot) (fun x Hx => Hb x (S g) Hx ltac:(lia)) _ _
          (requiv_rename True _ _ Hρ2) (requiv_rename True _ _ Hρ1)).
        eapply same_meaning_trans; [exact Hsm|].
        apply (same_meaning_root _ _ (fun f => forall x, f = Goal x -> ~ has_fn (gname (S g)) x)) in Hm.
        refine (same_meaning_iff _ _ _ _ (fun d => iff_refl _) _ Hm). intros d. split.
        * intros [[Hd H1] H2]. split; [done|]. intros x Ex j Hj. destruct (decide (j = S g)) as [->|]; [by apply H2|]. apply H1; [done|lia].
        * intros [Hd H1]. split; [split; [done|]|]; intros x Ex; [intros j Hj; apply H1; [done|lia]|]. apply H1; [done|lia].
      + intros s Hs. apply elem_of_list_lookup in Hs as [p Hp]. rewrite list_lookup_insert_Some in Hp.
        destruct Hp as [(<- & <- & _)|[_ Hp]].
        * apply named_rename. split; [eapply (named_mono (names sy g)) in Hr as [? _]; [done|done]|]. cbn [wbody].
          intros b Hb'. apply elem_of_goals, elem_of_list_lookup in Hb' as [q Hq]. rewrite list_lookup_insert_Some in Hq.
          destruct Hq as [(_ & [= <-] & _)|[_ Hq]]; [by right; right|].
          apply (named_mono (names sy g) _ _ Hmono) in Hr as [_ Hr]. apply Hr. by apply elem_of_goals, (elem_of_list_lookup_2 _ q).
        * apply lookup_app_Some in Hp as [Hp|[_ Hp]].
          -- eapply named_mono; [exact Hmono|]. apply Hn. by eapply elem_of_list_lookup_2.
          -- apply elem_of_list_lookup_2, elem_of_list_singleton in Hp as ->. apply named_rename. split; [done|].
             cbn [wbody]. intros b Hb'. apply elem_of_goals, elem_of_list_singleton in Hb'. injection Hb' as ->. right; right.
             eexists _, _. split; [done|]. intros f E. apply Hmono. by apply Ha.
      + intros x j Hx Hj. apply Hb; [done|lia].
  Qed.

  (** * What the loop does to the rules of the program *)
  Definition mark (M : nat -> option nat) (k : nat) (f : factor R) : factor R :=
    match M k, f with
    | Some m, Goal (Fn (_ :: args)) => Goal (Fn (Cst (CStr (gname m)) :: args))
    | _, _ => f
    end.
  Definition marked (M : nat -> option nat) (r : wrule R) : wrule R := WRule (whead r) (imap (mark M) (wbody r)).
  Definition marks (sy : list String.string) (g : nat) (M : nat -> nat -> option nat) (rs0 rs : list (wrule R)) : Prop :=
    length rs0 <= length rs /\
    (forall i r, rs0 !! i = Some r -> exists ρ, rs !! i = Some (rrename ρ (marked (M i) r))) /\
    (forall i s, length rs0 <= i -> rs !! i = Some s -> length (wbody s) = 1) /\
    (forall i k m, M i k = Some m -> 0 < m <= g /\ gname m ∉ sy /\ exists r f args, rs0 !! i = Some r /\ wbody r !! k = Some (Goal (Fn (f :: args)))) /\
    (forall i k i' k' m, M i k = Some m -> M i' k' = Some m -> i = i' /\ k = k').

  Lemma split_all_marks n sy rs0 tmps : forall (rs : list (wrule R)) g c rs' g' c' M,
    split_all al n sy tmps rs g c = Ok (rs', g', c') ->
    marks sy g M rs0 rs -> NoDup tmps ->
    (forall i k, (i, k) ∈ tmps -> i < length rs0 /\ M i k = None) ->
    exists M', marks sy g' M' rs0 rs' /\ forall i k, is_Some (M' i k) <-> is_Some (M i k) \/ (i, k) ∈ tmps.
  Proof.
    induction tmps as [|[i k] tmps IH]; intros rs g c rs' g' c' M H HM Hnd Ht.
    - cbn in H. injection H as <- <- <-. exists M. split; [done|]. intros. split; [by left|]. intros [?|?%elem_of_nil]; done.
    - cbn [split_all] in H. destruct (rs !! i) as [r|] eqn:Hi; [|done].
      destruct (prog_gen_functor sy "$gen" g) as [[name g1]| |] eqn:Eg; [|done..]. cbn [bind] in H.
      apply gen_ok in Eg as (-> & -> & Hsy & Hnot).
      destruct (wbody r !! k) as [[|[| |[|f args]]]|] eqn:Hk; try done.
      destruct (fresh_rule al n ∅ c _) as [[t c1]| |] eqn:Et; [|done..]. cbn [bind] in H.
      destruct (fresh_rule al n ∅ c1 _) as [[r' c2]| |] eqn:Er; [|done..]. cbn [bind] in H.
      apply fresh_ok0 in Et as (ρ1 & -> & _ & _). apply fresh_ok0 in Er as (ρ2 & -> & _ & _).
      apply NoDup_cons in Hnd as [Hni Hnd].
      destruct (Ht i k ltac:(left)) as [Hil HMk]. destruct HM as (Hlen & Hrs & Hone & Hmk & Hinj).
      destruct (lookup_lt_is_Some_2 rs0 i Hil) as [r0 Hr0]. destruct (Hrs i r0 Hr0) as [ρ Eρ]. rewrite Hi in Eρ. injection Eρ as ->.
      cbn [wbody rrename rsub marked] in Hk. 
      assert (Hk0 : exists f0 args0, wbody r0 !! k = Some (Goal (Fn (f0 :: args0))) /\ args = map (sub (fun v => Var (ρ v))) args0).
      { change (map (fsub (fun v => Var (ρ v))) (imap (mark (M i)) (wbody r0))) with (fsub (fun v => Var (ρ v)) <$> imap (mark (M i)) (wbody r0)) in Hk.
        rewrite list_lookup_fmap, list_lookup_imap in Hk. destruct (wbody r0 !! k) as [f0|]; [|done]. cbn in Hk. unfold mark in Hk. rewrite HMk in Hk.
        destruct f0 as [?|[|?|[|? ?]]]; try done. cbn in Hk. injection Hk as _ <-. eauto. }
      destruct Hk0 as (f0 & args0 & Hk0 & ->).
      pose (M' := fun i' k' => if decide (i' = i /\ k' = k) then Some (S g) else M i' k').
      destruct (IH _ _ _ _ _ _ M' H) as (M2 & HM2 & Hdom); try done.
      + split; [rewrite insert_length, app_length; lia|]. split; [|split; [|split]].
        * intros i' r1 Hr1. destruct (decide (i' = i)) as [->|Hne].
          -- rewrite Hr0 in Hr1. injection Hr1 as <-. rewrite list_lookup_insert by (rewrite app_length; lia).
             exists (fun v => ρ2 (ρ v)). f_equal. unfold rrename, rsub, marked. cbn [whead wbody]. f_equal; [by rewrite sub_sub|].
             apply list_eq. intros q.
             change (@map (factor R) (factor R)) with (@fmap list _ (factor R) (factor R)). rewrite !list_lookup_fmap, list_lookup_imap.
             destruct (decide (q = k)) as [->|Hq].
             ++ rewrite list_lookup_insert by (rewrite fmap_length, imap_length; by eapply lookup_lt_Some). rewrite Hk0. cbn. unfold mark, M'.
                rewrite decide_True by done. cbn. f_equal. f_equal. f_equal. f_equal. rewrite map_map. apply map_ext. intros x. by rewrite sub_sub.
             ++ rewrite list_lookup_insert_ne by done. rewrite list_lookup_fmap, list_lookup_imap. destruct (wbody r0 !! q) as [b|]; [|done]. cbn.
                replace (mark (M' i) q b) with (mark (M i) q b) by (unfold mark, M'; rewrite decide_False by naive_solver; done).
                f_equal. destruct (mark (M i) q b); [done|]. cbn. by rewrite sub_sub.
          -- rewrite list_lookup_insert_ne by done. rewrite lookup_app_l by (apply lookup_lt_Some in Hr1; lia).
             destruct (Hrs i' r1 Hr1) as [ρ' E]. exists ρ'. rewrite E. f_equal. f_equal. unfold marked. f_equal. apply imap_ext. intros q b _. unfold mark, M'. by rewrite decide_False by naive_solver.
        * intros i' s Hi' Hs. rewrite list_lookup_insert_ne in Hs by lia. apply lookup_app_Some in Hs as [Hs|[_ Hs]]; [by eapply Hone|].
          apply elem_of_list_lookup_2, elem_of_list_singleton in Hs as ->. done.
        * intros i' k' m. unfold M'. destruct (decide _) as [[-> ->]|]; [|intros E; apply Hmk in E as (? & ? & ?); split; [lia|done]].
          intros [= <-]. split; [lia|]. split; [done|]. eauto.
        * intros i1 k1 i2 k2 m. unfold M'. destruct (decide _) as [[-> ->]|], (decide _) as [[-> ->]|]; try done.
          -- intros [= <-] E. apply Hmk in E. lia.
          -- intros E [= <-]. apply Hmk in E. lia.
          -- apply Hinj.
      + intros i' k' Hin. destruct (Ht i' k') as [Ht1 Ht2]; [by right|]. split; [done|]. unfold M'. rewrite decide_False; [done|]. intros [-> ->]. done.
      + exists M2. split; [done|]. intros i' k'. rewrite Hdom, elem_of_cons. unfold M'. destruct (decide _) as [[-> ->]|Hne]; [naive_solver|].
        assert ((i', k') <> (i, k)) by naive_solver. tauto.
  Qed.

  (** * The overlaps *)
  Lemma overlaps1_ok n x (fs : list (factor R)) : forall k ks, overlaps1 n x fs k = Ok ks ->
    forall p, p ∈ ks <-> exists q y, p = k + q /\ fs !! q = Some (Goal y) /\ exists σ, sub σ x = sub σ y.
  Proof.
    induction fs as [|f fs IH]; intros k ks H p; cbn in H.
    { injection H as <-. split; [by intros ?%elem_of_nil|]. intros (q & y & _ & E & _). done. }
    assert (Hf : exists b, match f with Goal y => unifies n ∅ x y | Val _ => Ok false end = Ok b /\
      (b = true <-> exists y, f = Goal y /\ exists σ, sub σ x = sub σ y)).
    { destruct f as [v|y].
      - exists false. split; [done|]. naive_solver.
      - destruct (unifies n ∅ x y) as [b| |] eqn:E; [|done..]. exists b. split; [done|]. apply unifies_ok in E. naive_solver. }
    destruct Hf as (b & Eb & Hb). rewrite Eb in H. cbn [bind] in H. destruct (overlaps1 n x fs (S k)) as [ks0| |] eqn:Ek; [|done..]. cbn [bind] in H.
    pose proof (IH _ _ Ek) as IH'. injection H as <-.
    assert (Hp : p ∈ (if b then k :: ks0 else ks0) <-> (b = true /\ p = k) \/ p ∈ ks0).
    { destruct b; [rewrite elem_of_cons; tauto|]. naive_solver. }
    rewrite Hp, IH', Hb. split.
    - intros [[(y & -> & Hy) ->]|(q & y & -> & Hq & Hy)].
      + exists 0, y. split; [lia|done].
      + exists (S q), y. split; [lia|done].
    - intros ([|q] & y & -> & Hq & Hy).
      + cbn in Hq. injection Hq as ->. left. split; [eauto|lia].
      + right. exists q, y. split; [lia|done].
  Qed.

  Definition relevant (driver : option term) (x : term) : Prop :=
    is_const x = false /\ is_builtin x = false /\
    match driver with None => True | Some d => exists σ, sub σ x = sub σ d end.

  Lemma overlaps_ok n driver (fs : list (factor R)) : forall j ks, overlaps n driver fs j = Ok ks ->
    forall p, p ∈ ks <-> exists a b x y, p = j + b /\ a < b /\ fs !! a = Some (Goal x) /\ fs !! b = Some (Goal y) /\
      relevant driver x /\ exists σ, sub σ x = sub σ y.
  Proof.
    induction fs as [|f fs IH]; intros j ks H p; cbn in H.
    { injection H as <-. split; [by intros ?%elem_of_nil|]. intros (a & b & x & y & _ & _ & E & _). done. }
    match type of H with (let* ks := ?e in _) = _ =>
      assert (Hf : exists ks1, e = Ok ks1 /\ (forall p, p ∈ ks1 <-> exists b x y, p = S j + b /\ f = Goal x /\ fs !! b = Some (Goal y) /\ relevant driver x /\ exists σ, sub σ x = sub σ y)) end.
    { destruct f as [v|x].
      { exists []. split; [done|]. intros q. split; [by intros ?%elem_of_nil|]. naive_solver. }
      match type of H with bind (bind ?e _) _ = _ => assert (Hd : exists u, e = Ok u /\ (u = true <-> match driver with None => True | Some d => exists σ, sub σ x = sub σ d end)) end.
      { destruct driver as [d|]; [|by exists true]. destruct (unifies n ∅ x d) as [u| |] eqn:E; [|done..]. exists u. split; [done|]. by eapply unifies_ok. }
      destruct Hd as (u & Eu & Hu). rewrite Eu in H |- *. cbn [bind] in H |- *. unfold relevant.
      assert (Hno : forall P : nat -> Prop, (forall q, ~ P q) -> exists ks1, Ok (A:=list nat) [] = Ok ks1 /\ forall p, p ∈ ks1 <-> P p).
      { intros P HP. exists []. split; [done|]. intros q. split; [by intros ?%elem_of_nil|]. by intros ?%HP. }
      destruct u; cbn [negb] in *.
      2: { apply Hno. intros q (b & x' & y & _ & [= <-] & _ & (_ & _ & Hd) & _). apply Hu in Hd. done. }
      destruct (is_const x) eqn:Ec.
      { apply Hno. intros q (b & x' & y & _ & [= <-] & _ & (Hc & _) & _). congruence. }
      destruct (is_builtin x) eqn:Ebu.
      { apply Hno. intros q (b & x' & y & _ & [= <-] & _ & (_ & Hc & _) & _). congruence. }
      destruct (overlaps1 n x fs (S j)) as [ks1| |] eqn:E1; [|done..]. exists ks1. split; [done|]. intros q. rewrite (overlaps1_ok _ _ _ _ _ E1).
      split.
      - intros (b & y & -> & Hb & Hσ). exists b, x, y. split_and!; try done. by apply Hu.
      - intros (b & x' & y & -> & [= <-] & Hb & _ & Hσ). eauto. }
    destruct Hf as (ks1 & E1 & H1). rewrite E1 in H. clear E1. cbn [bind] in H. destruct (overlaps n driver fs (S j)) as [ks0| |] eqn:Ek; [|done..]. cbn [bind] in H.
    pose proof (IH _ _ Ek) as IH'. injection H as <-. rewrite elem_of_app, H1, IH'. split.
    - intros [(b & x & y & -> & -> & Hb & Hx & Hσ)|(a & b & x & y & -> & Hab & Ha & Hb & Hx & Hσ)].
      + exists 0, (S b), x, y. split_and!; try done; lia.
      + exists (S a), (S b), x, y. split_and!; try done; lia.
    - intros ([|a] & [|b] & x & y & -> & Hab & Ha & Hb & Hx & Hσ); try lia.
      + cbn in Ha, Hb. injection Ha as ->. left. exists b, x, y. split_and!; try done. lia.
      + right. exists a, b, x, y. split_and!; try done; lia.
  Qed.

  Lemma find_tmps_ok n driver (rs : list (wrule R)) : forall i ts, find_tmps n driver rs i = Ok ts ->
    forall p k, (p, k) ∈ ts <-> exists q r a x y, p = i + q /\ rs !! q = Some r /\ a < k /\ wbody r !! a = Some (Goal x) /\ wbody r !! k = Some (Goal y) /\
      relevant driver x /\ exists σ, sub σ x = sub σ y.
  Proof.
    induction rs as [|r rs IH]; intros i ts H p k; cbn in H.
    { injection H as <-. split; [by intros ?%elem_of_nil|]. intros (q & r & a & x & y & _ & E & _). done. }
    destruct (overlaps n driver (wbody r) 0) as [ks| |] eqn:Eo; [|done..]. cbn [bind] in H.
    destruct (find_tmps n driver rs (S i)) as [rest| |] eqn:Er; [|done..]. cbn [bind] in H. injection H as <-.
    rewrite elem_of_app, (IH _ _ Er). change (map (pair i) ks) with (pair i <$> ks). rewrite elem_of_list_fmap. split.
    - intros [(k' & [= -> ->] & Hk)|(q & s & a & x & y & -> & Hs & H)].
      + apply (overlaps_ok _ _ _ _ _ Eo) in Hk as (a & b & x & y & -> & Hab & H). exists 0, r, a, x, y. rewrite Nat.add_0_l. split_and!; try done; try lia; apply H.
      + exists (S q), s, a, x, y. split; [lia|]. by split.
    - intros ([|q] & s & a & x & y & -> & Hs & H).
      + cbn in Hs. injection Hs as ->. left. exists k. split; [f_equal; lia|]. apply (overlaps_ok _ _ _ _ _ Eo). exists a, k, x, y. split; [lia|]. done.
      + right. exists q, s, a, x, y. split; [lia|]. by split.
  Qed.

  Lemma dedup_ok {A} `{EqDecision A} (l : list A) : forall seen, NoDup (dedup l seen) /\ forall a, a ∈ dedup l seen <-> a ∈ l /\ a ∉ seen.
  Proof.
    induction l as [|b l IH]; intros seen; cbn.
    { split; [apply NoDup_nil_2|]. intros a. rewrite elem_of_nil. naive_solver. }
    destruct (decide (b ∈ seen)) as [Hb|Hb].
    - destruct (IH seen) as [H1 H2]. split; [done|]. intros a. rewrite H2, elem_of_cons. naive_solver.
    - destruct (IH (b :: seen)) as [H1 H2]. split.
      + apply NoDup_cons. split; [|done]. rewrite H2. rewrite elem_of_cons. naive_solver.
      + intros a. rewrite elem_of_cons, H2, !elem_of_cons. destruct (decide (a = b)) as [->|]; naive_solver.
  Qed.

  (** * No overlaps are left *)
  Lemma plain_named (rs : list (wrule R)) : 
    (forall r, r ∈ rs -> item_head (whead r) /\ forall b, b ∈ goals (wbody r) -> (exists v, b = Var v) \/ (exists k, b = Cst k) \/ item_head b) ->
    forall s g, s ∈ rs -> named_rule (names (wsyms rs) g) s.
  Proof.
    intros H s g Hs. destruct (H s Hs) as [(a & args & Eh) Hb].
    assert (Hw : forall f, f ∈ fn_name (whead s) \/ (exists b, b ∈ goals (wbody s) /\ f ∈ fn_name b) -> names (wsyms rs) g f).
    { intros f Hf. left. unfold wsyms. apply elem_of_list_In, in_flat_map. exists s. split; [by apply elem_of_list_In|]. apply elem_of_list_In.
      apply elem_of_app. destruct Hf as [?|(b & Hb' & Hf)]; [by left|]. right. apply elem_of_list_In, in_flat_map. exists b. split; by apply elem_of_list_In. }
    split.
    - exists a, args. split; [done|]. intros f ->. apply Hw. left. rewrite Eh. cbn. left.
    - intros b Hb'. destruct (Hb b Hb') as [?|[?|(a' & args' & ->)]]; [by left|by right; left|]. right; right. exists a', args'. split; [done|].
      intros f ->. apply Hw. right. eexists. split; [done|]. cbn. left.
  Qed.

  Lemma not_overlapping sy g M (rs0 rs : list (wrule R)) driver i r r' j k x x' y' :
    marks sy g M rs0 rs -> 
    (forall k, is_Some (M i k) <-> exists a x y, a < k /\ wbody r !! a = Some (Goal x) /\ wbody r !! k = Some (Goal y) /\ relevant driver x /\ exists σ, sub σ x = sub σ y) ->
    named_rule (fun f => f ∈ sy) r -> rs0 !! i = Some r -> rs !! i = Some r' -> j < k ->
    wbody r !! j = Some (Goal x) -> relevant driver x -> wbody r' !! j = Some (Goal x') -> wbody r' !! k = Some (Goal y') ->
    ~ exists σ, sub σ x' = sub σ y'.
  Proof.
    intros (_ & Hrs & _ & Hmk & Hinj) Hdom [_ Hnm] Hr Hr' Hjk Hx Hrel Hx' Hy' [σ Hσ].
    destruct (Hrs i r Hr) as [ρ Eρ]. rewrite Hr' in Eρ. injection Eρ as ->.
    cbn [wbody rrename rsub marked] in Hx', Hy'.
    change (@map (factor R) (factor R)) with (@fmap list _ (factor R) (factor R)) in *.
    rewrite list_lookup_fmap, list_lookup_imap in Hx', Hy'. rewrite Hx in Hx'. destruct (wbody r !! k) as [fy|] eqn:Hy; [|done]. cbn in Hx', Hy'.
    destruct fy as [v|y]. { unfold mark in Hy'. by destruct (M i k). }
    assert (HN : forall q b, wbody r !! q = Some (Goal b) -> (exists v, b = Var v) \/ (exists k, b = Cst k) \/ named (fun f => f ∈ sy) b).
    { intros q b Hq. apply Hnm, elem_of_goals. by eapply elem_of_list_lookup_2. }
    assert (Hxn : exists a args, x = Fn (Cst a :: args) /\ forall f, a = CStr f -> f ∈ sy).
    { destruct (HN j x Hx) as [[v ->]|[[c ->]|?]]; [by destruct Hrel as (_ & ? & _)|by destruct Hrel|done]. }
    destruct Hxn as (a & args & -> & Ha).
    set (τ v := sub σ (Var (ρ v))).
    assert (Hmx : exists x0, mark (M i) j (Goal (Fn (Cst a :: args))) = Goal x0 /\ sub σ x' = sub τ x0).
    { destruct (mark (M i) j _) as [|x0] eqn:E; [unfold mark in E; by destruct (M i j)|]. injection Hx' as <-. exists x0. split; [done|]. unfold τ. by rewrite sub_sub. }
    assert (Hmy : exists y0, mark (M i) k (Goal y) = Goal y0 /\ sub σ y' = sub τ y0).
    { destruct (mark (M i) k _) as [|x0] eqn:E; [unfold mark in E; destruct (M i k), y as [| |[|? ?]]; done|]. injection Hy' as <-. exists x0. split; [done|]. unfold τ. by rewrite sub_sub. }
    destruct Hmx as (x0 & Ex & Hx0), Hmy as (y0 & Ey & Hy0). rewrite Hx0, Hy0 in Hσ. clear Hx0 Hy0 Hx' Hy' x' y'.
    assert (Hxs : exists a', x0 = Fn (Cst a' :: args) /\ ((M i j = None /\ a' = a) \/ exists m, M i j = Some m /\ a' = CStr (gname m))).
    { unfold mark in Ex. destruct (M i j) as [m|] eqn:E; injection Ex as <-; [|by exists a; eauto]. exists (CStr (gname m)). eauto. }
    destruct Hxs as (a' & -> & Ha').
    destruct (M i k) as [m|] eqn:EMk.
    - destruct (Hmk i k m EMk) as (Hm & Hmsy & r2 & f & args2 & Hr2 & Hb2). rewrite Hr in Hr2. injection Hr2 as <-. rewrite Hy in Hb2. injection Hb2 as ->.
      unfold mark in Ey. rewrite EMk in Ey. injection Ey as <-. cbn [sub map] in Hσ. injection Hσ as Hσ _. 
      destruct Ha' as [[_ ->]|(m' & Em' & ->)].
      + by apply Hmsy, Ha.
      + assert (Hg : gname m' = gname m) by congruence. apply Hmk in Em' as Hm'. apply gname_inj in Hg; [|lia..]. subst m'. destruct (Hinj _ _ _ _ _ Em' EMk). lia.
    - assert (Hno : ~ exists τ, sub τ (Fn (Cst a :: args)) = sub τ y).
      { intros [τ' Hτ]. assert (is_Some (M i k)) as [? ?]; [|congruence]. apply Hdom. exists j, (Fn (Cst a :: args)), y. split_and!; try done. by exists τ'. }
      unfold mark in Ey. rewrite EMk in Ey. injection Ey as <-.
      destruct Ha' as [[_ ->]|(m & Em & ->)]; [apply Hno; by exists τ|].
      destruct (Hmk i j m Em) as (Hm & Hmsy & _).
      destruct (HN k y Hy) as [[v ->]|[[c ->]|(b & bargs & -> & Hb)]].
      + apply Hno. cbn [sub] in Hσ.
        assert (Hocc : forall t, In t args -> ~ In v (vars t)).
        { intros t Ht Hv. assert (Hsz : tsize (τ v) <= tsize (sub τ t)).
          { clear -Hv. induction t as [u|c|ts IH] using term_ind'; cbn in Hv.
            - destruct Hv as [->|[]]. done.
            - done.
            - apply in_flat_map in Hv as (t & Ht & Hv). rewrite Forall_forall in IH. specialize (IH t (proj2 (elem_of_list_In _ _) Ht) Hv).
              cbn [sub tsize]. transitivity (tsize (sub τ t)); [done|]. rewrite map_map. pose proof (list_sum_in _ _ (in_map (fun t => tsize (sub τ t)) ts t Ht)). cbn in H. lia. }
          rewrite <- Hσ in Hsz. cbn [map tsize sub list_sum] in Hsz. rewrite map_map in Hsz.
          pose proof (list_sum_in _ _ (in_map (fun t => tsize (sub τ t)) args t Ht)) as Hs. cbn [map tsize list_sum fold_right Nat.add] in Hs, Hsz. revert Hs Hsz. clear. unfold list_sum. cbn. intros. lia. }
        exists (fun u => if decide (u = v) then Fn (Cst a :: map (sub τ) args) else τ u). cbn [sub map]. rewrite decide_True by done. f_equal. f_equal.
        apply map_ext_in. intros t Ht. apply sub_ext. intros u Hu. rewrite decide_False; [done|]. intros ->. by apply (Hocc t).
      + done.
      + cbn [sub map] in Hσ. injection Hσ as <- _. by apply Hmsy, Hb.
  Qed.

  (** * It returns *)
  Lemma overlaps1_settles x (fs : list (factor R)) : forall k, exists ks, settles (fun n => overlaps1 n x fs k) ks.
  Proof.
    induction fs as [|f fs IH]; intros k; [by exists [], 0|].
    assert (Hf : exists b, settles (fun n => match f with Goal y => unifies n ∅ x y | Val _ => Ok false end) b).
    { destruct f as [|y]; [by exists false, 0|]. destruct (unifies_settles x y) as (b & H & _). by exists b. }
    destruct Hf as [b Hb], (IH (S k)) as [ks Hk]. exists (if b then k :: ks else ks). cbn [overlaps1].
    apply (settles_bind _ _ b); [done|]. apply (settles_bind _ _ ks); [done|]. apply settles_ret.
  Qed.
  Lemma overlaps_settles driver (fs : list (factor R)) : forall j, exists ks, settles (fun n => overlaps n driver fs j) ks.
  Proof.
    induction fs as [|f fs IH]; intros j; [by exists [], 0|].
    assert (Hf : exists ks, settles (fun n => match f with
                 | Val _ => Ok []
                 | Goal x =>
                     let* u := match driver with None => Ok true | Some d => unifies n ∅ x d end in
                     if negb u then Ok []
                     else if is_const x then Ok []
                     else if is_builtin x then Ok []
                     else overlaps1 n x fs (S j)
                 end) ks).
    { destruct f as [|x]; [by exists [], 0|].
      assert (Hu : exists u, settles (fun n => match driver with None => Ok true | Some d => unifies n ∅ x d end) u).
      { destruct driver as [d|]; [|by exists true, 0]. destruct (unifies_settles x d) as (b & H & _). by exists b. }
      destruct Hu as [u Hu], (overlaps1_settles x fs (S j)) as [ks Hk].
      exists (if negb u then [] else if is_const x then [] else if is_builtin x then [] else ks). apply (settles_bind _ _ u); [done|].
      destruct u; [|by exists 0]. cbn [negb]. destruct (is_const x); [by exists 0|]. destruct (is_builtin x); [by exists 0|]. done. }
    destruct Hf as [k1 H1], (IH (S j)) as [k2 H2]. exists (k1 ++ k2). cbn [overlaps].
    apply (settles_bind _ _ k1); [done|]. apply (settles_bind _ _ k2); [done|]. apply settles_ret.
  Qed.
  Lemma find_tmps_settles driver (rs : list (wrule R)) : forall i, exists ts, settles (fun n => find_tmps n driver rs i) ts.
  Proof.
    induction rs as [|r rs IH]; intros i; [by exists [], 0|].
    destruct (overlaps_settles driver (wbody r) 0) as [k1 H1], (IH (S i)) as [k2 H2]. exists (map (pair i) k1 ++ k2). cbn [find_tmps].
    apply (settles_bind _ _ k1); [done|]. apply (settles_bind _ _ k2); [done|]. apply settles_ret.
  Qed.

  Lemma split_all_settles sy tmps : forall (rs : list (wrule R)) g c,
    (forall j, g < j -> gname j ∉ sy) ->
    (forall i k, (i, k) ∈ tmps -> exists r f args, rs !! i = Some r /\ wbody r !! k = Some (Goal (Fn (f :: args)))) ->
    exists o, settles (fun n => split_all al n sy tmps rs g c) o.
  Proof.
    induction tmps as [|[i k] tmps IH]; intros rs g c Hg Ht; [by exists (rs, g, c), 0|].
    destruct (Ht i k ltac:(left)) as (r & f & args & Hi & Hk).
    assert (Eg : prog_gen_functor sy "$gen" g = Ok (gname (S g), S g)).
    { unfold prog_gen_functor. rewrite (surjective_pairing (gen_functor "$gen" g)).
      change (fst (gen_functor "$gen" g)) with (gname (S g)). rewrite decide_False by (apply Hg; lia). done. }
    set (h := Fn (Cst (CStr (gname (S g))) :: args)).
    destruct (fresh_settles0 c (WRule h [Goal (Fn (f :: args))])) as (ρ1 & c1 & H1).
    destruct (fresh_settles0 c1 (WRule (whead r) (<[k := Goal h]> (wbody r)))) as (ρ2 & c2 & H2).
    destruct (IH (<[i := rrename ρ2 (WRule (whead r) (<[k := Goal h]> (wbody r)))]> (rs ++ [rrename ρ1 (WRule h [Goal (Fn (f :: args))])])) (S g) c2) as [o Ho].
    - intros j Hj. apply Hg. lia.
    - intros i' k' Hin. destruct (Ht i' k' ltac:(by right)) as (r0 & f0 & args0 & Hr0 & Hk0).
      destruct (decide (i' = i)) as [->|Hne].
      + rewrite Hi in Hr0. injection Hr0 as <-. exists (rrename ρ2 (WRule (whead r) (<[k := Goal h]> (wbody r)))). rewrite list_lookup_insert by (rewrite app_length; apply lookup_lt_Some in Hi; lia).
        destruct (decide (k' = k)) as [->|Hk'].
        * exists (Cst (CStr (gname (S g)))). eexists. split; [done|]. cbn [wbody rrename rsub]. change (@map (factor R) (factor R)) with (@fmap list _ (factor R) (factor R)). rewrite list_lookup_fmap, list_lookup_insert by (by eapply lookup_lt_Some). done.
        * eexists _, _. split; [reflexivity|]. cbn [wbody rrename rsub]. change (@map (factor R) (factor R)) with (@fmap list _ (factor R) (factor R)). rewrite list_lookup_fmap, list_lookup_insert_ne by done. rewrite Hk0. done.
      + exists r0, f0, args0. split; [|done]. rewrite list_lookup_insert_ne by done. rewrite lookup_app_l by (by eapply lookup_lt_Some). done.
    - exists o. cbn [split_all]. rewrite Hi, Eg, Hk. cbn [bind]. apply (settles_bind _ _ _ _ H1). apply (settles_bind _ _ _ _ H2). exact Ho.
  Qed.
End linear.
