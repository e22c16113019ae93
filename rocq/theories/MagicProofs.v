(** Proofs about magic templates. *)
From Coq Require Import List Permutation.
From stdpp Require Import gmap.
From Coq Require Import Lia.
From Coq Require String Ascii.
From Verif Require Import PyBase Semiring TermModel TermSpec TermProofs SetsModel SetsSpec SetsProofs PruneModel ProgSpec PruneSpec ProgProofs PruneProofs
  NamesModel LinearProofs SlashModel MagicModel MagicSpec.
Import String.StringSyntax Ascii.AsciiSyntax.
Import ListNotations.
Local Open Scope string_scope.
Local Open Scope list_scope.

(** * Reordering *)
Lemma argmin_lt ks i best m : fst best < m -> i + length ks <= m -> argmin ks i best < m.
Proof.
  revert i best. induction ks as [|k ks IH]; intros i best H1 H2; cbn [argmin length] in *; [done|].
  apply IH; [|lia]. destruct (key_lt k (snd best)); cbn; lia.
Qed.
Lemma mapSM_length {A B S} (f : A -> S -> res (B * S)) l s bs s' : mapSM f l s = Ok (bs, s') -> length bs = length l.
Proof.
  revert s bs. induction l as [|a l IH]; intros s bs H; cbn [mapSM] in H; [by injection H as <- <-|].
  destruct (f a s) as [[b s1]| |]; [|done..]. cbn [bind] in H. destruct (mapSM f l s1) as [[bs0 s2]| |] eqn:E; [|done..]. cbn [bind] in H.
  injection H as <- <-. cbn. by rewrite (IH _ _ E).
Qed.
Lemma nth_split_perm {A} i (ys : list A) d : i < length ys -> Permutation ys (nth i ys d :: take i ys ++ drop (S i) ys).
Proof.
  revert i. induction ys as [|y ys IH]; intros [|i] H; cbn in *; [lia|lia|done|].
  rewrite (IH i) at 1 by lia. apply perm_swap.
Qed.

Lemma Forall2_r {A B} (Q : A -> B -> Prop) (R : B -> Prop) l k : Forall2 Q l k -> (forall a b, Q a b -> R b) -> Forall R k.
Proof. intros H HR. induction H; constructor; eauto. Qed.

Section magic.
  Context (al cv : nat -> nat) (inputs : list term).

  Lemma reorder_perm k n nodes src ys bound c l c' : reorder al inputs k n nodes src ys bound c = Ok (l, c') -> Permutation ys l.
  Proof.
    revert ys bound c l c'. induction k as [|k IH]; intros ys bound c l c' H; destruct ys as [|y ys]; cbn [reorder] in H; try done.
    { by injection H as <- <-. } { by injection H as <- <-. }
    destruct (mapSM _ (y :: ys) c) as [[ks c1]| |] eqn:E; [|done..]. cbn [bind] in H. apply mapSM_length in E.
    destruct ks as [|k0 kr]; [done|]. set (i := argmin kr 1 (0, k0)) in *.
    assert (Hi : i < length (y :: ys)). { apply argmin_lt; cbn in *; lia. }
    match type of H with bind ?m _ = _ => destruct m as [[rest c2]| |] eqn:Er; [|done..] end. cbn [bind] in H. injection H as <- <-.
    rewrite (nth_split_perm i (y :: ys) y Hi). apply perm_skip. by apply IH in Er.
  Qed.

  Lemma any_unifies_ok n ys x e : any_unifies n ∅ ys x = Ok e -> e = true -> exists q, In q ys /\ overlap x q.
  Proof.
    revert e. induction ys as [|y ys IH]; intros e H He; cbn [any_unifies] in H; [congruence|].
    destruct (unifies n ∅ y x) as [u| |] eqn:E; [|done..]. cbn [bind] in H. destruct u.
    - apply unifies_ok in E as [E _]. destruct E as [σ E]; [done|]. exists y. split; [by left|]. by exists σ, σ.
    - destruct (IH _ H He) as (q & Hq & ?). exists q. split; [by right|done].
  Qed.
  Lemma is_exogenous_ok n f e : is_exogenous inputs n ∅ f = Ok e -> e = true -> exo f = true \/ exists q, In q inputs /\ overlap f q.
  Proof.
    unfold is_exogenous, exo. destruct (snap n ∅ f) as [y| |] eqn:E; [|done..]. cbn [bind].
    assert (y = f) as ->. { destruct n; [done|]. destruct f; cbn in E; try rewrite lookup_empty in E; by injection E. }
    destruct (is_const f || is_builtin f) eqn:Ec; [by left|]. intros H He. right. by eapply any_unifies_ok.
  Qed.
  Lemma is_exogenous_exo n f e : is_exogenous inputs n ∅ f = Ok e -> e = false -> exo f = false.
  Proof.
    unfold is_exogenous, exo. destruct (snap n ∅ f) as [y| |] eqn:E; [|done..]. cbn [bind].
    assert (y = f) as ->. { destruct n; [done|]. destruct f; cbn in E; try rewrite lookup_empty in E; by injection E. }
    destruct (is_const f || is_builtin f) eqn:Ec; [|done]. congruence.
  Qed.

  (** * The rules *)
  Lemma demands_in fn n gH pre fs rs : demands inputs fn n gH pre fs = Ok rs ->
    (forall pre' f post, fs = pre' ++ f :: post -> exists e, is_exogenous inputs n ∅ f = Ok e /\
       (e = false -> In (Rule (magic fn f) (gH :: pre ++ pre')) rs)) /\
    (forall r, In r rs -> exists pre' f post, fs = pre' ++ f :: post /\ is_exogenous inputs n ∅ f = Ok false /\ r = Rule (magic fn f) (gH :: pre ++ pre')).
  Proof.
    revert pre rs. induction fs as [|f fs IH]; intros pre rs H; cbn [demands] in H.
    { injection H as <-. split; [|by intros ? []]. intros [|] ? ? [=]. }
    destruct (is_exogenous inputs n ∅ f) as [e| |] eqn:Ee; [|done..]. cbn [bind] in H.
    destruct (demands inputs fn n gH (pre ++ [f]) fs) as [rest| |] eqn:Ed; [|done..]. cbn [bind] in H. injection H as <-.
    destruct (IH _ _ Ed) as [H1 H2]. split.
    - intros [|g pre'] f' post [= <- ->].
      + exists e. split; [done|]. intros ->. left. by rewrite app_nil_r.
      + destruct (H1 pre' f' post eq_refl) as (e' & He' & Hin). exists e'. split; [done|]. intros Hf. specialize (Hin Hf).
        rewrite <- app_assoc in Hin. cbn in Hin. destruct e; [done|by right].
    - intros r Hr. destruct e; [|destruct Hr as [<-|Hr]].
      + destruct (H2 r Hr) as (pre' & f' & post & -> & He & ->). exists (f :: pre'), f', post. split; [done|]. split; [done|]. by rewrite <- app_assoc.
      + exists [], f, fs. split; [done|]. split; [done|]. by rewrite app_nil_r.
      + destruct (H2 r Hr) as (pre' & f' & post & -> & He & ->). exists (f :: pre'), f', post. split; [done|]. split; [done|]. by rewrite <- app_assoc.
  Qed.
  Lemma mapSM_in {A B S} (f : A -> S -> res (B * S)) l s bs s' : mapSM f l s = Ok (bs, s') -> Forall2 (fun a b => exists s s', f a s = Ok (b, s')) l bs.
  Proof.
    revert s bs. induction l as [|a l IH]; intros s bs H; cbn [mapSM] in H; [injection H as <- <-; constructor|].
    destruct (f a s) as [[b s1]| |] eqn:Ef; [|done..]. cbn [bind] in H. destruct (mapSM f l s1) as [[bs0 s2]| |] eqn:E; [|done..]. cbn [bind] in H.
    injection H as <- <-. constructor; [by eauto|]. by eapply IH.
  Qed.

  (** What the generated rules are. *)
  Record magic_shape (fn : String.string) (outs P rs : list rule) (ord : nat -> list term) (ex : term -> bool) : Prop := {
    ms_ord : reordering P ord;
    ms_out : forall o, In o outs -> exists l, Permutation (rbody o) l /\ In (Rule (magic fn (rhead o)) l) rs;
    ms_rule : forall i r, nth_error P i = Some r -> In (Rule (rhead r) (magic fn (rhead r) :: ord i)) rs;
    ms_dem : forall i r pre f post, nth_error P i = Some r -> ord i = pre ++ f :: post -> ex f = false ->
      In (Rule (magic fn f) (magic fn (rhead r) :: pre)) rs;
    ms_ex : forall i r f, nth_error P i = Some r -> In f (ord i) -> ex f = true -> exo f = true \/ exists q, In q inputs /\ overlap f q;
    ms_inv : forall s, In s rs ->
      (exists o l, In o outs /\ Permutation (rbody o) l /\ s = Rule (magic fn (rhead o)) l) \/
      exists i r, nth_error P i = Some r /\
        (s = Rule (rhead r) (magic fn (rhead r) :: ord i) \/
         exists pre f post, ord i = pre ++ f :: post /\ ex f = false /\ s = Rule (magic fn f) (magic fn (rhead r) :: pre))
  }.
  Definition exob (n : nat) (f : term) : bool := match is_exogenous inputs n ∅ f with Ok e => e | _ => true end.

  Lemma magic_rules_shape n outs P g c rs c' : magic_rules al cv inputs n outs P g c = Ok (rs, c') ->
    exists ord, magic_shape (fst (gen_functor "$magic" g)) outs P rs ord (exob n) /\ fst (gen_functor "$magic" g) ∉ syms P.
  Proof.
    unfold magic_rules. intros H.
    destruct (de_adds al cv n ([], c) (coarse_terms inputs P)) as [nodes| |]; [|done..]. cbn [bind] in H.
    destruct (find_roots al n nodes inputs) as [ir| |]; [|done..]. cbn [bind] in H.
    destruct (sources al n nodes P) as [src| |]; [|done..]. cbn [bind] in H. destruct nodes as [xs c0].
    unfold prog_gen_functor in H. destruct (gen_functor "$magic" g) as [fn g'] eqn:Eg. cbn [fst].
    destruct (decide (fn ∈ syms P)) as [|Hfn]; [done|]. cbn [bind] in H.
    destruct (mapSM (magic_out al inputs fn n xs src) outs c0) as [[os c1]| |] eqn:Eo; [|done..]. cbn [bind] in H.
    destruct (mapSM (magic_rule al inputs fn n xs src) P c1) as [[ss c2]| |] eqn:Es; [|done..]. cbn [bind] in H. injection H as <- <-.
    apply mapSM_in in Eo, Es.
    assert (Ho : Forall2 (fun o s => exists l, Permutation (rbody o) l /\ s = Rule (magic fn (rhead o)) l) outs os).
    { eapply Forall2_impl; [exact Eo|]. intros o s (s1 & s2 & E). unfold magic_out in E.
      destruct (reorder al inputs _ n xs src (rbody o) ∅ s1) as [[l c3]| |] eqn:Er; [|done..]. cbn [bind] in E. injection E as <- <-.
      exists l. split; [|done]. by eapply reorder_perm. }
    assert (Hs : Forall2 (fun r s => exists l ds, Permutation (rbody r) l /\ demands inputs fn n (magic fn (rhead r)) [] l = Ok ds /\
        s = Rule (rhead r) (magic fn (rhead r) :: l) :: ds) P ss).
    { eapply Forall2_impl; [exact Es|]. intros r s (s1 & s2 & E). unfold magic_rule in E.
      destruct (reorder al inputs _ n xs src (rbody r) _ s1) as [[l c3]| |] eqn:Er; [|done..]. cbn [bind] in E.
      destruct (demands inputs fn n _ [] l) as [ds| |] eqn:Ed; [|done..]. cbn [bind] in E. injection E as <- <-.
      exists l, ds. split; [by eapply reorder_perm|]. done. }
    clear Eo Es.
    set (ord := fun i => match nth_error ss i with Some (Rule _ (_ :: l) :: _) => l | _ => [] end).
    assert (Hord : forall i r, nth_error P i = Some r -> exists ds, nth_error ss i = Some (Rule (rhead r) (magic fn (rhead r) :: ord i) :: ds) /\
       Permutation (rbody r) (ord i) /\ demands inputs fn n (magic fn (rhead r)) [] (ord i) = Ok ds).
    { unfold ord. clear ord Hfn. induction Hs as [|r0 s0 P0 ss0 (l & ds & H1 & H2 & ->) _ IH]; intros [|i] r Hr; cbn in Hr; try done.
      - injection Hr as <-. cbn. by exists ds.
      - cbn [nth_error]. by apply IH. }
    assert (Hss : forall s, In s (concat ss) -> exists i r ds, nth_error P i = Some r /\ nth_error ss i = Some ds /\ In s ds).
    { intros s Hin. apply in_concat in Hin as (ds & Hd & Hin). apply In_nth_error in Hd as [i Hi].
      destruct (nth_error P i) as [r|] eqn:Er; [by exists i, r, ds|]. exfalso. apply nth_error_None in Er.
      apply Forall2_length in Hs. assert (nth_error ss i <> None) by congruence. apply nth_error_Some in H. lia. }
    exists ord. split; [|done]. split.
    - intros i r Hr. by destruct (Hord i r Hr) as (ds & _ & ? & _).
    - intros o Hin. clear - Ho Hin. induction Ho as [|o0 s0 outs0 os0 (l & H1 & ->) _ IH]; [done|]. destruct Hin as [<-|Hin].
      + exists l. split; [done|]. by left.
      + destruct (IH Hin) as (l' & ? & ?). exists l'. split; [done|]. by right.
    - intros i r Hr. destruct (Hord i r Hr) as (ds & E & _). apply in_or_app. right. apply in_concat. eexists. split; [eapply nth_error_In; exact E|]. by left.
    - intros i r pre f post Hr Hl Hex. destruct (Hord i r Hr) as (ds & E & _ & Ed). apply demands_in in Ed as [Ed _].
      destruct (Ed pre f post Hl) as (e & He & Hin). apply in_or_app. right. apply in_concat. eexists. split; [eapply nth_error_In; exact E|]. right.
      cbn in Hin. apply Hin. unfold exob in Hex. by rewrite He in Hex.
    - intros i r f Hr Hf Hex. destruct (Hord i r Hr) as (ds & _ & _ & Ed). apply demands_in in Ed as [Ed _]. apply in_split in Hf as (pre & post & Hf).
      destruct (Ed pre f post Hf) as (e & He & _). unfold exob in Hex. rewrite He in Hex. by eapply is_exogenous_ok.
    - intros s [Hin|Hin]%in_app_or.
      + left. clear - Ho Hin. induction Ho as [|o0 s0 outs0 os0 (l & H1 & ->) _ IH]; [done|]. destruct Hin as [<-|Hin].
        * exists o0, l. split; [by left|]. done.
        * destruct (IH Hin) as (o & l' & ? & ?). exists o, l'. split; [by right|]. done.
      + right. destruct (Hss s Hin) as (i & r & ds & Hr & E & Hsin). exists i, r. split; [done|].
        destruct (Hord i r Hr) as (ds' & E' & _ & Ed). rewrite E in E'. injection E' as ->. destruct Hsin as [<-|Hsin]; [by left|]. right.
        apply demands_in in Ed as [_ Ed]. destruct (Ed s Hsin) as (pre & f & post & H1 & H2 & ->). exists pre, f, post. split; [done|].
        split; [|done]. unfold exob. by rewrite H2.
  Qed.

  (** * Meaning *)
  Section meaning.
    Context (fn : String.string) (outs P rs : list rule) (ord : nat -> list term) (ex : term -> bool) (base : term -> Prop).
    Context (Hshape : magic_shape fn outs P rs ord ex) (Hfn : fn ∉ syms P) (Hsig : (fn, 1) ∉ builtin_sigs).
    Context (Hwf : wf_program P) (Hout : wf_outputs outs).
    Context (Hex' : forall f, ex f = false -> exo f = false).

    Lemma head_fn r : In r P -> exists c l, rhead r = Fn (Cst c :: l) /\ c <> CStr fn.
    Proof using Hwf Hfn.
      intros Hr. destruct (Hwf r Hr) as (He & Hp & _). destruct (proper_fn _ He Hp) as (c & l & E). exists c, l. split; [done|]. intros ->.
      apply Hfn. apply elem_of_list_In. unfold syms. apply in_flat_map. exists r. split; [done|]. rewrite E. cbn. by left.
    Qed.
    Lemma body_fn r b σ y : In r P -> In b (rbody r) -> (forall v, b <> Var v) -> sub σ b <> magic fn y.
    Proof using Hwf Hfn.
      intros Hr Hb Hv E. destruct (Hwf r Hr) as (_ & _ & Hp). specialize (Hp b Hb). destruct b as [v|c|xs]; [by destruct (Hv v)|done|].
      destruct (proper_Fn xs Hp) as (c & l & -> & _). cbn in E. injection E as Ec _. apply Hfn. apply elem_of_list_In. unfold syms. apply in_flat_map.
      exists r. split; [done|]. apply in_or_app. right. apply in_flat_map. exists (Fn (Cst c :: l)). split; [done|]. rewrite Ec. by left.
    Qed.
    Lemma exo_head b h σ τ : exo b = true -> sub σ b = sub τ h -> exo h = false -> proper h -> exists v, b = Var v.
    Proof using Type.
      intros Hb E Hh Hp. destruct (proper_fn _ Hh Hp) as (c & l & ->). destruct b as [v|k|xs]; [by exists v|done|]. exfalso.
      destruct xs as [|a xs]; [done|]. cbn in E. injection E as Ea El. destruct a as [v|k|?]; [done| |done]. cbn in Ea. injection Ea as ->.
      unfold exo in Hb, Hh. cbn in Hb, Hh. destruct c; [done|]. assert (length xs = length l) as Hlen by (rewrite <- (map_length (sub σ) xs), El, map_length; done).
      rewrite Hlen in Hb. congruence.
    Qed.
    Lemma magic_exo h : exo (magic fn h) = false.
    Proof using Hsig. unfold exo, magic. cbn. by apply bool_decide_eq_false. Qed.
    Lemma magic_proper h : proper h -> proper (magic fn h).
    Proof using Type. intros Hp. done. Qed.
    Lemma ord_in i r b : nth_error P i = Some r -> In b (ord i) <-> In b (rbody r).
    Proof using Hshape. intros Hr. pose proof (ms_ord _ _ _ _ _ _ Hshape i r Hr) as Hp. split; apply Permutation_in; [by symmetry|done]. Qed.

    (** ** Nothing new is derived *)
    Lemma perm_trees {A} (bs : list A) bs' (ts : list deriv) (Q : A -> deriv -> Prop) : Permutation bs bs' -> Forall2 Q bs ts ->
      exists ts', Permutation ts ts' /\ Forall2 Q bs' ts'.
    Proof using Type.
      intros Hp. revert ts. induction Hp as [|b bs bs' Hp IH|b1 b2 bs|bs bs' bs'' _ IH1 _ IH2]; intros ts H.
      - exists ts. done.
      - inversion H as [|? t ? ts0 H1 H2]; subst. destruct (IH ts0 H2) as (ts' & ? & ?). exists (t :: ts'). split; [by constructor|by constructor].
      - inversion H as [|? t1 ? ts0 H1 H2]; subst. inversion H2 as [|? t2 ? ts1 H3 H4]; subst. exists (t2 :: t1 :: ts1). split; [constructor|by repeat constructor].
      - destruct (IH1 ts H) as (ts1 & ? & ?). destruct (IH2 ts1) as (ts2 & ? & ?); [done|]. exists ts2. split; [by etrans|done].
    Qed.
    Definition same_root (t t0 : deriv) : Prop :=
      derives P base t0 /\ values_only P t0 /\ root t0 = root t /\ forall y, t = Leaf y -> t0 = Leaf y.
    Definition fits (σ : nat -> term) (b : term) (t : deriv) : Prop := sub σ b = root t /\ ((exists v, b = Var v) -> exists y, t = Leaf y).

    Lemma fits_of σ bs ts : map (sub σ) bs = map root ts -> Forall2 (fun b t => (exists v, b = Var v) -> exists y, t = Leaf y) bs ts -> Forall2 (fits σ) bs ts.
    Proof using Type. intros E H. induction H as [|b t bs ts Hb H IH]; constructor; injection E as E1 E2; [by split|by apply IH]. Qed.
    Lemma fits_to σ bs ts : Forall2 (fits σ) bs ts -> map (sub σ) bs = map root ts /\ Forall2 (fun b t => (exists v, b = Var v) -> exists y, t = Leaf y) bs ts.
    Proof using Type. induction 1 as [|b t bs ts [H1 H2] _ [IH1 IH2]]; [by split; [|constructor]|]. cbn. split; [by f_equal|by constructor]. Qed.

    Lemma magic_sound t : derives rs base t -> values_only rs t -> (forall y, root t <> magic fn y) -> exists t0, same_root t t0.
    Proof using Hshape Hwf Hfn.
      induction t as [x|i x ts IH] using deriv_ind'; intros Hd Hv Hm.
      { exists (Leaf x). split; [apply derives_leaf_inv in Hd; by constructor|]. split; [constructor|]. by split. }
      apply derives_node_inv in Hd as (s & Hs & (σ & Hσ & Hh & Hb) & Hts). inversion Hv as [|? s' ? ? Hs' Hvb Hvt]; subst.
      rewrite Hs in Hs'. injection Hs' as <-. pose proof (fits_of _ _ _ Hb Hvb) as Hf. clear Hb Hvb.
      destruct (ms_inv _ _ _ _ _ _ Hshape s (nth_error_In _ _ Hs)) as [(o & l & _ & _ & ->)|(j & r & Hr & [->|(pre & f & post & _ & _ & ->)])].
      - exfalso. by apply (Hm (sub σ (rhead o))).
      - pose proof (nth_error_In _ _ Hr) as HrP. cbn [rhead rbody] in *. inversion Hf as [|? m ? ts1 _ Hf1]; subst.
        apply Forall_cons in IH as [_ IH]. apply Forall_cons in Hts as [_ Hts]. apply Forall_cons in Hvt as [_ Hvt].
        assert (Hin : forall b, In b (ord j) -> In b (rbody r)) by (intros b; by apply (ord_in j r b)).
        assert (Hg : exists ts0, Forall2 (fun b t0 => derives P base t0 /\ values_only P t0 /\ fits σ b t0) (ord j) ts0).
        { clear Hm Hs Hv Hf. revert Hin. induction Hf1 as [|b t bs ts2 [Hbt Hbv] Hf1 IHf]; intros Hin; [exists []; constructor|].
          apply Forall_cons in IH as [IH1 IH]. apply Forall_cons in Hts as [Ht Hts]. apply Forall_cons in Hvt as [Hvt1 Hvt].
          destruct (IHf IH Hvt Hts) as [ts0 Hts0]; [by intros b' ?; apply Hin; right|].
          assert (exists t0, same_root t t0) as (t0 & H1 & H2 & H3 & H4).
          { assert ((exists v, b = Var v) \/ forall v, b <> Var v) as [Hvar|Hvar] by (destruct b; [left; by eexists|by right..]).
            { destruct (Hbv Hvar) as [y ->]. exists (Leaf y). split; [by apply derives_leaf_inv in Ht; constructor|]. split; [constructor|]. by split. }
            apply IH1; [done..|]. intros y. rewrite <- Hbt. apply (body_fn r b); [done|apply Hin; by left|done]. }
          exists (t0 :: ts0). constructor; [|done]. split; [done|]. split; [done|]. split; [by rewrite H3|].
          intros Hvar. destruct (Hbv Hvar) as [y ->]. exists y. by apply H4. }
        destruct Hg as [ts0 Hts0]. destruct (perm_trees (ord j) (rbody r) ts0 _ ltac:(symmetry; by apply (ms_ord _ _ _ _ _ _ Hshape)) Hts0) as (ts' & _ & Hts').
        assert (Hf' : Forall2 (fits σ) (rbody r) ts') by (eapply Forall2_impl; [exact Hts'|]; by intros ? ? (_ & _ & ?)).
        apply fits_to in Hf' as [Hroots Hvars].
        exists (Node j (sub σ (rhead r)) ts'). split; [|split; [|by split]].
        + eapply D_node; [exact Hr|exists σ; by split_and!|]. eapply Forall2_r; [exact Hts'|]. by intros ? ? (? & _).
        + eapply VO_node; [exact Hr|done|]. eapply Forall2_r; [exact Hts'|]. by intros ? ? (_ & ? & _).
      - exfalso. by apply (Hm (sub σ f)).
    Qed.

    (** ** Everything a derivation needs is derived *)
    Context (Hapart : inputs_apart inputs P).
    Definition covered (t t' : deriv) : Prop := forall s, part_of s t -> exists s', part_of s' t' /\ root s' = root s.
    Definition made (t t' : deriv) : Prop := derives rs base t' /\ values_only rs t' /\ root t' = root t /\ covered t t'.
    Definition wanted (t : deriv) : Prop := exists m, derives rs base m /\ values_only rs m /\ root m = magic fn (root t).

    Lemma part_leaf s y : part_of s (Leaf y) -> s = Leaf y.
    Proof using Type. by inversion 1. Qed.
    Lemma part_node s i x ts : part_of s (Node i x ts) -> s = Node i x ts \/ exists t, In t ts /\ part_of s t.
    Proof using Type. inversion 1; subst; [by left|]. right. by exists t. Qed.

    Lemma magic_complete t : derives P base t -> values_only P t -> (forall i x ts, t = Node i x ts -> wanted t) -> exists t', made t t' /\ forall y, t = Leaf y -> t' = Leaf y.
    Proof using Hshape Hwf Hapart Hex'.
      induction t as [x|i x ts IH] using deriv_ind'; intros Hd Hv Hw.
      { exists (Leaf x). split; [|done]. split; [apply derives_leaf_inv in Hd; by constructor|]. split; [constructor|]. split; [done|].
        intros s ->%part_leaf. exists (Leaf x). split; [constructor|done]. }
      destruct (Hw i x ts eq_refl) as (m & Hm & Hmv & Hmr). clear Hw. cbn [root] in Hmr.
      apply derives_node_inv in Hd as (r & Hr & (σ & Hσ & Hh & Hb) & Hts). inversion Hv as [|? r' ? ? Hr' Hvb Hvt]; subst.
      rewrite Hr in Hr'. injection Hr' as <-. pose proof (fits_of _ _ _ Hb Hvb) as Hf. clear Hb Hvb Hv.
      pose proof (nth_error_In _ _ Hr) as HrP.
      set (Q := fun b t => fits σ b t /\ derives P base t /\ values_only P t /\ ((forall i x ts, t = Node i x ts -> wanted t) -> exists t', made t t' /\ forall y, t = Leaf y -> t' = Leaf y)).
      assert (HQ : Forall2 Q (rbody r) ts).
      { clear Hmr Hr HrP. induction Hf as [|b t bs ts Hbt _ IHf]; constructor; apply Forall_cons in IH as [IH1 IH]; apply Forall_cons in Hts as [Ht Hts]; apply Forall_cons in Hvt as [Hvt1 Hvt].
        - split; [done|]. split; [done|]. split; [done|]. by apply IH1.
        - by apply IHf. }
      clear IH Hts Hvt Hf.
      destruct (perm_trees (rbody r) (ord i) ts Q (ms_ord _ _ _ _ _ _ Hshape i r Hr) HQ) as (ts1 & Hperm & HQ1).
      assert (Hgo : forall post pre ds tsr, ord i = pre ++ post -> Forall2 (fits σ) pre ds -> Forall (derives rs base) ds -> Forall (values_only rs) ds -> Forall2 Q post tsr ->
        exists ds', Forall2 (fits σ) post ds' /\ Forall (derives rs base) ds' /\ Forall (values_only rs) ds' /\ Forall2 covered tsr ds').
      { induction post as [|b post IHp]; intros pre ds tsr Ho Hds Hd1 Hd2 Hpost.
        { inversion Hpost; subst. exists []. repeat split; constructor. }
        inversion Hpost as [|? t ? tsr' (Hbt & Hdt & Hvt & Hit) Hpost']; subst.
        assert (exists t', made t t' /\ forall y, t = Leaf y -> t' = Leaf y) as (t' & (H1 & H2 & H3 & H4) & H5).
        { apply Hit. intros k y us ->. destruct Hbt as [Hbt Hbv].
          apply derives_node_inv in Hdt as (s & Hs & (τ & Hτ & Hsh & _) & _). pose proof (nth_error_In _ _ Hs) as HsP.
          destruct (Hwf s HsP) as (Hse & Hsp & _). cbn [root] in Hbt. rewrite <- Hsh in Hbt.
          assert (Hbin : In b (rbody r)). { apply (ord_in i r b Hr). rewrite Ho. apply in_or_app. right. by left. }
          assert (Hexb : ex b = false).
          { destruct (ex b) eqn:Eb; [|done]. exfalso. destruct (ms_ex _ _ _ _ _ _ Hshape i r b Hr ltac:(rewrite Ho; apply in_or_app; right; by left) Eb) as [He|(q & Hq & Hov)].
            - destruct (exo_head b (rhead s) σ τ He Hbt Hse Hsp) as [v ->]. destruct Hbv as [y' Hy']; [by exists v|]. done.
            - apply (Hapart r b q s HrP Hbin Hq Hov HsP). by exists σ, τ. }
          pose proof (ms_dem _ _ _ _ _ _ Hshape i r pre b post Hr Ho Hexb) as Hin. apply In_nth_error in Hin as [k' Hk'].
          exists (Node k' (magic fn (sub σ b)) (m :: ds)). apply fits_to in Hds as [Hds1 Hds2]. split; [|split].
          - eapply D_node; [exact Hk'| |by constructor]. exists σ. split; [done|]. split; [done|]. cbn. rewrite Hds1, Hmr. done.
          - eapply VO_node; [exact Hk'| |by constructor]. constructor; [|done]. by intros [v ?].
          - cbn. by rewrite Hbt, Hsh. }
        assert (Hfit : fits σ b t'). { destruct Hbt as [Hb1 Hb2]. split; [by rewrite H3|]. intros Hvar. destruct (Hb2 Hvar) as [y ->]. exists y. by apply H5. }
        destruct (IHp (pre ++ [b]) (ds ++ [t']) tsr') as (ds' & G1 & G2 & G3 & G4).
        - rewrite <- app_assoc. done.
        - apply Forall2_app; [done|]. by constructor.
        - apply Forall_app. split; [done|by constructor].
        - apply Forall_app. split; [done|by constructor].
        - done.
        - exists (t' :: ds'). split; [by constructor|]. split; [by constructor|]. split; by constructor. }
      destruct (Hgo (ord i) [] [] ts1) as (ds & G1 & G2 & G3 & G4); [done|constructor|constructor|constructor|done|].
      apply fits_to in G1 as [G1 G1'].
      destruct (In_nth_error _ _ (ms_rule _ _ _ _ _ _ Hshape i r Hr)) as [k Hk].
      exists (Node k (sub σ (rhead r)) (m :: ds)). split; [|done]. split; [|split; [|split]].
      - eapply D_node; [exact Hk| |by constructor]. exists σ. split; [done|]. split; [done|]. cbn. rewrite G1, Hmr. done.
      - eapply VO_node; [exact Hk| |by constructor]. constructor; [|done]. by intros [v ?].
      - done.
      - intros s [->|(t & Hin & Hs)]%part_node.
        + eexists. split; [constructor|done].
        + apply (Permutation_in _ Hperm) in Hin. assert (exists d s', In d ds /\ part_of s' d /\ root s' = root s) as (d & s' & Hd & Hs' & E).
          { clear - G4 Hin Hs. induction G4 as [|t1 d ts1 ds Hc _ IH]; [done|]. destruct Hin as [->|Hin].
            - destruct (Hc s Hs) as (s' & Hs' & E). exists d, s'. split; [by left|done].
            - destruct (IH Hin) as (d' & s' & ? & ?). exists d', s'. split; [by right|done]. }
          exists s'. split; [|done]. eapply PO_below; [|exact Hs']. by right.
    Qed.

    (** ** Only what can be asked for is demanded *)
    Context (Hnb : forall y, ~ base (magic fn y)).
    Lemma heads_ok s : In s rs -> exo (rhead s) = false /\ proper (rhead s).
    Proof using Hshape Hsig Hwf Hout Hex'.
      intros Hs. destruct (ms_inv _ _ _ _ _ _ Hshape s Hs) as [(o & l & Ho & _ & ->)|(j & r & Hr & [->|(pre & f & post & Hl & Hf & ->)])].
      - split; [apply magic_exo|]. cbn. split; [|done]. by apply Hout.
      - apply nth_error_In in Hr. destruct (Hwf r Hr) as (? & ? & _). done.
      - split; [apply magic_exo|]. cbn. split; [|done]. destruct (Hwf r (nth_error_In _ _ Hr)) as (_ & _ & Hp). apply Hp.
        apply (ord_in j r f Hr). rewrite Hl. apply in_or_app. right. by left.
    Qed.
    Lemma fits_derivable r σ bs ts : In r P -> (forall b, In b bs -> In b (rbody r)) -> Forall2 (fits σ) bs ts -> Forall (derives rs base) ts -> Forall (values_only rs) ts ->
      Forall (derivable P base) (map (sub σ) bs).
    Proof using Hshape Hwf Hfn.
      intros Hr Hin Hf. induction Hf as [|b t bs ts [Hbt Hbv] Hf IHf]; intros Hts Hvt; [constructor|]. apply Forall_cons in Hts as [Ht Hts]. apply Forall_cons in Hvt as [Hvt1 Hvt].
      cbn [map]. constructor; [|apply IHf; [by intros b' ?; apply Hin; right|done..]].
      assert (exists t0, same_root t t0) as (t0 & H1 & H2 & H3 & H4).
      { assert ((exists v, b = Var v) \/ forall v, b <> Var v) as [Hvar|Hvar] by (destruct b; [left; by eexists|by right..]).
        - destruct (Hbv Hvar) as [y ->]. exists (Leaf y). split; [by apply derives_leaf_inv in Ht; constructor|]. split; [constructor|]. by split.
        - apply magic_sound; [done..|]. intros y. rewrite <- Hbt. apply (body_fn r b); [done|apply Hin; by left|done]. }
      exists t0. split; [done|]. split; [done|]. by rewrite H3, Hbt.
    Qed.
    Lemma magic_demand t : derives rs base t -> values_only rs t -> forall x, root t = magic fn x -> demanded outs P base ord x.
    Proof using Hshape Hsig Hwf Hfn Hout Hex' Hnb.
      induction t as [x|i x ts IH] using deriv_ind'; intros Hd Hv y Hy.
      { apply derives_leaf_inv in Hd. cbn in Hy. subst. by destruct (Hnb y). }
      apply derives_node_inv in Hd as (s & Hs & (σ & Hσ & Hh & Hb) & Hts). inversion Hv as [|? s' ? ? Hs' Hvb Hvt]; subst.
      rewrite Hs in Hs'. injection Hs' as <-. pose proof (fits_of _ _ _ Hb Hvb) as Hf. clear Hb Hvb. cbn [root] in Hy.
      destruct (ms_inv _ _ _ _ _ _ Hshape s (nth_error_In _ _ Hs)) as [(o & l & Ho & Hl & ->)|(j & r & Hr & [->|(pre & f & post & Hl & Hff & ->)])]; cbn [rhead rbody] in *.
      - cbn in Hy. injection Hy as <-. apply DM_asked. exists o, (map (sub σ) (rbody o)). split; [done|]. split; [by exists σ|].
        assert (Hbase : Forall base (map (sub σ) l)).
        { assert (Hin : forall b, In b l -> exo b = true). { intros b Hb. apply (Permutation_in _ (Permutation_sym Hl)) in Hb. destruct (Hout o Ho) as (_ & _ & H). by apply H. }
          clear - Hf Hts Hin Hshape Hsig Hwf Hout Hex'. induction Hf as [|b t bs ts [Hbt Hbv] Hf IHf]; [constructor|]. apply Forall_cons in Hts as [Ht Hts]. cbn [map]. constructor.
          - rewrite Hbt. destruct t as [z|k z us]; [by apply derives_leaf_inv in Ht|]. exfalso. apply derives_node_inv in Ht as (s & Hs & (τ & _ & Hsh & _) & _).
            destruct (heads_ok s (nth_error_In _ _ Hs)) as [Hse Hsp]. cbn [root] in Hbt. rewrite <- Hsh in Hbt.
            destruct (exo_head b (rhead s) σ τ (Hin b ltac:(by left)) Hbt Hse Hsp) as [v ->]. by destruct Hbv as [? ?]; [by exists v|].
          - apply IHf; [done|]. intros b' ?. apply Hin. by right. }
        apply (Permutation_map (sub σ)) in Hl. symmetry in Hl. by rewrite Hl in Hbase.
      - exfalso. destruct (head_fn r (nth_error_In _ _ Hr)) as (c & l & E & Hc). rewrite E in Hy. cbn in Hy. injection Hy as Hy _. done.
      - cbn in Hy. injection Hy as <-. inversion Hf as [|? m ? ds [Hmr _] Hf1]; subst.
        apply Forall_cons in IH as [IHm _]. apply Forall_cons in Hts as [Hm Hts]. apply Forall_cons in Hvt as [Hmv Hvt].
        eapply DM_subgoal; [exact Hr|exact Hσ|exact Hl|by apply Hex'|by apply IHm|].
        eapply fits_derivable; [eapply nth_error_In; exact Hr| |exact Hf1|done|done].
        intros b Hb. apply (ord_in j r b Hr). rewrite Hl. apply in_or_app. by left.
    Qed.
    Lemma asked_wanted x : asked outs base x -> exists m, derives rs base m /\ values_only rs m /\ root m = magic fn x.
    Proof using Hshape.
      intros (o & ys & Ho & (σ & Hσ & Hh & Hb) & Hys). destruct (ms_out _ _ _ _ _ _ Hshape o Ho) as (l & Hl & Hin). apply In_nth_error in Hin as [k Hk].
      assert (Hbase : Forall base (map (sub σ) l)). { apply (Permutation_map (sub σ)) in Hl. rewrite Hb in Hl. by rewrite Hl in Hys. }
      exists (Node k (magic fn x) (map (fun b => Leaf (sub σ b)) l)). split; [|split; [|done]].
      - eapply D_node; [exact Hk| |].
        + exists σ. split; [done|]. split; [cbn; by rewrite Hh|]. cbn. rewrite map_map. done.
        + clear - Hbase. induction l as [|b l IH]; [constructor|]. apply Forall_cons in Hbase as [? ?]. constructor; [by constructor|by apply IH].
      - eapply VO_node; [exact Hk| |]; cbn.
        + clear. induction l as [|b l IH]; constructor; [|done]. intros _. by eexists.
        + clear. induction l as [|b l IH]; constructor; [constructor|done].
    Qed.
  End meaning.
End magic.
