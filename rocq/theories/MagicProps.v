(** C45: magic templates keep what the outputs need and add nothing. *)
From Coq Require Import List Permutation.
From stdpp Require Import gmap.
From Coq Require Import Lia ZArith.
From Coq Require String Ascii.
From Verif Require Import PyBase Semiring TermModel TermSpec TermProofs TermProps SetsModel SetsSpec SetsProofs SetsProps UnifyProofs PruneModel ProgSpec PruneSpec ProgProofs PruneProofs
  NamesModel LinearProofs SlashModel SlashHalts MagicModel MagicSpec MagicProofs.
Import String.StringSyntax Ascii.AsciiSyntax.
Import ListNotations.
Local Open Scope string_scope.
Local Open Scope list_scope.

(** * The transformation ends *)
Section halts.
  Context (al cv : nat -> nat) (Hal : forall i j, al i = al j -> i = j) (Hcv : forall i j, cv i = cv j -> i = j) (Halcv : forall i j, al i <> cv j).
  Context (inputs : list term) (E : exn -> Prop) (HK : E KeyError).
  Notation ends m := (ends m (fun _ => True) E).

  Lemma mapSM_ends {A B S} (f : nat -> A -> S -> res (B * S)) l s : (forall a s, In a l -> ends (fun n => f n a s)) -> ends (fun n => mapSM (f n) l s).
  Proof using Type.
    revert s. induction l as [|a l IH]; intros s H; cbn [mapSM]; [by apply ends_ok|].
    eapply ends_bind2; [by apply H; left|]. intros b s1 _. eapply ends_bind2; [apply IH; intros; by apply H; right|]. intros bs s2 _. by apply ends_ok.
  Qed.
  Lemma exo_ends x : ends (fun n => is_exogenous inputs n ∅ x).
  Proof using Type. apply is_exogenous_ends. apply acyclic_empty. Qed.
  Lemma find_all_ends xs x c : ends (fun n => find_all al n xs x c).
  Proof using Hal.
    unfold find_all. destruct (fresh_settles al Hal c x) as (y & c' & H & _). eapply (ends_bind2 _ _ (fun _ => True)); [by eapply ends_settles|]. intros z c2 _.
    destruct (de_find_all_spec z 0 xs) as (is & Hs & _). eapply (ends_bind _ _ (fun _ => True)); [by eapply ends_settles|]. intros js _. by apply ends_ok.
  Qed.
  Lemma de_find_ends nodes t : ends (fun n => de_find al n nodes t).
  Proof using Hal HK.
    destruct nodes as [xs c]. unfold de_find. destruct (fresh_settles al Hal c t) as (y & c' & H & _). eapply (ends_bind2 _ _ (fun _ => True)); [by eapply ends_settles|]. intros z c2 _.
    destruct (de_find_all_spec z 0 xs) as (is & Hs & _). eapply (ends_bind _ _ (fun _ => True)); [by eapply ends_settles|].
    intros js _. destruct js as [|k [|? ?]]; [by apply ends_raise|by apply ends_ok|by apply ends_raise].
  Qed.
  Lemma find_roots_ends nodes ts : ends (fun n => find_roots al n nodes ts).
  Proof using Hal HK.
    induction ts as [|t ts IH]; cbn [find_roots]; [by apply ends_ok|]. eapply ends_bind; [apply de_find_ends|]. intros i _.
    eapply ends_bind; [apply IH|]. intros is _. by apply ends_ok.
  Qed.
  Lemma sources_ends nodes P : ends (fun n => sources al n nodes P).
  Proof using Hal HK.
    induction P as [|r P IH]; cbn [sources]; [by apply ends_ok|]. eapply ends_bind; [apply de_find_ends|]. intros i _.
    eapply ends_bind; [apply find_roots_ends|]. intros js _. eapply ends_bind; [apply IH|]. intros rest _. by apply ends_ok.
  Qed.
  Lemma key_ends nodes src bound a c : ends (fun n => key al inputs n nodes src bound a c).
  Proof using Hal.
    unfold key. eapply (ends_bind2 _ _ (fun _ => True)).
    - unfold stage. destruct (is_builtin a); [by apply ends_ok|]. eapply ends_bind; [apply exo_ends|]. intros [|] _; [by apply ends_ok|].
      eapply (ends_bind2 _ _ (fun _ => True)); [|intros l c' _; by apply ends_ok]. unfold is_leaf. destruct a; [by apply ends_ok..|].
      eapply ends_bind2; [apply find_all_ends|]. intros is c' _. by apply ends_ok.
    - intros s c' _. by apply ends_ok.
  Qed.
  Lemma reorder_ends k nodes src ys bound c : length ys <= k -> ends (fun n => reorder al inputs k n nodes src ys bound c).
  Proof using Hal.
    revert ys bound c. induction k as [|k IH]; intros [|y ys] bound c Hk; cbn [reorder]; cbn in Hk; try lia; [by apply ends_ok..|].
    assert (Hm : SlashHalts.ends (fun n => mapSM (key al inputs n nodes src bound) (y :: ys) c) (fun p => length (fst p) = length (y :: ys)) E).
    { destruct (mapSM_ends (fun n => key al inputs n nodes src bound) (y :: ys) c) as (n0 & o & Ho & Hok); [intros; apply key_ends|].
      exists n0, o. split; [done|]. destruct o as [[bs s]|e|]; [|done..]. specialize (Ho n0 ltac:(lia)). by apply mapSM_length in Ho. }
    eapply ends_bind2; [exact Hm|]. intros ks c1 Hks. cbn [fst] in Hks. destruct ks as [|k0 kr]; [done|].
    cbn [length] in Hks. set (i := argmin kr 1 (0, k0)).
    assert (Hi : i < length (y :: ys)). { apply argmin_lt; cbn; lia. }
    eapply ends_bind2; [|intros rest c2 _; by apply ends_ok]. apply IH. rewrite app_length, take_length, drop_length. cbn [length] in *. lia.
  Qed.
  Lemma demands_ends fn gH pre fs : ends (fun n => demands inputs fn n gH pre fs).
  Proof using Type.
    revert pre. induction fs as [|f fs IH]; intros pre; cbn [demands]; [by apply ends_ok|]. eapply ends_bind; [apply exo_ends|]. intros e _.
    eapply ends_bind; [apply IH|]. intros rest _. by apply ends_ok.
  Qed.
  Lemma magic_rules_ends outs P g c : Forall proper (coarse_terms inputs P) -> (fst (gen_functor "$magic" g) ∈ syms P -> E AssertionError) ->
    ends (fun n => magic_rules al cv inputs n outs P g c).
  Proof using Hal Hcv Halcv HK.
    intros Hp HA. unfold magic_rules. destruct (de_adds_spec al cv Hal Hcv Halcv ([], c) (coarse_terms inputs P) [] Hp) as (nodes & Hs & _).
    { split; [constructor|]. split; [constructor|]. by intros a []. }
    eapply (ends_bind _ _ (fun _ => True)); [by eapply ends_settles|]. intros [xs c0] _.
    eapply ends_bind; [apply find_roots_ends|]. intros _ _. eapply ends_bind; [apply sources_ends|]. intros src _.
    eapply (ends_bind2 _ _ (fun _ => True)).
    { unfold prog_gen_functor. destruct (gen_functor "$magic" g) as [fn g'] eqn:Eg. destruct (decide (fn ∈ syms P)) as [Hin|Hn]; [apply ends_raise, HA, Hin|by apply ends_ok]. }
    intros fn _ _. eapply ends_bind2.
    { apply (mapSM_ends (fun n => magic_out al inputs fn n xs src)). intros o s _. unfold magic_out. eapply ends_bind2; [by apply reorder_ends|]. intros l c1 _. by apply ends_ok. }
    intros os c1 _. eapply ends_bind2.
    { apply (mapSM_ends (fun n => magic_rule al inputs fn n xs src)). intros r s _. unfold magic_rule. eapply ends_bind2; [by apply reorder_ends|]. intros l c2 _.
      eapply ends_bind; [apply demands_ends|]. intros ds _. by apply ends_ok. }
    intros rs c2 _. by apply ends_ok.
  Qed.
End halts.

(** * Derivations in a part of a program *)
Lemma part_relabel h t s : part_of s t -> part_of (relabel h s) (relabel h t).
Proof. induction 1 as [|i x ts t Hin _ IH]; [constructor|]. cbn. eapply PO_below; [|exact IH]. by apply in_map. Qed.
Lemma part_derives P base t s : part_of s t -> derives P base t -> derives P base s.
Proof.
  induction 1 as [|i x ts t Hin _ IH]; [done|]. intros (r & _ & _ & Hts)%derives_node_inv. apply IH. rewrite List.Forall_forall in Hts. by apply Hts.
Qed.
Lemma part_values P t s : part_of s t -> values_only P t -> values_only P s.
Proof. induction 1 as [|i x ts t Hin _ IH]; [done|]. inversion 1 as [|? r ? ? _ _ Hts]; subst. apply IH. rewrite List.Forall_forall in Hts. by apply Hts. Qed.

Lemma fn_sig g : (fst (gen_functor "$magic" g), 1) ∉ builtin_sigs.
Proof.
  unfold gen_functor. cbn [fst]. set (s := str_nat (S g)). clearbody s. intros H. unfold builtin_sigs, cmps in H. cbn in H.
  repeat (apply elem_of_cons in H as [H|H]; [discriminate|]). by apply elem_of_nil in H.
Qed.
Lemma coarse_proper inputs P : wf_program P -> wf_decls inputs -> Forall proper (coarse_terms inputs P).
Proof.
  intros Hwf Hi. apply List.Forall_forall. intros x Hx. unfold coarse_terms in Hx.
  apply in_app_or in Hx as [Hx|Hx]; [by apply Hi|]. apply in_flat_map in Hx as (r & Hr & Hx). destruct (Hwf r Hr) as (_ & Hp & Hb).
  destruct Hx as [<-|Hx]; [done|]. apply List.filter_In in Hx as [Hx _]. by apply Hb.
Qed.

(** * C45.  [P'] is the transformed program: (1) every item in a derivation of an
    item that the user asks for has a derivation in [P']; (2) every item of the
    program that has a derivation in [P'] has one in [P]; (3) [P'] demands only
    subgoals of rules for demanded items, with the subgoals before it derivable.
    The only exceptions: two nodes of the dependency graph overlap, or the name is
    taken. *)
Theorem C45_magic_templates :
  forall (al cv : nat -> nat) (pick : nat -> gset nat -> nat) (inputs : list term) (outs P : list rule) (g c : nat) (base : term -> Prop),
    (forall i j, al i = al j -> i = j) -> (forall i j, cv i = cv j -> i = j) -> (forall i j, al i <> cv j) ->
    (forall k A, A <> ∅ -> pick k A ∈ A) ->
    wf_program P -> wf_decls inputs -> wf_outputs outs -> inputs_apart inputs P ->
    (forall x, base x -> exo x = true \/ exists q, In q inputs /\ instance_of q x) ->
    let fn := fst (gen_functor "$magic" g) in
    (forall y, ~ base (magic fn y)) ->
    exists o, eventually (fun n => magic_templates al cv inputs pick n outs P g c = o) /\
      match o with
      | Ok P' =>
          (forall t, derives P base t -> values_only P t -> asked outs base (root t) ->
             forall s, part_of s t -> derivable P' base (root s)) /\
          (forall x, derivable P' base x -> (forall y, x <> magic fn y) -> derivable P base x) /\
          (exists ord, reordering P ord /\ forall x, derivable P' base (magic fn x) -> demanded outs P base ord x)
      | Raise e => e = KeyError \/ e = AssertionError /\ fn ∈ syms P
      | OutOfFuel => False
      end.
Proof.
  intros al cv pick inputs outs P g c base Hal Hcv Halcv Hpick Hwf Hi Ho Hapart Hbase fn Hnb.
  destruct (magic_rules_ends al cv Hal Hcv Halcv inputs (fun e => e = KeyError \/ e = AssertionError /\ fn ∈ syms P) (or_introl eq_refl) outs P g c
    (coarse_proper inputs P Hwf Hi)) as (n0 & o & Hn0 & Ho').
  { intros H. right. done. }
  destruct o as [[rs c']|e|]; [|exists (Raise e)|done].
  2: { split; [|done]. exists n0. intros n Hn. unfold magic_templates. by rewrite Hn0. }
  pose proof (Hn0 n0 ltac:(lia)) as E0. destruct (magic_rules_shape al cv inputs n0 outs P g c rs c' E0) as (ord & Hshape & Hfn). fold fn in Hshape, Hfn.
  assert (Hex' : forall f, exob inputs n0 f = false -> exo f = false).
  { intros f Hf. unfold exob in Hf. destruct (is_exogenous inputs n0 ∅ f) as [e| |] eqn:Ee; [|done..]. by eapply is_exogenous_exo. }
  pose proof (fn_sig g) as Hsig. fold fn in Hsig.
  assert (Hwf' : wf_program rs).
  { intros s Hs. destruct (heads_ok inputs fn outs P rs ord _ Hshape Hsig Hwf Ho Hex' s Hs) as [H1 H2]. split; [done|]. split; [done|].
    assert (Hbody : forall i r b, nth_error P i = Some r -> In b (ord i) -> proper b).
    { intros i r b Hr Hb. apply (ord_in inputs fn outs P rs ord _ Hshape i r b Hr) in Hb. by destruct (Hwf r (nth_error_In _ _ Hr)) as (_ & _ & H); apply H. }
    assert (Hgh : forall i r, nth_error P i = Some r -> proper (magic fn (rhead r))).
    { intros i r Hr. cbn. split; [|done]. by destruct (Hwf r (nth_error_In _ _ Hr)) as (_ & H & _). }
    destruct (ms_inv _ _ _ _ _ _ _ Hshape s Hs) as [(o & l & Hoin & Hl & ->)|(j & r & Hr & [->|(pre & f & post & Hl & Hf & ->)])]; cbn [rbody].
    - intros b Hb. apply (Permutation_in _ (Permutation_sym Hl)) in Hb. destruct (Ho o Hoin) as (_ & _ & H). by apply H.
    - intros b [<-|Hb]; [by eapply Hgh|by eapply Hbody].
    - intros b [<-|Hb]; [by eapply Hgh|]. eapply Hbody; [exact Hr|]. rewrite Hl. apply in_or_app. by left. }
  assert (Hod : wf_decls (map rhead outs)).
  { intros d (o & <- & Hoin)%in_map_iff. destruct (Ho o Hoin) as (? & ? & _). done. }
  destruct (fast_spec al cv pick c' inputs (map rhead outs) rs base Hal Hcv Halcv Hpick Hwf' Hi Hod Hbase) as (bs & Hl & [n1 Hn1] & Hu).
  exists (Ok (sel bs rs)). split.
  { exists (n0 + n1). intros n Hn. unfold magic_templates. rewrite Hn0 by lia. cbn [bind]. apply Hn1. lia. }
  destruct (sel_positions bs rs Hl) as (ks & Hnd & Hs & Hf & Hin).
  assert (Hback : forall x, derivable (sel bs rs) base x -> derivable rs base x).
  { intros x (t & Hd & Hv & Hr). exists (relabel (fun j => nth j ks 0) t).
    assert (Hmap : uses_only (fun j => forall r, nth_error (sel bs rs) j = Some r -> nth_error rs (nth j ks 0) = Some r) t).
    { eapply uses_only_impl; [|by eapply derives_uses]. intros j _ r Hr'. by eapply kept_bwd. }
    split; [by eapply derives_relabel|]. split; [by eapply values_only_relabel|]. by rewrite root_relabel. }
  split; [|split].
  - intros t Ht Hv Hask s Hst.
    destruct (magic_complete inputs fn outs P rs ord _ base Hshape Hwf Hex' Hapart t Ht Hv) as (t' & (H1 & H2 & H3 & H4) & _).
    { intros _ _ _ _. by apply (asked_wanted inputs fn outs P rs ord _ base Hshape). }
    destruct (H4 s Hst) as (s' & Hs' & Hr'). exists (relabel (fun i => pos_of i ks) s').
    assert (Hk : uses_only (fun i => In i ks) t').
    { eapply uses_only_impl; [|apply Hu]. - intros i Hii. by apply Hin. - split; [done|]. split; [done|]. rewrite H3.
      destruct Hask as (o & ys & Hoin & (σ & _ & Hh & _) & _). exists (rhead o). split; [by apply in_map|]. by exists σ. }
    assert (Hmap : uses_only (fun i => forall r, nth_error rs i = Some r -> nth_error (sel bs rs) (pos_of i ks) = Some r) t').
    { eapply uses_only_impl; [|exact Hk]. intros i Hii r Hr. by eapply kept_fwd. }
    assert (Hd' : derives (sel bs rs) base (relabel (fun i => pos_of i ks) t')) by (by eapply derives_relabel).
    assert (Hv' : values_only (sel bs rs) (relabel (fun i => pos_of i ks) t')) by (by eapply values_only_relabel).
    pose proof (part_relabel (fun i => pos_of i ks) t' s' Hs') as Hp.
    split; [by eapply part_derives|]. split; [by eapply part_values|]. by rewrite root_relabel.
  - intros x Hx Hm. destruct (Hback x Hx) as (t & Hd & Hv & <-).
    destruct (magic_sound inputs fn outs P rs ord _ base Hshape Hfn Hwf t Hd Hv Hm) as (t0 & ? & ? & ? & _). by exists t0.
  - exists ord. split; [apply (ms_ord _ _ _ _ _ _ _ Hshape)|]. intros x Hx. destruct (Hback _ Hx) as (t & Hd & Hv & Hr).
    by eapply (magic_demand inputs fn outs P rs ord _ base Hshape Hfn Hsig Hwf Ho Hex' Hnb t).
Qed.

(** * Witness: reachability from node 1 in a graph *)
Definition m_t (f : String.string) (xs : list term) : term := Fn (Cst (CStr f) :: xs).
Definition m_n (z : Z) : term := Cst (CInt z).
Arguments m_t _%string_scope _%list_scope.
Definition m_prog : list rule :=
  [ Rule (m_t "goal" [Var 0]) [m_t "path" [m_n 1; Var 0]; m_t "<" [Var 0; m_n 9]];
    Rule (m_t "path" [Var 1; Var 3]) [m_t "path" [Var 2; Var 3]; m_t "edge" [Var 1; Var 2]];
    Rule (m_t "path" [Var 4; Var 5]) [m_t "edge" [Var 4; Var 5]] ].
Definition m_in : list term := [m_t "edge" [Var 6; Var 7]].
Definition m_out : list rule := [Rule (m_t "goal" [Var 8]) []].
Definition m_base (x : term) : Prop := exo x = true \/ x = m_t "edge" [m_n 1; m_n 2] \/ x = m_t "edge" [m_n 2; m_n 3] \/ x = m_t "edge" [m_n 5; m_n 6].
Definition m_al (i : nat) : nat := 20 + 2 * i.
Definition m_cv (i : nat) : nat := 21 + 2 * i.
Definition m_pick (_ : nat) (X : gset nat) : nat := default 0 (head (elements X)).
Definition m_tree : deriv :=
  Node 0 (m_t "goal" [m_n 3])
    [Node 1 (m_t "path" [m_n 1; m_n 3]) [Node 2 (m_t "path" [m_n 2; m_n 3]) [Leaf (m_t "edge" [m_n 2; m_n 3])]; Leaf (m_t "edge" [m_n 1; m_n 2])];
     Leaf (m_t "<" [m_n 3; m_n 9])].

(** The edges are joined before the recursive call is demanded. *)
Definition m_magic : list rule :=
  [ Rule (m_t "$magic1" [m_t "goal" [Var 8]]) [];
    Rule (m_t "goal" [Var 0]) [m_t "$magic1" [m_t "goal" [Var 0]]; m_t "path" [m_n 1; Var 0]; m_t "<" [Var 0; m_n 9]];
    Rule (m_t "$magic1" [m_t "path" [m_n 1; Var 0]]) [m_t "$magic1" [m_t "goal" [Var 0]]];
    Rule (m_t "path" [Var 1; Var 3]) [m_t "$magic1" [m_t "path" [Var 1; Var 3]]; m_t "edge" [Var 1; Var 2]; m_t "path" [Var 2; Var 3]];
    Rule (m_t "$magic1" [m_t "path" [Var 2; Var 3]]) [m_t "$magic1" [m_t "path" [Var 1; Var 3]]; m_t "edge" [Var 1; Var 2]];
    Rule (m_t "path" [Var 4; Var 5]) [m_t "$magic1" [m_t "path" [Var 4; Var 5]]; m_t "edge" [Var 4; Var 5]] ].

Example m_run : eventually (fun n => magic_templates m_al m_cv m_in m_pick n m_out m_prog 0 0 = Ok m_magic).
Proof. exists 60. intros n Hn. replace n with (60 + (n - 60)) by lia. generalize (n - 60). intros m. vm_compute. reflexivity. Qed.

Lemma m_pick_ok k A : A <> ∅ -> m_pick k A ∈ A.
Proof.
  intros HA. unfold m_pick. destruct (elements A) as [|x l] eqn:E; [exfalso; apply elements_empty_inv in E; apply HA; by apply leibniz_equiv|]. cbn.
  apply elem_of_elements. rewrite E. by left.
Qed.
Ltac m_in := repeat match goal with H : In _ _ |- _ => hnf in H; first [destruct H as [<-|H] | destruct H] end.
Lemma m_wf : wf_program m_prog /\ wf_decls m_in /\ wf_outputs m_out.
Proof.
  split; [|split].
  - intros r Hr. m_in; (split; [reflexivity|split; [cbn; tauto|]]); intros b Hb; m_in; cbn; tauto.
  - intros d Hd. m_in. split; [reflexivity|cbn; tauto].
  - intros d Hd. m_in. split; [reflexivity|split; [cbn; tauto|]]. by intros ? [].
Qed.
Lemma m_apart : inputs_apart m_in m_prog.
Proof.
  intros r b q s Hr Hb Hq (σ & τ & E) Hs (σ' & τ' & E'). m_in; cbn in E, E'; discriminate.
Qed.
Lemma m_base_ok x : m_base x -> exo x = true \/ exists q, In q m_in /\ instance_of q x.
Proof.
  intros [H|H]; [by left|]. right. exists (m_t "edge" [Var 6; Var 7]). split; [by left|].
  destruct H as [->|[->| ->]]; [exists (fun v => if Nat.eqb v 6 then m_n 1 else m_n 2)|exists (fun v => if Nat.eqb v 6 then m_n 2 else m_n 3)|exists (fun v => if Nat.eqb v 6 then m_n 5 else m_n 6)]; done.
Qed.
Lemma m_tree_ok : derives m_prog m_base m_tree /\ values_only m_prog m_tree /\ asked m_out m_base (root m_tree).
Proof.
  assert (He : forall x y, m_base (m_t "edge" [m_n x; m_n y]) -> derives m_prog m_base (Leaf (m_t "edge" [m_n x; m_n y]))) by (intros; by constructor).
  split; [|split].
  - eapply D_node; [reflexivity|exists (fun _ => m_n 3); by split_and!|]. constructor; [|constructor; [constructor; by left|constructor]].
    eapply D_node; [reflexivity|exists (fun v => m_n (Z.of_nat v)); by split_and!|]. constructor; [|constructor; [constructor; unfold m_base; tauto|constructor]].
    eapply D_node; [reflexivity|exists (fun v => if Nat.eqb v 4 then m_n 2 else m_n 3); split_and!; [intros v; by destruct (Nat.eqb v 4)|done|done]|].
    constructor; [constructor; unfold m_base; tauto|constructor].
  - repeat first [eapply VO_node; [reflexivity| |] | constructor | (intros [? ?]; discriminate)].
  - exists (Rule (m_t "goal" [Var 8]) []), []. split; [by left|]. split; [exists (fun _ => m_n 3); by split_and!|constructor].
Qed.

Theorem C45_witness :
  wf_program m_prog /\ wf_decls m_in /\ wf_outputs m_out /\ inputs_apart m_in m_prog /\
  derivable m_magic m_base (m_t "path" [m_n 2; m_n 3]) /\
  derivable m_prog m_base (m_t "path" [m_n 5; m_n 6]) /\
  (exists ord, reordering m_prog ord /\ forall x, derivable m_magic m_base (magic "$magic1" x) -> demanded m_out m_prog m_base ord x).
Proof.
  destruct m_wf as (H1 & H2 & H3). split; [done|]. split; [done|]. split; [done|]. split; [apply m_apart|].
  destruct (C45_magic_templates m_al m_cv m_pick m_in m_out m_prog 0 0 m_base) as (o & [n1 Ho] & HH);
    [intros; unfold m_al in *; lia|intros; unfold m_cv in *; lia|intros; unfold m_al, m_cv in *; lia|apply m_pick_ok|done|done|done|apply m_apart|apply m_base_ok| |].
  { intros y [H|[H|[H|H]]]; discriminate. }
  destruct m_run as [n2 Hr]. assert (o = Ok m_magic) as ->. { rewrite <- (Ho (n1 + n2)) by lia. apply Hr. lia. }
  destruct HH as (Hc & _ & Hd). destruct m_tree_ok as (T1 & T2 & T3). split; [|split; [|exact Hd]].
  - apply (Hc m_tree T1 T2 T3 (Node 2 (m_t "path" [m_n 2; m_n 3]) [Leaf (m_t "edge" [m_n 2; m_n 3])])).
    eapply PO_below; [by left|]. eapply PO_below; [by left|]. constructor.
  - exists (Node 2 (m_t "path" [m_n 5; m_n 6]) [Leaf (m_t "edge" [m_n 5; m_n 6])]). split; [|split; [|done]].
    + eapply D_node; [reflexivity|exists (fun v => if Nat.eqb v 4 then m_n 5 else m_n 6); split_and!; [intros v; by destruct (Nat.eqb v 4)|done|done]|].
      constructor; [constructor; unfold m_base; tauto|constructor].
    + eapply VO_node; [reflexivity| |]; repeat constructor. intros [? ?]; discriminate.
Qed.

(** * Inputs that are also defined by rules.  A subgoal that overlaps with a declared
    input is never demanded, so rules for such items never fire in the transformed
    program: [goal] is lost although [goal :- e(X)] and [e(2) :- f] derive it. *)
Definition x_prog : list rule :=
  [ Rule (m_t "goal" []) [m_t "e" [Var 0]];
    Rule (m_t "e" [m_n 2]) [m_t "f" []];
    Rule (m_t "f" []) [] ].
Definition x_in : list term := [m_t "e" [m_n 1]].
Definition x_out : list rule := [Rule (m_t "goal" []) []].
Definition x_magic : list rule :=
  [ Rule (m_t "$magic1" [m_t "goal" []]) [];
    Rule (m_t "goal" []) [m_t "$magic1" [m_t "goal" []]; m_t "e" [Var 0]] ].

Theorem C45_defined_inputs_refuted :
  ~ (forall (al cv : nat -> nat) (pick : nat -> gset nat -> nat) (inputs : list term) (outs P : list rule) (base : term -> Prop) P' t,
       (forall i j, al i = al j -> i = j) -> (forall i j, cv i = cv j -> i = j) -> (forall i j, al i <> cv j) ->
       (forall k A, A <> ∅ -> pick k A ∈ A) ->
       wf_program P -> wf_decls inputs -> wf_outputs outs ->
       (forall x, base x -> exo x = true \/ exists q, In q inputs /\ instance_of q x) ->
       (forall y, ~ base (magic "$magic1" y)) ->
       eventually (fun n => magic_templates al cv inputs pick n outs P 0 0 = Ok P') ->
       derives P base t -> values_only P t -> asked outs base (root t) -> derivable P' base (root t)).
Proof.
  intros H. specialize (H m_al m_cv m_pick x_in x_out x_prog (fun x => exo x = true) x_magic
    (Node 0 (m_t "goal" []) [Node 1 (m_t "e" [m_n 2]) [Node 2 (m_t "f" []) []]])).
  destruct H as (t & Hd & _ & Hr).
  - intros; unfold m_al in *; lia.
  - intros; unfold m_cv in *; lia.
  - intros; unfold m_al, m_cv in *; lia.
  - apply m_pick_ok.
  - intros r Hr. m_in; (split; [reflexivity|split; [cbn; tauto|]]); intros b Hb; m_in; cbn; tauto.
  - intros d Hd. m_in. split; [reflexivity|cbn; tauto].
  - intros d Hd. m_in. split; [reflexivity|split; [cbn; tauto|]]. by intros ? [].
  - intros x Hx. by left.
  - intros y Hy. discriminate.
  - exists 60. intros n Hn. replace n with (60 + (n - 60)) by lia. generalize (n - 60). intros m. vm_compute. reflexivity.
  - repeat (eapply D_node; [reflexivity|exists (fun _ => m_n 2); by split_and!|]; repeat constructor).
  - repeat first [eapply VO_node; [reflexivity| |] | constructor | (intros [? ?]; discriminate)].
  - exists (Rule (m_t "goal" []) []), []. split; [by left|]. split; [exists (fun _ => m_n 3); by split_and!|constructor].
  - destruct t as [y|i x ts]; cbn in Hr; subst; [by apply derives_leaf_inv in Hd|].
    apply derives_node_inv in Hd as (r & Hi & (σ & _ & Hh & Hb) & Hts). apply nth_error_In in Hi. m_in; [discriminate|].
    cbn in Hb. destruct ts as [|m [|e [|? ?]]]; try discriminate. injection Hb as _ He. apply Forall_cons in Hts as [_ Hts]. apply Forall_cons in Hts as [Hd _].
    destruct e as [y|i' x' ts']; cbn in He; subst; [by apply derives_leaf_inv in Hd|].
    apply derives_node_inv in Hd as (r' & Hi' & (σ' & _ & Hh' & _) & _). apply nth_error_In in Hi'. m_in; discriminate.
Qed.

Print Assumptions C45_magic_templates.
Print Assumptions C45_witness.
Print Assumptions C45_defined_inputs_refuted.
