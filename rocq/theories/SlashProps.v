(** C42, C43: the slash and left-corner transformations keep the derivations of the
    items of the program. *)
From Coq Require Import List.
From stdpp Require Import gmap.
From Coq Require Import Lia ZArith.
From Coq Require String Ascii.
From Verif Require Import PyBase Semiring TermModel TermSpec TermProofs SetsModel SetsSpec SetsProofs CoverProofs PruneModel NamesModel
  UpdateModel UpdateSpec UpdateProofs UpdateProps TransModel TransSpec TransProofs UnfoldProofs TransProps LinearProofs LinearProps FoldProofs FoldProps
  ElimProps SlashSpec SlashModel SlashProofs CoarseProofs SlashRules SlashFinal SlashHalts.
Import String.StringSyntax Ascii.AsciiSyntax.
Import ListNotations.
Local Open Scope string_scope.
Local Open Scope list_scope.

(** A derivation of the transformed program may use the builtin $not_matches(x, z), which
    holds of the items [z] that are not instances of [x]. *)
Definition with_not_matches (x : term) (base : term -> Prop) (y : term) : Prop :=
  base y \/ exists z, y = not_matches z /\ ground z /\ ~ gr_inst x z.
(** ... and has the value one. *)
Definition not_matches_one {R : semiring} (w : term -> R) : Prop := forall z, w (not_matches z) = sone.

Section both.
  Context (R : semiring) (al cv : nat -> nat) (c : nat) (inputs : list term) (positions : nat -> option nat) (rs : list (wrule R)).
  Context (Hal : forall i j, al i = al j -> i = j) (Hcv : forall i j, cv i = cv j -> i = j) (Halcv : forall i j, al i <> cv j).
  Context (H : slashable al cv c inputs positions rs).

  Lemma ordinary_item t : ordinary t -> item t.
  Proof. by intros (? & ? & _). Qed.
  Lemma node_terms_ordinary : Forall ordinary (node_terms inputs rs).
  Proof using H.
    apply Forall_forall. intros t Ht. unfold node_terms in Ht. apply elem_of_app in Ht as [Ht|Ht]; [by apply (sl_inputs _ _ _ _ _ _ H)|].
    apply elem_of_list_In, in_flat_map in Ht as (r & Hr & Ht). apply elem_of_list_In in Hr. destruct Ht as [<-|Ht]; [by apply (sl_heads _ _ _ _ _ _ H)|].
    apply filter_In in Ht as [Ht Hnb]. apply elem_of_list_In, elem_of_goals in Ht.
    destruct (sl_goals _ _ _ _ _ _ H r t Hr Ht) as [[k ->]|[Ho|[_ Hb]]]; [done|done|]. rewrite Hb, orb_true_r in Hnb. done.
  Qed.
  Lemma positions_item i r j : rs !! i = Some r -> positions i = Some j -> exists b, wbody r !! j = Some (Goal b) /\ item b.
  Proof using H.
    intros Hr Hj. destruct (sl_positions _ _ _ _ _ _ H i r j Hr Hj) as (b & Hb & Ho & _). exists b. split; [done|]. by apply ordinary_item.
  Qed.

  Lemma slash_keeps (lc : bool) (base : term -> Prop) n slash_fn0 other_fn0 x rs' slash_fn other_fn c' :
    (forall a b : R, smul a b = smul b a) -> leaves inputs base ->
    slash al cv inputs positions lc n slash_fn0 other_fn0 x rs c = Ok (rs', slash_fn, other_fn, c') ->
    slash_fn <> "$not_matches" -> "$not_matches" ∉ wsyms rs ->
    (forall y, base y \/ y ∈ inputs -> ~ named [slash_fn; other_fn; "$not_matches"] y) ->
    same_meaning_if not_matches_one (wderives False rs base)
      (fun t => wderives False rs' (with_not_matches x base) t /\ forall y, wroot t = Goal y -> ~ named [slash_fn; other_fn; "$not_matches"] y).
  Proof using Hal Hcv Halcv H.
    intros Hcomm Hbase E Hnm1 Hnm2 Hnew.
    assert (Hold : forall y, old (CStr slash_fn) (CStr other_fn) (CStr "$not_matches") y <-> ~ named [slash_fn; other_fn; "$not_matches"] y).
    { intros y. split.
      - intros Ho (f & args & -> & Hf). destruct (Ho _ _ eq_refl) as (H1 & H2 & H3). rewrite !elem_of_cons, elem_of_nil in Hf.
        destruct Hf as [->|[->|[->|[]]]]; done.
      - intros Hn f args ->. repeat split; intros ->; apply Hn; eexists _, args; (split; [reflexivity|]); rewrite !elem_of_cons; auto. }
    pose proof node_terms_ordinary as Ht.
    destruct (slash_meaning Hcomm al cv Hal Hcv Halcv inputs positions lc rs c) with (base := base) (n := n) (slash_fn0 := slash_fn0) (other_fn0 := other_fn0)
      (x0 := x) (rs' := rs') (slash_fn := slash_fn) (other_fn := other_fn) (c' := c') as (f & g & Hf & Hg); try done.
    - eapply Forall_impl; [exact Ht|]. by intros t (_ & _ & ?).
    - eapply Forall_impl; [exact Ht|]. intros t. apply ordinary_item.
    - intros r b Hr Hb. destruct (sl_goals _ _ _ _ _ _ H r b Hr Hb) as [?|[[? _]|[? _]]]; auto.
    - apply H.
    - apply H.
    - apply H.
    - intros i r j. apply positions_item.
    - intros y r Hy Hr Es. destruct (sl_inputs _ _ _ _ _ _ H y Hy) as [[(f & l & ->) _] Hn]. apply (Hn r Hr).
      destruct (sl_heads _ _ _ _ _ _ H r Hr) as [(f' & l' & El) _]. rewrite El in *. cbn in Es. injection Es as -> El'. by exists f', l, l'.
    - intros i r j b Hr Hj Hb Hm. destruct (sl_positions _ _ _ _ _ _ H i r j Hr Hj) as (b' & Hb' & _ & Hs). rewrite Hb in Hb'. injection Hb' as <-. by apply Hs.
    - intros y Hy. apply Hold, Hnew. by left.
    - intros u Hu. apply Hold, Hnew. by right.
    - exists f, g. split.
      + intros t Hd. destruct (Hf t Hd) as ((H1 & H2) & H3 & H4 & H5). split; [|by split; [|split]]. split; [done|]. intros y Hy. by apply Hold, H2.
      + intros t [Hd Ho]. apply Hg. split; [done|]. intros y Hy. by apply Hold, Ho.
  Qed.

  Lemma slash_outcome (lc : bool) slash_fn0 other_fn0 x : exists n0 o,
    (forall n, n0 <= n -> slash al cv inputs positions lc n slash_fn0 other_fn0 x rs c = o) /\
    match o with
    | Ok _ => True
    | Raise KeyError => True
    | Raise AssertionError => exists i r j b, rs !! i = Some r /\ positions i = Some j /\ wbody r !! j = Some (Goal b) /\ overlap x b /\ ~ instance_of x b
    | _ => False
    end.
  Proof using Hal Hcv Halcv H.
    pose proof node_terms_ordinary as Ht.
    destruct (slash_ends al cv Hal Hcv Halcv inputs positions lc (fun e => match e with KeyError => True
      | AssertionError => exists i r j b, rs !! i = Some r /\ positions i = Some j /\ wbody r !! j = Some (Goal b) /\ overlap x b /\ ~ instance_of x b
      | _ => False end) I slash_fn0 other_fn0 x rs c) as (n0 & o & Ho & HQ).
    - eapply Forall_impl; [exact Ht|]. by intros t (_ & _ & ?).
    - apply H.
    - apply positions_item.
    - intros k r j b Hr Hj Hb Hm Hi. by exists k, r, j, b.
    - exists n0, o. split; [exact Ho|]. by destruct o as [|[]|].
  Qed.
End both.

(** ** C42.  The derivations in the program that [p.slash(x, positions)] makes, of all items but the new
    ones (/, $other), correspond one-to-one to the derivations in [p], with the same roots and values. *)
Theorem C42_slash :
  forall (R : semiring) (al cv : nat -> nat) (c c' n : nat) (inputs : list term) (positions : nat -> option nat) (rs rs' : list (wrule R))
    (base : term -> Prop) (x : term) (slash_fn0 other_fn0 slash_fn other_fn : String.string),
    (forall a b : R, smul a b = smul b a) ->
    (forall i j, al i = al j -> i = j) -> (forall i j, cv i = cv j -> i = j) -> (forall i j, al i <> cv j) ->
    slashable al cv c inputs positions rs -> leaves inputs base ->
    slash al cv inputs positions false n slash_fn0 other_fn0 x rs c = Ok (rs', slash_fn, other_fn, c') ->
    slash_fn <> "$not_matches" -> "$not_matches" ∉ wsyms rs ->
    (forall y, base y \/ y ∈ inputs -> ~ named [slash_fn; other_fn; "$not_matches"] y) ->
    same_meaning_if not_matches_one (wderives False rs base)
      (fun t => wderives False rs' (with_not_matches x base) t /\ forall y, wroot t = Goal y -> ~ named [slash_fn; other_fn; "$not_matches"] y).
Proof.
  intros R al cv c c' n inputs positions rs rs' base x sf0 of0 sf of_ Hcomm Hal Hcv Halcv H Hb E H1 H2 H3.
  exact (slash_keeps R al cv c inputs positions rs Hal Hcv Halcv H false base n sf0 of0 x rs' sf of_ c' Hcomm Hb E H1 H2 H3).
Qed.

(** The call ends.  The only errors are a KeyError from the coarse graph, and the
    AssertionError for an item [x] that overlaps with a selected subgoal without covering it. *)
Theorem C42_ends :
  forall (R : semiring) (al cv : nat -> nat) (c : nat) (inputs : list term) (positions : nat -> option nat) (rs : list (wrule R))
    (x : term) (slash_fn other_fn : String.string),
    (forall i j, al i = al j -> i = j) -> (forall i j, cv i = cv j -> i = j) -> (forall i j, al i <> cv j) ->
    slashable al cv c inputs positions rs ->
    exists n0 o, (forall n, n0 <= n -> slash al cv inputs positions false n slash_fn other_fn x rs c = o) /\
      match o with
      | Ok _ => True
      | Raise KeyError => True
      | Raise AssertionError => exists i r j b, rs !! i = Some r /\ positions i = Some j /\ wbody r !! j = Some (Goal b) /\ overlap x b /\ ~ instance_of x b
      | _ => False
      end.
Proof. intros. by apply slash_outcome. Qed.

(** ** C43.  The same for the left-corner transformation [p.lct(positions, x = x)]. *)
Theorem C43_lct :
  forall (R : semiring) (al cv : nat -> nat) (c c' n : nat) (inputs : list term) (positions : nat -> option nat) (rs rs' : list (wrule R))
    (base : term -> Prop) (x : term) (slash_fn0 other_fn0 slash_fn other_fn : String.string),
    (forall a b : R, smul a b = smul b a) ->
    (forall i j, al i = al j -> i = j) -> (forall i j, cv i = cv j -> i = j) -> (forall i j, al i <> cv j) ->
    slashable al cv c inputs positions rs -> leaves inputs base ->
    slash al cv inputs positions true n slash_fn0 other_fn0 x rs c = Ok (rs', slash_fn, other_fn, c') ->
    slash_fn <> "$not_matches" -> "$not_matches" ∉ wsyms rs ->
    (forall y, base y \/ y ∈ inputs -> ~ named [slash_fn; other_fn; "$not_matches"] y) ->
    same_meaning_if not_matches_one (wderives False rs base)
      (fun t => wderives False rs' (with_not_matches x base) t /\ forall y, wroot t = Goal y -> ~ named [slash_fn; other_fn; "$not_matches"] y).
Proof.
  intros R al cv c c' n inputs positions rs rs' base x sf0 of0 sf of_ Hcomm Hal Hcv Halcv H Hb E H1 H2 H3.
  exact (slash_keeps R al cv c inputs positions rs Hal Hcv Halcv H true base n sf0 of0 x rs' sf of_ c' Hcomm Hb E H1 H2 H3).
Qed.

(** With the default item, a variable, the only error is the KeyError. *)
Theorem C43_ends :
  forall (R : semiring) (al cv : nat -> nat) (c v : nat) (inputs : list term) (positions : nat -> option nat) (rs : list (wrule R))
    (slash_fn other_fn : String.string),
    (forall i j, al i = al j -> i = j) -> (forall i j, cv i = cv j -> i = j) -> (forall i j, al i <> cv j) ->
    slashable al cv c inputs positions rs ->
    exists n0 o, (forall n, n0 <= n -> slash al cv inputs positions true n slash_fn other_fn (Var v) rs c = o) /\
      match o with Ok _ => True | Raise KeyError => True | _ => False end.
Proof.
  intros R al cv c v inputs positions rs sf of_ Hal Hcv Halcv H.
  destruct (slash_outcome R al cv c inputs positions rs Hal Hcv Halcv H true sf of_ (Var v)) as (n0 & o & Ho & HQ).
  exists n0, o. split; [exact Ho|]. destruct o as [|[]|]; try done. destruct HQ as (i & r & j & b & _ & _ & _ & _ & Hn). apply Hn. by exists (fun _ => b).
Qed.

(** ** Witnesses: goal += p(X).  p(X) += u(X,Y) * p(Y).  p(X) += w(X) * 3.
    t(X) += g(X) * 2.  g(X) += w(X). *)
Definition s_prog : list (wrule nat_sr) :=
  [WRule (u_t "goal" []) [Goal (u_t "p" [Var 0])];
   WRule (u_t "p" [Var 1]) [Goal (u_t "u" [Var 1; Var 2]); Goal (u_t "p" [Var 2])];
   WRule (u_t "p" [Var 3]) [Goal (u_t "w" [Var 3]); Val (3 : nat_sr)];
   WRule (u_t "t" [Var 4]) [Goal (u_t "g" [Var 4]); Goal (u_n 2)];
   WRule (u_t "g" [Var 5]) [Goal (u_t "w" [Var 5])]].
Definition s_pos (i : nat) : option nat := match i with 0 => Some 0 | 1 => Some 1 | 3 => Some 0 | _ => None end.
Definition s_in : list term := [u_t "u" [Var 50; Var 51]; u_t "w" [Var 52]].
Definition s_base (y : term) : Prop := y = u_t "u" [u_n 1; u_n 2] \/ y = u_t "w" [u_n 2] \/ y = u_n 2.
Definition s_slash (lc : bool) (x : term) := slash (R := nat_sr) u_al u_cv s_in s_pos lc 30 "/" "$other" x s_prog 0.

Lemma s_alcv i j : u_al i <> u_cv j.
Proof. unfold u_al, u_cv. lia. Qed.
Lemma s_slashable : slashable u_al u_cv 0 s_in s_pos s_prog.
Proof.
  assert (Ho : forall f xs, is_builtin (u_t f xs) = false -> proper (u_t f xs) -> ordinary (u_t f xs)) by (intros f xs H1 H2; split; [by eexists _, _|done]).
  split.
  - intros r v k Hr Hv _. unfold s_prog in Hr. rewrite !elem_of_cons, elem_of_nil in Hr.
    destruct Hr as [->|[->|[->|[->|[->|[]]]]]]; cbn in Hv; rewrite ?elem_of_cons, ?elem_of_nil in Hv; unfold u_al; lia.
  - intros [|[|[|[|[|k]]]]] [|[|[|[|[|k']]]]] r r' v Hr Hr' Hk Hv Hv'; try done; injection Hr as <-; injection Hr' as <-;
      apply elem_of_list_In in Hv, Hv'; cbn in Hv, Hv'; lia.
  - intros r Hr. unfold s_prog in Hr. rewrite !elem_of_cons, elem_of_nil in Hr. destruct Hr as [->|[->|[->|[->|[->|[]]]]]]; apply Ho; cbn; auto.
  - intros r b Hr Hb. unfold s_prog in Hr. rewrite !elem_of_cons, elem_of_nil in Hr.
    destruct Hr as [->|[->|[->|[->|[->|[]]]]]]; cbn in Hb; rewrite ?elem_of_cons, ?elem_of_nil in Hb; naive_solver (apply Ho; cbn; auto).
  - intros y Hy. unfold s_in in Hy. rewrite !elem_of_cons, elem_of_nil in Hy. split.
    + destruct Hy as [->|[->|[]]]; apply Ho; cbn; auto.
    + intros r Hr (f & xs & ys & E1 & E2 & _). unfold s_prog in Hr. rewrite !elem_of_cons, elem_of_nil in Hr.
      destruct Hy as [->|[->|[]]]; destruct Hr as [->|[->|[->|[->|[->|[]]]]]]; cbn in E2; unfold u_t in E1, E2; congruence.
  - intros y v Hy Hv. assert (Hv50 : 50 <= v < 53).
    { unfold s_in in Hy. rewrite !elem_of_cons, elem_of_nil in Hy. destruct Hy as [->|[->|[]]]; cbn in Hv; lia. }
    split; [|split; intros; unfold u_al, u_cv; lia]. intros r Hr Hvr. unfold s_prog in Hr. rewrite !elem_of_cons, elem_of_nil in Hr.
    destruct Hr as [->|[->|[->|[->|[->|[]]]]]]; cbn in Hvr; rewrite ?elem_of_cons, ?elem_of_nil in Hvr; lia.
  - intros [|[|[|[|i]]]] r j Hr Hj; try done; injection Hr as <-; injection Hj as <-; eexists; (split; [reflexivity|]); (split; [apply Ho; cbn; auto|]).
    + intros (g & [_ [σ <-]] & [_ [τ E]]). done.
    + intros _. by exists (fun _ => u_n 0).
    + intros (g & [_ [σ <-]] & [_ [τ E]]). done.
Qed.
Lemma s_leaves : leaves s_in s_base.
Proof.
  intros y [->|[->| ->]].
  - split; [done|]. right; right. exists (u_t "u" [Var 50; Var 51]). split; [left|]. split; [done|]. by exists (fun v => if decide (v = 50) then u_n 1 else u_n 2).
  - split; [done|]. right; right. exists (u_t "w" [Var 52]). split; [right; left|]. split; [done|]. by exists (fun v => u_n 2).
  - split; [done|]. by left.
Qed.
Lemma s_new y : s_base y \/ y ∈ s_in -> ~ named ["/"; "$other"; "$not_matches"] y.
Proof.
  intros Hy (f & args & E & Hf). unfold s_in in Hy. rewrite !elem_of_cons, elem_of_nil in Hy. rewrite !elem_of_cons, elem_of_nil in Hf.
  destruct Hy as [[->|[->| ->]]|[->|[->|[]]]]; try discriminate E; injection E as <- _; destruct Hf as [?|[?|[?|[]]]]; discriminate.
Qed.
Lemma s_derivation : exists t, wderives False s_prog s_base t /\ wroot t = Goal (u_t "goal" []) /\ wvalue (fun _ => (5 : nat_sr)) t = 75.
Proof.
  exists (WNode 0 (u_t "goal" []) [WNode 1 (u_t "p" [u_n 1]) [TLeaf (u_t "u" [u_n 1; u_n 2]); WNode 2 (u_t "p" [u_n 2]) [TLeaf (u_t "w" [u_n 2]); VLeaf (3 : nat_sr)]]]).
  split; [|split; [done|by vm_compute]].
  econstructor; [done| |done|]. { exists (fun _ => u_n 1). split; [done|done]. }
  constructor; [|constructor]. econstructor; [done| |done|].
  { exists (fun v => if decide (v = 1) then u_n 1 else u_n 2). split; [|done]. intros v. by destruct (decide (v = 1)). }
  constructor; [constructor; by left|]. constructor; [|constructor]. econstructor; [done| |done|].
  { exists (fun _ => u_n 2). split; done. }
  constructor; [constructor; right; by left|]. constructor; [constructor|constructor].
Qed.

Definition s_get (r : res (list (wrule nat_sr) * String.string * String.string * nat)) : list (wrule nat_sr) := u_get [] (let* (p, c) := r in let* (p, o) := Ok p in let* (p, s) := Ok p in Ok p).
Definition s_names (r : res (list (wrule nat_sr) * String.string * String.string * nat)) : bool :=
  match r with Ok (_, a, b, _) => bool_decide (a = "/") && bool_decide (b = "$other") | _ => false end.
Lemma s_res r : s_names r = true -> exists rs' c', r = Ok (rs', "/", "$other", c') /\ rs' = s_get r.
Proof.
  destruct r as [[[[p a] b] c]| |]; [|done..]. cbn. rewrite andb_true_iff, !bool_decide_eq_true. intros [-> ->]. by exists p, c.
Qed.

Theorem C42_witness : exists n rs' c',
  slash u_al u_cv s_in s_pos false n "/" "$other" (u_t "p" [Var 60]) s_prog 0 = Ok (rs', "/", "$other", c') /\
  map (fun r => length (wbody r)) rs' = [0; 1; 2; 2; 2; 2; 1; 2; 2; 2; 2; 1; 2] /\
  same_meaning_if not_matches_one (wderives False s_prog s_base)
    (fun t => wderives False rs' (with_not_matches (u_t "p" [Var 60]) s_base) t /\ forall y, wroot t = Goal y -> ~ named ["/"; "$other"; "$not_matches"] y) /\
  exists t, wderives False s_prog s_base t /\ wroot t = Goal (u_t "goal" []) /\ wvalue (fun _ => (5 : nat_sr)) t = 75.
Proof.
  destruct (s_res (slash u_al u_cv s_in s_pos false 30 "/" "$other" (u_t "p" [Var 60]) s_prog 0)) as (rs' & c' & E & Er); [by vm_compute|].
  exists 30, rs', c'.
  assert (El : map (fun r => length (wbody r)) rs' = [0; 1; 2; 2; 2; 2; 1; 2; 2; 2; 2; 1; 2]) by (rewrite Er; clear; by vm_compute).
  clear Er. split; [exact E|]. split; [exact El|]. split; [|exact s_derivation].
  refine (C42_slash nat_sr u_al u_cv 0 _ 30 s_in s_pos s_prog _ s_base _ _ _ _ _ e_comm u_al_inj e_cv_inj s_alcv s_slashable s_leaves E _ _ s_new); clear.
  - discriminate.
  - apply (bool_decide_eq_true_1 ("$not_matches" ∉ wsyms s_prog)). by vm_compute.
Qed.

Theorem C43_witness : exists n rs' c',
  slash u_al u_cv s_in s_pos true n "/" "$other" (Var 60) s_prog 0 = Ok (rs', "/", "$other", c') /\
  length rs' = 30 /\
  same_meaning_if not_matches_one (wderives False s_prog s_base)
    (fun t => wderives False rs' (with_not_matches (Var 60) s_base) t /\ forall y, wroot t = Goal y -> ~ named ["/"; "$other"; "$not_matches"] y) /\
  exists t, wderives False s_prog s_base t /\ wroot t = Goal (u_t "goal" []) /\ wvalue (fun _ => (5 : nat_sr)) t = 75.
Proof.
  destruct (s_res (slash u_al u_cv s_in s_pos true 30 "/" "$other" (Var 60) s_prog 0)) as (rs' & c' & E & Er); [by vm_compute|].
  exists 30, rs', c'.
  assert (El : length rs' = 30) by (rewrite Er; clear; by vm_compute).
  clear Er. split; [exact E|]. split; [exact El|]. split; [|exact s_derivation].
  refine (C43_lct nat_sr u_al u_cv 0 _ 30 s_in s_pos s_prog _ s_base _ _ _ _ _ e_comm u_al_inj e_cv_inj s_alcv s_slashable s_leaves E _ _ s_new); clear.
  - discriminate.
  - apply (bool_decide_eq_true_1 ("$not_matches" ∉ wsyms s_prog)). by vm_compute.
Qed.

(** *** The condition on heads that overlap with their own selected subgoals is
    needed.  In  f(X) += f(g(X)).  f(Y) += k(Y).  the library tests whether f(X)
    and f(g(X)) unify without renaming them apart. *)
Definition s_self : list (wrule nat_sr) :=
  [WRule (u_t "f" [Var 0]) [Goal (u_t "f" [u_t "g" [Var 0]])]; WRule (u_t "f" [Var 1]) [Goal (u_t "k" [Var 1])]].
Definition s_spos (i : nat) : option nat := match i with 0 => Some 0 | _ => None end.
Definition s_sbase (y : term) : Prop := y = u_t "k" [u_t "g" [u_t "g" [u_n 0]]].
Theorem C42_self_overlap_refuted : exists n rs' c',
  slash u_al u_cv [u_t "k" [Var 50]] s_spos false n "/" "$other" (u_t "h" [Var 60]) s_self 0 = Ok (rs', "/", "$other", c') /\
  (exists t, wderives False s_self s_sbase t /\ wroot t = Goal (u_t "f" [u_n 0])) /\
  forall t, wderives False rs' (with_not_matches (u_t "h" [Var 60]) s_sbase) t -> wroot t <> Goal (u_t "f" [u_n 0]).
Proof.
  destruct (s_res (slash u_al u_cv [u_t "k" [Var 50]] s_spos false 30 "/" "$other" (u_t "h" [Var 60]) s_self 0)) as (rs' & c' & E & Er); [by vm_compute|].
  exists 30, rs', c'. split; [exact E|]. clear E. split.
  - clear Er. exists (WNode 0 (u_t "f" [u_n 0]) [WNode 0 (u_t "f" [u_t "g" [u_n 0]]) [WNode 1 (u_t "f" [u_t "g" [u_t "g" [u_n 0]]]) [TLeaf (u_t "k" [u_t "g" [u_t "g" [u_n 0]]])]]]).
    split; [|done]. econstructor; [done| |done|]. { exists (fun _ => u_n 0). done. }
    constructor; [|constructor]. econstructor; [done| |done|]. { exists (fun _ => u_t "g" [u_n 0]). done. }
    constructor; [|constructor]. econstructor; [done| |done|]. { exists (fun _ => u_t "g" [u_t "g" [u_n 0]]). done. }
    constructor; [|constructor]. by constructor.
  - assert (Er' : exists a b d e f g h, rs' = [WRule a b; WRule (u_t "/" d) e; WRule (u_t "f" [Var f]) [Goal (u_t "$other" [u_t "f" [u_t "g" [Var f]]])];
      WRule (u_t "$other" [u_t "f" [Var g]]) [Goal (u_t "k" [Var g])]; WRule (u_t "f" [Var h]) [Goal (u_t "$other" [u_t "f" [Var h]])]] /\ exists l, a = u_t "/" l).
    { eexists _, _, _, _, _, _, _. rewrite Er. clear. split; [vm_compute; reflexivity|by eexists]. }
    clear Er. destruct Er' as (a & b & d & e & f & g & h & -> & l & ->).
    match goal with |- forall t, wderives _ ?rs ?base t -> _ =>
      assert (Ho : forall t z, wderives False rs base t -> wroot t = Goal (u_t "$other" [u_t "f" [z]]) -> z = u_t "g" [u_t "g" [u_n 0]]) end.
    { intros t z Ht E. destruct t as [v|x|k x ts]; [done| |].
      - inversion Ht as [|y Hy|]; subst. injection E as ->. by destruct Hy as [Hy|(? & Hy & _)].
      - injection E as ->. apply wderives_node in Ht as (r & Hr & (σ & _ & E1 & E2) & _ & HF).
        destruct k as [|[|[|[|[|k]]]]]; [| | | | |done]; injection Hr as <-; try discriminate E1.
        cbn in E1, E2. injection E1 as <-. destruct ts as [|t [|? ?]]; [done| |done]. injection E2 as E2. apply Forall_cons in HF as [Ht _].
        destruct t as [v|x|k x ts]; [done| |].
        + inversion Ht as [|y Hy|]; subst. injection E2 as <-. destruct Hy as [Hy|(? & Hy & _)]; [|done]. by injection Hy as ->.
        + injection E2 as <-. apply wderives_node in Ht as (r & Hr & (τ & _ & E3 & _) & _).
          destruct k as [|[|[|[|[|k]]]]]; [| | | | |done]; injection Hr as <-; discriminate E3. }
    intros t Ht E. destruct t as [v|x|k x ts]; [done| |].
    + inversion Ht as [|y Hy|]; subst. injection E as ->. by destruct Hy as [Hy|(? & Hy & _)].
    + injection E as ->. apply wderives_node in Ht as (r & Hr & (σ & _ & E1 & E2) & _ & HF).
      destruct k as [|[|[|[|[|k]]]]]; [| | | | |done]; injection Hr as <-; try discriminate E1; cbn in E1, E2; injection E1 as E1.
      * destruct ts as [|t [|? ?]]; [done| |done]. injection E2 as E2. apply Forall_cons in HF as [Ht _]. symmetry in E2. rewrite E1 in E2.
        by pose proof (Ho t _ Ht E2).
      * destruct ts as [|t [|? ?]]; [done| |done]. injection E2 as E2. apply Forall_cons in HF as [Ht _]. symmetry in E2. rewrite E1 in E2.
        by pose proof (Ho t _ Ht E2).
Qed.

(** *** An input must not have the functor of a rule's head: [f(1)] is an input in
    goal += f(X).  f(2) += k. *)
Definition s_mixed : list (wrule nat_sr) := [WRule (u_t "goal" []) [Goal (u_t "f" [Var 0])]; WRule (u_t "f" [u_n 2]) [Goal (u_t "k" [])]].
Definition s_kbase (y : term) : Prop := y = u_t "k" [].
Theorem C42_input_functor_refuted : exists n rs' c',
  slash u_al u_cv [u_t "f" [u_n 1]; u_t "k" []] s_spos false n "/" "$other" (u_t "f" [Var 60]) s_mixed 0 = Ok (rs', "/", "$other", c') /\
  (exists t, wderives False s_mixed s_kbase t /\ wroot t = Goal (u_t "f" [u_n 2])) /\
  forall t, wderives False rs' (with_not_matches (u_t "f" [Var 60]) s_kbase) t -> wroot t <> Goal (u_t "f" [u_n 2]).
Proof.
  destruct (s_res (slash u_al u_cv [u_t "f" [u_n 1]; u_t "k" []] s_spos false 30 "/" "$other" (u_t "f" [Var 60]) s_mixed 0)) as (rs' & c' & E & Er); [by vm_compute|].
  exists 30, rs', c'. split; [exact E|]. clear E. split.
  - clear Er. exists (WNode 1 (u_t "f" [u_n 2]) [TLeaf (u_t "k" [])]). split; [|done]. econstructor; [done| |done|]. { exists (fun _ => u_n 0). done. }
    constructor; [|constructor]. by constructor.
  - assert (Er' : map whead rs' = map (fun p => u_t (fst p) (snd p)) (combine ["/"; "/"; "$other"; "goal"] (map (fun r => match whead r with Fn (_ :: l) => l | _ => [] end) rs'))).
    { rewrite Er. clear. vm_compute. reflexivity. }
    clear Er. intros t Ht E. destruct t as [v|x|k x ts]; [done| |].
    + inversion Ht as [|y Hy|]; subst. injection E as ->. by destruct Hy as [Hy|(? & Hy & _)].
    + injection E as ->. apply wderives_node in Ht as (r & Hr & (σ & _ & E1 & E2) & _ & HF).
      apply (f_equal (fun l => l !! k)) in Er'. change (map whead rs') with (whead <$> rs') in Er'. rewrite list_lookup_fmap, Hr in Er'. cbn [fmap option_fmap option_map] in Er'.
      symmetry in Er'. change map with (@fmap list list_fmap) in Er'. rewrite list_lookup_fmap in Er'. apply fmap_Some in Er' as ([s l] & Hl & Eh).
      apply elem_of_list_lookup_2, elem_of_list_In, in_combine_l in Hl. rewrite Eh in E1. cbn in Hl, E1. injection E1 as E1 _.
      destruct Hl as [<-|[<-|[<-|[<-|[]]]]]; discriminate.
Qed.

(** *** The coarse graph fails if the estimates of the types overlap:
    goal += f(X,2).  goal += f(3,1).  goal += f(4,Y).  *)
Definition s_key : list (wrule nat_sr) :=
  [WRule (u_t "goal" []) [Goal (u_t "f" [Var 0; u_n 2])]; WRule (u_t "goal" []) [Goal (u_t "f" [u_n 3; u_n 1])]; WRule (u_t "goal" []) [Goal (u_t "f" [u_n 4; Var 1])]].
Theorem C42_returns_refuted : slashable u_al u_cv 0 [] s_spos s_key /\
  forall n, 30 <= n -> slash (R := nat_sr) u_al u_cv [] s_spos false n "/" "$other" (u_t "h" [Var 60]) s_key 0 = Raise KeyError.
Proof.
  split.
  - assert (Ho : forall f xs, is_builtin (u_t f xs) = false -> proper (u_t f xs) -> ordinary (u_t f xs)) by (intros f xs H1 H2; split; [by eexists _, _|done]).
    split.
    + intros r v k Hr Hv _. unfold s_key in Hr. rewrite !elem_of_cons, elem_of_nil in Hr.
      destruct Hr as [->|[->|[->|[]]]]; apply elem_of_list_In in Hv; cbn in Hv; unfold u_al; lia.
    + intros [|[|[|k]]] [|[|[|k']]] r r' v Hr Hr' Hk Hv Hv'; try done; injection Hr as <-; injection Hr' as <-;
        apply elem_of_list_In in Hv, Hv'; cbn in Hv, Hv'; lia.
    + intros r Hr. unfold s_key in Hr. rewrite !elem_of_cons, elem_of_nil in Hr. destruct Hr as [->|[->|[->|[]]]]; apply Ho; cbn; auto.
    + intros r b Hr Hb. unfold s_key in Hr. rewrite !elem_of_cons, elem_of_nil in Hr.
      destruct Hr as [->|[->|[->|[]]]]; cbn in Hb; rewrite ?elem_of_cons, ?elem_of_nil in Hb; naive_solver (apply Ho; cbn; auto).
    + by intros y Hy%elem_of_nil.
    + by intros y v Hy%elem_of_nil.
    + intros [|i] r j Hr Hj; try done; injection Hr as <-; injection Hj as <-; eexists; (split; [reflexivity|]); (split; [apply Ho; cbn; auto|]).
      intros (g & [_ [σ <-]] & [_ [τ E]]). done.
  - intros n Hn. do 30 (destruct n as [|n]; [lia|]). vm_compute. reflexivity.
Qed.

Print Assumptions C42_slash.
Print Assumptions C42_ends.
Print Assumptions C43_lct.
Print Assumptions C43_ends.
Print Assumptions C42_witness.
Print Assumptions C43_witness.
Print Assumptions C42_self_overlap_refuted.
Print Assumptions C42_input_functor_refuted.
Print Assumptions C42_returns_refuted.
