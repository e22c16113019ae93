(** C32: linearize keeps the derivations of a program and leaves no overlaps. *)
From Coq Require Import List.
From stdpp Require Import gmap.
From Coq Require Import Lia ZArith.
From Coq Require String Ascii.
From Verif Require Import PyBase Semiring TermModel TermSpec TermProofs SetsModel SetsProofs SolverSpec PruneModel NamesModel
  UpdateModel UpdateSpec UpdateProofs UpdateProps TransModel TransSpec TransProofs UnfoldProofs TransProps LinearProofs.
Import String.StringSyntax Ascii.AsciiSyntax.
Import ListNotations.
Local Open Scope string_scope.
Local Open Scope list_scope.

(** Heads are ordinary items; subgoals are ordinary items (or inputs or builtins),
    variables, or constants. *)
Definition plain {R : semiring} (rs : list (wrule R)) : Prop :=
  forall r, r ∈ rs -> item_head (whead r) /\
    forall b, b ∈ goals (wbody r) -> (exists v, b = Var v) \/ (exists k, b = Cst k) \/ item_head b.

(** [x] is an item $gen<j>(...) *)
Definition gen_item (j : nat) (x : term) : Prop := exists args, x = Fn (Cst (CStr (String.append "$gen" (str_nat j))) :: args).

(** Two subgoals have a common instance. *)
Definition unifiable (x y : term) : Prop := exists σ, sub σ x = sub σ y.

(** The subgoals that linearize looks at: not constants, not builtins, and
    overlapping with the driver if there is one. *)
Definition candidate (driver : option term) (x : term) : Prop :=
  is_const x = false /\ is_builtin x = false /\ match driver with None => True | Some d => unifiable x d end.

Lemma gen_item_has j x : 0 < j -> gen_item j x <-> has_fn (gname j) x.
Proof. intros Hj. destruct j; [lia|]. done. Qed.

(** ** C32.  Apart from the items $gen<j>(...) that linearize introduced, the
    derivations of the new program correspond one-to-one to those of the old
    one, with the same roots and values.  [g] is the number of names generated so
    far; no input item uses a name that is generated later. *)
Theorem C32_values :
  forall (R : semiring) (al : nat -> nat) (n g c g' c' : nat) (driver : option term) (rs rs' : list (wrule R)) (base : term -> Prop),
    (forall i j, al i = al j -> i = j) -> plain rs ->
    (forall x j, base x -> g < j -> ~ gen_item j x) ->
    linearize al n driver rs g c = Ok (rs', g', c') ->
    same_meaning (wderives True rs base)
      (fun t => wderives True rs' base t /\ forall x j, wroot t = Goal x -> g < j <= g' -> ~ gen_item j x).
Proof.
  intros R al n g c g' c' driver rs rs' base Hal Hp Hb H. unfold linearize in H.
  destruct (find_tmps n driver rs 0) as [ts| |]; [|done..]. cbn [bind] in H.
  apply (split_all_meaning al Hal n (wsyms rs) (dedup ts []) rs g c rs' g' c' base) in H as (_ & _ & H).
  - refine (same_meaning_iff _ _ _ _ (fun d => iff_refl _) _ H). intros d. split; intros [Hd Hx]; (split; [done|]).
    + intros x j Ex Hj Hg. apply gen_item_has in Hg; [|lia]. by eapply Hx.
    + intros x Ex j Hj Hg. apply gen_item_has in Hg; [|lia]. by eapply Hx.
  - intros s Hs. by apply plain_named.
  - intros x j Hx Hj Hg. apply gen_item_has in Hg; [|lia]. by eapply Hb.
Qed.

Lemma linearize_marks (R : semiring) (al : nat -> nat) (n g c g' c' : nat) (driver : option term) (rs rs' : list (wrule R)) :
  (forall i j, al i = al j -> i = j) -> linearize al n driver rs g c = Ok (rs', g', c') ->
  exists M, marks (wsyms rs) g' M rs rs' /\ forall i r k, rs !! i = Some r ->
    is_Some (M i k) <-> exists a x y, a < k /\ wbody r !! a = Some (Goal x) /\ wbody r !! k = Some (Goal y) /\ relevant driver x /\ exists σ, sub σ x = sub σ y.
Proof.
  intros Hal H. unfold linearize in H.
  destruct (find_tmps n driver rs 0) as [ts| |] eqn:Et; [|done..]. cbn [bind] in H.
  pose proof (find_tmps_ok n driver rs 0 ts Et) as Hts. destruct (dedup_ok ts []) as [Hnd Hded].
  apply (split_all_marks al Hal n (wsyms rs) rs (dedup ts []) rs g c rs' g' c' (fun _ _ => None)) in H as (M & HM & Hdom); try done.
  - exists M. split; [done|]. intros i r k Hr. rewrite Hdom, Hded, Hts. split.
    + intros [[? ?]|[(q & r0 & a & x & y & -> & Hr0 & Hs) _]]; [done|]. rewrite Nat.add_0_l in Hr. rewrite Hr in Hr0. injection Hr0 as <-. by exists a, x, y.
    + intros (a & x & y & Hs). right. split; [|apply not_elem_of_nil]. by exists i, r, a, x, y.
  - split; [done|]. split; [|split; [|done]].
    + intros i r Hr. exists id. rewrite Hr. f_equal. unfold rrename, rsub, marked. cbn [whead wbody]. destruct r as [h fs]. cbn [whead wbody].
      f_equal; [symmetry; apply sub_Var|]. 
      replace (imap (mark (fun _ => None)) fs) with fs by (apply list_eq; intros q; rewrite list_lookup_imap; by destruct (fs !! q)). symmetry. apply fsub_Var.
    + intros i s Hi Hs. apply lookup_lt_Some in Hs. lia.
  - intros i k Hin. apply Hded in Hin as [Hin _]. apply Hts in Hin as (q & r & a & x & y & -> & Hr & _). apply lookup_lt_Some in Hr. split; [lia|done].
Qed.

(** No overlap is left: what is now in the place of a candidate does not unify
    with anything after it. *)
Theorem C32_linear :
  forall (R : semiring) (al : nat -> nat) (n g c g' c' : nat) (driver : option term) (rs rs' : list (wrule R))
    (i j k : nat) (r r' : wrule R) (x x' y' : term),
    (forall i j, al i = al j -> i = j) -> plain rs -> linearize al n driver rs g c = Ok (rs', g', c') ->
    rs !! i = Some r -> wbody r !! j = Some (Goal x) -> candidate driver x -> j < k ->
    rs' !! i = Some r' -> wbody r' !! j = Some (Goal x') -> wbody r' !! k = Some (Goal y') -> ~ unifiable x' y'.
Proof.
  intros R al n g c g' c' driver rs rs' i j k r r' x x' y' Hal Hp H Hr Hx Hc Hjk Hr' Hx' Hy'.
  destruct (linearize_marks R al n g c g' c' driver rs rs' Hal H) as (M & HM & Hdom).
  refine (not_overlapping (wsyms rs) g' M rs rs' driver i r r' j k x x' y' HM (fun k => Hdom i r k Hr) _ Hr Hr' Hjk Hx Hc Hx' Hy').
  eapply named_mono; [|apply (plain_named rs Hp r 0); by eapply elem_of_list_lookup_2]. intros f [?|(q & ? & _)]; [done|lia].
Qed.

(** The rules keep their places, heads and numbers of subgoals; every subgoal is
    kept or gets a new functor, and a rule [$gen(xs) += f(xs)] is added for it. *)
Theorem C32_shape :
  forall (R : semiring) (al : nat -> nat) (n g c g' c' : nat) (driver : option term) (rs rs' : list (wrule R)) (i : nat) (r : wrule R),
    (forall i j, al i = al j -> i = j) -> linearize al n driver rs g c = Ok (rs', g', c') -> rs !! i = Some r ->
    exists r' ρ, rs' !! i = Some r' /\ whead r' = sub (fun v => Var (ρ v)) (whead r) /\ length (wbody r') = length (wbody r) /\
      forall k f, wbody r !! k = Some f -> wbody r' !! k = Some (fsub (fun v => Var (ρ v)) f) \/
        exists m a args, g' >= m /\ f = Goal (Fn (a :: args)) /\
          wbody r' !! k = Some (fsub (fun v => Var (ρ v)) (Goal (Fn (Cst (CStr (String.append "$gen" (str_nat m))) :: args)))).
Proof.
  intros R al n g c g' c' driver rs rs' i r Hal H Hr.
  destruct (linearize_marks R al n g c g' c' driver rs rs' Hal H) as (M & (_ & Hrs & _ & Hmk & _) & _).
  destruct (Hrs i r Hr) as [ρ Hρ]. exists (rrename ρ (marked (M i) r)), ρ. split; [done|]. split; [done|].
  cbn [wbody rrename rsub marked]. split; [by rewrite map_length, imap_length|].
  intros k f Hf. change (@map (factor R) (factor R)) with (@fmap list _ (factor R) (factor R)). rewrite list_lookup_fmap, list_lookup_imap, Hf.
  cbn. unfold mark. destruct (M i k) as [m|] eqn:Em; [|by left]. destruct (Hmk i k m Em) as (Hm & _ & r2 & a & args & Hr2 & Hb).
  rewrite Hr in Hr2. injection Hr2 as <-. rewrite Hf in Hb. injection Hb as ->. right. exists m, a, args. split; [lia|]. split; [done|].
  destruct m as [|m]; [lia|]. done.
Qed.

(** Without a driver, the new program is locally linear. *)
Theorem C32_locally_linear :
  forall (R : semiring) (al : nat -> nat) (n g c g' c' : nat) (rs rs' : list (wrule R)) (r : wrule R) (j k : nat) (x y : term),
    (forall i j, al i = al j -> i = j) -> plain rs -> linearize al n None rs g c = Ok (rs', g', c') ->
    r ∈ rs' -> j < k -> wbody r !! j = Some (Goal x) -> wbody r !! k = Some (Goal y) ->
    is_const x = false -> is_builtin x = false -> ~ unifiable x y.
Proof.
  intros R al n g c g' c' rs rs' r' j k x' y' Hal Hp H Hin Hjk Hx' Hy' Hc Hbu.
  destruct (linearize_marks R al n g c g' c' None rs rs' Hal H) as (M & (Hl & Hrs & Hone & Hmk & _) & Hdom).
  apply elem_of_list_lookup in Hin as [i Hr'].
  destruct (decide (i < length rs)) as [Hi|Hi].
  2: { pose proof (Hone i r' ltac:(lia) Hr') as H1. apply lookup_lt_Some in Hy'. lia. }
  destruct (lookup_lt_is_Some_2 rs i Hi) as [r Hr]. destruct (Hrs i r Hr) as [ρ Eρ].
  assert (Er : r' = rrename ρ (marked (M i) r)) by congruence.
  assert (Hx : exists x, wbody r !! j = Some (Goal x) /\ is_const x = false /\ is_builtin x = false).
  { rewrite Er in Hx'. cbn [wbody rrename rsub marked] in Hx'. change (@map (factor R) (factor R)) with (@fmap list _ (factor R) (factor R)) in Hx'.
    rewrite list_lookup_fmap, list_lookup_imap in Hx'. destruct (wbody r !! j) as [[v|x]|] eqn:Hx; [|cbn in Hx'|done].
    { cbn in Hx'. unfold mark in Hx'. by destruct (M i j). }
    exists x. split; [done|]. destruct (M i j) as [m|] eqn:Em.
    - destruct (proj1 (Hdom i r j Hr)) as (a & z & y & _ & Ha & Hy & (Hz1 & Hz2 & _) & σ & Hσ); [by eexists|].
      rewrite Hx in Hy. injection Hy as <-. destruct (Hmk i j m Em) as (_ & _ & r2 & f & args & Hr2 & Hb). rewrite Hr in Hr2. injection Hr2 as <-.
      rewrite Hx in Hb. injection Hb as ->. split; [done|].
      destruct (proj2 (Hp r (elem_of_list_lookup_2 _ _ _ Hr)) z) as [[v ->]|[[q ->]|(b & bs & ->)]]; [by apply elem_of_goals, (elem_of_list_lookup_2 _ a)|done|done|].
      destruct (proj2 (Hp r (elem_of_list_lookup_2 _ _ _ Hr)) (Fn (f :: args))) as [[v ?]|[[q ?]|(b' & bs' & [= -> ->])]]; [by apply elem_of_goals, (elem_of_list_lookup_2 _ j)|done|done|].
      cbn [sub map] in Hσ. injection Hσ as <- Hσ. apply (f_equal length) in Hσ. rewrite !map_length in Hσ. cbn in Hz2 |- *. by rewrite <- Hσ.
    - unfold mark in Hx'. rewrite Em in Hx'. cbn in Hx'. injection Hx' as <-. split; [by destruct x|].
      destruct x as [v|q|[|[v|q|ys] xs]]; try done. cbn in Hbu. rewrite map_length in Hbu. done. }
  destruct Hx as (x & Hx & H1 & H2).
  by apply (C32_linear R al n g c g' c' None rs rs' i j k r r' x x' y').
Qed.

(** It does not fail, if the names that it generates are new and no subgoal is a
    variable. *)
Theorem C32_returns :
  forall (R : semiring) (al : nat -> nat) (g c : nat) (driver : option term) (rs : list (wrule R)),
    (forall i j, al i = al j -> i = j) -> plain rs -> (forall r b v, r ∈ rs -> b ∈ goals (wbody r) -> b <> Var v) ->
    (forall r x j, r ∈ rs -> x = whead r \/ x ∈ goals (wbody r) -> g < j -> ~ gen_item j x) ->
    exists o n0, forall n, n0 <= n -> linearize al n driver rs g c = Ok o.
Proof.
  intros R al g c driver rs Hal Hp Hv Hg. destruct (find_tmps_settles driver rs 0) as [ts Hts].
  pose proof Hts as [n0 Hn0]. specialize (Hn0 n0 ltac:(lia)). pose proof (find_tmps_ok n0 driver rs 0 ts Hn0) as Hin.
  destruct (split_all_settles al Hal (wsyms rs) (dedup ts []) rs g c) as [o Ho].
  - intros j Hj Hs. unfold wsyms in Hs. apply elem_of_list_In, in_flat_map in Hs as (r & Hr%elem_of_list_In & Hs%elem_of_list_In).
    assert (Hfn : exists x, (x = whead r \/ x ∈ goals (wbody r)) /\ gname j ∈ fn_name x).
    { apply elem_of_app in Hs as [Hs|Hs]; [by exists (whead r); auto|]. apply elem_of_list_In, in_flat_map in Hs as (x & Hx%elem_of_list_In & Hs%elem_of_list_In). by exists x; auto. }
    destruct Hfn as (x & Hx & Hf). apply (Hg r x j Hr Hx Hj). apply gen_item_has; [lia|].
    destruct x as [|?|[|[|[]|] args]]; try (cbn in Hf; by apply elem_of_nil in Hf). apply elem_of_list_singleton in Hf. exists args. by rewrite Hf.
  - intros i k Hik. apply dedup_ok in Hik as [Hik _]. apply Hin in Hik as (q & r & a & x & y & -> & Hr & _ & Hx & Hy & (Hc & Hb & _) & σ & Hσ).
    pose proof (elem_of_list_lookup_2 _ _ _ Hr) as Hrin. assert (Hyin : y ∈ goals (wbody r)) by (by apply elem_of_goals, (elem_of_list_lookup_2 _ k)).
    destruct (proj2 (Hp r Hrin) y Hyin) as [[v ->]|[[p ->]|(f & args & ->)]].
    + by destruct (Hv r (Var v) v Hrin Hyin).
    + exfalso. destruct x as [| |]; [|done..]. done.
    + by exists r, (Cst f), args.
  - destruct (settles_bind _ (fun n ts => split_all al n (wsyms rs) (dedup ts []) rs g c) ts o Hts Ho) as [n1 H]. by exists o, n1.
Qed.

(** It fails for programs with a variable as a subgoal, if there is an ordinary
    subgoal before it: goal += f(X) * cost(Y,Z) * Z. *)
Definition l_var : list (wrule nat_sr) :=
  [WRule (u_t "goal" []) [Goal (u_t "f" [Var 0]); Goal (u_t "cost" [Var 1; Var 2]); Goal (Var 2)]].
Theorem C32_returns_refuted :
  plain l_var /\ (forall i j, u_al i = u_al j -> i = j) /\
  forall n, 20 <= n -> linearize u_al n None l_var 0 0 = Raise AttributeError.
Proof.
  split; [|split; [apply u_al_inj|]].
  - intros r Hr. unfold l_var in Hr. apply elem_of_list_singleton in Hr as ->. split; [by eexists _, _|]. cbn. intros b Hb.
    rewrite !elem_of_cons, elem_of_nil in Hb. destruct Hb as [-> | [->|[->|[]]]]; [right; right; by eexists _, _|right; right; by eexists _, _|left; by eexists].
  - intros n Hn. destruct (le_lt_dec 20 n); [|lia]. do 20 (destruct n as [|n]; [lia|]). vm_compute. reflexivity.
Qed.

(** *** A case that meets the hypotheses:
    s(X,Z) += s(X,Y) * s(Y,Z) * s(X,X).  s(X,Y) += w(X,Y) * 3. *)
Definition l_prog : list (wrule nat_sr) :=
  [WRule (u_t "s" [Var 0; Var 2]) [Goal (u_t "s" [Var 0; Var 1]); Goal (u_t "s" [Var 1; Var 2]); Goal (u_t "s" [Var 0; Var 0])];
   WRule (u_t "s" [Var 3; Var 4]) [Goal (u_t "w" [Var 3; Var 4]); Val (3 : nat_sr)]].
Definition l_base (x : term) : Prop := exists args, x = u_t "w" args.
Definition l_out (driver : option term) := u_get ([], 0, 0) (linearize u_al 20 driver l_prog 0 0).

Lemma l_derivation : exists t, wderives True l_prog l_base t /\ wroot t = Goal (u_t "s" [u_n 1; u_n 1]) /\ wvalue (fun _ => (2 : nat_sr)) t = 216.
Proof.
  pose (e := WNode 1 (u_t "s" [u_n 1; u_n 1]) [TLeaf (u_t "w" [u_n 1; u_n 1]); VLeaf (3 : nat_sr)]).
  assert (He : wderives True l_prog l_base e).
  { econstructor; [done| | |].
    - exists (fun _ => u_n 1). done.
    - intros _. constructor; [by intros v|]. constructor; [by intros v|constructor].
    - constructor; [constructor; by eexists|]. constructor; [constructor|constructor]. }
  exists (WNode 0 (u_t "s" [u_n 1; u_n 1]) [e; e; e]). split; [|by vm_compute]. econstructor; [done| | |].
  - exists (fun _ => u_n 1). done.
  - intros _. repeat (constructor; [by intros v|]). constructor.
  - by repeat constructor.
Qed.

Lemma l_plain : plain l_prog.
Proof.
  intros r Hr. unfold l_prog in Hr. rewrite !elem_of_cons, elem_of_nil in Hr. destruct Hr as [-> | [->|[]]]; (split; [by eexists _, _|]); cbn; intros b Hb;
    rewrite !elem_of_cons, elem_of_nil in Hb; right; right; destruct_or?; subst; by eexists _, _.
Qed.

Theorem C32_witness : forall driver, driver = None \/ driver = Some (u_t "s" [u_n 1; u_n 2]) -> exists n rs' g' c',
  linearize u_al n driver l_prog 0 0 = Ok (rs', g', c') /\ length rs' = 4 /\ g' = 2 /\
  (exists r, rs' !! 0 = Some r /\ exists x y z, wbody r = [Goal (u_t "s" x); Goal (u_t "$gen1" y); Goal (u_t "$gen2" z)]) /\
  plain l_prog /\ (forall x j, l_base x -> 0 < j -> ~ gen_item j x) /\
  same_meaning (wderives True l_prog l_base)
    (fun t => wderives True rs' l_base t /\ forall x j, wroot t = Goal x -> 0 < j <= g' -> ~ gen_item j x) /\
  exists t, wderives True l_prog l_base t /\ wroot t = Goal (u_t "s" [u_n 1; u_n 1]) /\ wvalue (fun _ => (2 : nat_sr)) t = 216.
Proof.
  intros driver Hd. exists 20, (fst (fst (l_out driver))), (snd (fst (l_out driver))), (snd (l_out driver)).
  assert (E : linearize u_al 20 driver l_prog 0 0 = Ok (fst (fst (l_out driver)), snd (fst (l_out driver)), snd (l_out driver))).
  { rewrite <- !surjective_pairing. apply u_ok. by destruct Hd as [-> | ->]; vm_compute. }
  assert (Hb : forall x j, l_base x -> 0 < j -> ~ gen_item j x) by (intros x j [args ->] _ [args' E']; discriminate).
  split; [exact E|]. split; [by destruct Hd as [-> | ->]; vm_compute|]. split; [by destruct Hd as [-> | ->]; vm_compute|].
  split; [|split; [exact l_plain|split; [exact Hb|split; [|exact l_derivation]]]].
  - destruct Hd as [-> | ->]; eexists; (split; [vm_compute; reflexivity|]); cbn [wbody]; eexists [_; _], [_; _], [_; _]; reflexivity.
  - exact (C32_values _ _ _ _ _ _ _ _ _ _ _ u_al_inj l_plain Hb E).
Qed.

Print Assumptions C32_values.
Print Assumptions C32_linear.
Print Assumptions C32_shape.
Print Assumptions C32_locally_linear.
Print Assumptions C32_returns.
Print Assumptions C32_returns_refuted.
Print Assumptions C32_witness.
