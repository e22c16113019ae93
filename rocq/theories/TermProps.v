(** Properties C01-C09: unification, substitutions, matching, renaming. *)
From stdpp Require Import gmap.
From Coq Require Import Lia.
From Coq Require String Ascii.
Import String.StringSyntax Ascii.AsciiSyntax.
From Verif Require Import PyBase TermModel TermSpec TermProofs UnifyProofs CoverProofs.

(** "for all sufficiently large fuel" *)
Definition eventually (Q : nat -> Prop) : Prop := exists n0, forall n, n0 <= n -> Q n.

Lemma eventually_and (P Q : nat -> Prop) :
  eventually P -> eventually Q -> eventually (fun n => P n /\ Q n).
Proof. intros [a Ha] [b Hb]. exists (max a b). intros n Hn. split; [apply Ha|apply Hb]; lia. Qed.

Lemma eventually_mono (P Q : nat -> Prop) :
  (forall n, P n -> Q n) -> eventually P -> eventually Q.
Proof. intros H [n0 H0]. exists n0. eauto. Qed.

(** A non-trivial example used by the witnesses: f(X, g(Y)) and f(h(Z), g(Z))
    with Z already bound to the constant 7. *)
Definition sym (s : String.string) : term := Cst (CStr s).
#[global] Arguments sym s%string_scope.
Definition ex_store : store := {[ 2 := Cst (CInt 7) ]}.
Definition ex_x : term := Fn [sym "f"; Var 0; Fn [sym "g"; Var 1]].
Definition ex_y : term := Fn [sym "f"; Fn [sym "h"; Var 2]; Fn [sym "g"; Var 2]].

(** Observe a loop's result: bindings as a list, client state, outcome. *)
Definition obs {T} (r : (store * T) * outcome) :=
  (map_to_list (fst (fst r)), snd (fst r), snd r).

Lemma ex_store_acyclic : acyclic ex_store.
Proof.
  exists (fun _ => 0). intros v t E. unfold ex_store in E.
  apply lookup_singleton_Some in E as [<- <-]. simpl. tauto.
Qed.

(** ------------------------------------------------------------------------ *)

Lemma unify_computes st x y :
  acyclic st ->
  exists n0 st' b, (forall n, n0 <= n -> unify_f n st x y = Ok (st', b)) /\
                   result (allvars st x y) st x y st' b.
Proof.
  intros Hac. apply (ugen_computes py_eq occurs_check py_eq_ok occurs_check_ok).
  - split; [done|apply allvars_st].
  - apply allvars_x.
  - apply allvars_y.
Qed.

(** C01.  Either x and y have a common solution together with the bindings in
    force, and then the body runs exactly once, in a store st' whose solutions
    are precisely the common ones (a most general unifier) and in which x and y
    deref to the same term and compare equal; or they have none and the body
    does not run.  (The client state [t] is arbitrary, so a body that logs its
    own execution is covered: the equation for the loop shows it is executed
    once, in st'.) *)
Theorem C01_unify_mgu :
  forall (st : store) (x y : term), acyclic st ->
  ( (exists σ, solves σ st /\ sub σ x = sub σ y) /\
    exists st',
      acyclic st' /\ st ⊆ st' /\
      (forall σ, solves σ st' <-> solves σ st /\ sub σ x = sub σ y) /\
      (exists z, eventually (fun n => deref n st' x = Ok z /\ deref n st' y = Ok z /\
                                      py_eq n st' x y = Ok true)) /\
      eventually (fun n => forall T (k : body T) (t : T),
        fst (fst (k (st', t))) = st' ->
        unify n x y k (st, t) = ((st, snd (fst (k (st', t)))), snd (k (st', t)))) )
  \/
  ( (~ exists σ, solves σ st /\ sub σ x = sub σ y) /\
    eventually (fun n => forall T (k : body T) (t : T), unify n x y k (st, t) = ((st, t), Done)) ).
Proof.
  intros st x y Hac.
  destruct (unify_computes st x y Hac) as (n0 & st' & b & Hn0 & [Hac' _] & [Hsub _] & Hr).
  destruct b.
  - left. destruct (acyclic_resolution st' Hac') as [θ Hθ].
    destruct (acyclic_weighted st' Hac') as [w Hw].
    assert (Heq : sub θ x = sub θ y) by (apply Hr, Hθ).
    split; [exists θ; by apply Hr, Hθ|].
    exists st'. split; [done|]. split; [done|]. split; [done|]. split.
    + exists (sub θ x). exists (tw w x + tw w y). intros n Hn.
      pose proof (tw_pos st' w x Hw). pose proof (tw_pos st' w y Hw).
      rewrite (deref_spec st' w θ Hw Hθ) by lia. rewrite (deref_spec st' w θ Hw Hθ) by lia.
      rewrite (py_eq_spec st' w θ Hw Hθ) by lia. rewrite Heq, term_eqb_refl. done.
    + exists n0. intros n Hn T k t Hk.
      pose proof (unify_cps n x y k st t) as Hc. rewrite Hn0 in Hc by done.
      destruct Hc as (trail & Hu & ->).
      destruct (k (st', t)) as [[s t'] o]. simpl in *. subst s. by rewrite Hu.
  - right. split.
    + intros (σ & H1 & H2). by apply (Hr σ).
    + exists n0. intros n Hn T k t.
      pose proof (unify_cps n x y k st t) as Hc. by rewrite Hn0 in Hc by done.
Qed.

(** The example: X := h(Z), Y := Z; the body is run (it sets the flag) and the
    store is put back. *)
Example C01_witness :
  acyclic ex_store /\
  obs (unify 10 ex_x ex_y (fun s => ((fst s, true), Done)) (ex_store, false))
  = ([(2, Cst (CInt 7))], true, Done) /\
  (* the bindings the body sees *)
  obs (unify 10 ex_x ex_y (fun s => ((fst s, map_to_list (fst s)), Done)) (ex_store, []))
  = ([(2, Cst (CInt 7))],
     [(0, Fn [sym "h"; Var 2]); (1, Cst (CInt 7)); (2, Cst (CInt 7))], Done).
Proof. split; [apply ex_store_acyclic|split; vm_compute; reflexivity]. Qed.

(** C02.  Whatever the terms, the bindings, the body's effects on its own state
    and the way it ends (normally, exception, break): if the body leaves the
    bindings as it found them, so does the loop; such loops can therefore be
    nested as bodies of each other. *)
Theorem C02_unify_undoes_bindings :
  forall T (n : nat) (x y : term) (k : body T),
  (forall st t, fst (fst (k (st, t))) = st) ->
  forall st t, fst (fst (unify n x y k (st, t))) = st.
Proof.
  intros T n x y k Hk st t. apply (unify_restores n x y k) with (s := (st, t)).
  intros [st1 t1]. apply Hk.
Qed.

(** Two nested loops whose innermost body raises: the heap is as before and the
    exception propagates. *)
Example C02_witness :
  obs (unify 10 (Var 5) (Fn [sym "a"])
        (unify 10 ex_x ex_y (fun s : store * unit => (s, Exc KeyError))) (ex_store, tt))
  = ([(2, Cst (CInt 7))], tt, Exc KeyError).
Proof. vm_compute. reflexivity. Qed.

(** C03.  unify always terminates from acyclic bindings, and only ever runs its
    body in acyclic stores (the body is assumed to return only for those); in an
    acyclic store deref, is_ground, term_vars and == terminate on every term. *)
Theorem C03_unify_terminates :
  forall (st : store) (x y : term), acyclic st ->
  eventually (fun n => forall T (k : body T) (t : T),
    (forall st' t', acyclic st' -> snd (k (st', t')) <> Fuel) ->
    snd (unify n x y k (st, t)) <> Fuel).
Proof.
  intros st x y Hac.
  destruct (unify_computes st x y Hac) as (n0 & st' & b & Hn0 & [Hac' _] & _).
  exists n0. intros n Hn T k t Hk.
  pose proof (unify_cps n x y k st t) as Hc. rewrite Hn0 in Hc by done.
  destruct b; [|by rewrite Hc].
  destruct Hc as (trail & _ & ->). specialize (Hk st' t Hac').
  by destruct (k (st', t)) as [[s t'] o].
Qed.

Theorem C03_readers_terminate :
  forall (st : store) (x y : term), acyclic st ->
  eventually (fun n =>
    (exists z, deref n st x = Ok z) /\ (exists b, is_ground n st x = Ok b) /\
    (exists vs, term_vars n st x [] = Ok vs) /\ (exists b, py_eq n st x y = Ok b)).
Proof.
  intros st x y Hac. destruct (acyclic_resolution st Hac) as [θ Hθ].
  destruct (acyclic_weighted st Hac) as [w Hw].
  exists (tw w x + tw w y). intros n Hn.
  pose proof (tw_pos st w y Hw).
  rewrite (deref_spec st w θ Hw Hθ) by lia. rewrite (is_ground_spec st w θ Hw Hθ) by lia.
  rewrite (term_vars_spec st w θ Hw Hθ) by lia. rewrite (py_eq_spec st w θ Hw Hθ) by lia.
  eauto 10.
Qed.

(** The occurs check at work: X = f(X) fails rather than building a cycle. *)
Example C03_witness :
  obs (unify 10 (Var 0) (Fn [sym "f"; Var 0]) (fun s => ((fst s, true), Done)) (∅, false))
  = ([], false, Done).
Proof. vm_compute. reflexivity. Qed.

(** ------------------------------------------------------------------------ *)

Lemma sapply_deref n s x : sapply n s x = deref n s x.
Proof.
  revert x. induction n as [|n IH]; intros x; [done|].
  simpl. destruct x as [v|c|xs]; [by destruct (s !! v)|done|].
  assert (mapM (sapply n s) xs = mapM (deref n s) xs) as ->; [|done].
  induction xs as [|x xs IHxs]; [done|]. simpl. by rewrite IH, IHxs.
Qed.

(** C04.  s.mgu(x, y) succeeds iff there is a substitution that satisfies the
    bindings in s and unifies x and y; then the result's solutions are exactly
    those (so it is most general), applying it makes x and y equal, and it is
    acyclic. *)
Theorem C04_mgu :
  forall (s : subst) (x y : term), acyclic s ->
  ( (exists σ, solves σ s /\ sub σ x = sub σ y) /\
    exists s', eventually (fun n => mgu n s x y = Ok (s', true)) /\
      acyclic s' /\ s ⊆ s' /\
      (forall σ, solves σ s' <-> solves σ s /\ sub σ x = sub σ y) /\
      exists z, eventually (fun n => sapply n s' x = Ok z /\ sapply n s' y = Ok z) )
  \/
  ( (~ exists σ, solves σ s /\ sub σ x = sub σ y) /\
    exists s', eventually (fun n => mgu n s x y = Ok (s', false)) ).
Proof.
  intros s x y Hac.
  destruct (ugen_computes _ _ term_eqb_ok occur_check_ok (allvars s x y) s x y)
    as (n0 & s' & b & Hn0 & [Hac' _] & [Hsub _] & Hr).
  { split; [done|apply allvars_st]. } { apply allvars_x. } { apply allvars_y. }
  destruct b.
  - left. destruct (acyclic_resolution s' Hac') as [θ Hθ].
    destruct (acyclic_weighted s' Hac') as [w Hw].
    assert (Heq : sub θ x = sub θ y) by (apply Hr, Hθ).
    split; [exists θ; by apply Hr, Hθ|].
    exists s'. split; [exists n0; intros n Hn; rewrite mgu_ugen; by apply Hn0|].
    split; [done|]. split; [done|]. split; [done|].
    exists (sub θ x). exists (tw w x + tw w y). intros n Hn. rewrite !sapply_deref.
    rewrite (deref_spec s' w θ Hw Hθ) by lia. rewrite (deref_spec s' w θ Hw Hθ) by lia.
    by rewrite Heq.
  - right. split.
    + intros (σ & H1 & H2). by apply (Hr σ).
    + exists s', n0. intros n Hn. rewrite mgu_ugen. by apply Hn0.
Qed.

Example C04_witness :
  acyclic ex_store /\
  (let* (s, ok) := mgu 10 ex_store ex_x ex_y in Ok (map_to_list s, ok)) =
    Ok ([(0, Fn [sym "h"; Var 2]); (1, Cst (CInt 7)); (2, Cst (CInt 7))], true).
Proof. split; [apply ex_store_acyclic|vm_compute; reflexivity]. Qed.

(** C05.  For terms without common variables, covers(x, y) decides whether y is
    an instance of x, and the substitution it builds maps x to y. *)
Theorem C05_covers_subsumption :
  forall (x y : term), disjoint_vars x y ->
  exists s b,
    eventually (fun n => cover n ∅ x y = Ok (s, b) /\ covers n x y = Ok b) /\
    (b = true <-> instance_of x y) /\
    (b = true -> sub (fun v => default (Var v) (s !! v)) x = y).
Proof.
  intros x y Hd.
  destruct (covers_spec (tsize y) x y Hd) as (s & b & E & Hb & Hs); [lia|].
  exists s, b. split; [|done].
  exists (tsize y). intros n Hn.
  destruct (covers_spec n x y Hd Hn) as (s1 & b1 & E1 & Hb1 & Hs1).
  rewrite (cover_mono (tsize y) n ∅ x y _ E Hn). split; [done|].
  unfold covers. by rewrite (cover_mono (tsize y) n ∅ x y _ E Hn).
Qed.

(** f(X, Y) covers f(g(Z), 3); f(X, X) does not. *)
Example C05_witness :
  disjoint_vars (Fn [sym "f"; Var 0; Var 1]) (Fn [sym "f"; Fn [sym "g"; Var 2]; Cst (CInt 3)]) /\
  covers 10 (Fn [sym "f"; Var 0; Var 1]) (Fn [sym "f"; Fn [sym "g"; Var 2]; Cst (CInt 3)]) = Ok true /\
  covers 10 (Fn [sym "f"; Var 0; Var 0]) (Fn [sym "f"; Fn [sym "g"; Var 2]; Cst (CInt 3)]) = Ok false.
Proof.
  split; [|split; reflexivity]. intros v Hv Hw. simpl in *. lia.
Qed.

(** C06.  canonicalize(x) == canonicalize(y) iff (what the bindings make of) x
    and y are equal up to a one-to-one renaming. *)
Theorem C06_canonicalize_variant :
  forall (cv : nat -> nat) (st : store) (θ : nat -> term) (x y : term),
  (forall i j, cv i = cv j -> i = j) -> acyclic st -> resolution st θ ->
  exists x' y',
    eventually (fun n => canonicalize cv n st x = Ok x' /\ canonicalize cv n st y = Ok y') /\
    (x' = y' <-> variant (sub θ x) (sub θ y)) /\
    variant (sub θ x) x'.
Proof.
  intros cv st θ x y Hcv Hac Hθ. destruct (acyclic_weighted st Hac) as [w Hw].
  exists (canonical cv (sub θ x)), (canonical cv (sub θ y)). split; [|split].
  - exists (S (tw w x + tw w y)). intros n Hn.
    split; apply (canonicalize_spec st w θ); try done; lia.
  - by apply canonical_iff.
  - by apply canonical_variant.
Qed.

(** canonicalize is idempotent (interned canonical variables are never bound). *)
Theorem C06_canonicalize_idempotent :
  forall (cv : nat -> nat) (st : store) (x x' : term),
  (forall i j, cv i = cv j -> i = j) -> acyclic st -> (forall i, st !! cv i = None) ->
  eventually (fun n => canonicalize cv n st x = Ok x') ->
  eventually (fun n => canonicalize cv n st x' = Ok x').
Proof.
  intros cv st x x' Hcv Hac Hcvu [n0 Hn0].
  destruct (acyclic_resolution st Hac) as [θ Hθ].
  destruct (acyclic_weighted st Hac) as [w Hw].
  assert (x' = canonical cv (sub θ x)) as ->.
  { specialize (Hn0 (n0 + S (tw w x)) ltac:(lia)).
    rewrite (canonicalize_spec st w θ) in Hn0 by (done || lia). congruence. }
  exists (S (tw w (canonical cv (sub θ x)))). intros n Hn.
  rewrite (canonicalize_spec st w θ) by (done || lia). f_equal.
  assert (sub θ (canonical cv (sub θ x)) = canonical cv (sub θ x)) as ->;
    [|by apply canonical_idemp].
  rewrite <- (sub_Var (canonical cv (sub θ x))) at 2. apply sub_ext.
  intros v Hv. unfold canonical in Hv. rewrite vars_rename in Hv.
  apply in_map_iff in Hv as (u & <- & _). by apply (proj2 Hθ).
Qed.

(** On terms without common variables, same(x, y) decides "equal up to a
    one-to-one renaming". *)
Theorem C06_same_variant :
  forall (x y : term), disjoint_vars x y ->
  exists b, eventually (fun n => same n x y = Ok b) /\ (b = true <-> variant x y).
Proof.
  intros x y Hd.
  assert (Hd' : disjoint_vars y x) by (intros v H1 H2; by apply (Hd v)).
  destruct (C05_covers_subsumption x y Hd) as (s1 & b1 & H1 & Hb1 & _).
  destruct (C05_covers_subsumption y x Hd') as (s2 & b2 & H2 & Hb2 & _).
  exists (b1 && b2). split.
  - destruct (eventually_and _ _ H1 H2) as [n0 H]. exists n0. intros n Hn.
    destruct (H n Hn) as [[_ E1] [_ E2]]. unfold same. rewrite E1. simpl.
    destruct b1; [|done]. by rewrite E2.
  - rewrite andb_true_iff, Hb1, Hb2. split.
    + intros []. by apply mutual_instance_variant.
    + intros H. split; apply variant_instance; [done|by apply variant_sym].
Qed.

Example C06_witness :
  disjoint_vars (Fn [sym "f"; Var 3; Var 4; Var 3]) (Fn [sym "f"; Var 9; Var 1; Var 9]) /\
  same 10 (Fn [sym "f"; Var 3; Var 4; Var 3]) (Fn [sym "f"; Var 9; Var 1; Var 9]) = Ok true /\
  canonicalize (fun i => i + 100) 10 ∅ (Fn [sym "f"; Var 3; Var 4; Var 3])
  = Ok (Fn [sym "f"; Var 100; Var 101; Var 100]) /\
  canonicalize (fun i => i + 100) 10 ∅ (Fn [sym "f"; Var 3; Var 4; Var 4])
  = Ok (Fn [sym "f"; Var 100; Var 101; Var 101]).
Proof. split; [intros v H1 H2; simpl in *; lia|]. split_and!; reflexivity. Qed.

(** C07.  With shared variables the docstring's equivalence fails in both
    directions: for x = f(X, X), y = f(X, Y), same(x, y) holds although they
    are not variants and their canonical forms differ; and f(X) is an instance
    of X that covers(X, f(X)) rejects. *)
Theorem C07_same_unsound_with_shared_variables :
  exists x y,
    (forall n, 10 <= n -> same n x y = Ok true) /\ ~ variant x y /\ ~ instance_of x y /\
    (forall cv, (forall i j, cv i = cv j -> i = j) ->
       exists x' y', x' <> y' /\
         eventually (fun n => canonicalize cv n ∅ x = Ok x' /\ canonicalize cv n ∅ y = Ok y')).
Proof.
  exists (Fn [sym "f"; Var 0; Var 0]), (Fn [sym "f"; Var 0; Var 1]).
  assert (Hni : ~ instance_of (Fn [sym "f"; Var 0; Var 0]) (Fn [sym "f"; Var 0; Var 1])).
  { intros [σ H]. simpl in H. injection H. congruence. }
  split; [|split; [|split]].
  - intros n Hn. do 10 (destruct n as [|n]; [lia|]). reflexivity.
  - intros H. by apply Hni, variant_instance.
  - done.
  - intros cv Hcv.
    exists (canonical cv (Fn [sym "f"; Var 0; Var 0])), (canonical cv (Fn [sym "f"; Var 0; Var 1])).
    split.
    + intros E. apply canonical_iff in E; [|done]. by apply Hni, variant_instance.
    + assert (Hw : weighted ∅ (fun _ => 1)) by (split; [lia|intros ? ?; by rewrite lookup_empty]).
      assert (Hr : resolution ∅ Var) by (split; [intros ? ?; by rewrite lookup_empty|done]).
      exists 20. intros n Hn.
      split; (rewrite (canonicalize_spec ∅ (fun _ => 1) Var); [by rewrite sub_Var|done|done|simpl; lia]).
Qed.

Theorem C07_covers_incomplete_with_shared_variables :
  exists x y, instance_of x y /\ forall n, 10 <= n -> covers n x y = Ok false.
Proof.
  exists (Var 0), (Fn [sym "f"; Var 0]). split.
  - by exists (fun _ => Fn [sym "f"; Var 0]).
  - intros n Hn. do 10 (destruct n as [|n]; [lia|]). reflexivity.
Qed.

(** C08.  fresh(x) is deref(x) with its free variables renamed one-to-one to
    newly allocated ones.  [al j] is the identity of the j-th variable object the
    runtime has not allocated yet; [c] of them are used up before the call and
    [c'] after it. *)
Theorem C08_fresh_renames_apart :
  forall (al : nat -> nat) (st : store) (θ : nat -> term) (c : nat) (x : term),
  (forall i j, al i = al j -> i = j) -> acyclic st -> resolution st θ ->
  exists y c',
    eventually (fun n => fresh al n st c x = Ok (y, c')) /\
    variant (sub θ x) y /\ c <= c' /\
    (forall v, In v (vars y) -> exists j, v = al j /\ c <= j < c').
Proof.
  intros al st θ c x Hal Hac Hθ. destruct (acyclic_weighted st Hac) as [w Hw].
  destruct (fresh_spec al Hal st w θ Hw Hθ (tw w x) c x) as (ρ & c' & E & Hc & Hρ & Hv); [lia|].
  exists (rename ρ (sub θ x)), c'. split; [|split; [|split]].
  - exists (tw w x). intros n Hn. by eapply fresh_mono.
  - by exists ρ.
  - done.
  - intros v Hin. rewrite vars_rename in Hin. apply in_map_iff in Hin as (u & <- & Hu).
    by apply Hv.
Qed.

(** f(X, g(Z), Y, X) with Z bound to 7: X, Y are renamed, Z is replaced. *)
Example C08_witness :
  acyclic ex_store /\
  fresh (fun j => 50 + j) 10 ex_store 0 (Fn [sym "f"; Var 0; Fn [sym "g"; Var 2]; Var 1; Var 0])
  = Ok (Fn [sym "f"; Var 50; Fn [sym "g"; Cst (CInt 7)]; Var 51; Var 50], 2).
Proof. split; [apply ex_store_acyclic|reflexivity]. Qed.

(** C09.  With θ the meaning of the bindings: deref computes θ(x), which has no
    bound variable; deref is idempotent; is_ground decides whether it has no
    variable; term_vars lists its variables once each, in order of first
    occurrence; == decides whether both sides have the same meaning. *)
Theorem C09_binding_readers :
  forall (st : store) (θ : nat -> term) (x y : term), acyclic st -> resolution st θ ->
  eventually (fun n => deref n st x = Ok (sub θ x)) /\
  (forall v, In v (vars (sub θ x)) -> st !! v = None) /\
  eventually (fun n => deref n st (sub θ x) = Ok (sub θ x)) /\
  (exists b, eventually (fun n => is_ground n st x = Ok b) /\ (b = true <-> ground (sub θ x))) /\
  (exists b, eventually (fun n => py_eq n st x y = Ok b) /\ (b = true <-> sub θ x = sub θ y)) /\
  (exists vs, eventually (fun n => term_vars n st x [] = Ok vs) /\
     List.NoDup vs /\ (forall v, In v vs <-> In v (vars (sub θ x))) /\
     (* order of first occurrence: the list is obtained by scanning the
        variables from left to right and keeping each one not yet seen *)
     vs = fold_left (fun seen v => if in_dec Nat.eq_dec v seen then seen else seen ++ [v])
                    (vars (sub θ x)) []) /\
  (exists x', eventually (fun n => snap n st x = Ok x') /\ sub θ x' = sub θ x /\
     forall v, x' = Var v -> st !! v = None).
Proof.
  intros st θ x y Hac Hθ. destruct (acyclic_weighted st Hac) as [w Hw].
  split; [|split; [|split; [|split; [|split; [|split]]]]].
  - exists (tw w x). intros n Hn. by apply (deref_spec st w θ).
  - intros v. by apply resolution_sub_vars_unbound.
  - exists (tw w (sub θ x)). intros n Hn. rewrite (deref_spec st w θ) by done.
    by rewrite (resolution_idemp st).
  - exists (bool_decide (ground (sub θ x))). split; [|by apply bool_decide_eq_true].
    exists (tw w x). intros n Hn. by apply (is_ground_spec st w θ).
  - exists (term_eqb (sub θ x) (sub θ y)). split; [|by apply term_eqb_true].
    exists (tw w x + tw w y). intros n Hn. by apply (py_eq_spec st w θ).
  - exists (collect [] (vars (sub θ x))). split; [|split; [|split]].
    + exists (tw w x). intros n Hn. by apply (term_vars_spec st w θ).
    + apply collect_NoDup. constructor.
    + intros v. rewrite collect_In. naive_solver.
    + assert (Hc : forall l acc, collect acc l =
        fold_left (fun seen v => if in_dec Nat.eq_dec v seen then seen else seen ++ [v]) l acc).
      { induction l as [|v l IH]; intros acc; [done|]. simpl. rewrite IH. f_equal.
        rewrite oset_add_find. destruct (in_dec Nat.eq_dec v acc) as [Hin|Hin].
        - destruct (list_find_eq_In _ _ Hin) as [i Hi]. by rewrite Hi.
        - destruct (list_find (eq v) acc) as [[i u]|] eqn:E; [|done].
          apply list_find_eq_snd in E as [_ ?]. done. }
      apply Hc.
  - destruct (snap_spec st w θ Hw Hθ (tw w x) x) as (x' & E & H1 & H2 & H3 & _); [lia|].
    exists x'. split; [|done]. exists (tw w x). intros n Hn.
    assert (Hmono : forall n m x r, snap n st x = Ok r -> n <= m -> snap m st x = Ok r).
    { clear. induction n as [|n IH]; intros m x r; [done|]. intros H Hm.
      destruct m as [|m]; [lia|]. revert H. simpl. destruct x as [v|d|xs]; [|done|done].
      destruct (st !! v); [|done]. intros H. eapply IH; [done|lia]. }
    by eapply Hmono.
Qed.

Example C09_witness :
  acyclic ex_store /\ (exists θ, resolution ex_store θ) /\
  deref 10 ex_store ex_y = Ok (Fn [sym "f"; Fn [sym "h"; Cst (CInt 7)]; Fn [sym "g"; Cst (CInt 7)]]) /\
  is_ground 10 ex_store ex_y = Ok true /\ is_ground 10 ex_store ex_x = Ok false /\
  term_vars 10 ex_store ex_x [] = Ok [0; 1].
Proof.
  split; [apply ex_store_acyclic|]. split; [apply acyclic_resolution, ex_store_acyclic|].
  split_and!; reflexivity.
Qed.

Print Assumptions C01_unify_mgu.
Print Assumptions C02_unify_undoes_bindings.
Print Assumptions C03_unify_terminates.
Print Assumptions C03_readers_terminate.
Print Assumptions C04_mgu.
Print Assumptions C05_covers_subsumption.
Print Assumptions C06_canonicalize_variant.
Print Assumptions C06_canonicalize_idempotent.
Print Assumptions C06_same_variant.
Print Assumptions C07_same_unsound_with_shared_variables.
Print Assumptions C07_covers_incomplete_with_shared_variables.
Print Assumptions C08_fresh_renames_apart.
Print Assumptions C09_binding_readers.
