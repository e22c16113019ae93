(** Properties C14-C16: rules and programs up to renaming and reordering. *)
From stdpp Require Import gmap.
From Coq Require Import Permutation Lia ZArith.
From Coq Require String Ascii.
Import String.StringSyntax Ascii.AsciiSyntax.
From Verif Require Import PyBase TermModel TermSpec TermProofs UnifyProofs CoverProofs TermProps
  SetsModel SetsSpec SetsProofs SetsProps RuleSpec RuleProofs.

(** What is assumed about Python's hash on rule signatures: it does not depend on
    the order of the elements of the bag. *)
Definition bag_hash (hash : term * list term -> Z) : Prop :=
  forall h b b', Permutation b b' -> hash (h, b) = hash (h, b').

(** The hashes of the signatures of the two rules do not collide when their
    bodies have different lengths. *)
Definition no_length_collision (cv : nat -> nat) (hash : term * list term -> Z) (r s : rule) : Prop :=
  forall a b, eventually (fun n => rule_signature cv n r = Ok a) ->
    eventually (fun n => rule_signature cv n s = Ok b) ->
    hash a = hash b -> length (rbody r) = length (rbody s).

Lemma no_length_collision_rsig cv hash r s :
  no_length_collision cv hash r s ->
  hash (rsig cv r) = hash (rsig cv s) -> length (rbody r) = length (rbody s).
Proof. intros H. apply H; apply rule_signature_settles. Qed.

(** C14.  r.same(s) always returns; it returns True only if s is r with its
    variables renamed one-to-one and its subgoals reordered, and it returns True
    whenever that is the case and r has no subgoal that is a bare variable.  The
    rules may share variables: al enumerates the variables that fresh allocates,
    and the ones from c on do not occur in r. *)
Theorem C14_rule_same :
  forall (al cv : nat -> nat) (hash : term * list term -> Z) (c : nat) (r s : rule),
    (forall i j, al i = al j -> i = j) -> bag_hash hash ->
    (forall j, c <= j -> ~ In (al j) (rule_vars r)) ->
    no_length_collision cv hash r s ->
    exists b, eventually (fun n => rule_same al cv hash n c false r s = Ok b) /\
      (b = true -> rule_variant r s) /\
      (no_bare_vars r -> rule_variant r s -> b = true).
Proof.
  intros al cv hash c r s Hal Hh Hc Hl.
  exact (rule_same_spec al cv Hal hash Hh c r s Hc (no_length_collision_rsig _ _ _ _ Hl)).
Qed.

Theorem C14_same_object :
  forall al cv hash n c r, rule_same al cv hash n c true r r = Ok true /\ rule_variant r r.
Proof. intros. split; [done|]. apply rule_variant_refl. Qed.

(** The relation decided is an equivalence. *)
Theorem C14_equivalence :
  (forall r, rule_variant r r) /\
  (forall r s, rule_variant r s -> rule_variant s r) /\
  (forall r s t, rule_variant r s -> rule_variant s t -> rule_variant r t).
Proof.
  split; [apply rule_variant_refl|]. split; [apply rule_variant_sym|apply rule_variant_trans].
Qed.

(** An order-independent hash for the examples: it counts the subgoals and sums
    the sizes of the terms. *)
Definition ex_hash (x : term * list term) : Z :=
  (Z.of_nat (length (snd x)) + 1000 * Z.of_nat (list_sum (map tsize (fst x :: snd x))))%Z.

Lemma ex_hash_bag : bag_hash ex_hash.
Proof.
  intros h b b' Hp. unfold ex_hash. simpl. rewrite (Permutation_length Hp).
  do 4 f_equal. induction Hp; simpl; lia.
Qed.

Definition g2 (f : String.string) (x y : term) : term := Fn [sym f; x; y].
Arguments g2 _%string_scope _ _.
Definition ex_r : rule := Rule (g2 "s" (Var 101) (Var 103)) [g2 "e" (Var 101) (Var 105); g2 "s" (Var 105) (Var 103)].
Definition ex_s : rule := Rule (g2 "s" (Var 103) (Var 105)) [g2 "s" (Var 101) (Var 105); g2 "e" (Var 103) (Var 101)].

Example C14_witness :
  (forall i j, ex_al i = ex_al j -> i = j) /\ bag_hash ex_hash /\
  (forall j, 0 <= j -> ~ In (ex_al j) (rule_vars ex_r)) /\
  no_length_collision ex_cv ex_hash ex_r ex_s /\ no_bare_vars ex_r /\ rule_variant ex_r ex_s /\
  rule_same ex_al ex_cv ex_hash 20 0 false ex_r ex_s = Ok true /\
  rule_same ex_al ex_cv ex_hash 20 0 false ex_r
    (Rule (g2 "s" (Var 3) (Var 5)) [g2 "s" (Var 1) (Var 5); g2 "e" (Var 1) (Var 3)]) = Ok false.
Proof.
  split; [unfold ex_al; lia|]. split; [exact ex_hash_bag|]. split.
  { intros j _ H. unfold ex_al in H. simpl in H. lia. }
  split; [intros a b _ _ _; done|]. split.
  { intros t H [v ->]. simpl in H. naive_solver. }
  split; [|split; vm_compute; reflexivity].
  exists (fun v => if Nat.eqb v 101 then 103 else if Nat.eqb v 103 then 105 else 101).
  split; [|split; [reflexivity|apply perm_swap]].
  intros v w Hv Hw. simpl in Hv, Hw.
  assert (Hv' : v = 101 \/ v = 103 \/ v = 105) by naive_solver.
  assert (Hw' : w = 101 \/ w = 103 \/ w = 105) by naive_solver.
  destruct Hv' as [->|[->| ->]], Hw' as [->|[->| ->]]; simpl; done.
Qed.

(** The restriction to rules without bare-variable subgoals is needed: the
    signature of such a subgoal is the variable itself, so two variants of the
    same rule have different signatures, and same returns False whenever the
    hashes differ as well. *)
Theorem C14_bare_variable_refuted :
  exists (hash : term * list term -> Z) (r s : rule),
    bag_hash hash /\ no_length_collision ex_cv hash r s /\ rule_variant r s /\
    (forall j, 0 <= j -> ~ In (ex_al j) (rule_vars r)) /\
    eventually (fun n => rule_same ex_al ex_cv hash n 0 false r s = Ok false).
Proof.
  set (wt := fix wt (t : term) : nat :=
         match t with Var v => v | Cst _ => 1 | Fn xs => list_sum (map wt xs) end).
  exists (fun x => Z.of_nat (list_sum (map wt (fst x :: snd x)))),
         (Rule (Fn [sym "f"; Var 1]) [Var 1]), (Rule (Fn [sym "f"; Var 3]) [Var 3]).
  split; [|split; [|split; [|split]]].
  - intros h b b' Hp. simpl. do 2 f_equal. induction Hp; simpl; lia.
  - intros a b _ _ _. done.
  - exists (fun v => if Nat.eqb v 1 then 3 else v). split; [|split; reflexivity].
    intros v w Hv Hw. simpl in Hv, Hw.
    assert (v = 1) as -> by naive_solver. assert (w = 1) as -> by naive_solver. done.
  - intros j _ H. unfold ex_al in H. simpl in H. lia.
  - exists 20. intros n Hn. replace n with (20 + (n - 20)) by lia. generalize (n - 20). intros m.
    vm_compute. reflexivity.
Qed.

(** So is the restriction on hash collisions: when the hashes of a rule with an
    empty body and of a rule with a non-empty body collide, they are the same. *)
Theorem C14_collision_refuted :
  exists (hash : term * list term -> Z) (r s : rule),
    bag_hash hash /\ ~ rule_variant r s /\
    eventually (fun n => rule_same ex_al ex_cv hash n 0 false r s = Ok true).
Proof.
  exists (fun _ => 0%Z), (Rule (sym "a") []), (Rule (sym "a") [sym "b"]).
  split; [done|]. split.
  - intros (ρ & _ & _ & Hp). simpl in Hp. symmetry in Hp. by apply Permutation_nil in Hp.
  - exists 20. intros n Hn. replace n with (20 + (n - 20)) by lia. generalize (n - 20). intros m.
    vm_compute. reflexivity.
Qed.

(** The setting of C15: sig, sm are the values returned by Rule.signature and
    Rule.same on the rules of the two programs. *)
Definition rule_functions (al cv : nat -> nat) (hash : term * list term -> Z) (l : list rule)
  (sig : rule -> term * list term) (sm : rule -> rule -> bool) : Prop :=
  (forall i j, al i = al j -> i = j) /\ bag_hash hash /\
  (forall r, In r l -> no_bare_vars r /\ eventually (fun n => rule_signature cv n r = Ok (sig r))) /\
  (forall r s, In r l -> In s l -> no_length_collision cv hash r s /\
     exists c, (forall j, c <= j -> ~ In (al j) (rule_vars r)) /\
       eventually (fun n => rule_same al cv hash n c false r s = Ok (sm r s))).

Lemma rule_functions_spec al cv hash l sig sm :
  rule_functions al cv hash l sig sm ->
  (forall r s, In r l -> In s l -> (sm r s = true <-> rule_variant r s)) /\
  (forall r, In r l -> sig r = rsig cv r).
Proof.
  intros (Hal & Hb & Hs & Hsm). split.
  - intros r s Hr Hs'. destruct (Hsm r s Hr Hs') as (Hl & c & Hc & [n1 H1]).
    destruct (C14_rule_same al cv hash c r s Hal Hb Hc Hl) as (b & [n2 H2] & Hb1 & Hb2).
    assert (b = sm r s) as ->.
    { specialize (H1 (max n1 n2)). specialize (H2 (max n1 n2)). rewrite H1 in H2 by lia.
      assert (Ok (sm r s) = Ok b) as [= ->] by (apply H2; lia). done. }
    split; [done|]. apply Hb2. by apply Hs.
  - intros r Hr. destruct (proj2 (Hs r Hr)) as [n1 H1].
    destruct (rule_signature_settles cv r) as [n2 H2].
    specialize (H1 (max n1 n2)). specialize (H2 (max n1 n2)). rewrite H1 in H2 by lia.
    assert (Ok (sig r) = Ok (rsig cv r)) as [= ->] by (apply H2; lia). done.
Qed.

(** C15.  p == q returns True exactly when there is a one-to-one alignment of
    the rules of p with the rules of q that pairs rules which are equal up to
    renaming and reordering. *)
Theorem C15_program_equality :
  forall al cv hash sig sm (P Q : list rule),
    rule_functions al cv hash (P ++ Q) sig sm ->
    prog_eq sig (fun r => hash (sig r)) sm P Q = true <-> aligned rule_variant P Q.
Proof.
  intros al cv hash sig sm P Q Hrf.
  destruct (rule_functions_spec _ _ _ _ _ _ Hrf) as [Hsm Hsig].
  destruct Hrf as (_ & Hbag & Hnb & _).
  assert (HD : forall x, In x P \/ In x Q -> In x (P ++ Q)) by (intros; by apply in_or_app).
  assert (Hh : forall x y, In x (P ++ Q) -> In y (P ++ Q) -> rule_variant x y -> sig_same (sig x) (sig y)).
  { intros x y Hx Hy Hv. rewrite !Hsig by done. apply variant_sig; [by apply Hnb|done]. }
  assert (Hh' : forall x y, In x (P ++ Q) -> In y (P ++ Q) -> rule_variant x y -> hash (sig x) = hash (sig y)).
  { intros x y Hx Hy Hv. destruct (Hh x y Hx Hy Hv) as [E Hp].
    destruct (sig x), (sig y); simpl in *; subst. by apply Hbag. }
  unfold prog_eq. rewrite !andb_true_iff, Nat.eqb_eq. split.
  - intros [[Hl _] H]. revert H. apply bucket_equal_spec with (D := fun x => In x (P ++ Q));
      eauto using rule_variant_refl, rule_variant_sym, rule_variant_trans.
  - intros H. pose proof (aligned_length _ _ _ H) as Hl. split; [split; [done|]|].
    + apply bag_sigs_aligned. revert H. apply aligned_map. intros x y Hx Hy. apply Hh; apply in_or_app; auto.
    + revert H. apply bucket_equal_spec with (D := fun x => In x (P ++ Q));
        eauto using rule_variant_refl, rule_variant_sym, rule_variant_trans.
Qed.

(** p.align(q): it lists every rule of p once, in order, and every rule of q
    once; it only pairs rules that are equal up to renaming and reordering; no
    unpaired rule of p is equal to an unpaired rule of q; and it leaves nothing
    unpaired exactly when a one-to-one alignment exists. *)
Theorem C15_align :
  forall al cv hash sig sm (P Q : list rule),
    rule_functions al cv hash (P ++ Q) sig sm ->
    let a := align (fun r => hash (sig r)) sm P Q in
    omap fst a = seq 0 (length P) /\
    Permutation (omap snd a) (seq 0 (length Q)) /\
    (forall i j, In (Some i, Some j) a ->
       exists r s, nth_error P i = Some r /\ nth_error Q j = Some s /\ rule_variant r s) /\
    (forall i j r s, In (Some i, None) a -> In (None, Some j) a ->
       nth_error P i = Some r -> nth_error Q j = Some s -> ~ rule_variant r s) /\
    ((forall p, In p a -> fst p <> None /\ snd p <> None) <-> aligned rule_variant P Q).
Proof.
  intros al cv hash sig sm P Q Hrf a.
  destruct (rule_functions_spec _ _ _ _ _ _ Hrf) as [Hsm Hsig].
  destruct Hrf as (_ & Hbag & Hnb & _).
  assert (HD : forall x, In x P \/ In x Q -> In x (P ++ Q)) by (intros; by apply in_or_app).
  assert (Hh' : forall x y, In x (P ++ Q) -> In y (P ++ Q) -> rule_variant x y -> hash (sig x) = hash (sig y)).
  { intros x y Hx Hy Hv. rewrite !Hsig by done.
    destruct (variant_sig cv x y) as [E Hp]; [by apply Hnb|done|].
    destruct (rsig cv x), (rsig cv y); simpl in *; subst. by apply Hbag. }
  split; [apply align_go_fst|]. split; [apply align_go_snd, seq_NoDup|]. split; [|split].
  - intros i j Hin. destruct (align_go_pair _ _ _ _ _ _ _ _ Hin) as (r & s & _ & Hr & Hs & E).
    rewrite Nat.sub_0_r in Hr. exists r, s. split; [done|]. split; [done|].
    apply Hsm; [apply in_or_app; left|apply in_or_app; right|done]; by eapply nth_error_In.
  - intros i j r s H1 H2 Hr Hs.
    eapply (align_go_unmatched rule_variant (fun x => In x (P ++ Q)) sm Hsm _ Hh' Q 0 P _ i j r s (seq_NoDup _ _) HD H1 H2);
      [by rewrite Nat.sub_0_r|done|lia].
  - split.
    + intros H. pose proof (perfect_length _ _ _ _ H) as Hl. revert H.
      apply align_perfect with (D := fun x => In x (P ++ Q));
        eauto using rule_variant_refl, rule_variant_sym, rule_variant_trans.
    + intros H. pose proof (aligned_length _ _ _ H) as Hl. revert H.
      apply align_perfect with (D := fun x => In x (P ++ Q));
        eauto using rule_variant_refl, rule_variant_sym, rule_variant_trans.
Qed.

Definition ok_or {A} (d : A) (m : res A) : A := match m with Ok a => a | _ => d end.
Definition ex_sig (r : rule) := ok_or (sym "", []) (rule_signature ex_cv 20 r).
Definition ex_same (r s : rule) := ok_or false (rule_same ex_al ex_cv ex_hash 20 0 false r s).
Definition ex_fact : rule := Rule (g2 "e" (sym "a") (sym "b")) [].

Example C15_witness :
  rule_functions ex_al ex_cv ex_hash ([ex_r; ex_fact] ++ [ex_fact; ex_s]) ex_sig ex_same /\
  aligned rule_variant [ex_r; ex_fact] [ex_fact; ex_s] /\
  prog_eq ex_sig (fun r => ex_hash (ex_sig r)) ex_same [ex_r; ex_fact] [ex_fact; ex_s] = true /\
  prog_eq ex_sig (fun r => ex_hash (ex_sig r)) ex_same [ex_r; ex_r] [ex_fact; ex_s] = false /\
  align (fun r => ex_hash (ex_sig r)) ex_same [ex_r; ex_fact] [ex_fact; ex_s] = [(Some 0, Some 1); (Some 1, Some 0)].
Proof.
  assert (Hin : forall r, In r ([ex_r; ex_fact] ++ [ex_fact; ex_s]) -> r = ex_r \/ r = ex_fact \/ r = ex_s)
    by (simpl; naive_solver).
  split; [|split].
  - split; [unfold ex_al; lia|]. split; [exact ex_hash_bag|]. split.
    + intros r Hr. split.
      * intros t Ht [v ->]. destruct (Hin r Hr) as [->|[->| ->]]; simpl in Ht; naive_solver.
      * exists 20. intros n Hn. replace n with (20 + (n - 20)) by lia. generalize (n - 20). intros m.
        destruct (Hin r Hr) as [->|[->| ->]]; vm_compute; reflexivity.
    + intros r s Hr Hs. split.
      * intros a b [n1 H1] [n2 H2].
        assert (a = ex_sig r) as ->.
        { specialize (H1 (20 + n1)). replace (20 + n1) with (20 + n1) in H1 by lia.
          assert (E : rule_signature ex_cv (20 + n1) r = Ok (ex_sig r)).
          { destruct (Hin r Hr) as [->|[->| ->]]; vm_compute; reflexivity. }
          rewrite E in H1. assert (Ok (ex_sig r) = Ok a) as [= ->] by (apply H1; lia). done. }
        assert (b = ex_sig s) as ->.
        { specialize (H2 (20 + n2)).
          assert (E : rule_signature ex_cv (20 + n2) s = Ok (ex_sig s)).
          { destruct (Hin s Hs) as [->|[->| ->]]; vm_compute; reflexivity. }
          rewrite E in H2. assert (Ok (ex_sig s) = Ok b) as [= ->] by (apply H2; lia). done. }
        destruct (Hin r Hr) as [->|[->| ->]], (Hin s Hs) as [->|[->| ->]]; vm_compute; done.
      * exists 0. split.
        { intros j _ H. unfold ex_al in H. destruct (Hin r Hr) as [->|[->| ->]]; simpl in H; lia. }
        exists 20. intros n Hn. replace n with (20 + (n - 20)) by lia. generalize (n - 20). intros m.
        destruct (Hin r Hr) as [->|[->| ->]], (Hin s Hs) as [->|[->| ->]]; vm_compute; reflexivity.
  - exists [ex_s; ex_fact]. split; [apply perm_swap|]. constructor; [apply C14_witness|].
    constructor; [|constructor]. apply rule_variant_refl.
  - split; [|split]; vm_compute; reflexivity.
Qed.

(** C16.  xs.covers(ys), for products that share no variables, lists without
    repetition exactly the one-to-one assignments js of the subgoals of xs to
    positions of ys for which some substitution maps every subgoal to the one it
    is assigned to; with each it gives such a substitution, which binds exactly
    the variables of xs, and the positions of ys left over. *)
Theorem C16_product_covers :
  forall (xs ys : list term),
    (forall v, In v (flat_map vars xs) -> ~ In v (flat_map vars ys)) ->
    exists rs, eventually (fun n => pcovers n xs ys = Ok rs) /\
      List.NoDup (map (fun r => snd (fst r)) rs) /\
      (forall S a rem, In (S, a, rem) rs -> exists js,
         a = combine js (seq 0 (length xs)) /\ matches_at xs ys js /\
         Forall2 (fun x j => exists y, nth_error ys j = Some y /\
                             eventually (fun n => sapply n S x = Ok y)) xs js /\
         (forall v, is_Some (S !! v) <-> In v (flat_map vars xs)) /\
         List.NoDup rem /\ (forall k, In k rem <-> k < length ys /\ ~ In k js)) /\
      (forall js, matches_at xs ys js ->
         exists S rem, In (S, combine js (seq 0 (length xs)), rem) rs).
Proof.
  intros xs ys Hd.
  set (P := fun v => In v (flat_map vars xs)).
  assert (Hys : forall y, In y ys -> tsize y <= list_sum (map tsize ys) /\ tgt P y).
  { intros y Hy. split.
    - clear - Hy. induction ys as [|z ys IH]; [done|]. simpl. destruct Hy as [->|Hy]; [lia|]. specialize (IH Hy). lia.
    - intros v Hv Hp. apply (Hd v Hp). apply in_flat_map. eauto. }
  destruct (pcovers_go_spec P ys _ Hys xs 0 (seq 0 (length ys)) ∅) as (rs & Er & R1 & R2 & R3).
  { intros x Hx v Hv. apply in_flat_map. eauto. }
  { intros v t H. by rewrite lookup_empty in H. }
  { apply seq_NoDup. }
  { intros j Hj. apply in_seq in Hj. lia. }
  exists rs. split; [|split; [|split]].
  - exists (list_sum (map tsize ys)). intros n Hn. exact (pcovers_go_mono _ _ _ _ _ _ _ _ Er Hn).
  - exact R1.
  - intros S a rem Hin. destruct (R2 _ Hin) as (ks & K1 & K2 & K3 & K4 & K5 & K6 & K7 & K8). simpl in *.
    exists ks. split; [done|].
    pose proof (proj1 (K7 _) (msub_agrees _)) as [_ HF].
    split; [split; [done|]; by exists (msub S)|]. split; [|split; [|split]].
    + eapply Forall2_impl; [exact HF|]. intros x j E. eexists. split; [exact E|].
      apply (sapply_settles P); [done|]. intros v Hv. apply K8 in Hv as [Hv|Hv]; [|done].
      rewrite lookup_empty in Hv. by destruct Hv.
    + intros v. rewrite K8, lookup_empty. split; [|by right]. intros [H|H]; [by destruct H|done].
    + rewrite K5. apply List.NoDup_filter, seq_NoDup.
    + intros k. rewrite K5. unfold rest. rewrite filter_In, in_seq, negb_true_iff. split.
      * intros [? E]. split; [lia|]. intros Hk. assert (existsb (Nat.eqb k) ks = true); [|congruence].
        apply existsb_exists. exists k. split; [done|apply Nat.eqb_refl].
      * intros [? E]. split; [lia|]. destruct (existsb (Nat.eqb k) ks) eqn:Ex; [|done].
        apply existsb_exists in Ex as (z & Hz & ->%Nat.eqb_eq). done.
  - intros js (Hn & σ & HF). destruct (R3 js) as ([[S a] rem] & Hin & E).
    + done.
    + intros k Hk. destruct (Forall2_In_r HF k Hk) as (x & _ & E). apply in_seq.
      assert (k < length ys) by (apply nth_error_Some; congruence). lia.
    + exists σ. split; [|done]. intros v t H. by rewrite lookup_empty in H.
    + simpl in E. subst. eauto.
Qed.

Example C16_witness :
  let xs := [g2 "e" (Var 0) (Var 1); g2 "e" (Var 1) (Var 2)] in
  let ys := [g2 "e" (Var 11) (Var 10); g2 "f" (Var 10) (Var 10); g2 "e" (Var 10) (Var 11)] in
  (forall v, In v (flat_map vars xs) -> ~ In v (flat_map vars ys)) /\
  match pcovers 20 xs ys with
  | Ok rs => map (fun r => (map_to_list (fst (fst r)), snd (fst r), snd r)) rs =
      [([(0, Var 11); (1, Var 10); (2, Var 11)], [(0, 0); (2, 1)], [1]);
       ([(0, Var 10); (1, Var 11); (2, Var 10)], [(2, 0); (0, 1)], [1])]
  | _ => False
  end.
Proof.
  split; [|vm_compute; reflexivity]. intros v Hv H. simpl in *. lia.
Qed.

Print Assumptions C14_rule_same.
Print Assumptions C14_same_object.
Print Assumptions C14_equivalence.
Print Assumptions C14_bare_variable_refuted.
Print Assumptions C14_collision_refuted.
Print Assumptions C15_program_equality.
Print Assumptions C15_align.
Print Assumptions C16_product_covers.
