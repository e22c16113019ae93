(** C33, C34, C35: editing a program, constant folding, and looking up rules. *)
From Coq Require Import List.
From stdpp Require Import gmap.
From Coq Require Import Lia Sorted ZArith.
From Coq Require String Ascii.
From Verif Require Import PyBase Semiring TermModel TermSpec TermProofs SetsModel SetsProofs PruneModel SolverSpec
  UpdateModel UpdateSpec UpdateProofs.
Import String.StringSyntax Ascii.AsciiSyntax.
Import ListNotations.

(** The tests of the code for the constants zero and one, with exact precision. *)
Definition exact_tests {R : semiring} (negligible is_one : R -> bool) : Prop :=
  (forall C, negligible C = true <-> C = szero) /\ (forall C, is_one C = true <-> C = sone).

(** ** C33.  After any history of updates, lookups and removals, the rules of the
    program have, for every item, the same total right-hand side as the plain
    list of the rules that were put in. *)
Theorem C33_update :
  forall (R : semiring) (wt : const -> R) (negligible is_one : R -> bool) (al cv : nat -> nat) (ord : list term -> list term)
    (start : list (wrule R) -> Prop) (rs : list (wrule R)) (P : pstate R) (I : term -> R),
    (forall x y : R, smul x y = smul y x) -> exact_tests negligible is_one ->
    (forall i j, al i = al j -> i = j) -> (forall i j, cv i = cv j -> i = j) ->
    history wt negligible is_one al cv ord start rs P -> respects wt I ->
    forall x v, prog_value I (p_rules P) x v <-> prog_value I rs x v.
Proof.
  intros R wt negligible is_one al cv ord start rs P I Hc [Hn Ho] Hal Hcv H HI.
  apply (history_inv Hc wt negligible is_one al cv Hal Hcv) with (ord := ord) (start := start); [apply Hn|apply Ho|done..].
Qed.

(** An update of a program in such a state does not fail. *)
Theorem C33_update_returns :
  forall (R : semiring) (wt : const -> R) (negligible is_one : R -> bool) (al cv : nat -> nat) (ord : list term -> list term)
    (start : list (wrule R) -> Prop) (rs : list (wrule R)) (P : pstate R) (st : store) (θ : nat -> term) (r : wrule R),
    (forall x y : R, smul x y = smul y x) -> exact_tests negligible is_one ->
    (forall i j, al i = al j -> i = j) -> (forall i j, cv i = cv j -> i = j) ->
    history wt negligible is_one al cv ord start rs P ->
    acyclic st -> resolution st θ -> unbound st (p_rules P) -> item_head (sub θ (whead r)) ->
    exists P' n0, forall n, n0 <= n -> update wt negligible is_one al cv n st r P = Ok P'.
Proof.
  intros R wt negligible is_one al cv ord start rs P st θ r Hc [Hn Ho] Hal Hcv H Hac Hθ Hu Hh.
  set (I := fun t => match t with Cst k => wt k | _ => szero end). assert (HI : respects wt I) by done.
  destruct (history_inv Hc wt negligible is_one al cv Hal Hcv (fun C => proj1 (Hn C)) (fun C => proj1 (Ho C)) I HI ord start rs P H) as [HP _].
  destruct (update_settles Hc wt negligible is_one al cv Hal Hcv (fun C => proj1 (Hn C)) (fun C => proj1 (Ho C)) I HI st θ r P Hac Hθ Hu HP Hh) as [P' [n0 E]].
  by exists P', n0.
Qed.

(** Constant rules are merged: if the program starts without two constant rules
    for the same head, it never has two. *)
Theorem C33_merged :
  forall (R : semiring) (wt : const -> R) (negligible is_one : R -> bool) (al cv : nat -> nat) (ord : list term -> list term)
    (rs : list (wrule R)) (P : pstate R),
    (forall x y : R, smul x y = smul y x) -> exact_tests negligible is_one ->
    (forall i j, al i = al j -> i = j) -> (forall i j, cv i = cv j -> i = j) ->
    history wt negligible is_one al cv ord (merged wt) rs P ->
    merged wt (p_rules P).
Proof.
  intros R wt negligible is_one al cv ord rs P Hc [Hn Ho] Hal Hcv H.
  set (I := fun t => match t with Cst k => wt k | _ => szero end). assert (HI : respects wt I) by done.
  apply (history_merged Hc wt negligible is_one al cv Hal Hcv (fun C => proj1 (Hn C)) (fun C => proj1 (Ho C)) I HI ord rs P H).
Qed.

(** A rule whose constants multiply to zero is dropped. *)
Theorem C33_zero :
  forall (R : semiring) (wt : const -> R) (negligible is_one : R -> bool) (al cv : nat -> nat) (n : nat) (st : store)
    (θ : nat -> term) (r : wrule R) (P P' : pstate R),
    exact_tests negligible is_one -> acyclic st -> resolution st θ ->
    prodl (constants wt (wbody (rsub θ r))) = szero ->
    update wt negligible is_one al cv n st r P = Ok P' -> P' = P.
Proof. intros R wt negligible is_one al cv n st θ r P P' [Hn _] Hac Hθ Hz. apply update_zero with θ; [done|done|by apply Hn|done]. Qed.

(** [pop] takes out one rule and leaves the others in place. *)
Theorem C33_pop :
  forall (R : semiring) (P P' : pstate R) (i : nat) (r : wrule R), pop i P = Ok (P', r) ->
    exists l1 l2, p_rules P = l1 ++ r :: l2 /\ length l1 = i /\ p_rules P' = l1 ++ l2.
Proof.
  intros R P P' i r. unfold pop. destruct (p_rules P !! i) as [r'|] eqn:E; [|discriminate]. intros [= <- <-].
  exists (take i (p_rules P)), (drop (S i) (p_rules P)). split; [by rewrite take_drop_middle|]. split; [|done].
  apply take_length_le. apply lookup_lt_Some in E. lia.
Qed.

(** ** C34.  For every interpretation of the subgoals, every item that has a
    total in the program has the same total after constant_folding. *)
Theorem C34_constant_folding :
  forall (R : semiring) (wt : const -> R) (negligible is_one : R -> bool) (cv : nat -> nat) (sort : list term -> list term)
    (rs : list (wrule R)),
    (forall x y : R, smul x y = smul y x) -> exact_tests negligible is_one ->
    (forall i j, cv i = cv j -> i = j) -> (forall l, Permutation (sort l) l) ->
    exists rs', (exists n0, forall n, n0 <= n -> constant_folding wt negligible is_one cv sort n ∅ rs = Ok rs') /\
      forall (I : term -> R) x v, respects wt I -> prog_value I rs x v -> prog_value I rs' x v.
Proof.
  intros R wt negligible is_one cv sort rs Hc [Hn Ho] Hcv Hs.
  destruct (constant_folding_settles wt negligible is_one cv sort rs) as [rs' [n0 H]].
  exists rs'. split; [by exists n0|]. intros I x v HI.
  apply (constant_folding_ok Hc wt negligible is_one cv sort Hcv Hs (fun C => proj1 (Hn C)) (fun C => proj1 (Ho C)) I HI n0). by apply H.
Qed.

(** ** C35.  After any history, the answers of a lookup are exactly the rules whose
    renamed head unifies with the query, each once and in program order. *)
Theorem C35_lookup :
  forall (R : semiring) (wt : const -> R) (negligible is_one : R -> bool) (al cv : nat -> nat) (ord : list term -> list term)
    (start : list (wrule R) -> Prop) (rs : list (wrule R)) (P P' : pstate R) (n : nat) (st : store) (θ : nat -> term) (q : term)
    (os : list (nat * wrule R * store)),
    (forall x y : R, smul x y = smul y x) -> exact_tests negligible is_one ->
    (forall i j, al i = al j -> i = j) -> (forall i j, cv i = cv j -> i = j) ->
    history wt negligible is_one al cv ord start rs P ->
    acyclic st -> resolution st θ -> unbound st (p_rules P) ->
    fresh_from al (p_c P) st q -> item_query (sub θ q) ->
    lookup al ord n st q P = Ok (os, P') ->
    StronglySorted lt (map (fun o => fst (fst o)) os) /\
    (forall i, i ∈ map (fun o => fst (fst o)) os <-> meets st q (p_rules P) i) /\
    Forall (answer al (p_c P) st q (p_rules P)) os /\ p_rules P' = p_rules P.
Proof.
  intros R wt negligible is_one al cv ord start rs P P' n st θ q os Hc [Hn Ho] Hal Hcv H Hac Hθ Hu Hf Hq.
  set (I := fun t => match t with Cst k => wt k | _ => szero end). assert (HI : respects wt I) by done.
  destruct (history_inv Hc wt negligible is_one al cv Hal Hcv (fun C => proj1 (Hn C)) (fun C => proj1 (Ho C)) I HI ord start rs P H) as [HP _].
  by apply (lookup_ok wt al cv Hal ord n st θ q P P' os).
Qed.

(** A lookup in such a state does not fail (if no subgoal of the program is a
    term without functor). *)
Theorem C35_lookup_returns :
  forall (R : semiring) (wt : const -> R) (negligible is_one : R -> bool) (al cv : nat -> nat) (ord : list term -> list term)
    (start : list (wrule R) -> Prop) (rs : list (wrule R)) (P : pstate R) (st : store) (θ : nat -> term) (q : term),
    (forall x y : R, smul x y = smul y x) -> exact_tests negligible is_one ->
    (forall i j, al i = al j -> i = j) -> (forall i j, cv i = cv j -> i = j) ->
    history wt negligible is_one al cv ord start rs P ->
    acyclic st -> resolution st θ -> item_query (sub θ q) ->
    (forall r, r ∈ p_rules P -> ~ Fn [] ∈ goals (wbody r)) ->
    exists os P' n0, forall n, n0 <= n -> lookup al ord n st q P = Ok (os, P').
Proof.
  intros R wt negligible is_one al cv ord start rs P st θ q Hc [Hn Ho] Hal Hcv H Hac Hθ Hq Hwf.
  set (I := fun t => match t with Cst k => wt k | _ => szero end). assert (HI : respects wt I) by done.
  destruct (history_inv Hc wt negligible is_one al cv Hal Hcv (fun C => proj1 (Hn C)) (fun C => proj1 (Ho C)) I HI ord start rs P H) as [HP _].
  destruct (lookup_settles wt al cv Hal ord st θ q P HP Hac Hθ Hwf Hq) as [[os P'] [n0 E]].
  by exists os, P', n0.
Qed.

(** ** Witnesses *)
Local Open Scope string_scope.
Definition u_t (f : String.string) (xs : list term) : term := Fn (Cst (CStr f) :: xs).
Definition u_n (z : Z) : term := Cst (CInt z).
Definition u_wt (k : const) : nat_sr := match k with CInt z => Z.to_nat z | _ => 0 end.
Definition u_neg (c : nat_sr) : bool := bool_decide ((c : nat) = 0).
Definition u_one (c : nat_sr) : bool := bool_decide ((c : nat) = 1).
Definition u_al (i : nat) : nat := 100 + 2 * i.
Definition u_cv (i : nat) : nat := 101 + 2 * i.
Definition u_get {A} (d : A) (r : res A) : A := match r with Ok a => a | _ => d end.
Definition u_okb {A} (r : res A) : bool := match r with Ok _ => true | _ => false end.
Lemma u_ok {A} (d : A) r : u_okb r = true -> r = Ok (u_get d r).
Proof. by destruct r. Qed.
Lemma u_tests : @exact_tests nat_sr u_neg u_one.
Proof. split; intros C; apply bool_decide_eq_true. Qed.

Definition u_update (st : store) (r : wrule nat_sr) (P : pstate nat_sr) : pstate nat_sr :=
  u_get (p_new [] 0) (update u_wt u_neg u_one u_al u_cv 20 st r P).
Definition u_lookup (st : store) (q : term) (P : pstate nat_sr) : list (nat * wrule nat_sr * store) * pstate nat_sr :=
  u_get ([], p_new [] 0) (lookup u_al id 20 st q P).

(** Bindings Z5 = 1; a program, an update under these bindings, a lookup that
    builds the index, an update that merges, one that multiplies, one that is
    dropped, and a removal. *)
Definition u_st : store := {[5 := u_n 1]}.
Definition u_r0 : wrule nat_sr := WRule (u_t "p" [Var 0]) [Goal (u_t "q" [Var 0])].
Definition u_r1 : wrule nat_sr := WRule (u_t "p" [Var 5]) [Goal (u_n 2); Goal (u_n 3)].
Definition u_r2 : wrule nat_sr := WRule (u_t "p" [u_n 1]) [Goal (u_n 4)].
Definition u_r3 : wrule nat_sr := WRule (u_t "r" [Var 1]) [Goal (u_n 2); Goal (u_t "q" [Var 1]); Val (3 : nat_sr)].
Definition u_r4 : wrule nat_sr := WRule (u_t "r" [Var 1]) [Goal (u_t "q" [Var 1]); Goal (u_n 0)].
Definition u_P0 := p_new [u_r0] 0.
Definition u_P1 := u_update u_st u_r1 u_P0.
Definition u_P2 := snd (u_lookup ∅ (u_t "p" [Var 9]) u_P1).
Definition u_P3 := u_update ∅ u_r2 u_P2.
Definition u_P4 := u_update ∅ u_r3 u_P3.
Definition u_P5 := u_update ∅ u_r4 u_P4.

Definition unboundb (st : store) (rs : list (wrule nat_sr)) : bool :=
  forallb (fun r => forallb (fun v => match st !! v with None => true | _ => false end) (wvars r)) rs.
Lemma unboundb_ok st rs : unboundb st rs = true -> unbound st rs.
Proof.
  intros H r v Hr Hv. unfold unboundb in H. rewrite forallb_forall in H. apply elem_of_list_In, H in Hr.
  rewrite forallb_forall in Hr. apply elem_of_list_In, Hr in Hv. by destruct (st !! v).
Qed.
Lemma u_st_acyclic : acyclic u_st.
Proof. exists (fun _ => 0). intros v t E w Hw. unfold u_st in E. apply lookup_singleton_Some in E as [<- <-]. done. Qed.
Definition u_θ (v : nat) : term := if decide (v = 5) then u_n 1 else Var v.
Lemma u_st_resolution : resolution u_st u_θ.
Proof.
  split.
  - intros v t E. unfold u_st in E. apply lookup_singleton_Some in E as [<- <-]. done.
  - intros v E. unfold u_θ. rewrite decide_False; [done|]. intros ->. by vm_compute in E.
Qed.

Lemma u_merged_start : merged u_wt [u_r0].
Proof.
  intros i j r s Hi Hj _ _ _. apply list_lookup_singleton_Some in Hi as [-> _]. by apply list_lookup_singleton_Some in Hj as [-> _].
Qed.

Lemma u_history : history u_wt u_neg u_one u_al u_cv id (merged u_wt)
  [u_r0; rsub u_θ u_r1; rsub Var u_r2; rsub Var u_r3; rsub Var u_r4] u_P5.
Proof.
  assert (H0 : history u_wt u_neg u_one u_al u_cv id (merged u_wt) [u_r0] u_P0).
  { apply H_new; [|apply u_merged_start]. intros r Hr. apply elem_of_list_singleton in Hr as ->. split; [done|]. by eexists _, _. }
  assert (H1 : history u_wt u_neg u_one u_al u_cv id (merged u_wt) ([u_r0] ++ [rsub u_θ u_r1]) u_P1).
  { apply (H_update _ _ _ _ _ _ _ _ u_P0 20 u_st u_θ u_r1); [exact H0|apply u_st_acyclic|apply u_st_resolution|by apply unboundb_ok; vm_compute|by eexists _, _|].
    apply u_ok. by vm_compute. }
  assert (H2 : history u_wt u_neg u_one u_al u_cv id (merged u_wt) ([u_r0] ++ [rsub u_θ u_r1]) u_P2).
  { eapply (H_lookup _ _ _ _ _ _ _ _ u_P1 20 ∅ (u_t "p" [Var 9])); [exact H1|apply acyclic_empty|by apply unboundb_ok; vm_compute|].
    unfold u_P2. rewrite <- surjective_pairing. apply u_ok. by vm_compute. }
  assert (H3 : history u_wt u_neg u_one u_al u_cv id (merged u_wt) (([u_r0] ++ [rsub u_θ u_r1]) ++ [rsub Var u_r2]) u_P3).
  { apply (H_update _ _ _ _ _ _ _ _ u_P2 20 ∅ Var u_r2); [exact H2|apply acyclic_empty|apply resolution_empty|by apply unboundb_ok; vm_compute|by eexists _, _|].
    apply u_ok. by vm_compute. }
  assert (H4 : history u_wt u_neg u_one u_al u_cv id (merged u_wt) ((([u_r0] ++ [rsub u_θ u_r1]) ++ [rsub Var u_r2]) ++ [rsub Var u_r3]) u_P4).
  { apply (H_update _ _ _ _ _ _ _ _ u_P3 20 ∅ Var u_r3); [exact H3|apply acyclic_empty|apply resolution_empty|by apply unboundb_ok; vm_compute|by eexists _, _|].
    apply u_ok. by vm_compute. }
  apply (H_update _ _ _ _ _ _ _ ((([u_r0] ++ [rsub u_θ u_r1]) ++ [rsub Var u_r2]) ++ [rsub Var u_r3]) u_P4 20 ∅ Var u_r4);
    [exact H4|apply acyclic_empty|apply resolution_empty|by apply unboundb_ok; vm_compute|by eexists _, _|].
  apply u_ok. by vm_compute.
Qed.

(** The rules it ends with: 2·3 and 4 were added up, 2·q·3 became 6·q, the zero
    rule is gone. *)
Theorem C33_witness :
  history u_wt u_neg u_one u_al u_cv id (merged u_wt)
    [u_r0; rsub u_θ u_r1; rsub Var u_r2; rsub Var u_r3; rsub Var u_r4] u_P5 /\
  p_rules u_P5 = [ WRule (u_t "p" [Var 0]) [Goal (u_t "q" [Var 0])];
                   WRule (u_t "p" [u_n 1]) [Val (10 : nat_sr)];
                   WRule (u_t "r" [Var 102]) [Val (6 : nat_sr); Goal (u_t "q" [Var 102])] ] /\
  (exists P', pop 0 u_P5 = Ok (P', u_r0) /\
     history u_wt u_neg u_one u_al u_cv id (merged u_wt) (p_rules P') P').
Proof.
  split; [exact u_history|]. split; [by vm_compute|].
  eexists. split; [reflexivity|]. eapply (H_pop _ _ _ _ _ _ _ _ u_P5 0 u_r0); [exact u_history|reflexivity].
Qed.

(** The value of p(1) in that program when q(1) is worth 7. *)
Theorem C33_witness_value :
  let I := (fun t => match t with Cst k => u_wt k | _ => 7 end) : term -> nat_sr in
  prog_value I [u_r0; rsub u_θ u_r1; rsub Var u_r2; rsub Var u_r3; rsub Var u_r4] (u_t "p" [u_n 1]) (17 : nat_sr).
Proof.
  intros I. apply (C33_update nat_sr u_wt u_neg u_one u_al u_cv id (merged u_wt) _ u_P5 I).
  - intros x y. apply Nat.mul_comm.
  - apply u_tests.
  - unfold u_al. lia.
  - unfold u_cv. lia.
  - exact u_history.
  - done.
  - replace (p_rules u_P5) with [ WRule (u_t "p" [Var 0]) [Goal (u_t "q" [Var 0])];
                   WRule (u_t "p" [u_n 1]) [Val (10 : nat_sr)];
                   WRule (u_t "r" [Var 102]) [Val (6 : nat_sr); Goal (u_t "q" [Var 102])] ] by (by vm_compute).
    exists [7 : nat_sr; 10 : nat_sr; 0 : nat_sr]. split; [|done]. constructor; [|constructor; [|constructor; [|constructor]]].
    + apply (sum_over_single _ _ [u_t "q" [u_n 1]]); [|intros ys (σ & _ & E & <-); simpl in *; injection E as E; by rewrite E|done].
      exists (fun _ => u_n 1). done.
    + apply rule_value_const; [done|]. left. split; [|done]. exists (fun _ => u_n 1). done.
    + apply (sum_over_zero_iff); [|done]. intros ys (σ & _ & E & _). done.
Qed.

(** A lookup of p(Y) in that program, with Y free: the two rules for p. *)
Theorem C35_witness :
  let q := u_t "p" [Var 9] in
  let '(os, P') := u_lookup u_st q u_P5 in
  lookup u_al id 20 u_st q u_P5 = Ok (os, P') /\ fresh_from u_al (p_c u_P5) u_st q /\ item_query (sub u_θ q) /\
  unbound u_st (p_rules u_P5) /\ map (fun o => fst (fst o)) os = [0; 1].
Proof.
  intros q. pose proof (eq_refl : u_okb (lookup u_al id 20 u_st q u_P5) = u_okb (lookup u_al id 20 u_st q u_P5)) as _.
  assert (E : lookup u_al id 20 u_st q u_P5 = Ok (u_lookup u_st q u_P5)) by (apply u_ok; by vm_compute).
  assert (Em : map (fun o => fst (fst o)) (fst (u_lookup u_st q u_P5)) = [0; 1]) by (by vm_compute).
  destruct (u_lookup u_st q u_P5) as [os P'] eqn:Eu. split; [exact E|]. split; [|split; [|split; [|exact Em]]].
  - intros j Hj. unfold u_al. split; [|split].
    + intros [H|[]]. lia.
    + apply lookup_singleton_None. lia.
    + intros w t H. unfold u_st in H. apply lookup_singleton_Some in H as [<- <-]. by intros [].
  - right. by eexists _, _.
  - apply unboundb_ok. by vm_compute.
Qed.

(** 2·a·b and 3·b·a are merged to 5·a·b; the constant rules for c(X) and c(Y) too;
    the rule with the factor 0 is gone. *)
Definition u_sort (l : list term) : list term :=
  match l with [x; y] => if term_eqb x (u_t "b" []) then [y; x] else [x; y] | _ => l end.
Theorem C34_witness :
  (forall l, Permutation (u_sort l) l) /\
  constant_folding u_wt u_neg u_one u_cv u_sort 20 ∅
    [ WRule (u_t "p" [Var 0]) [Goal (u_n 2); Goal (u_t "a" [Var 0]); Goal (u_t "b" [])];
      WRule (u_t "c" [Var 1]) [Val (1 : nat_sr)];
      WRule (u_t "p" [Var 7]) [Goal (u_t "b" []); Goal (u_n 3); Goal (u_t "a" [Var 7])];
      WRule (u_t "p" [Var 7]) [Goal (u_t "b" []); Goal (u_n 0)];
      WRule (u_t "c" [Var 4]) [Goal (u_n 2); Goal (u_n 4)] ] =
  Ok [ WRule (u_t "p" [Var 0]) [Val (5 : nat_sr); Goal (u_t "a" [Var 0]); Goal (u_t "b" [])];
       WRule (u_t "c" [Var 101]) [Val (9 : nat_sr)] ].
Proof.
  split; [|by vm_compute]. intros [|x [|y [|z l]]]; try done. simpl. destruct (term_eqb x _); [|done]. constructor.
Qed.

(** ** What the code does not do *)

(** A rule written without a body ([a.]) counts as a constant rule for the head, but
    adding to it fails: the code expects one factor in its body. *)
Theorem C33_empty_body_refuted :
  exists n, update u_wt u_neg u_one u_al u_cv n ∅ (WRule (u_t "a" []) [Goal (u_n 2)]) (p_new [WRule (u_t "a" []) []] 0) = Raise ValueError.
Proof. exists 20. by vm_compute. Qed.

(** A rule whose head is a variable cannot be added once the index exists. *)
Theorem C33_variable_head_refuted :
  exists n P, lookup u_al id n ∅ (u_t "a" []) (p_new [u_r0] 0) = Ok ([], P) /\
    update u_wt u_neg u_one u_al u_cv n ∅ (WRule (Var 3) [Goal (u_t "a" [Var 3])]) P = Raise AttributeError.
Proof.
  exists 20, (snd (u_lookup ∅ (u_t "a" []) (p_new [u_r0] 0))). split; [|by vm_compute].
  rewrite (u_ok ([], p_new [] 0) (lookup u_al id 20 ∅ (u_t "a" []) (p_new [u_r0] 0))) by (by vm_compute).
  assert (E : fst (u_lookup ∅ (u_t "a" []) (p_new [u_r0] 0)) = []) by (by vm_compute).
  fold (u_lookup ∅ (u_t "a" []) (p_new [u_r0] 0)). destruct (u_lookup _ _ _) as [os P']. cbn [fst snd] in *. by rewrite E.
Qed.

(** With a rule whose head is a variable, the answer to a query depends on whether
    the index exists already: the first lookup of an item that the program does
    not mention finds the rule, the second does not (whatever order the symbols
    of the program come in). *)
Theorem C35_variable_head_refuted :
  forall ord : list term -> list term, (forall l, Permutation (ord l) l) ->
  exists n (P P' : pstate nat_sr) r' st', let P0 := p_new [WRule (Var 0) [Goal (u_t "b" [Var 0]) : factor nat_sr]] 0 in
    lookup u_al ord n ∅ (u_t "c" []) P0 = Ok ([(0, r', st')], P) /\
    lookup u_al ord n ∅ (u_t "c" []) P = Ok ([], P') /\ p_rules P = p_rules P0.
Proof.
  intros ord Hord. assert (E : ord [Cst (CStr "b")] = [Cst (CStr "b")]) by (apply Permutation_singleton_r, Hord).
  set (P0 := p_new [WRule (Var 0) [Goal (u_t "b" [Var 0]) : factor nat_sr]] 0).
  assert (Hl : forall P : pstate nat_sr, p_rules P = p_rules P0 -> lookup u_al ord 20 ∅ (u_t "c" []) P = lookup u_al id 20 ∅ (u_t "c" []) P).
  { intros P EP. unfold lookup, f2r. rewrite EP.
    replace (syms 20 ∅ (p_rules P0)) with (Ok [Cst (CStr "b")]) by (by vm_compute). cbn [bind]. by rewrite E. }
  pose (x := u_lookup ∅ (u_t "c" []) P0). pose (y := u_lookup ∅ (u_t "c" []) (snd x)).
  assert (Ex : lookup u_al id 20 ∅ (u_t "c" []) P0 = Ok x) by (apply u_ok; by vm_compute).
  assert (Ey : lookup u_al id 20 ∅ (u_t "c" []) (snd x) = Ok y) by (apply u_ok; by vm_compute).
  assert (Ep : p_rules (snd x) = p_rules P0) by (by vm_compute).
  assert (E1 : map (fun o => fst (fst o)) (fst x) = [0]) by (by vm_compute).
  assert (E2 : length (fst y) = 0) by (by vm_compute).
  clearbody x y. destruct x as [os P], y as [os' P']. cbn [fst snd] in *.
  destruct os as [|[[i r'] st'] [|? ?]]; [done| |done]. injection E1 as ->. destruct os'; [|done].
  exists 20, P, P', r', st'. split; [by rewrite Hl|]. split; [by rewrite Hl|done].
Qed.

Print Assumptions C33_update.
Print Assumptions C33_update_returns.
Print Assumptions C33_merged.
Print Assumptions C33_zero.
Print Assumptions C33_pop.
Print Assumptions C34_constant_folding.
Print Assumptions C35_lookup.
Print Assumptions C35_lookup_returns.
