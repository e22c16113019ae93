(** C31: fold with the reversibility check, hook and binarize keep the meaning of
    a program. *)
From Coq Require Import List Permutation.
From stdpp Require Import gmap.
From Coq Require Import Lia ZArith ArithRing.
From Coq Require String Ascii.
From Verif Require Import PyBase Semiring TermModel TermSpec TermProofs SetsModel SetsProofs CoverProofs RuleSpec RuleProps NamesModel
  UpdateModel UpdateSpec UpdateProofs UpdateProps TransModel TransSpec TransProofs UnfoldProofs TransProps LinearProofs LinearProps FoldProofs.
Import String.StringSyntax Ascii.AsciiSyntax.
Import ListNotations.
Local Open Scope string_scope.
Local Open Scope list_scope.

Definition commutative (R : semiring) : Prop := forall x y : R, smul x y = smul y x.

(** Equality of programs ([==], program.py 543-550) holds only if the programs
    agree up to the order of rules and of subgoals and names of variables (see
    C15); it holds then if no variable is used as a subgoal. *)
Definition equality_sound {R : semiring} (eqp : list (wrule R) -> list (wrule R) -> bool) : Prop :=
  forall P Q, eqp P Q = true -> RuleSpec.aligned wvariant P Q.
Definition no_value_subgoals {R : semiring} (rs : list (wrule R)) : Prop := forall r v, r ∈ rs -> Goal (Var v) ∉ wbody r.
Definition equality_complete {R : semiring} (eqp : list (wrule R) -> list (wrule R) -> bool) : Prop :=
  forall P Q, no_value_subgoals P -> no_value_subgoals Q -> RuleSpec.aligned wvariant P Q -> eqp P Q = true.

(** ** [p.basic_fold(r, j, S)] replaces the rules [S] by [r].  If it is accepted,
    the derivations of the new program correspond one-to-one to those of [p].  The
    subgoal [b] number [j] of [r] is no input or builtin, and no variable is lost when a rule
    is inlined for it. *)
Theorem C31_fold :
  forall (R : semiring) (al : nat -> nat) (ord : list term -> list term) (is_input : term -> bool) (minf : R)
    (is_one : R -> bool) (eqr : wrule R -> wrule R -> bool) (eqp : list (wrule R) -> list (wrule R) -> bool)
    (n j c c' : nat) (S : list nat) (r : wrule R) (rs new : list (wrule R)) (b : term) (base : term -> Prop),
    (forall i j, al i = al j -> i = j) -> (forall r s, eqr r s = true <-> r = s) -> equality_sound eqp -> commutative R ->
    program al c (r :: rs) -> wbody r !! j = Some (Goal b) -> item_query b ->
    (forall σ, (forall v, ground (σ v)) -> ~ base (sub σ b)) ->
    (forall s, s ∈ r :: rs -> kept r s j) ->
    basic_fold al ord is_input minf is_one eqr eqp n r j S rs c = Ok (new, c') ->
    (forall s, s ∈ new <-> s = r \/ exists k, k ∉ S /\ rs !! k = Some s) /\
    same_meaning (wderives False rs base) (wderives False new base).
Proof.
  intros R al ord is_input minf is_one eqr eqp n j c c' S r rs new b base Hal Heq Heqp Hcomm [Hg Hf] Hb Hq Hbase Hk E.
  assert (Hin : forall s, s ∈ r :: without S rs 0 -> s ∈ r :: rs).
  { intros s [->|Hs]%elem_of_cons; [left|right]. by eapply without_elem. }
  apply (fold_ok al Hal ord is_input minf is_one eqr Heq eqp Heqp Hcomm False n r j S rs c b base new c') in E as [-> Hm]; try done.
  - split; [|done]. intros s. rewrite elem_of_cons.
    assert (Hw : forall (l : list (wrule R)) m, s ∈ without S l m <-> exists k, k + m ∉ S /\ l !! k = Some s).
    { clear. intros l. induction l as [|a l IH]; intros m; cbn [without].
      - split; [by intros ?%elem_of_nil|]. by intros (k & _ & Hk).
      - assert (Hrec : (exists k, k + m ∉ S /\ (a :: l) !! k = Some s) <-> (m ∉ S /\ a = s) \/ exists k, k + Datatypes.S m ∉ S /\ l !! k = Some s).
        { split.
          - intros ([|k] & Hk & E); [left; by injection E|]. right. exists k. by replace (k + Datatypes.S m) with (Datatypes.S k + m) by lia.
          - intros [[Hk ->]|(k & Hk & E)]; [by exists 0|]. exists (Datatypes.S k). by replace (Datatypes.S k + m) with (k + Datatypes.S m) by lia. }
        rewrite Hrec, <- IH. case_decide; [tauto|]. rewrite elem_of_cons. naive_solver. }
    rewrite Hw. setoid_rewrite Nat.add_0_r. done.
  - intros v k Hv. apply (Hf r); [left|done].
  - intros s Hs. by apply Hk, Hin.
Qed.

(** The same if a variable that is used as a subgoal stands for a value. *)
Theorem C31_fold_values :
  forall (R : semiring) (al : nat -> nat) (ord : list term -> list term) (is_input : term -> bool) (minf : R)
    (is_one : R -> bool) (eqr : wrule R -> wrule R -> bool) (eqp : list (wrule R) -> list (wrule R) -> bool)
    (n j c c' : nat) (S : list nat) (r : wrule R) (rs new : list (wrule R)) (f : const) (args : list term) (base : term -> Prop),
    (forall i j, al i = al j -> i = j) -> (forall r s, eqr r s = true <-> r = s) -> equality_sound eqp -> commutative R ->
    program al c (r :: rs) -> wbody r !! j = Some (Goal (Fn (Cst f :: args))) ->
    (forall σ, (forall v, ground (σ v)) -> ~ base (sub σ (Fn (Cst f :: args)))) ->
    (forall s, s ∈ r :: rs -> kept r s j /\ values_kept r s (Fn (Cst f :: args))) ->
    basic_fold al ord is_input minf is_one eqr eqp n r j S rs c = Ok (new, c') ->
    same_meaning (wderives True rs base) (wderives True new base).
Proof.
  intros R al ord is_input minf is_one eqr eqp n j c c' S r rs new f args base Hal Heq Heqp Hcomm [Hg Hf] Hb Hbase Hk E.
  assert (Hin : forall s, s ∈ r :: without S rs 0 -> s ∈ r :: rs).
  { intros s [->|Hs]%elem_of_cons; [left|right]. by eapply without_elem. }
  apply (fold_ok al Hal ord is_input minf is_one eqr Heq eqp Heqp Hcomm True n r j S rs c (Fn (Cst f :: args)) base new c') in E as [_ Hm]; try done.
  - right. by eexists _, _.
  - intros v k Hv. apply (Hf r); [left|done].
  - intros s Hs. by apply Hk, Hin.
  - intros _. split; [done|]. intros s Hs. by apply Hk, Hin.
Qed.

(** ** [p.hook(i, js)]: the derivations of [p] correspond one-to-one to those of the
    new program whose root is not an item of the generated definition. *)
Theorem C31_hook :
  forall (R : semiring) (al : nat -> nat) (ord : list term -> list term) (is_input : term -> bool) (minf : R)
    (is_one : R -> bool) (eqr : wrule R -> wrule R -> bool) (eqp : list (wrule R) -> list (wrule R) -> bool)
    (n i g g' c c' : nat) (js : list nat) (rs rs' : list (wrule R)) (base : term -> Prop),
    (forall i j, al i = al j -> i = j) -> (forall r s, eqr r s = true <-> r = s) -> equality_sound eqp -> commutative R ->
    plain rs -> program al c rs -> js <> [] ->
    (forall x, base x -> ~ gen_item (S g) x) ->
    hook al ord is_input minf is_one eqr eqp n i js rs g c = Ok (rs', g', c') ->
    plain rs' /\ program al c' rs' /\
    same_meaning (wderives True rs base)
      (fun t => wderives True rs' base t /\ forall x, wroot t = Goal x -> ~ gen_item (S g) x).
Proof.
  intros R al ord is_input minf is_one eqr eqp n i g g' c c' js rs rs' base Hal Heq Heqp Hcomm Hp Hprog Hjs Hbase E.
  apply (hook_ok al Hal ord is_input minf is_one eqr Heq eqp Heqp Hcomm n i js rs g c rs' g' c' base) in E as (_ & _ & Hprog' & Hres & Hm); try done.
  split; [by eapply hook_result_plain|]. done.
Qed.

(** The new program: rule [i] is replaced by one that uses the new definition in
    place of the factors [js], and the new definition has these factors as its
    body and the variables that are also used outside as arguments. *)
Theorem C31_hook_shape :
  forall (R : semiring) (al : nat -> nat) (ord : list term -> list term) (is_input : term -> bool) (minf : R)
    (is_one : R -> bool) (eqr : wrule R -> wrule R -> bool) (eqp : list (wrule R) -> list (wrule R) -> bool)
    (n i g g' c c' : nat) (js : list nat) (rs rs' : list (wrule R)),
    (forall i j, al i = al j -> i = j) -> (forall r s, eqr r s = true <-> r = s) -> equality_sound eqp -> commutative R ->
    plain rs -> program al c rs -> js <> [] ->
    hook al ord is_input minf is_one eqr eqp n i js rs g c = Ok (rs', g', c') ->
    exists r out picked others, rs !! i = Some r /\ NoDup out /\
      Forall2 (fun j f => wbody r !! j = Some f) js picked /\
      (forall k f, wbody r !! k = Some f -> k ∉ js -> f ∈ others) /\ (forall f, f ∈ others -> exists k, k ∉ js /\ wbody r !! k = Some f) /\
      (forall v, v ∈ out <-> In v (flat_map vars (goals picked)) /\ (In v (vars (whead r)) \/ In v (flat_map vars (goals others)))) /\
      let item := Fn (Cst (CStr (String.append "$gen" (str_nat (S g)))) :: map Var out) in
      rs' = WRule (whead r) (Goal item :: others) :: delete i rs ++ [WRule item picked].
Proof.
  intros R al ord is_input minf is_one eqr eqp n i g g' c c' js rs rs' Hal Heq Heqp Hcomm Hp Hprog Hjs E.
  apply (hook_ok al Hal ord is_input minf is_one eqr Heq eqp Heqp Hcomm n i js rs g c rs' g' c' (fun _ => False)) in E as (_ & _ & _ & Hres & _); try done.
  destruct Hres as (r & tmp & Hr & (out & fs & -> & Hpk & Hnd & Hout) & ->). exists r, out, fs, (without js (wbody r) 0).
  assert (Hw : forall {A} (l : list A) m f, f ∈ without js l m <-> exists k, k + m ∉ js /\ l !! k = Some f).
  { clear. intros A l. induction l as [|a l IH]; intros m f; cbn [without].
    - split; [by intros ?%elem_of_nil|]. by intros (k & _ & Hk).
    - assert (Hrec : (exists k, k + m ∉ js /\ (a :: l) !! k = Some f) <-> (m ∉ js /\ a = f) \/ exists k, k + S m ∉ js /\ l !! k = Some f).
      { split.
        - intros ([|k] & Hk & E); [left; by injection E|]. right. exists k. by replace (k + S m) with (S k + m) by lia.
        - intros [[Hk ->]|(k & Hk & E)]; [by exists 0|]. exists (S k). by replace (S k + m) with (k + S m) by lia. }
      rewrite Hrec, <- IH. case_decide; [tauto|]. rewrite elem_of_cons. naive_solver. }
  split; [done|]. split; [done|]. split; [|split; [|split; [|split; [|done]]]].
  - clear - Hpk. revert fs Hpk. induction js as [|j js IH]; intros fs E; cbn [pick] in E; [injection E as <-; constructor|].
    destruct (wbody r !! j) as [f|] eqn:Ej; [|done]. destruct (pick (wbody r) js) as [fs'| |]; [|done..]. injection E as <-. constructor; [done|by apply IH].
  - intros k f Hk Hn. apply Hw. exists k. by rewrite Nat.add_0_r.
  - intros f Hf. apply Hw in Hf as (k & Hk & E). exists k. by rewrite Nat.add_0_r in Hk.
  - intros v. rewrite Hout. unfold fvars. tauto.
Qed.

(** hook does not fail if the positions are in range and distinct, no variable is
    used as a subgoal, and the generated name is new. *)
Theorem C31_hook_returns :
  forall (R : semiring) (al : nat -> nat) (ord : list term -> list term) (is_input : term -> bool) (minf : R)
    (is_one : R -> bool) (eqr : wrule R -> wrule R -> bool) (eqp : list (wrule R) -> list (wrule R) -> bool)
    (i g c : nat) (js : list nat) (rs : list (wrule R)) (r : wrule R),
    (forall i j, al i = al j -> i = j) -> (forall r s, eqr r s = true <-> r = s) -> equality_complete eqp ->
    plain rs -> no_value_subgoals rs -> program al c rs -> rs !! i = Some r -> js <> [] -> NoDup js -> (forall j, j ∈ js -> j < length (wbody r)) ->
    String.append "$gen" (str_nat (S g)) ∉ wsyms rs ->
    (forall x, gen_item (S g) x -> is_input x = false) ->
    exists o n0, forall n, n0 <= n -> hook al ord is_input minf is_one eqr eqp n i js rs g c = Ok o.
Proof.
  intros R al ord is_input minf is_one eqr eqp i g c js rs r Hal Heq Heqp Hp Hnv Hprog Hr Hjs Hnd Hrange Hsy Hin.
  destruct (hook_settles al Hal ord is_input minf is_one eqr Heq eqp Heqp i js rs g c r) as [o [n0 H]]; try done.
  - intros args. apply Hin. by eexists.
  - by exists o, n0.
Qed.

(** ** [p.binarize()]: at most two factors in every rule, and the same meaning. *)
Theorem C31_binarize :
  forall (R : semiring) (al : nat -> nat) (ord : list term -> list term) (is_input : term -> bool) (minf : R)
    (is_one : R -> bool) (eqr : wrule R -> wrule R -> bool) (eqp : list (wrule R) -> list (wrule R) -> bool)
    (n g g' c c' : nat) (rs rs' : list (wrule R)) (base : term -> Prop),
    (forall i j, al i = al j -> i = j) -> (forall r s, eqr r s = true <-> r = s) -> equality_sound eqp -> commutative R ->
    plain rs -> program al c rs ->
    (forall x j, base x -> g < j -> ~ gen_item j x) ->
    binarize al ord is_input minf is_one eqr eqp n rs g c = Ok (rs', g', c') ->
    (forall s, s ∈ rs' -> length (wbody s) <= 2) /\
    same_meaning (wderives True rs base)
      (fun t => wderives True rs' base t /\ forall x j, wroot t = Goal x -> g < j <= g' -> ~ gen_item j x).
Proof.
  intros R al ord is_input minf is_one eqr eqp n g g' c c' rs rs' base Hal Heq Heqp Hcomm Hp Hprog Hbase E.
  apply (binarize_from_ok al Hal ord is_input minf is_one eqr Heq eqp Heqp Hcomm n n 0 rs g c rs' g' c' base) in E as (_ & Hsz & Hm); try done.
  - split; [done|]. refine (same_meaning_iff _ _ _ _ (fun d => iff_refl _) _ Hm). intros d. split; intros [Hd Hx]; (split; [done|]).
    + intros x j Ex Hj Hg. apply gen_item_has in Hg; [|lia]. by eapply Hx.
    + intros x Ex j Hj Hg. apply gen_item_has in Hg; [|lia]. by eapply Hx.
  - intros x j Hx Hj Hg. apply gen_item_has in Hg; [|lia]. by eapply Hbase.
  - cbn. by intros s ?%elem_of_nil.
Qed.

Theorem C31_binarize_returns :
  forall (R : semiring) (al : nat -> nat) (ord : list term -> list term) (is_input : term -> bool) (minf : R)
    (is_one : R -> bool) (eqr : wrule R -> wrule R -> bool) (eqp : list (wrule R) -> list (wrule R) -> bool)
    (g c : nat) (rs : list (wrule R)),
    (forall i j, al i = al j -> i = j) -> (forall r s, eqr r s = true <-> r = s) ->
    equality_sound eqp -> equality_complete eqp -> commutative R ->
    plain rs -> no_value_subgoals rs -> program al c rs ->
    (forall j, g < j -> String.append "$gen" (str_nat j) ∉ wsyms rs) ->
    (forall j x, g < j -> gen_item j x -> is_input x = false) ->
    exists o n0, forall n, n0 <= n -> binarize al ord is_input minf is_one eqr eqp n rs g c = Ok o.
Proof.
  intros R al ord is_input minf is_one eqr eqp g c rs Hal Heq Heqp Heqp' Hcomm Hp Hnv Hprog Hsy Hin.
  destruct (binarize_from_settles al Hal ord is_input minf is_one eqr Heq eqp Heqp Hcomm Heqp' (S (todo (drop 0 rs))) 0 rs g c) as [o Ho]; try done.
  - lia.
  - intros j Hj. destruct j; [lia|]. by apply Hsy.
  - intros j args Hj. destruct j; [lia|]. apply (Hin (S j)); [lia|by eexists].
  - destruct (Ho (S (todo (drop 0 rs))) (le_n _)) as [n0 H]. exists o, (max n0 (S (todo (drop 0 rs)))). intros n Hn.
    eapply binarize_from_more; [apply H; lia|lia].
Qed.

(** ** Equality of programs, as used by the check of fold: C15 about rules with
    semiring values among their factors.  [k v] is the value [v] seen as a factor
    (program.py 543-550 compares signatures of rules). *)
Definition erase {R : semiring} (k : R -> const) (r : wrule R) : rule :=
  Rule (whead r) (map (fun f => match f with Goal b => b | Val v => Cst (k v) end) (wbody r)).

Lemma erase_vars {R : semiring} (k : R -> const) (r : wrule R) v : In v (rule_vars (erase k r)) <-> v ∈ wvars r.
Proof.
  unfold rule_vars, erase, wvars. cbn [rhead rbody]. rewrite elem_of_app, in_app_iff, <- elem_of_list_In, <- elem_of_list_In.
  assert (H : flat_map vars (map (fun f : factor R => match f with Goal b => b | Val v => Cst (k v) end) (wbody r)) = flat_map vars (goals (wbody r))).
  { induction (wbody r) as [|[u|b] fs IH]; [done| |]; cbn; by rewrite IH. }
  by rewrite H.
Qed.

Lemma erase_variant {R : semiring} (k : R -> const) (r s : wrule R) :
  (forall u v, k u = k v -> u = v) -> (forall v, Goal (Cst (k v)) ∉ wbody r) -> (forall v, Goal (Cst (k v)) ∉ wbody s) ->
  rule_variant (erase k r) (erase k s) <-> wvariant r s.
Proof.
  intros Hk Hr Hs. set (e := fun f : factor R => match f with Goal b => b | Val v => Cst (k v) end).
  assert (He : forall ρ, map (rename ρ) (map e (wbody r)) = map e (map (fsub (fun v => Var (ρ v))) (wbody r))).
  { intros ρ. rewrite !map_map. apply map_ext. by intros [v|b]. }
  assert (Hin : forall l l' : list (factor R), (forall v, Goal (Cst (k v)) ∉ l) -> (forall v, Goal (Cst (k v)) ∉ l') -> map e l = map e l' -> l = l').
  { clear -Hk. intros l. induction l as [|f l IH]; intros [|f' l'] H1 H2 E; try done. cbn [map] in E. injection E as E1 E2. f_equal.
    - destruct f as [v|b], f' as [v'|b']; cbn in E1; subst.
      + injection E1 as E1. by rewrite (Hk _ _ E1).
      + destruct (H2 v). left.
      + destruct (H1 v'). left.
      + done.
    - apply IH; [..|done]; intros v Hv; [apply (H1 v)|apply (H2 v)]; by right. }
  split; intros (ρ & Hi & Hh & Hb); exists ρ; (split; [|split; [exact Hh|]]).
  - intros v w Hv Hw. apply Hi; by apply erase_vars.
  - change (rbody (erase k s)) with (map e (wbody s)) in Hb. change (rbody (erase k r)) with (map e (wbody r)) in Hb.
    rewrite He in Hb. apply Permutation_map_inv in Hb as (l & E & Hp). apply Hin in E; [by rewrite E|done|].
    intros v Hv. rewrite <- Hp in Hv. apply elem_of_list_fmap in Hv as ([u|b] & E1 & Hv); [done|].
    injection E1 as E1. destruct b; try done. injection E1 as <-. by apply (Hr v).
  - intros v w Hv Hw. apply Hi; by apply (erase_vars k).
  - change (rbody (erase k s)) with (map e (wbody s)). change (rbody (erase k r)) with (map e (wbody r)). rewrite He. by apply Permutation_map.
Qed.

Theorem C31_equality :
  forall (R : semiring) (k : R -> const) al cv hash sig sm (P Q : list (wrule R)),
    (forall u v, k u = k v -> u = v) -> (forall r v, r ∈ P ++ Q -> Goal (Cst (k v)) ∉ wbody r) ->
    rule_functions al cv hash (map (erase k) P ++ map (erase k) Q) sig sm ->
    prog_eq sig (fun r => hash (sig r)) sm (map (erase k) P) (map (erase k) Q) = true <-> RuleSpec.aligned wvariant P Q.
Proof.
  intros R k al cv hash sig sm P Q Hk Hc Hrf. rewrite (C15_program_equality _ _ _ _ _ _ _ Hrf).
  assert (HF : forall P' Q' : list (wrule R), (forall r, r ∈ P' -> r ∈ P ++ Q) -> (forall r, r ∈ Q' -> r ∈ P ++ Q) ->
    Forall2 rule_variant (map (erase k) P') (map (erase k) Q') <-> Forall2 wvariant P' Q').
  { intros P'. induction P' as [|r P' IH]; intros [|s Q'] H1 H2; cbn [map].
    - split; constructor.
    - split; intros H; inversion H.
    - split; intros H; inversion H.
    - rewrite !Forall2_cons, erase_variant, IH; try done.
      + intros x Hx. apply H1. by right.
      + intros x Hx. apply H2. by right.
      + intros v. apply Hc, H1. left.
      + intros v. apply Hc, H2. left. }
  split.
  - intros (Q' & Hp & H). symmetry in Hp. apply Permutation_map_inv in Hp as (Q1 & -> & Hp). exists Q1. split; [done|]. apply HF; [..|done].
    + intros r Hr. apply elem_of_app. by left.
    + intros r Hr. rewrite <- Hp in Hr. apply elem_of_app. by right.
  - intros (Q' & Hp & H). exists (map (erase k) Q'). split; [by apply Permutation_map|]. apply HF; [..|done].
    + intros r Hr. apply elem_of_app. by left.
    + intros r Hr. rewrite <- Hp in Hr. apply elem_of_app. by right.
Qed.

(** ** A concrete equality of programs for the examples below. *)
Section concrete.
Context {R : semiring} (enc : R -> term) (Henc : forall u v, enc u = enc v -> u = v) (Hclosed : forall u, ground (enc u)).
Definition enc_f (f : factor R) : term := match f with Goal b => Fn [u_n 0; b] | Val v => Fn [u_n 1; enc v] end.
Definition enc_r (r : wrule R) : term := Fn (whead r :: map enc_f (wbody r)).
Definition v_eqr (r s : wrule R) : bool := bool_decide (enc_r r = enc_r s).
Definition v_eqw (r s : wrule R) : bool :=
  existsb (fun fs => bool_decide (canonical u_cv (enc_r r) = canonical u_cv (enc_r (WRule (whead s) fs)))) (permutations (wbody s)).
Fixpoint v_all (P Q : list (wrule R)) : bool :=
  match P, Q with [], [] => true | r :: P, s :: Q => v_eqw r s && v_all P Q | _, _ => false end.
Definition v_eqp (P Q : list (wrule R)) : bool := existsb (v_all P) (permutations Q).

Lemma enc_f_inj f g : enc_f f = enc_f g -> f = g.
Proof. destruct f as [v|b], g as [v'|b']; cbn; intros [= E]; f_equal; [by apply Henc|done]. Qed.
Lemma enc_r_inj r s : enc_r r = enc_r s -> r = s.
Proof.
  destruct r as [h fs], s as [h' fs']. unfold enc_r. cbn [whead wbody]. intros [= -> E]. f_equal.
  revert fs' E. induction fs as [|f fs IH]; intros [|f' fs'] E; try done. cbn [map] in E. injection E as E1 E2. f_equal; [by apply enc_f_inj|by apply IH].
Qed.
Lemma v_eqr_ok r s : v_eqr r s = true <-> r = s.
Proof. unfold v_eqr. rewrite bool_decide_eq_true. split; [apply enc_r_inj|by intros ->]. Qed.

Lemma ground_sub σ t : ground t -> sub σ t = t.
Proof.
  intros H. transitivity (sub Var t); [|apply sub_Var]. apply sub_ext. intros v Hv. unfold ground in H. rewrite H in Hv. by destruct Hv.
Qed.
Lemma enc_r_sub ρ r : rename ρ (enc_r r) = enc_r (WRule (rename ρ (whead r)) (map (fsub (fun v => Var (ρ v))) (wbody r))).
Proof.
  unfold enc_r, rename. cbn [sub whead wbody map]. f_equal. f_equal. rewrite !map_map. apply map_ext. intros [v|b]; cbn; [|done].
  by rewrite (ground_sub _ (enc v)).
Qed.
Lemma enc_r_vars r v : In v (vars (enc_r r)) <-> v ∈ wvars r.
Proof.
  unfold enc_r, wvars. cbn [vars flat_map]. rewrite elem_of_app, in_app_iff, <- elem_of_list_In, <- elem_of_list_In.
  assert (H : flat_map vars (map enc_f (wbody r)) = flat_map vars (goals (wbody r))); [|by rewrite H].
  induction (wbody r) as [|[u|b] fs IH]; [done| |].
  - cbn. rewrite IH. pose proof (Hclosed u) as E. unfold ground in E. by rewrite E.
  - cbn. rewrite IH, app_nil_r. done.
Qed.
Lemma v_eqw_ok r s : v_eqw r s = true <-> wvariant r s.
Proof.
  assert (Hcv : forall i j, u_cv i = u_cv j -> i = j) by (unfold u_cv; lia).
  unfold v_eqw. rewrite existsb_exists. split.
  - intros (fs & Hfs & E). apply bool_decide_eq_true, canonical_iff in E as (ρ & Hi & E); [|done]. apply elem_of_list_In, permutations_Permutation in Hfs.
    rewrite enc_r_sub in E. apply enc_r_inj in E. injection E as E1 E2. exists ρ. split.
    + intros v w Hv Hw. apply Hi; by apply enc_r_vars.
    + split; [done|]. by rewrite <- E2.
  - intros (ρ & Hi & E1 & E2). exists (map (fsub (fun v => Var (ρ v))) (wbody r)). split; [by apply elem_of_list_In, permutations_Permutation|].
    apply bool_decide_eq_true, canonical_iff; [done|]. exists ρ. split; [|by rewrite enc_r_sub, E1].
    intros v w Hv%enc_r_vars Hw%enc_r_vars. by apply Hi.
Qed.
Lemma v_all_ok P Q : v_all P Q = true <-> Forall2 wvariant P Q.
Proof.
  revert Q. induction P as [|r P IH]; intros [|s Q]; cbn [v_all].
  - split; [constructor|done].
  - split; [done|intros H; inversion H].
  - split; [done|intros H; inversion H].
  - by rewrite andb_true_iff, Forall2_cons, v_eqw_ok, IH.
Qed.
Lemma v_eqp_ok P Q : v_eqp P Q = true <-> RuleSpec.aligned wvariant P Q.
Proof.
  unfold v_eqp. rewrite existsb_exists. split.
  - intros (Q' & HQ & E). exists Q'. split; [by apply permutations_Permutation, elem_of_list_In|by apply v_all_ok].
  - intros (Q' & HQ & E). exists Q'. split; [by apply elem_of_list_In, permutations_Permutation|by apply v_all_ok].
Qed.
End concrete.

Definition v_enc (v : nat_sr) : term := u_n (Z.of_nat v).
Lemma v_enc_inj u v : v_enc u = v_enc v -> u = v.
Proof. intros [= E]. lia. Qed.
Lemma v_enc_closed u : ground (v_enc u).
Proof. done. Qed.
Lemma v_comm : commutative nat_sr.
Proof. intros x y. apply Nat.mul_comm. Qed.

(** *** Witness for fold: "two(X,Z) += edge(X,Y) * edge(Y,Z)" is used in
    "path(X,Z) += edge(X,Y) * edge(Y,W) * edge(W,Z)". *)
Definition f_rule : wrule nat_sr := WRule (u_t "path" [Var 0; Var 2]) [Goal (u_t "two" [Var 0; Var 1]); Goal (u_t "edge" [Var 1; Var 2])].
Definition f_prog : list (wrule nat_sr) :=
  [WRule (u_t "path" [Var 0; Var 3]) [Goal (u_t "edge" [Var 0; Var 1]); Goal (u_t "edge" [Var 1; Var 2]); Goal (u_t "edge" [Var 2; Var 3])];
   WRule (u_t "two" [Var 0; Var 2]) [Goal (u_t "edge" [Var 0; Var 1]); Goal (u_t "edge" [Var 1; Var 2])];
   WRule (u_t "path" [Var 0; Var 1]) [Goal (u_t "edge" [Var 0; Var 1]); Val (3 : nat_sr)]].
Definition f_base (x : term) : Prop := exists args, x = u_t "edge" args.

Theorem C31_fold_witness : exists n new c',
  basic_fold u_al id (fun _ => false) (7 : nat_sr) u_one (v_eqr v_enc) (v_eqp v_enc) n f_rule 0 [0] f_prog 0 = Ok (new, c') /\
  new = f_rule :: drop 1 f_prog /\
  same_meaning (wderives False f_prog f_base) (wderives False new f_base) /\
  same_meaning (wderives True f_prog f_base) (wderives True new f_base) /\
  exists t, wderives False f_prog f_base t /\ wroot t = Goal (u_t "path" [u_n 1; u_n 1]) /\ wvalue (fun _ => (5 : nat_sr)) t = 125.
Proof.
  pose (o := u_get ([], 0) (basic_fold u_al id (fun _ => false) (7 : nat_sr) u_one (v_eqr v_enc) (v_eqp v_enc) 20 f_rule 0 [0] f_prog 0)).
  exists 20, (fst o), (snd o).
  assert (E : basic_fold u_al id (fun _ => false) (7 : nat_sr) u_one (v_eqr v_enc) (v_eqp v_enc) 20 f_rule 0 [0] f_prog 0 = Ok (fst o, snd o)).
  { rewrite <- !surjective_pairing. apply u_ok. by vm_compute. }
  assert (Hs : equality_sound (v_eqp v_enc)) by (intros P Q; apply v_eqp_ok; [exact v_enc_inj|exact v_enc_closed]).
  assert (Hp : program u_al 0 (f_rule :: f_prog)) by (apply programb_ok; by vm_compute).
  assert (Hb : forall σ, (forall v, ground (σ v)) -> ~ f_base (sub σ (u_t "two" [Var 0; Var 1]))) by (intros σ _ [args E']; discriminate).
  assert (Hk : forall s, s ∈ f_rule :: f_prog -> kept f_rule s 0).
  { intros s Hs'. apply C29_kept with (b := u_t "two" [Var 0; Var 1]). left. intros v. clear - Hs'. unfold f_prog in Hs'.
    rewrite !elem_of_cons, elem_of_nil in Hs'. destruct Hs' as [->|[->|[->|[->|[]]]]]; cbn; tauto. }
  assert (En : fst o = f_rule :: drop 1 f_prog) by (by vm_compute). clearbody o.
  split; [exact E|]. split; [exact En|]. split; [|split].
  - refine (proj2 (C31_fold nat_sr u_al id (fun _ => false) 7 u_one (v_eqr v_enc) (v_eqp v_enc) 20 0 0 _ [0] f_rule f_prog _ (u_t "two" [Var 0; Var 1]) f_base u_al_inj (v_eqr_ok v_enc v_enc_inj) Hs v_comm Hp eq_refl _ Hb Hk E)).
    clear. right. by eexists _, _.
  - refine (C31_fold_values nat_sr u_al id (fun _ => false) 7 u_one (v_eqr v_enc) (v_eqp v_enc) 20 0 0 _ [0] f_rule f_prog _ (CStr "two") [Var 0; Var 1] f_base u_al_inj (v_eqr_ok v_enc v_enc_inj) Hs v_comm Hp eq_refl Hb _ E).
    clear E En. intros s Hs'. split; [by apply Hk|]. intros (σ & τ & Eu). exists σ, τ. split; [done|]. split.
    + intros v Hv. cbn in Hv. rewrite !elem_of_cons, elem_of_nil in Hv. by destruct_or?.
    + intros v Hv. unfold f_prog in Hs'. rewrite !elem_of_cons, elem_of_nil in Hs'.
      destruct Hs' as [->|[->|[->|[->|[]]]]]; cbn in Hv; rewrite !elem_of_cons, elem_of_nil in Hv; by destruct_or?.
  - clear. pose (e := TLeaf (u_t "edge" [u_n 1; u_n 1]) : wderiv nat_sr). assert (He : wderives False f_prog f_base e) by (constructor; by eexists).
    exists (WNode 0 (u_t "path" [u_n 1; u_n 1]) [e; e; e]). split; [|by vm_compute]. econstructor; [done| |done|by repeat (constructor; [exact He|])].
    exists (fun _ => u_n 1). done.
Qed.

(** *** Witness for hook and binarize:
    "p(X,U) += a(X,Y) * 3 * b(Y,Z) * c(Z,Z,U)". *)
Definition h_prog : list (wrule nat_sr) :=
  [WRule (u_t "p" [Var 0; Var 3]) [Goal (u_t "a" [Var 0; Var 1]); Val (3 : nat_sr); Goal (u_t "b" [Var 1; Var 2]); Goal (u_t "c" [Var 2; Var 2; Var 3])];
   WRule (u_t "a" [Var 0; Var 1]) [Goal (u_t "b" [Var 1; Var 0])]].
Definition h_base (x : term) : Prop := exists f args, x = u_t f args /\ (f = "b" \/ f = "c").

Lemma h_plain : plain h_prog.
Proof.
  intros r Hr. unfold h_prog in Hr. rewrite !elem_of_cons, elem_of_nil in Hr. destruct Hr as [-> | [->|[]]]; (split; [by eexists _, _|]); cbn; intros b Hb;
    rewrite !elem_of_cons, elem_of_nil in Hb; right; right; destruct_or?; subst; by eexists _, _.
Qed.
Lemma h_values : no_value_subgoals h_prog.
Proof.
  intros r v Hr Hv. unfold h_prog in Hr. rewrite !elem_of_cons, elem_of_nil in Hr. destruct Hr as [-> | [->|[]]]; cbn in Hv;
    rewrite !elem_of_cons, elem_of_nil in Hv; by destruct_or?.
Qed.
Lemma h_gen x j : h_base x -> 0 < j -> ~ gen_item j x.
Proof. intros (f & args & -> & Hf) _ [args' E]. injection E as E _. cbn in E. destruct Hf as [-> | ->]; discriminate. Qed.
Lemma h_derivation : exists t, wderives True h_prog h_base t /\ wroot t = Goal (u_t "p" [u_n 1; u_n 1]) /\ wvalue (fun _ => (2 : nat_sr)) t = 24.
Proof.
  pose (b := TLeaf (u_t "b" [u_n 1; u_n 1]) : wderiv nat_sr). pose (c := TLeaf (u_t "c" [u_n 1; u_n 1; u_n 1]) : wderiv nat_sr).
  assert (Hb : wderives True h_prog h_base b) by (constructor; eexists _, _; split; [done|by left]).
  assert (Hc : wderives True h_prog h_base c) by (constructor; eexists _, _; split; [done|by right]).
  exists (WNode 0 (u_t "p" [u_n 1; u_n 1]) [WNode 1 (u_t "a" [u_n 1; u_n 1]) [b]; VLeaf (3 : nat_sr); b; c]).
  split; [|by vm_compute]. econstructor; [done| | |].
  - exists (fun _ => u_n 1). done.
  - intros _. repeat (constructor; [by intros v|]). constructor.
  - constructor; [|constructor; [constructor|constructor; [exact Hb|by constructor; [exact Hc|]]]]. econstructor; [done| | |by constructor; [exact Hb|]].
    + exists (fun _ => u_n 1). done.
    + intros _. repeat (constructor; [by intros v|]). constructor.
Qed.

Definition h_hook := u_get ([], 0, 0) (hook u_al id (fun _ => false) (7 : nat_sr) u_one (v_eqr v_enc) (v_eqp v_enc) 20 0 [2; 3] h_prog 0 0).
Theorem C31_hook_witness : exists n rs' c',
  hook u_al id (fun _ => false) (7 : nat_sr) u_one (v_eqr v_enc) (v_eqp v_enc) n 0 [2; 3] h_prog 0 0 = Ok (rs', 1, c') /\
  rs' = [WRule (u_t "p" [Var 0; Var 3]) [Goal (u_t "$gen1" [Var 1; Var 3]); Goal (u_t "a" [Var 0; Var 1]); Val (3 : nat_sr)];
         WRule (u_t "a" [Var 0; Var 1]) [Goal (u_t "b" [Var 1; Var 0])];
         WRule (u_t "$gen1" [Var 1; Var 3]) [Goal (u_t "b" [Var 1; Var 2]); Goal (u_t "c" [Var 2; Var 2; Var 3])]] /\
  plain h_prog /\ no_value_subgoals h_prog /\ program u_al 0 h_prog /\
  same_meaning (wderives True h_prog h_base)
    (fun t => wderives True rs' h_base t /\ forall x, wroot t = Goal x -> ~ gen_item 1 x) /\
  exists t, wderives True h_prog h_base t /\ wroot t = Goal (u_t "p" [u_n 1; u_n 1]) /\ wvalue (fun _ => (2 : nat_sr)) t = 24.
Proof.
  pose (o := h_hook). exists 20, (fst (fst o)), (snd o).
  assert (E : hook u_al id (fun _ => false) (7 : nat_sr) u_one (v_eqr v_enc) (v_eqp v_enc) 20 0 [2; 3] h_prog 0 0 = Ok (fst (fst o), snd (fst o), snd o)).
  { rewrite <- !surjective_pairing. apply u_ok. by vm_compute. }
  assert (Eg : snd (fst o) = 1) by (by vm_compute). rewrite Eg in E.
  assert (Hs : equality_sound (v_eqp v_enc)) by (intros P Q; apply v_eqp_ok; [exact v_enc_inj|exact v_enc_closed]).
  assert (Hp : program u_al 0 h_prog) by (apply programb_ok; by vm_compute).
  split; [exact E|]. split; [clear; vm_compute; reflexivity|]. clearbody o. split; [exact h_plain|]. split; [exact h_values|]. split; [exact Hp|]. split; [|exact h_derivation].
  refine (proj2 (proj2 (C31_hook nat_sr u_al id (fun _ => false) 7 u_one (v_eqr v_enc) (v_eqp v_enc) 20 0 0 1 0 _ [2; 3] h_prog _ h_base u_al_inj (v_eqr_ok v_enc v_enc_inj) Hs v_comm h_plain Hp _ _ E))); clear; [done|].
  intros x Hx. apply h_gen; [done|lia].
Qed.

Definition h_bin := u_get ([], 0, 0) (binarize u_al id (fun _ => false) (7 : nat_sr) u_one (v_eqr v_enc) (v_eqp v_enc) 20 h_prog 0 0).
Theorem C31_binarize_witness : exists n rs' c',
  binarize u_al id (fun _ => false) (7 : nat_sr) u_one (v_eqr v_enc) (v_eqp v_enc) n h_prog 0 0 = Ok (rs', 2, c') /\
  rs' = [WRule (u_t "$gen1" [Var 1; Var 3]) [Goal (u_t "$gen2" [Var 1; Var 3]); Val (3 : nat_sr)];
         WRule (u_t "p" [Var 0; Var 3]) [Goal (u_t "$gen1" [Var 1; Var 3]); Goal (u_t "a" [Var 0; Var 1])];
         WRule (u_t "a" [Var 0; Var 1]) [Goal (u_t "b" [Var 1; Var 0])];
         WRule (u_t "$gen2" [Var 1; Var 3]) [Goal (u_t "b" [Var 1; Var 2]); Goal (u_t "c" [Var 2; Var 2; Var 3])]] /\
  same_meaning (wderives True h_prog h_base)
    (fun t => wderives True rs' h_base t /\ forall x j, wroot t = Goal x -> 0 < j <= 2 -> ~ gen_item j x) /\
  exists t, wderives True h_prog h_base t /\ wroot t = Goal (u_t "p" [u_n 1; u_n 1]) /\ wvalue (fun _ => (2 : nat_sr)) t = 24.
Proof.
  pose (o := h_bin). exists 20, (fst (fst o)), (snd o).
  assert (E : binarize u_al id (fun _ => false) (7 : nat_sr) u_one (v_eqr v_enc) (v_eqp v_enc) 20 h_prog 0 0 = Ok (fst (fst o), snd (fst o), snd o)).
  { rewrite <- !surjective_pairing. apply u_ok. by vm_compute. }
  assert (Eg : snd (fst o) = 2) by (by vm_compute). rewrite Eg in E.
  assert (Hs : equality_sound (v_eqp v_enc)) by (intros P Q; apply v_eqp_ok; [exact v_enc_inj|exact v_enc_closed]).
  assert (Hp : program u_al 0 h_prog) by (apply programb_ok; by vm_compute).
  split; [exact E|]. split; [clear; vm_compute; reflexivity|]. clearbody o. split; [|exact h_derivation].
  refine (proj2 (C31_binarize nat_sr u_al id (fun _ => false) 7 u_one (v_eqr v_enc) (v_eqp v_enc) 20 0 2 0 _ h_prog _ h_base u_al_inj (v_eqr_ok v_enc v_enc_inj) Hs v_comm h_plain Hp h_gen E)).
Qed.

(** ** In a noncommutative semiring the claim fails: hook and binarize put the new
    subgoal first.  For matrices, "x += a * b * c" has the value A B C and its
    binarization "x += $gen1 * a.  $gen1 += b * c" has B C A. *)
Definition mat := (nat * nat * nat * nat)%type.
Definition mat_add (x y : mat) : mat := let '(a, b, c, d) := x in let '(e, f, g, h) := y in (a + e, b + f, c + g, d + h).
Definition mat_mul (x y : mat) : mat :=
  let '(a, b, c, d) := x in let '(e, f, g, h) := y in (a * e + b * g, a * f + b * h, c * e + d * g, c * f + d * h).
Lemma mat_eq (a b c d e f g h : nat) : a = e -> b = f -> c = g -> d = h -> (a, b, c, d) = (e, f, g, h).
Proof. by intros -> -> -> ->. Qed.
Definition mat_sr : semiring.
Proof.
  refine (SR mat (0, 0, 0, 0) (1, 0, 0, 1) mat_add mat_mul _ _ _ _ _ _ _ _ _ _);
    repeat intros [[[? ?] ?] ?]; unfold mat_add, mat_mul; apply mat_eq; ring.
Defined.

Definition m_enc (x : mat_sr) : term := let '(a, b, c, d) := (x : mat) in Fn [v_enc a; v_enc b; v_enc c; v_enc d].
Lemma m_enc_inj x y : m_enc x = m_enc y -> x = y.
Proof. destruct x as [[[? ?] ?] ?], y as [[[? ?] ?] ?]. unfold m_enc, v_enc, u_n. intros [= E1 E2 E3 E4]. repeat f_equal; lia. Qed.
Lemma m_enc_closed x : ground (m_enc x).
Proof. by destruct x as [[[? ?] ?] ?]. Qed.

Definition m_prog : list (wrule mat_sr) := [WRule (u_t "x" []) [Goal (u_t "a" []); Goal (u_t "b" []); Goal (u_t "c" [])]].
Definition m_base (x : term) : Prop := exists f, x = u_t f [] /\ (f = "a" \/ f = "b" \/ f = "c").
Definition m_bin (m : mat_sr) := binarize u_al id (fun _ => false) m (fun _ => false) (v_eqr m_enc) (v_eqp m_enc) 20 m_prog 0 0.
Definition m_w (x : term) : mat_sr :=
  if decide (x = u_t "a" []) then (0, 1, 0, 0) else if decide (x = u_t "b" []) then (0, 0, 1, 0) else (1, 0, 0, 1).

Theorem C31_order_refuted : forall m : mat_sr, exists n rs' c,
  binarize u_al id (fun _ => false) m (fun _ => false) (v_eqr m_enc) (v_eqp m_enc) n m_prog 0 0 = Ok (rs', 1, c) /\
  (forall r s, v_eqr m_enc r s = true <-> r = s) /\ equality_sound (v_eqp m_enc) /\
  plain m_prog /\ program u_al 0 m_prog /\ (forall x j, m_base x -> 0 < j -> ~ gen_item j x) /\
  ~ same_meaning (wderives True m_prog m_base)
      (fun t => wderives True rs' m_base t /\ forall x j, wroot t = Goal x -> 0 < j <= 1 -> ~ gen_item j x).
Proof.
  intros m.
  pose (new := [WRule (u_t "x" []) [Goal (u_t "$gen1" []); Goal (u_t "a" [])]; WRule (u_t "$gen1" []) [Goal (u_t "b" []); Goal (u_t "c" [])]] : list (wrule mat_sr)).
  assert (E : exists c, m_bin m = Ok (new, 1, c)) by (eexists; vm_compute; reflexivity).
  destruct E as [c E]. exists 20, new, c. split; [exact E|]. clear E c. split; [apply v_eqr_ok, m_enc_inj|].
  split; [intros P Q; apply v_eqp_ok; [exact m_enc_inj|exact m_enc_closed]|]. split; [|split; [|split]].
  - intros r Hr. apply elem_of_list_singleton in Hr as ->. split; [by eexists _, _|]. cbn. intros b Hb.
    rewrite !elem_of_cons, elem_of_nil in Hb; right; right; destruct_or?; subst; by eexists _, _.
  - split.
    + intros r Hr. apply elem_of_list_singleton in Hr as ->. split; [done|by eexists _, _].
    + intros r v k Hr Hv. apply elem_of_list_singleton in Hr as ->. by apply elem_of_nil in Hv.
  - intros x j (f & -> & Hf) _ [args E]. injection E as E _. cbn in E. destruct Hf as [->|[->| ->]]; discriminate.
  - intros (f & g & H1 & _).
    pose (t := WNode 0 (u_t "x" []) [TLeaf (u_t "a" []); TLeaf (u_t "b" []); TLeaf (u_t "c" [])] : wderiv mat_sr).
    assert (Hb : forall f, f = "a" \/ f = "b" \/ f = "c" -> wderives True m_prog m_base (TLeaf (u_t f []))) by (intros h Hh; constructor; by exists h).
    assert (Ht : wderives True m_prog m_base t).
    { econstructor; [done| | |].
      - exists (fun _ => u_n 0). done.
      - intros _. repeat (constructor; [by intros v|]). constructor.
      - constructor; [apply Hb; auto|]. constructor; [apply Hb; auto|]. constructor; [apply Hb; auto|constructor]. }
    destruct (H1 t Ht) as ((Hd & _) & _ & Hroot & Hval). specialize (Hval m_w).
    assert (Hleaf : forall d h, wderives True new m_base d -> wroot d = Goal (u_t h []) -> h = "a" \/ h = "b" \/ h = "c" -> d = TLeaf (u_t h [])).
    { intros d h Hd' E Hh. destruct d as [v|x|k x ts]; [done|by injection E as ->|]. injection E as ->.
      apply wderives_node in Hd' as (s & Hs & (σ & _ & E1 & _) & _ & _). destruct k as [|[|k]]; [..|done]; injection Hs as <-; cbn in E1; injection E1 as <-; naive_solver. }
    assert (Hx : f t = WNode 0 (u_t "x" []) [WNode 1 (u_t "$gen1" []) [TLeaf (u_t "b" []); TLeaf (u_t "c" [])]; TLeaf (u_t "a" [])]).
    { destruct (f t) as [v|x|k x ts] eqn:Ef; [done| |].
      - injection Hroot as ->. inversion Hd as [|? (h & E & Hh)|]. injection E as <-. naive_solver.
      - injection Hroot as ->. apply wderives_node in Hd as (s & Hs & (σ & _ & E1 & E2) & _ & HF).
        destruct k as [|[|k]]; [|injection Hs as <-; done|done]. injection Hs as <-. clear E1.
        destruct ts as [|d1 [|d2 [|]]]; try done. cbn in E2. injection E2 as E2 E3.
        apply Forall_cons in HF as [F1 [F2 _]%Forall_cons]. rewrite (Hleaf d2 "a" F2 (eq_sym E3)) by auto.
        destruct d1 as [v|x|k x ts]; [done| |].
        + injection E2 as <-. inversion F1 as [|? (h & E & Hh)|]. injection E as <-. naive_solver.
        + injection E2 as <-. apply wderives_node in F1 as (s & Hs & (τ & _ & E1 & E2) & _ & HF).
          destruct k as [|[|k]]; [injection Hs as <-; done| |done]. injection Hs as <-. clear E1.
          destruct ts as [|d1 [|d3 [|]]]; try done. cbn in E2. injection E2 as E4 E5.
          apply Forall_cons in HF as [G1 [G2 _]%Forall_cons]. rewrite (Hleaf d1 "b" G1 (eq_sym E4)), (Hleaf d3 "c" G2 (eq_sym E5)) by auto. done. }
    rewrite Hx in Hval. vm_compute in Hval. discriminate.
Qed.

Print Assumptions C31_fold.
Print Assumptions C31_fold_values.
Print Assumptions C31_hook.
Print Assumptions C31_hook_shape.
Print Assumptions C31_hook_returns.
Print Assumptions C31_binarize.
Print Assumptions C31_binarize_returns.
Print Assumptions C31_equality.
Print Assumptions C31_fold_witness.
Print Assumptions C31_hook_witness.
Print Assumptions C31_binarize_witness.
Print Assumptions C31_order_refuted.
