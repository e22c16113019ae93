(** Proofs about the [is] builtin. *)
From Coq Require Import ZArith List Lia.
From stdpp Require Import gmap.
From Coq Require String Ascii.
From Verif Require Import PyBase TermModel TermSpec TermProofs UnifyProofs SetsProofs PruneModel FuelProofs ChartProofs SolverSpec SolverProofs BuiltinModel BuiltinSpec.
Import String.StringSyntax Ascii.AsciiSyntax.

Definition sat (σ : nat -> term) (a : alt) : bool := forallb (fun p => bool_decide (sub σ (fst p) = sub σ (snd p))) a.
Definition b2n (b : bool) : nat := if b then 1 else 0.
Definition count (σ : nat -> term) (p : list alt) : nat := length (List.filter (sat σ) p).

Lemma count_1 σ x y : count σ [[(x, y)]] = b2n (bool_decide (sub σ x = sub σ y)).
Proof. unfold count, sat. simpl. destruct (bool_decide _); done. Qed.

Lemma count_1b σ x y b : (sub σ x = sub σ y <-> b = true) -> count σ [[(x, y)]] = b2n b.
Proof.
  intros H. rewrite count_1. case_bool_decide as E.
  - apply H in E. by subst.
  - destruct b; [|done]. destruct E. by apply H.
Qed.

Lemma bd_true (P : Prop) `{Decision P} : bool_decide P = true <-> P.
Proof. apply bool_decide_eq_true. Qed.

Lemma int_eq a b : Cst (CInt a) = Cst (CInt b) <-> a = b. Proof. naive_solver. Qed.
Lemma str_eq a b : Cst (CStr a) = Cst (CStr b) <-> a = b. Proof. naive_solver. Qed.
Lemma append_nil_r s : String.append s s_none = s.
Proof. induction s as [|c s IH]; [done|]. change (String.String c (String.append s s_none) = String.String c s). by rewrite IH. Qed.
Lemma repeat_1 s : repeat_str s (Z.to_nat 1) = s.
Proof. apply append_nil_r. Qed.
Lemma div_iff x y z : (y <> 0 -> x mod y = 0 -> (z = x / y <-> x = y * z))%Z.
Proof. intros Hy Hm. apply Z.div_exact in Hm; [|done]. split; [intros ->; done|]. intros E. rewrite E in Hm at 1. by apply Z.mul_reg_l in Hm. Qed.

(** case analysis on the values of the variables in the goal *)
Ltac split_vals :=
  repeat match goal with
    |- context [?s ?v] => is_var s; is_var v;
      match type of s with nat -> term => generalize (s v); intros [?|[?|?]|?]; cbn [decide] end end.
Ltac solve_eqs :=
  repeat case_decide; rewrite ?bd_true; try (split; discriminate); try reflexivity; try (split; intros; congruence);
  rewrite ?int_eq, ?str_eq; simplify_eq; rewrite ?repeat_1, ?append_nil_r; try reflexivity; try lia.

Lemma plan_mul_count σ X Y Z p : plan_mul X Y Z = Ok p -> count σ p = b2n (product_is (sub σ X) (sub σ Y) (sub σ Z)).
Proof.
  intros E. unfold plan_mul in E.
  destruct Y as [vy|[y|y]|ys]; destruct Z as [vz|[z|z]|zs]; destruct X as [vx|[x|x]|xs]; simpl in E; try discriminate;
    unfold truediv in E; repeat case_decide; simpl in E; try discriminate; injection E as <-; apply count_1b; simpl;
    unfold product_is; split_vals; solve_eqs.
  all: match goal with H : _ /\ _ |- _ => destruct H as [? _] end.
  all: try (rewrite (Z.mul_comm _ z) in *; apply div_iff; done).
  all: by apply div_iff.
Qed.

Lemma count_map {A} σ (f : A -> alt) l : count σ (map f l) = length (List.filter (fun a => sat σ (f a)) l).
Proof.
  unfold count. induction l as [|a l IH]; [done|]. simpl. destruct (sat σ (f a)); simpl; by rewrite IH.
Qed.

Lemma filter_ext_len {A} (f g : A -> bool) l : (forall a, f a = g a) -> length (List.filter f l) = length (List.filter g l).
Proof. intros H. f_equal. by apply List.filter_ext. Qed.

Lemma filter_none {A} (f : A -> bool) l : (forall a, f a = false) -> length (List.filter f l) = 0.
Proof. intros H. induction l as [|a l IH]; [done|]. simpl. by rewrite H. Qed.

Lemma filter_map_len {A B} (f : B -> bool) (g : A -> B) l : length (List.filter f (map g l)) = length (List.filter (fun a => f (g a)) l).
Proof. induction l as [|a l IH]; [done|]. simpl. destruct (f (g a)); simpl; by rewrite IH. Qed.

(** each way of writing a string as a concatenation is listed once *)
Lemma splits_count s a b :
  length (List.filter (fun p => bool_decide (a = fst p) && bool_decide (b = snd p)) (splits s)) = b2n (bool_decide (s = String.append a b)).
Proof.
  revert a. induction s as [|c s IH]; intros a.
  - simpl. destruct a as [|ca a]; simpl.
    + destruct b; done.
    + done.
  - cbn [splits List.filter fst snd]. destruct a as [|ca a].
    + rewrite (bool_decide_true (String.EmptyString = s_none)) by done. rewrite andb_true_l. cbn [String.append].
      assert (Hn : length (List.filter (fun p => bool_decide (String.EmptyString = fst p) && bool_decide (b = snd p))
          (map (fun p => (String.String c (fst p), snd p)) (splits s))) = 0).
      { rewrite filter_map_len. apply filter_none. intros [p q]. done. }
      destruct (decide (b = String.String c s)) as [->|H].
      * rewrite !bool_decide_true by done. simpl. f_equal. exact Hn.
      * rewrite !bool_decide_false by auto. exact Hn.
    + rewrite (bool_decide_false (String.String ca a = s_none)) by done. rewrite andb_false_l.
      rewrite filter_map_len. cbn [fst snd].
      destruct (decide (ca = c)) as [->|Hc].
      * rewrite (filter_ext_len _ (fun p => bool_decide (a = fst p) && bool_decide (b = snd p))).
        -- rewrite IH. f_equal. apply bool_decide_ext. change (s = String.append a b <-> String.String c s = String.String c (String.append a b)). split; congruence.
        -- intros [p q]. simpl. f_equal. apply bool_decide_ext. split; congruence.
      * rewrite (bool_decide_false (String.String c s = _)) by (intros [=]; congruence). apply filter_none. intros [p q]. simpl.
        rewrite bool_decide_false by congruence. done.
Qed.

Lemma sat_2 σ a b c d : sat σ [(a, b); (c, d)] = bool_decide (sub σ a = sub σ b) && bool_decide (sub σ c = sub σ d).
Proof. unfold sat. simpl. by rewrite andb_true_r. Qed.

Lemma splits_sum σ Y Z s :
  count σ (map (fun p => [(Y, Cst (CStr (fst p))); (Z, Cst (CStr (snd p)))]) (splits s)) = b2n (sum_is (Cst (CStr s)) (sub σ Y) (sub σ Z)).
Proof.
  rewrite count_map. rewrite (filter_ext_len _ (fun p => bool_decide (sub σ Y = Cst (CStr (fst p))) && bool_decide (sub σ Z = Cst (CStr (snd p))))) by (intros; apply sat_2).
  unfold sum_is. generalize (sub σ Y) (sub σ Z). intros y z.
  assert (Hn : forall t, (forall s, t <> Cst (CStr s)) -> forall s, bool_decide (t = Cst (CStr s)) = false) by (intros t H s'; by apply bool_decide_false).
  destruct y as [?|[y|y]|?].
  - rewrite filter_none; [done|]. intros [p q]. done.
  - rewrite filter_none; [|by intros [p q]]. destruct z as [?|[?|?]|?]; done.
  - destruct z as [?|[z|z]|?].
    + rewrite filter_none; [done|]. intros [p q]. apply andb_false_r.
    + rewrite filter_none; [done|]. intros [p q]. apply andb_false_r.
    + rewrite (filter_ext_len _ (fun p => bool_decide (y = fst p) && bool_decide (z = snd p))).
      * rewrite splits_count. f_equal. apply bool_decide_ext. by rewrite str_eq.
      * intros [p q]. simpl. f_equal; apply bool_decide_ext; apply str_eq.
    + rewrite filter_none; [done|]. intros [p q]. apply andb_false_r.
  - rewrite filter_none; [done|]. intros [p q]. done.
Qed.

Lemma plan_add_count σ X Y Z p : plan_add X Y Z = Ok p ->
  adding_zero X Y Z = false \/ (asnum (sub σ Y) <> None /\ asnum (sub σ Z) <> None) ->
  count σ p = b2n (sum_is (sub σ X) (sub σ Y) (sub σ Z)).
Proof.
  intros E Hz. unfold plan_add in E. destruct (asstr X) as [x|] eqn:EX.
  - assert (X = Cst (CStr x)) as -> by (destruct X as [?|[?|?]|?]; naive_solver).
    destruct (asstr Y) as [y|] eqn:EY; [destruct (asstr Z) as [z|] eqn:EZ|]; injection E as <-; [|apply splits_sum..].
    assert (Y = Cst (CStr y)) as -> by (destruct Y as [?|[?|?]|?]; naive_solver).
    assert (Z = Cst (CStr z)) as -> by (destruct Z as [?|[?|?]|?]; naive_solver).
    apply count_1b. simpl. by rewrite bd_true.
  - destruct Y as [vy|[y|y]|ys]; destruct Z as [vz|[z|z]|zs]; destruct X as [vx|[x|x]|xs]; simpl in E, EX; try discriminate;
      repeat case_decide; simpl in E; try discriminate; injection E as <-; apply count_1b; simpl; simpl in Hz; revert Hz;
      unfold sum_is; split_vals; intros Hz; solve_eqs; exfalso; cbn [asnum] in Hz; naive_solver.
Qed.

Lemma py_bool_inj a b : py_bool a = py_bool b <-> a = b.
Proof. by destruct a, b. Qed.
Lemma sub_py_bool σ b : sub σ (py_bool b) = py_bool b.
Proof. done. Qed.
Lemma asbool_eq t b : asbool t = Some b <-> t = py_bool b.
Proof. unfold asbool. repeat case_decide; subst; destruct b; simpl; split; try done; intros H; try congruence. Qed.
Lemma asnum_eq t z : asnum t = Some z <-> t = Cst (CInt z).
Proof. destruct t as [?|[?|?]|?]; naive_solver. Qed.


Lemma count_bd σ x y b : (sub σ x = sub σ y <-> b = true) -> count σ [[(x, y)]] = b2n b.
Proof. apply count_1b. Qed.

Lemma asnum_sub σ t z : asnum t = Some z -> sub σ t = Cst (CInt z).
Proof. intros H%asnum_eq. by subst. Qed.

Lemma plan1_count σ X f Y p : plan1 X f Y = Ok p -> inexact_mode X (Fn [Cst (CStr f); Y]) = false ->
  count σ p = b2n (is_true (sub σ X) (Fn [Cst (CStr f); sub σ Y])).
Proof.
  unfold plan1, inexact_mode, is_true. intros E Hm.
  destruct (decide (f = s_neg)) as [->|].
  { destruct (asnum Y) as [y|] eqn:EY.
    - injection E as <-. apply count_1b. rewrite (asnum_sub σ Y y EY). simpl. by rewrite bd_true.
    - destruct (asnum X) as [x|] eqn:EX; [|done]. injection E as <-. apply count_1b. rewrite (asnum_sub σ X x EX). cbn [sub].
      destruct (sub σ Y) as [?|[a|?]|?]; simpl; rewrite ?bd_true; rewrite ?int_eq; try done; lia. }
  destruct (decide (f = s_add)) as [->|].
  { destruct (asnum Y) as [y|] eqn:EY.
    - injection E as <-. apply count_1b. rewrite (asnum_sub σ Y y EY). simpl. by rewrite bd_true.
    - destruct (asnum X) as [x|] eqn:EX; [|done]. injection E as <-. apply count_1b. rewrite (asnum_sub σ X x EX). cbn [sub].
      destruct (sub σ Y) as [?|[a|?]|?]; simpl; rewrite ?bd_true; rewrite ?int_eq; try done; lia. }
  destruct (decide (f = s_abs)) as [->|].
  { destruct (asnum Y) as [y|] eqn:EY.
    - injection E as <-. apply count_1b. rewrite (asnum_sub σ Y y EY). simpl. by rewrite bd_true.
    - destruct (asnum X) as [x|] eqn:EX; [|done]. apply Z.ltb_ge in Hm. rewrite (asnum_sub σ X x EX).
      assert (Hgoal : (count σ (if decide (x = 0)%Z then [[(Y, Cst (CInt x))]] else [[(Y, Cst (CInt x))]; [(Y, Cst (CInt (- x)))]]))
          = if decide (sub σ Y = Cst (CInt x) \/ sub σ Y = Cst (CInt (- x))) then 1 else 0).
      { case_decide as H0.
        - subst x. rewrite count_1. simpl. repeat case_decide; case_bool_decide; naive_solver.
        - unfold count, sat. cbn [List.filter forallb fst snd sub]. rewrite !andb_true_r.
          repeat case_bool_decide; simpl; case_decide; try done; try naive_solver.
          assert (x = (- x)%Z) by congruence. lia. }
      injection E as E. rewrite <- E. etransitivity; [exact Hgoal|]. clear E Hgoal. destruct (sub σ Y) as [?|[a|?]|?]; simpl.
      1,3,4: try case_decide; naive_solver.
      case_decide as Hd; case_bool_decide as Hb; try done; exfalso.
      + apply Hb. rewrite int_eq. destruct Hd as [[= ->]|[= ->]]; lia.
      + apply Hd. injection Hb as ->. rewrite !int_eq. lia. }
  destruct (decide (f = s_str)) as [->|].
  { destruct Y as [?|[?|?]|?]; try done; injection E as <-; apply count_1b; simpl; by rewrite bd_true. }
  destruct (decide (f = s_int)) as [->|].
  { destruct Y as [?|[?|?]|?]; simpl in E; [by destruct (asbool X) as [[]|]|..]; injection E as <-; apply count_1b; simpl; by rewrite bd_true. }
  destruct (decide (f = s_not)) as [->|]; [|done].
  destruct (isvar Y) eqn:EV.
  - destruct (isvar X); [done|]. destruct (asbool X) as [b|] eqn:EX; [|done]. injection E as <-. apply count_1b.
    apply asbool_eq in EX as ->. rewrite !sub_py_bool. destruct (asbool (sub σ Y)) as [c|] eqn:EY.
    + apply asbool_eq in EY as ->. rewrite bd_true, !py_bool_inj. destruct b, c; naive_solver.
    + split; [|done]. intros H. rewrite H in EY. destruct b; done.
  - destruct (asbool Y) as [b|] eqn:EY; [|done]. injection E as <-. apply count_1b. apply asbool_eq in EY as ->.
    rewrite !sub_py_bool. assert (asbool (py_bool b) = Some b) as -> by by apply asbool_eq. by rewrite bd_true.
Qed.

Lemma cmp_int_spec f a b r : cmp_int f a b = Some r ->
  (if decide (f = s_gt) then bool_decide (a > b)%Z
   else if decide (f = s_lt) then bool_decide (a < b)%Z
   else if decide (f = s_ge) then bool_decide (a >= b)%Z
   else if decide (f = s_le) then bool_decide (a <= b)%Z
   else if decide (f = s_eqq) then bool_decide (a = b)
   else if decide (f = s_ne) then bool_decide (a <> b) else negb r) = r.
Proof.
  unfold cmp_int. intros E. repeat case_decide; try discriminate; injection E as <-.
  all: case_bool_decide; symmetry.
  all: rewrite ?negb_true_iff, ?negb_false_iff, ?Z.ltb_lt, ?Z.ltb_ge, ?Z.leb_le, ?Z.leb_gt, ?Z.eqb_eq, ?Z.eqb_neq; try lia.
Qed.

Lemma plan2_count σ X f Y Z p : plan2 X f Y Z = Ok p ->
  inexact_mode X (Fn [Cst (CStr f); Y; Z]) = false \/
    (asnum (sub σ X) <> None /\ asnum (sub σ Y) <> None /\ asnum (sub σ Z) <> None) ->
  count σ p = b2n (is_true (sub σ X) (Fn [Cst (CStr f); sub σ Y; sub σ Z])).
Proof.
  unfold plan2, inexact_mode, is_true. intros E Hm.
  destruct (decide (f = s_mul)) as [->|]; [by apply plan_mul_count|].
  destruct (decide (f = s_add)) as [->|]; [apply plan_add_count; [done|]; naive_solver|].
  destruct (decide (f = s_div)) as [->|]; [by apply plan_mul_count|].
  destruct (decide (f = s_neg)) as [->|]; [apply plan_add_count; [done|]; naive_solver|].
  destruct (isvar Y || isvar Z); [by case_decide|].
  destruct (asnum Y) as [y|] eqn:EY; [|done]. destruct (asnum Z) as [z|] eqn:EZ; [|done].
  rewrite (asnum_sub σ Y y EY), (asnum_sub σ Z z EZ). cbn [asnum].
  destruct (cmp_int f y z) as [b|] eqn:Ec.
  - injection E as <-. apply count_1b. rewrite sub_py_bool. pose proof (cmp_int_spec f y z b Ec) as Hc.
    revert Hc. unfold cmp_int in Ec. repeat (destruct (decide (f = _)); [intros <-; by rewrite bd_true|]). done.
  - unfold cmp_int in Ec. repeat (destruct (decide (f = _)); [done|]).
    destruct (decide (f = s_min)); [injection E as <-; apply count_1b; by rewrite bd_true|].
    destruct (decide (f = s_max)); [injection E as <-; apply count_1b; by rewrite bd_true|]. done.
Qed.

Lemma seqZ_count a n y : length (List.filter (fun x => bool_decide (y = x)) (seqZ a n)) = b2n (bool_decide (a <= y < a + n)%Z).
Proof.
  assert (H : forall l : list Z, NoDup l -> length (List.filter (fun x => bool_decide (y = x)) l) = b2n (bool_decide (y ∈ l))).
  { induction 1 as [|x l Hx Hl IH]; [done|]. cbn [List.filter]. destruct (decide (y = x)) as [Hyx|Hyx].
    - rewrite (bool_decide_true (y = x)) by done. subst x. cbn [length]. rewrite IH. rewrite (bool_decide_false (y ∈ l)) by done. rewrite (bool_decide_true (y ∈ y :: l)) by by left. done.
    - rewrite (bool_decide_false (y = x)) by done. rewrite IH. f_equal. apply bool_decide_ext. rewrite elem_of_cons. naive_solver. }
  rewrite H by apply NoDup_seqZ. f_equal. apply bool_decide_ext. rewrite elem_of_seqZ. lia.
Qed.

Lemma plan3_count σ X f Y A B p : plan3 X f Y A B = Ok p ->
  count σ p = b2n (is_true (sub σ X) (Fn [Cst (CStr f); sub σ Y; sub σ A; sub σ B])).
Proof.
  unfold plan3, is_true. intros E. destruct (decide (f = s_range)) as [->|]; [|done].
  destruct (asbool X) as [[]|] eqn:EX; [|done..]. destruct (asnum A) as [a|] eqn:EA; [|done]. destruct (asnum B) as [b|] eqn:EB; [|done].
  apply asbool_eq in EX as ->. rewrite sub_py_bool, (asnum_sub σ A a EA), (asnum_sub σ B b EB). cbn [asnum].
  injection E as <-. rewrite count_map. unfold sat. cbn [forallb fst snd sub].
  destruct (asnum (sub σ Y)) as [y|] eqn:EY.
  - apply asnum_eq in EY as ->. rewrite (filter_ext_len _ (fun x => bool_decide (y = x))).
    + rewrite seqZ_count. f_equal. apply bool_decide_ext. intuition lia.
    + intros x. rewrite andb_true_r. apply bool_decide_ext. apply int_eq.
  - rewrite filter_none; [done|]. intros x. rewrite andb_true_r. apply bool_decide_false. intros H. by rewrite H in EY.
Qed.

(** All arguments of the operator, and the result, are integers. *)
Definition integers (σ : nat -> term) (X k : term) : Prop :=
  asnum (sub σ X) <> None /\ match k with Fn (_ :: args) => Forall (fun t => asnum (sub σ t) <> None) args | _ => False end.

Lemma plan_count σ X k p : plan X k = Ok p ->
  inexact_mode X k = false \/ (integers σ X k /\ forall Y, k <> Fn [Cst (CStr s_abs); Y]) ->
  count σ p = b2n (is_true (sub σ X) (sub σ k)).
Proof.
  intros E Hm. destruct k as [?|?|[|[?|[?|f]|?] [|Y [|Z [|W [|? ?]]]]]]; try done; cbn [plan] in E.
  - apply plan1_count; [done|]. destruct Hm as [Hm|[_ Hm]]; [done|]. unfold inexact_mode. case_decide; [|done]. subst. by destruct (Hm Y).
  - apply plan2_count; [done|]. destruct Hm as [Hm|[[H1 H2] _]]; [by left|]. right. split; [done|].
    apply Forall_cons in H2 as [H2 H3]. apply Forall_cons in H3 as [H3 _]. done.
  - by apply plan3_count.
Qed.

(** ** Heaps *)
Lemma run_alt_ok V n a : forall st o, okst V st -> Forall (fun p => in_V V (fst p) /\ in_V V (snd p)) a -> run_alt n st a = Ok o ->
  match o with
  | Some st' => okst V st' /\ st ⊆ st' /\ forall σ, solves σ st' <-> solves σ st /\ sat σ a = true
  | None => forall σ, solves σ st -> sat σ a = false
  end.
Proof.
  induction a as [|[x y] a IH]; intros st o Hst HV E; cbn [run_alt] in E.
  { injection E as <-. split; [done|]. split; [done|]. intros σ. simpl. naive_solver. }
  apply Forall_cons in HV as [[Hx Hy] HV]. cbn [fst snd] in *.
  destruct (unify_f n st x y) as [[st1 b]| |] eqn:E1; try done. cbn [bind] in E.
  destruct (unify_V_ok V n st x y st1 b Hst Hx Hy E1) as (H1 & H2 & H3). destruct b.
  - specialize (IH st1 o H1 HV E). destruct o as [st'|].
    + destruct IH as (H4 & H5 & H6). split; [done|]. split; [by etransitivity|]. intros σ. rewrite H6, H3. unfold sat. cbn [forallb fst snd].
      rewrite andb_true_iff, bd_true. fold (sat σ a). naive_solver.
    + intros σ Hσ. unfold sat. cbn [forallb fst snd]. case_bool_decide; [|done]. simpl. apply IH. by apply H3.
  - injection E as <-. intros σ Hσ. unfold sat. cbn [forallb fst snd]. rewrite bool_decide_false; [done|]. by apply H3.
Qed.

Lemma run_alts_ok V n st p : forall sts, okst V st -> Forall (Forall (fun p => in_V V (fst p) /\ in_V V (snd p))) p -> run_alts n st p = Ok sts ->
  (forall st', st' ∈ sts -> okst V st' /\ st ⊆ st') /\
  forall σ, solves σ st -> length (List.filter (solvesb σ) sts) = count σ p.
Proof.
  induction p as [|a p IH]; intros sts Hst HV E; cbn [run_alts] in E.
  { injection E as <-. split; [|done]. intros st' Hin. by apply elem_of_nil in Hin. }
  apply Forall_cons in HV as [Ha HV]. destruct (run_alt n st a) as [o| |] eqn:E1; try done. cbn [bind] in E.
  destruct (run_alts n st p) as [sts1| |]; try done. cbn [bind] in E. injection E as <-.
  destruct (IH sts1 Hst HV eq_refl) as [H1 H2]. pose proof (run_alt_ok V n a st o Hst Ha E1) as Ho. destruct o as [st'|].
  - destruct Ho as (H3 & H4 & H5). split.
    + intros st2 [->|Hin]%elem_of_cons; [done|by apply H1].
    + intros σ Hσ. unfold count in *. cbn [List.filter]. specialize (H2 σ Hσ). destruct (sat σ a) eqn:Es.
      * rewrite (proj2 (solvesb_spec σ st')) by by apply H5. simpl. by f_equal.
      * destruct (solvesb σ st') eqn:Eb; [|done]. apply solvesb_spec, H5 in Eb as [_ Eb]. congruence.
  - split; [done|]. intros σ Hσ. unfold count in *. cbn [List.filter]. rewrite (Ho σ Hσ). by apply H2.
Qed.

Ltac alt_vars := repeat first [apply List.Forall_nil | apply List.Forall_cons | apply conj]; cbn [fst snd]; auto.
Lemma plan_vars X k p V : plan X k = Ok p -> in_V V X -> in_V V k -> Forall (Forall (fun p => in_V V (fst p) /\ in_V V (snd p))) p.
Proof.
  intros E HX Hk.
  assert (Hc : forall c, in_V V (Cst c)) by (intros c w Hw; done).
  assert (Hb : forall b, in_V V (py_bool b)) by (intros b w Hw; done).
  assert (Hargs : forall l t, k = Fn l -> t ∈ l -> in_V V t).
  { intros l t -> Ht w Hw. apply Hk. simpl. apply in_flat_map. exists t. split; [by apply elem_of_list_In|done]. }
  destruct k as [?|?|[|[?|[?|f]|?] [|Y [|Z [|W [|? ?]]]]]]; try done; cbn [plan] in E.
  - assert (HY : in_V V Y) by (eapply Hargs; [done|set_solver]). unfold plan1 in E.
    repeat case_decide; repeat (match type of E with context [match ?m with _ => _ end] => destruct m end; try discriminate); try discriminate; injection E as <-; by alt_vars.
  - assert (HY : in_V V Y) by (eapply Hargs; [done|set_solver]). assert (HZ : in_V V Z) by (eapply Hargs; [done|set_solver]).
    assert (Hmul : forall X Y Z p, in_V V X -> in_V V Y -> in_V V Z -> plan_mul X Y Z = Ok p -> Forall (Forall (fun p => in_V V (fst p) /\ in_V V (snd p))) p).
    { clear -Hc. intros X Y Z p HX HY HZ E. unfold plan_mul, truediv in E.
      repeat (match type of E with context [match ?m with _ => _ end] => destruct m end; try discriminate); cbn [bind] in E; try discriminate; injection E as <-; by alt_vars. }
    assert (Hadd : forall X Y Z p, in_V V X -> in_V V Y -> in_V V Z -> plan_add X Y Z = Ok p -> Forall (Forall (fun p => in_V V (fst p) /\ in_V V (snd p))) p).
    { clear -Hc. intros X Y Z p HX HY HZ E. unfold plan_add in E.
      repeat (match type of E with context [match ?m with _ => _ end] => destruct m end; try discriminate); try discriminate; injection E as <-; try (by alt_vars).
      all: apply Forall_map, Forall_forall; intros [u v] _; by alt_vars. }
    unfold plan2 in E. repeat (case_decide; [by eauto|]).
    repeat (match type of E with context [match ?m with _ => _ end] => destruct m end; try discriminate); try discriminate; injection E as <-; by alt_vars.
  - assert (HY : in_V V Y) by (eapply Hargs; [done|set_solver]). unfold plan3 in E.
    repeat (match type of E with context [match ?m with _ => _ end] => destruct m end; try discriminate); try discriminate; injection E as <-.
    apply Forall_map, Forall_forall; intros u _; by alt_vars.
Qed.

Lemma is_run_ok V n st x y sts : heap_over V st -> (forall w, In w (vars x) \/ In w (vars y) -> w ∈ V) -> is_run n st x y = Ok sts ->
  exists X k, deref n st x = Ok X /\ deref n st y = Ok k /\
  (forall st', st' ∈ sts -> heap_over V st' /\ st ⊆ st') /\
  forall σ, solves σ st ->
    inexact_mode X k = false \/ (integers σ x y /\ forall Y, k <> Fn [Cst (CStr s_abs); Y]) ->
    length (List.filter (solvesb σ) sts) = b2n (is_true (sub σ x) (sub σ y)).
Proof.
  intros Hst%heap_over_okst HV E. unfold is_run in E.
  destruct (deref n st x) as [X| |] eqn:EX; try done. cbn [bind] in E.
  destruct (deref n st y) as [k| |] eqn:Ek; try done. cbn [bind] in E.
  destruct (plan X k) as [p| |] eqn:Ep; try done. cbn [bind] in E. exists X, k. split; [done|]. split; [done|].
  destruct Hst as (Hac & Hcl & Hdom). destruct (acyclic_resolution st Hac) as [θ Hθ].
  pose proof (deref_ok st θ Hac Hθ n x X EX) as HX. pose proof (deref_ok st θ Hac Hθ n y k Ek) as Hk.
  assert (Hv : forall v, v ∈ V -> in_V V (θ v)).
  { destruct (acyclic_weighted st Hac) as [w Hw]. intros v. pattern v. revert v. apply (weighted_ind st w); [done|..].
    - intros v Hn Hv. rewrite (proj2 Hθ v Hn). intros u [<-|[]]. done.
    - intros v t Ev IH Hv u Hu. rewrite (proj1 Hθ v t Ev) in Hu. apply vars_sub in Hu as (z & Hz & Hu). apply (IH z Hz); [|done]. by eapply Hcl. }
  assert (Hin : forall t, in_V V t -> in_V V (sub θ t)).
  { intros t Ht u Hu. apply vars_sub in Hu as (z & Hz & Hu). apply (Hv z); [by apply Ht|done]. }
  assert (Hp : Forall (Forall (fun p => in_V V (fst p) /\ in_V V (snd p))) p).
  { apply (plan_vars X k p V Ep); subst; apply Hin; intros w Hw; apply HV; auto. }
  destruct (run_alts_ok V n st p sts (conj Hac (conj Hcl Hdom)) Hp E) as [H1 H2]. split.
  { intros st' Hst'. destruct (H1 st' Hst'). split; [by apply heap_over_okst|done]. }
  intros σ Hσ Hm. rewrite (H2 σ Hσ).
  assert (Hsx : sub σ X = sub σ x) by (rewrite HX; by eapply resolution_most_general).
  assert (Hsk : sub σ k = sub σ y) by (rewrite Hk; by eapply resolution_most_general).
  rewrite <- Hsx, <- Hsk. apply plan_count; [done|]. destruct Hm as [Hm|[[Hi1 Hi2] Hm]]; [by left|right]. split; [|done].
  split; [by rewrite Hsx|]. destruct k as [vk|c|[|f args]]; try done.
  destruct y as [vy|c|[|g args']]; try done. cbn [sub map] in Hsk. injection Hsk as _ Ha. clear -Ha Hi2.
  revert args' Ha Hi2. induction args as [|t args IH]; intros [|t' args'] Ha Hi2; try done. simpl in Ha. injection Ha as Ht Ha.
  apply Forall_cons in Hi2 as [? ?]. constructor; [by rewrite Ht|]. by eapply IH.
Qed.

Lemma run_alt_settles a : forall st, acyclic st -> exists o, settles (fun n => run_alt n st a) o.
Proof.
  induction a as [|[x y] a IH]; intros st Hac; [exists (Some st); apply settles_ret|].
  destruct (unify_settles st x y Hac) as (st' & b & Hu).
  assert (Hac' : acyclic st').
  { destruct Hu as [n0 Hu]. specialize (Hu n0 (le_n _)). apply (unify_ok n0 st x y st' b Hac Hu). }
  destruct b.
  - destruct (IH st' Hac') as [o Ho]. exists o. cbn [run_alt].
    eapply (settles_bind _ (fun n (p : store * bool) => let '(st', b) := p in if b then run_alt n st' a else Ok None)); [exact Hu|]. done.
  - exists None. cbn [run_alt]. eapply (settles_bind _ (fun n (p : store * bool) => let '(st', b) := p in if b then run_alt n st' a else Ok None)); [exact Hu|].
    apply settles_ret.
Qed.

Lemma run_alts_settles st p : acyclic st -> exists sts, settles (fun n => run_alts n st p) sts.
Proof.
  intros Hac. induction p as [|a p [sts Hs]]; [exists []; apply settles_ret|].
  destruct (run_alt_settles a st Hac) as [o Ho]. eexists. cbn [run_alts].
  eapply settles_bind; [exact Ho|]. eapply settles_bind; [exact Hs|]. apply settles_ret.
Qed.

Lemma is_run_settles st θ x y p : acyclic st -> resolution st θ -> plan (sub θ x) (sub θ y) = Ok p ->
  exists sts, settles (fun n => is_run n st x y) sts.
Proof.
  intros Hac Hθ Hp. destruct (run_alts_settles st p Hac) as [sts Hs]. exists sts. unfold is_run.
  eapply settles_bind; [by apply deref_settles|]. eapply settles_bind; [by apply deref_settles|].
  eapply (settles_bind (fun _ => plan (sub θ x) (sub θ y))); [exists 0; intros; exact Hp|]. exact Hs.
Qed.
