(** C39: the interval arithmetic of the fold/unfold safety check is sound. *)
From Coq Require Import List ZArith Lia.
From Verif Require Import PyBase TermModel SetsModel PruneModel ProgSpec IntervalModel.
Import ListNotations.
Local Open Scope Z_scope.

(** * Specification *)

(** The value of a bound when the z3 variables have the values [ρ]. *)
Fixpoint beval (ρ : nat -> Z) (b : bound) : Z :=
  match b with
  | BInt z => z
  | BVar n => ρ n
  | BAdd a b => beval ρ a + beval ρ b
  | BSub a b => beval ρ a - beval ρ b
  | BIfLt a b x y => if beval ρ a <? beval ρ b then beval ρ x else beval ρ y
  | BIfGt a b x y => if beval ρ b <? beval ρ a then beval ρ x else beval ρ y
  end.

(** [x] lies in the interval. *)
Definition inside (ρ : nat -> Z) (i : interval) (x : Z) : Prop := beval ρ (lo i) <= x <= beval ρ (hi i).

(** The least and the greatest of some numbers. *)
Definition least (l : list Z) (x : Z) : Prop := In x l /\ forall y, In y l -> x <= y.
Definition greatest (l : list Z) (x : Z) : Prop := In x l /\ forall y, In y l -> y <= x.

(** The total weight of a derivation, when an application of rule [i] at any
    node weighs something that depends on the node. *)
Fixpoint weight (ω : deriv -> Z) (d : deriv) : Z :=
  match d with
  | Leaf _ => 0
  | Node i x ds => ω (Node i x ds) + fold_right Z.add 0 (map (weight ω) ds)
  end.

(** Every node of a derivation. *)
Inductive every (Q : nat -> deriv -> Prop) : deriv -> Prop :=
| E_leaf x : every Q (Leaf x)
| E_node i x ds : Q i (Node i x ds) -> Forall (every Q) ds -> every Q (Node i x ds).

(** * Proofs *)
Lemma badd_eval ρ a b : beval ρ (badd a b) = beval ρ a + beval ρ b.
Proof. destruct a; try reflexivity. destruct b; reflexivity. Qed.
Lemma bsub_eval ρ a b : beval ρ (bsub a b) = beval ρ a - beval ρ b.
Proof. destruct a; try reflexivity. destruct b; reflexivity. Qed.

Lemma iadd_inside ρ a b x y : inside ρ a x -> inside ρ b y -> inside ρ (iadd a b) (x + y).
Proof. unfold inside, iadd. simpl. rewrite !badd_eval. lia. Qed.
Lemma isub_inside ρ a b x y : inside ρ a x -> inside ρ b y -> inside ρ (isub a b) (x - y).
Proof. unfold inside, isub. simpl. rewrite !bsub_eval. lia. Qed.

Lemma isum_from ρ xs is a x0 : inside ρ a x0 -> Forall2 (inside ρ) is xs ->
  inside ρ (fold_left iadd is a) (x0 + fold_right Z.add 0 xs).
Proof.
  intros Ha H. revert a x0 Ha. induction H as [|i x is xs Hi H IH]; intros a x0 Ha; simpl.
  - now rewrite Z.add_0_r.
  - rewrite Z.add_assoc. apply IH. now apply iadd_inside.
Qed.

Lemma concrete_eval ρ vs : existsb symbolic vs = false -> map bz vs = map (beval ρ) vs.
Proof.
  induction vs as [|v vs IH]; [reflexivity|]. simpl. intros [Hv H]%Bool.orb_false_iff. rewrite IH by assumption.
  destruct v; (reflexivity || discriminate Hv).
Qed.

Lemma min_fold ρ vs (m : bound) mz : beval ρ m = mz ->
  least (mz :: map (beval ρ) vs) (beval ρ (fold_left (fun m v => BIfLt v m v m) vs m)).
Proof.
  revert m mz. induction vs as [|v vs IH]; intros m mz <-; simpl.
  - split; [now left|]. intros y [<-|[]]. lia.
  - destruct (IH (BIfLt v m v m) _ eq_refl) as [H1 H2]. simpl in H1, H2.
    split.
    + destruct H1 as [<-|H1]; [|now right; right].
      destruct (beval ρ v <? beval ρ m); [right; now left|now left].
    + pose proof (H2 _ (or_introl eq_refl)) as H3.
      destruct (Z.ltb_spec (beval ρ v) (beval ρ m)).
      all: intros y [<-|[<-|Hy]]; try lia; apply H2; now right.
Qed.

Lemma max_fold ρ vs (m : bound) mz : beval ρ m = mz ->
  greatest (mz :: map (beval ρ) vs) (beval ρ (fold_left (fun m v => BIfGt v m v m) vs m)).
Proof.
  revert m mz. induction vs as [|v vs IH]; intros m mz <-; simpl.
  - split; [now left|]. intros y [<-|[]]. lia.
  - destruct (IH (BIfGt v m v m) _ eq_refl) as [H1 H2]. simpl in H1, H2.
    split.
    + destruct H1 as [<-|H1]; [|now right; right].
      destruct (beval ρ m <? beval ρ v); [right; now left|now left].
    + pose proof (H2 _ (or_introl eq_refl)) as H3.
      destruct (Z.ltb_spec (beval ρ m) (beval ρ v)).
      all: intros y [<-|[<-|Hy]]; try lia; apply H2; now right.
Qed.

Lemma min_conc vs m : least (m :: map bz vs) (fold_left (fun m v => if bz v <? m then bz v else m) vs m).
Proof.
  revert m. induction vs as [|v vs IH]; intros m; simpl.
  - split; [now left|]. intros y [<-|[]]. lia.
  - destruct (IH (if bz v <? m then bz v else m)) as [H1 H2]. split.
    + destruct H1 as [<-|H1]; [|now right; right]. destruct (bz v <? m); [right; now left|now left].
    + pose proof (H2 _ (or_introl eq_refl)) as H3. destruct (Z.ltb_spec (bz v) m).
      all: intros y [<-|[<-|Hy]]; try lia; apply H2; now right.
Qed.

Lemma max_conc vs m : greatest (m :: map bz vs) (fold_left (fun m v => if m <? bz v then bz v else m) vs m).
Proof.
  revert m. induction vs as [|v vs IH]; intros m; simpl.
  - split; [now left|]. intros y [<-|[]]. lia.
  - destruct (IH (if m <? bz v then bz v else m)) as [H1 H2]. split.
    + destruct H1 as [<-|H1]; [|now right; right]. destruct (m <? bz v); [right; now left|now left].
    + pose proof (H2 _ (or_introl eq_refl)) as H3. destruct (Z.ltb_spec m (bz v)).
      all: intros y [<-|[<-|Hy]]; try lia; apply H2; now right.
Qed.

Lemma Min_least vs : vs <> [] -> exists m, Min vs = Ok m /\ forall ρ, least (map (beval ρ) vs) (beval ρ m).
Proof.
  intros Hn. unfold Min. destruct (existsb symbolic vs) eqn:E; simpl.
  - destruct vs as [|v vs]; [now destruct Hn|]. eexists. split; [reflexivity|]. intros ρ. simpl. now apply min_fold.
  - destruct vs as [|v vs]; [now destruct Hn|]. eexists. split; [reflexivity|]. intros ρ.
    rewrite <- (concrete_eval ρ (v :: vs)) by exact E. apply min_conc.
Qed.
Lemma Max_greatest vs : vs <> [] -> exists m, Max vs = Ok m /\ forall ρ, greatest (map (beval ρ) vs) (beval ρ m).
Proof.
  intros Hn. unfold Max. destruct (existsb symbolic vs) eqn:E; simpl.
  - destruct vs as [|v vs]; [now destruct Hn|]. eexists. split; [reflexivity|]. intros ρ. simpl. now apply max_fold.
  - destruct vs as [|v vs]; [now destruct Hn|]. eexists. split; [reflexivity|]. intros ρ.
    rewrite <- (concrete_eval ρ (v :: vs)) by exact E. apply max_conc.
Qed.

(** * C39 *)

(** Sums and differences of values in the intervals lie in the computed
    interval, whatever the symbolic variables stand for. *)
Theorem C39_interval ρ a b x y : inside ρ a x -> inside ρ b y ->
  inside ρ (iadd a b) (x + y) /\ inside ρ (isub a b) (x - y).
Proof. split; [now apply iadd_inside|now apply isub_inside]. Qed.

(** The interval is not wider than it has to be. *)
Theorem C39_tight ρ a b z : beval ρ (lo a) <= beval ρ (hi a) -> beval ρ (lo b) <= beval ρ (hi b) ->
  (inside ρ (iadd a b) z -> exists x y, inside ρ a x /\ inside ρ b y /\ z = x + y) /\
  (inside ρ (isub a b) z -> exists x y, inside ρ a x /\ inside ρ b y /\ z = x - y).
Proof.
  unfold inside, iadd, isub. simpl. rewrite !badd_eval, !bsub_eval.
  generalize (beval ρ (lo a)), (beval ρ (hi a)), (beval ρ (lo b)), (beval ρ (hi b)). intros la ha lb hb Ha Hb. split; intros Hz.
  - destruct (Z_le_gt_dec (z - la) hb).
    + exists la, (z - la). lia.
    + exists (z - hb), hb. lia.
  - destruct (Z_le_gt_dec la (z + lb)).
    + exists (z + lb), lb. lia.
    + exists la, (la - z). lia.
Qed.

(** The sum of a sequence. *)
Theorem C39_sum ρ is xs : Forall2 (inside ρ) is xs -> inside ρ (isum is) (fold_right Z.add 0 xs).
Proof. intros H. apply (isum_from ρ xs is izero 0); [|exact H]. unfold inside. simpl. lia. Qed.

(** Min and Max of a nonempty sequence are the least and the greatest value;
    both raise ValueError on the empty sequence. *)
Theorem C39_min_max vs : vs <> [] ->
  exists l h, Min vs = Ok l /\ Max vs = Ok h /\
    forall ρ, least (map (beval ρ) vs) (beval ρ l) /\ greatest (map (beval ρ) vs) (beval ρ h).
Proof.
  intros Hn. destruct (Min_least vs Hn) as (l & -> & Hl). destruct (Max_greatest vs Hn) as (h & -> & Hh).
  exists l, h. repeat split; [apply Hl|apply Hl|apply Hh|apply Hh].
Qed.

(** The measure of a derivation bounds its weight: if every application of rule
    [i] in it weighs something inside the interval of rule [i], the total weight
    lies inside the derivation's interval. *)
Theorem C39_derivation ρ m ω d :
  every (fun i t => exists x, nth_error m i = Some x /\ inside ρ x (ω t)) d ->
  exists x, derivation_measure m d = Ok x /\ inside ρ x (weight ω d).
Proof.
  revert d. fix IH 2. intros d [x|i x ds Hi Hds].
  - exists izero. split; [reflexivity|]. unfold inside. simpl. lia.
  - cbn [derivation_measure weight].
    set (sum := fix sum (ds : list deriv) (y : interval) : res interval :=
        match ds with
        | [] => Ok y
        | d :: ds => let* x := derivation_measure m d in sum ds (iadd y x)
        end).
    assert (Hsum : forall y z, inside ρ y z ->
      exists b, sum ds y = Ok b /\ inside ρ b (z + fold_right Z.add 0 (map (weight ω) ds))).
    { clear Hi. induction Hds as [|d0 ds Hd Hds IHds]; intros y z Hy.
      - exists y. split; [reflexivity|]. simpl. now rewrite Z.add_0_r.
      - destruct (IH d0 Hd) as (b & Eb & Hb). destruct (IHds (iadd y b) (z + weight ω d0)) as (c & Ec & Hc); [now apply iadd_inside|].
        exists c. simpl. rewrite Eb. simpl. rewrite Ec. split; [reflexivity|]. now rewrite Z.add_assoc. }
    destruct (Hsum izero 0) as (b & -> & Hb); [unfold inside; simpl; lia|]. destruct Hi as (a & -> & Ha).
    exists (iadd a b). split; [reflexivity|]. now apply iadd_inside.
Qed.

(** The rule made by a fold gets an interval that contains every difference
    between a replaced rule and its definition, and the rule made by an unfold
    an interval that contains the sum. *)
Theorem C39_fold_unfold ρ :
  (forall a b x y, inside ρ a x -> inside ρ b y -> inside ρ (unfold_measure a b) (x + y)) /\
  (forall ps, ps <> [] -> exists m, fold_measure ps = Ok m /\
     forall a b x y, In (a, b) ps -> inside ρ a x -> inside ρ b y -> inside ρ m (x - y)).
Proof.
  split; [apply iadd_inside|]. intros ps Hn. unfold fold_measure.
  set (ds := map (fun p => isub (fst p) (snd p)) ps).
  assert (Hd : ds <> []) by (unfold ds; now destruct ps).
  destruct (Min_least (map lo ds)) as (l & -> & Hl); [now destruct ds|].
  destruct (Max_greatest (map hi ds)) as (h & -> & Hh); [now destruct ds|].
  exists (Interval l h). split; [reflexivity|]. intros a b x y Hin Ha Hb.
  pose proof (isub_inside ρ a b x y Ha Hb) as [H1 H2].
  assert (Hds : In (isub a b) ds) by (apply (in_map (fun p => isub (fst p) (snd p)) ps (a, b) Hin)).
  split; simpl.
  - etransitivity; [|exact H1]. apply Hl. rewrite map_map. now apply (in_map (fun i => beval ρ (lo i))).
  - etransitivity; [exact H2|]. apply Hh. rewrite map_map. now apply (in_map (fun i => beval ρ (hi i))).
Qed.

(** The safety conditions are what they should be: if a condition holds, every
    weight the intervals allow for the rule, less (fold) or plus (unfold) the
    definition, together with the subgoals left in place, is positive. *)
Theorem C39_conditions ρ a b left right x y : inside ρ a x -> inside ρ b y ->
  (0 < beval ρ (unfold_condition a b left right) -> 0 < x + y + (min_size left + min_size right)) /\
  (0 < beval ρ (fold_condition a b left right) -> 0 < x - y + (min_size left + min_size right)).
Proof.
  intros Ha Hb. destruct (C39_interval ρ a b x y Ha Hb) as [[H1 _] [H2 _]].
  unfold unfold_condition, fold_condition. rewrite !badd_eval. cbn [beval]. lia.
Qed.

(** What a condition adds for the subgoals left in place is the best lower bound on their
    sizes: a constant or builtin subgoal has size 0 and any other has size at least 1. *)
Definition goal_sizes (w : term -> Z) : Prop := (forall x, exo x = true -> w x = 0) /\ (forall x, exo x = false -> 1 <= w x).
Definition total_size (w : term -> Z) (xs : list term) : Z := fold_right Z.add 0 (map w xs).
Theorem C39_min_size xs : (forall w, goal_sizes w -> min_size xs <= total_size w xs) /\ (exists w, goal_sizes w /\ min_size xs = total_size w xs).
Proof.
  assert (H : forall xs z, fold_left (fun n x => n + (if exo x then 0 else 1)) xs z = z + total_size (fun x => if exo x then 0 else 1) xs).
  { clear xs. unfold total_size. induction xs as [|x xs IH]; intros z; cbn; [lia|]. rewrite IH. lia. }
  unfold min_size. rewrite H. split.
  - intros w [H0 H1]. unfold total_size. induction xs as [|x xs IH]; cbn; [lia|]. cbn in IH.
    destruct (exo x) eqn:E; [rewrite (H0 x E)|pose proof (H1 x E)]; lia.
  - exists (fun x => if exo x then 0 else 1). split; [|lia]. split; intros x ->; lia.
Qed.

(** * Witness *)
Definition w_m : list interval := [Interval (BVar 0) (BVar 0); Interval (BInt 1) (BAdd (BVar 0) (BInt 2))].
Definition w_d : deriv := Node 0 (Cst (CInt 0)) [Node 1 (Cst (CInt 1)) [Leaf (Cst (CInt 5))]; Node 1 (Cst (CInt 2)) []].
Definition w_ω (d : deriv) : Z := match d with Node 0 _ _ => 4 | Node _ _ [] => 6 | Node _ _ _ => 1 | _ => 0 end.
Lemma C39_witness :
  let ρ n := match n with 0%nat => 4 | _ => 0 end in
  every (fun i t => exists x, nth_error w_m i = Some x /\ inside ρ x (w_ω t)) w_d /\
  weight w_ω w_d = 11 /\
  (exists x, derivation_measure w_m w_d = Ok x /\ beval ρ (lo x) = 6 /\ beval ρ (hi x) = 16) /\
  (exists x, fold_measure [(nth 0 w_m izero, nth 1 w_m izero); (nth 1 w_m izero, nth 0 w_m izero)] = Ok x /\
     beval ρ (lo x) = -3 /\ beval ρ (hi x) = 3).
Proof.
  intros ρ. split; [|split; [reflexivity|split; (eexists; split; [reflexivity|split; reflexivity])]].
  constructor.
  { eexists. split; [reflexivity|]. unfold inside. simpl. lia. }
  constructor; [|constructor; [|constructor]].
  - constructor; [|repeat constructor]. eexists. split; [reflexivity|]. unfold inside. simpl. lia.
  - constructor; [|constructor]. eexists. split; [reflexivity|]. unfold inside. simpl. lia.
Qed.

Print Assumptions C39_interval.
Print Assumptions C39_tight.
Print Assumptions C39_sum.
Print Assumptions C39_min_max.
Print Assumptions C39_derivation.
Print Assumptions C39_fold_unfold.
Print Assumptions C39_conditions.
Print Assumptions C39_min_size.
