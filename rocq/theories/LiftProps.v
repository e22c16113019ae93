(** C55: mapping the constants of a program into another semiring. *)
From Coq Require Import List.
From stdpp Require Import gmap.
From Coq Require Import Lia ZArith.
From Coq Require String Ascii.
From Verif Require Import PyBase Semiring TermModel TermSpec SetsModel SolverSpec UpdateModel UpdateSpec UpdateProps
  EvalModel EvalSpec EvalProofs EvalProps LiftModel LiftSpec LiftProofs.
Import String.StringSyntax Ascii.AsciiSyntax.
Import ListNotations.

(** ** Any lifting: only the values of the constants change *)
(** The lifted program has the same derivations, whatever the values are. *)
Theorem C55_derivations :
  forall (R S : semiring) (wt : const -> R) (wt' : const -> S) (lift : R -> term -> S) (test : term -> option bool) (P : list (wrule R)) (x : term) (s : rtree),
    (forall k, x <> Cst k) ->
    (exists d, derives wt test P (Goal x) d /\ shape d = s) <->
    (exists d', derives wt' test (lift_semiring wt lift P) (Goal x) d' /\ shape d' = s).
Proof.
  intros R S wt wt' lift test P x s Hx.
  assert (El : forall h, lift_factor wt lift h (Goal x) = Goal x) by (intros h; destruct x as [u|c|l]; try done; by destruct (Hx c)). split.
  - intros (d & H & <-). rewrite <- (El x). exact (derives_lift_rule wt wt' lift test P _ _ H x).
  - intros (d' & H & <-). exact (derives_unlift wt wt' lift test P _ _ H x (Goal x) (eq_sym (El x))).
Qed.

(** A derivation is determined by the rules it uses, so the correspondence is one to one. *)
Theorem C55_one :
  forall (R : semiring) (wt : const -> R) (test : term -> option bool) (P : list (wrule R)) (f : factor R) (d1 d2 : dtree R),
    derives wt test P f d1 -> derives wt test P f d2 -> shape d1 = shape d2 -> d1 = d2.
Proof. intros R wt test P f d1 d2 H1 H2. exact (derives_shape wt test P f d1 H1 d2 H2). Qed.

(** Heads, lengths of bodies and the order of the rules stay. *)
Lemma C55_ground :
  forall (R S : semiring) (wt : const -> R) (lift : R -> term -> S) (test : term -> option bool) (P : list (wrule R)),
    ground_program test P -> ground_program test (lift_semiring wt lift P).
Proof.
  intros R S wt lift test P HP r' Hr. apply elem_of_list_fmap in Hr as (r & -> & Hr). destruct (HP r Hr) as (H1 & H2 & H3 & H4).
  split; [done|]. split; [done|]. split; [done|]. intros b Hb. apply H4. cbn [lift_rule wbody] in Hb. clear -Hb.
  induction (wbody r) as [|[v|[w|k|l]] fs IH]; cbn in Hb |- *; [done|auto|..]; try (apply elem_of_cons in Hb as [->|Hb]; [by left|]); right; auto.
Qed.

(** Bottom-up evaluation of the lifted program adds up, over the derivations of the
    original program, the products of the lifted constants. *)
Theorem C55_fc :
  forall (R S : semiring) (wt : const -> R) (wt' : const -> S) (lift : R -> term -> S) (negligible is_one : S -> bool) (al cv : nat -> nat) (sort : list term -> list term)
    (test : term -> option bool) (same : list (wrule S) -> list (wrule S) -> bool) (P : list (wrule R)) (n k : nat) (ch : pstate S),
    eval_laws wt' negligible al cv sort test same -> ground_program test P ->
    fc wt' negligible is_one al cv test same n k (lift_semiring wt lift P) = Ok ch ->
    forall x, item test x ->
      exists L, NoDup L /\ (forall d, d ∈ L <-> derives wt test P (Goal x) d /\ dheight d <= k) /\
        chart_val wt' (p_rules ch) x = suml L (lifted_value wt lift P x (Goal x)).
Proof.
  intros R S wt wt' lift negligible is_one al cv sort test same P n k ch HL HP E x Hx.
  destruct (C26_fc S wt' negligible is_one al cv sort test same _ n k ch HL (C55_ground R S wt lift test P HP) E) as [_ H].
  exact (lifted_sum wt wt' lift test P x k _ (proj2 Hx) (H x Hx)).
Qed.

(** ** Homomorphisms: evaluation commutes with lifting *)
(** Each derivation. *)
Theorem C55_hom :
  forall (R S : semiring) (φ : R -> S) (wt : const -> R) (wt' : const -> S) (test : term -> option bool) (P : list (wrule R)) (x : term) d d',
    homomorphism φ -> (forall k, x <> Cst k) ->
    derives wt test P (Goal x) d -> derives wt' test (lift_semiring wt (fun v _ => φ v) P) (Goal x) d' -> shape d' = shape d ->
    dvalue d' = φ (dvalue d).
Proof.
  intros R S φ wt wt' test P x d d' Hφ Hx H H'. apply (lifted_dvalue φ Hφ wt wt' test P _ _ H x).
  destruct x as [u|c|l]; [done|by destruct (Hx c)|done].
Qed.

(** Bottom-up evaluation with a limit on the rounds. *)
Theorem C55_fc_hom :
  forall (R S : semiring) (φ : R -> S) (wt : const -> R) (wt' : const -> S) (neg one : R -> bool) (neg' one' : S -> bool) (al cv : nat -> nat) (sort : list term -> list term)
    (test : term -> option bool) (same : list (wrule R) -> list (wrule R) -> bool) (same' : list (wrule S) -> list (wrule S) -> bool)
    (P : list (wrule R)) (n n' k : nat) (ch : pstate R) (ch' : pstate S),
    homomorphism φ -> eval_laws wt neg al cv sort test same -> eval_laws wt' neg' al cv sort test same' -> ground_program test P ->
    fc wt neg one al cv test same n k P = Ok ch ->
    fc wt' neg' one' al cv test same' n' k (lift_semiring wt (fun v _ => φ v) P) = Ok ch' ->
    forall x, chart_val wt' (p_rules ch') x = φ (chart_val wt (p_rules ch) x).
Proof.
  intros R S φ wt wt' neg one neg' one' al cv sort test same same' P n n' k ch ch' Hφ [L1 L2 L3 L4 L5] [M1 M2 M3 M4 M5] HP E E' x.
  pose proof (C55_ground R S wt (fun v _ => φ v) test P HP) as HP'.
  destruct (fc_loop_ok wt neg one al cv test L2 L3 L1 same) with (P := P) (n := n) (k := k) (j := 0) (old := p_new (@nil (wrule R)) 0) (last := @None (pstate R)) (new := ch)
    as [_ V]; try done; [intros a b Ha Hb; apply L5; by apply crules_chart|by apply gp_heads|apply chart_ok_empty|].
  destruct (fc_loop_ok wt' neg' one' al cv test M2 M3 M1 same') with (P := lift_semiring wt (fun v _ => φ v) P) (n := n') (k := k) (j := 0) (old := p_new (@nil (wrule S)) 0) (last := @None (pstate S)) (new := ch')
    as [_ V']; try done; [intros a b Ha Hb; apply M5; by apply crules_chart|by apply gp_heads|apply chart_ok_empty|].
  rewrite V, V'. by apply lift_iterate.
Qed.

(** Without a limit: if both evaluations return. *)
Theorem C55_fc_unlimited :
  forall (R S : semiring) (φ : R -> S) (wt : const -> R) (wt' : const -> S) (neg one : R -> bool) (neg' one' : S -> bool) (al cv : nat -> nat) (sort : list term -> list term)
    (test : term -> option bool) (same : list (wrule R) -> list (wrule R) -> bool) (same' : list (wrule S) -> list (wrule S) -> bool)
    (P : list (wrule R)) (n n' k k' : nat) (ch : pstate R) (ch' : pstate S),
    homomorphism φ -> eval_laws wt neg al cv sort test same -> eval_laws wt' neg' al cv sort test same' -> ground_program test P ->
    fc_run wt neg one al cv test same n k P (p_new [] 0) = Ok ch ->
    fc_run wt' neg' one' al cv test same' n' k' (lift_semiring wt (fun v _ => φ v) P) (p_new [] 0) = Ok ch' ->
    forall x, chart_val wt' (p_rules ch') x = φ (chart_val wt (p_rules ch) x).
Proof.
  intros R S φ wt wt' neg one neg' one' al cv sort test same same' P n n' k k' ch ch' Hφ [L1 L2 L3 L4 L5] [M1 M2 M3 M4 M5] HP E E' x.
  pose proof (C55_ground R S wt (fun v _ => φ v) test P HP) as HP'.
  destruct (fc_run_ok wt neg one al cv test L2 L3 L1 same) with (P := P) (n := n) (k := k) (j := 0) (old := p_new (@nil (wrule R)) 0) (new := ch)
    as [H [j V]]; try done; [intros a b Ha Hb; apply L5; by apply crules_chart|by apply gp_heads|apply chart_ok_empty|].
  destruct (fc_run_ok wt' neg' one' al cv test M2 M3 M1 same') with (P := lift_semiring wt (fun v _ => φ v) P) (n := n') (k := k') (j := 0) (old := p_new (@nil (wrule S)) 0) (new := ch')
    as [H' [j' V']]; try done; [intros a b Ha Hb; apply M5; by apply crules_chart|by apply gp_heads|apply chart_ok_empty|].
  rewrite (solution_iterates wt test P _ j H V (j + j') ltac:(lia)), (solution_iterates wt' test _ _ j' H' V' (j + j') ltac:(lia)). by apply lift_iterate.
Qed.

(** A solution of the equations becomes a solution of the lifted equations. *)
Theorem C55_solution :
  forall (R S : semiring) (φ : R -> S) (wt : const -> R) (wt' : const -> S) (test : term -> option bool) (P : list (wrule R)) (I : term -> R),
    homomorphism φ -> solution wt test P I -> solution wt' test (lift_semiring wt (fun v _ => φ v) P) (fun x => φ (I x)).
Proof. intros R S φ wt wt' test P I Hφ H x. rewrite (lift_rhs φ Hφ). by rewrite <- H. Qed.

(** Rules with variables: the value of every item is lifted. *)
Theorem C55_value :
  forall (R S : semiring) (φ : R -> S) (wt : const -> R) (rs : list (wrule R)) (I : term -> R) (I' : term -> S) (x : term) (v : R),
    homomorphism φ -> no_variable_subgoal rs -> respects wt I -> (forall x, (forall k, x <> Cst k) -> I' x = φ (I x)) ->
    prog_value I rs x v -> prog_value I' (lift_semiring wt (fun v _ => φ v) rs) x (φ v).
Proof. intros R S φ wt rs I I' x v Hφ Hn HI HI'. by apply lift_prog_value. Qed.

(** ** Witnesses *)
Local Open Scope string_scope.
Local Open Scope list_scope.
(** the smallest sum, with None as infinity *)
Definition t_add (a b : option nat) : option nat := match a, b with Some a, Some b => Some (Nat.min a b) | None, b => b | a, None => a end.
Definition t_mul (a b : option nat) : option nat := match a, b with Some a, Some b => Some (a + b) | _, _ => None end.
Definition t_sr : semiring.
Proof.
  refine (SR (option nat) None (Some 0) t_add t_mul _ _ _ _ _ _ _ _ _ _); repeat intros [?|]; unfold t_add, t_mul; try done; intros; f_equal; lia.
Defined.

Definition l_same {R : semiring} {E : EqDecision R} (wt : const -> R) (a b : list (wrule R)) : bool :=
  forallb (fun x => bool_decide (chart_val wt a x = chart_val wt b x)) (map whead a ++ map whead b).
Lemma l_laws {R : semiring} {E : EqDecision R} (wt : const -> R) (neg : R -> bool) : (forall v, neg v = true -> v = szero) ->
  eval_laws wt neg u_al u_cv (fun l => l) e_test (l_same wt).
Proof.
  intros Hn. split; [done|unfold u_al; lia|unfold u_cv; lia|done|].
  intros a b _ _ H x. unfold l_same in H. rewrite forallb_forall in H.
  destruct (decide (x ∈ map whead a ++ map whead b)) as [Hx|Hx].
  - apply elem_of_list_In, H in Hx. by apply bool_decide_eq_true in Hx.
  - rewrite not_elem_of_app in Hx. by rewrite !chart_val_absent by tauto.
Qed.

Definition φb (v : nat_sr) : bool_sr := negb (Nat.eqb v 0).
Lemma φb_hom : homomorphism φb.
Proof. split; try done; intros [|x] [|y]; unfold φb; simpl; try done. by rewrite Nat.mul_0_r. Qed.
Definition b_wt (k : const) : bool_sr := φb (u_wt k).
#[local] Instance b_dec : EqDecision bool_sr := bool_eq_dec.
Definition b_fc (n : nat) (P : list (wrule bool_sr)) := fc b_wt negb id u_al u_cv e_test (l_same b_wt) 50 n P.
Definition b_P := lift_semiring u_wt (fun v _ => φb v) e_prog.
Definition b_val (r : res (pstate bool_sr)) (f : String.string) : option bool :=
  match r with Ok ch => Some (chart_val b_wt (p_rules ch) (u_t f [])) | _ => None end.

(** Costs: every constant becomes its own cost; this is not a homomorphism. *)
Definition t_wt (k : const) : t_sr := Some (u_wt k).
Definition t_lift (v : nat_sr) (h : term) : t_sr := Some (v : nat).
#[local] Instance t_dec : EqDecision t_sr := @option_eq_dec nat Nat.eq_dec.
Definition t_neg (v : t_sr) : bool := match v with None => true | _ => false end.
Definition t_one (v : t_sr) : bool := match v with Some 0 => true | _ => false end.
Definition t_P := lift_semiring u_wt t_lift e_prog.
Definition t_val (k : nat) (f : String.string) : option (option nat) :=
  match fc t_wt t_neg t_one u_al u_cv e_test (l_same t_wt) 50 k t_P with
  | Ok ch => Some (chart_val t_wt (p_rules ch) (u_t f [])) | _ => None end.

(* total += f(X) * 3. *)
Definition v_rules : list (wrule nat_sr) := [WRule (u_t "total" []) [Goal (u_t "f" [Var 1]); Goal (u_n 3)]].
Definition v_I (x : term) : nat_sr :=
  match x with
  | Cst k => u_wt k
  | _ => if decide (x = u_t "f" [u_n 1]) then 2 : nat_sr else if decide (x = u_t "f" [u_n 2]) then 1 : nat_sr else 0 : nat_sr
  end.

Theorem C55_witness :
  homomorphism φb /\
  eval_laws b_wt negb u_al u_cv (fun l => l) e_test (l_same b_wt) /\ ground_program e_test e_prog /\
  map (fun k => e_val (e_fc k e_prog) "c") [1; 2; 3] = [Some 0; Some 0; Some 160] /\
  map (fun k => b_val (b_fc k b_P) "c") [1; 2; 3] = [Some false; Some false; Some true] /\
  eval_laws t_wt t_neg u_al u_cv (fun l => l) e_test (l_same t_wt) /\
  map (fun k => t_val k "a") [1; 2; 3] = [Some (Some 2); Some (Some 2); Some (Some 2)] /\
  map (fun k => t_val k "c") [1; 2; 3] = [Some None; Some None; Some (Some 11)] /\
  no_variable_subgoal v_rules /\ respects u_wt v_I /\ prog_value v_I v_rules (u_t "total" []) (9 : nat_sr).
Proof.
  split; [apply φb_hom|]. split; [apply l_laws; by intros []|]. split; [apply e_ground|]. split; [by vm_compute|]. split; [by vm_compute|].
  split; [apply l_laws; by intros []|]. split; [by vm_compute|]. split; [by vm_compute|].
  split. { intros r v Hr. apply elem_of_list_singleton in Hr as ->. intros Hv. apply elem_of_list_In in Hv. cbn in Hv. naive_solver. }
  split; [done|]. exists [9 : nat_sr]. split; [|done]. apply Forall2_cons_2; [|apply Forall2_nil_2].
  exists [[u_t "f" [u_n 1]; u_n 3]; [u_t "f" [u_n 2]; u_n 3]]. split; [|split; [|split]].
  - repeat constructor; [|by intros ?%elem_of_nil]. intros H. by apply elem_of_list_singleton in H.
  - intros ys Hys. apply elem_of_cons in Hys as [->|Hys]; [exists (fun _ => u_n 1); by split|]. apply elem_of_list_singleton in Hys as ->. exists (fun _ => u_n 2). by split.
  - intros ys (σ & _ & _ & <-). destruct (decide (σ 1 = u_n 1)) as [E|E1]; [left; cbn; rewrite E; by left|].
    destruct (decide (σ 1 = u_n 2)) as [E|E2]; [left; cbn; rewrite E; right; by left|].
    right. cbn. rewrite !decide_False; [done|..]; intros [= E]; done.
  - by vm_compute.
Qed.

(** A constant that a variable is bound to when the program runs is not lifted, so
    the value of [total += f(X) * X] depends on how the evaluation reads constants. *)
Definition φt (v : bool_sr) : t_sr := if (v : bool) then Some 0 else None.
Definition x_rules : list (wrule bool_sr) := [WRule (u_t "total" []) [Goal (u_t "f" [Var 1]); Goal (Var 1)]].
Definition x_I (x : term) : bool_sr := match x with Cst k => b_wt k | _ => bool_decide (x = u_t "f" [u_n 1]) end.
Definition x_I' (x : term) : t_sr := match x with Cst k => t_wt k | _ => φt (x_I x) end.
Theorem C55_value_variable_refuted :
  homomorphism φt /\ respects b_wt x_I /\ respects t_wt x_I' /\ (forall x, (forall k, x <> Cst k) -> x_I' x = φt (x_I x)) /\
  prog_value x_I x_rules (u_t "total" []) (true : bool_sr) /\
  prog_value x_I' (lift_semiring b_wt (fun v _ => φt v) x_rules) (u_t "total" []) (Some 1 : t_sr) /\
  (Some 1 : t_sr) <> φt true.
Proof.
  split. { split; try done; by intros [] []. } split; [done|]. split; [done|]. split. { intros [w|k|l] H; [done|by destruct (H k)|done]. }
  split; [|split; [|done]].
  - exists [true : bool_sr]. split; [|done]. apply Forall2_cons_2; [|apply Forall2_nil_2]. exists [[u_t "f" [u_n 1]; u_n 1]]. split; [apply NoDup_singleton|]. split; [|split].
    + intros ys ->%elem_of_list_singleton. exists (fun _ => u_n 1). by split.
    + intros ys (σ & _ & _ & <-). destruct (decide (σ 1 = u_n 1)) as [E|E]; [left; cbn; rewrite E; by left|].
      right. cbn. rewrite bool_decide_eq_false_2; [done|]. intros [= E']. done.
    + by vm_compute.
  - exists [Some 1 : t_sr]. split; [|done]. apply Forall2_cons_2; [|apply Forall2_nil_2]. exists [[u_t "f" [u_n 1]; u_n 1]]. split; [apply NoDup_singleton|]. split; [|split].
    + intros ys ->%elem_of_list_singleton. exists (fun _ => u_n 1). by split.
    + intros ys (σ & _ & _ & <-). destruct (decide (σ 1 = u_n 1)) as [E|E]; [left; cbn; rewrite E; by left|].
      right. cbn. rewrite bool_decide_eq_false_2; [done|]. intros [= E']. done.
    + by vm_compute.
Qed.
Local Close Scope list_scope.
Local Close Scope string_scope.

Print Assumptions C55_derivations.
Print Assumptions C55_one.
Print Assumptions C55_fc.
Print Assumptions C55_hom.
Print Assumptions C55_fc_hom.
Print Assumptions C55_fc_unlimited.
Print Assumptions C55_solution.
Print Assumptions C55_value.
Print Assumptions C55_witness.
Print Assumptions C55_value_variable_refuted.
