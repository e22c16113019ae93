(** C23, C24: the forward-chaining solver stops only at a solution of the
    program's equations. *)
From stdpp Require Import gmap.
From Coq Require Import Lia Permutation ZArith.
From Coq Require String Ascii.
From Verif Require Import PyBase Semiring TermModel TermSpec TermProofs SetsModel PruneModel ProgSpec SolverModel ChartProofs SolverSpec SolverProofs.
Import String.StringSyntax Ascii.AsciiSyntax.

(** The sum of a function over a set is unique. *)
Theorem C23_sum_unique {R : semiring} {A} `{EqDecision A} (I : A -> Prop) (f : A -> R) v w :
  sum_over I f v -> sum_over I f w -> v = w.
Proof. apply sum_over_unique. Qed.

Section props.
Context {R : semiring} (wt : const -> R) (approx : R -> R -> bool) (ord : list term -> list term)
  (cmpf : String.string -> term -> term -> res bool)
  (is_run : nat -> store -> term -> term -> res (list store)) (is_true : term -> term -> bool).
(** sets are iterated in any order; [is] is exact; addition is exact *)
Context (Hord : forall l, Permutation (ord l) l) (His : is_exact is_true is_run)
  (Happrox : forall x y, approx x y = true -> x = y).

Notation safe := (safe_values wt cmpf is_true).
Notation solution := (solution wt cmpf is_true).
Notation run := (forward_chaining wt approx ord cmpf is_run all_kept).
Notation do_op := (do_op wt approx ord cmpf is_run).

(** C23.  Whenever a run of the solver ends, for whatever order [pick] of the
    agenda, the agenda is empty and the chart satisfies the equations of the
    program. *)
Theorem C23_solution pick P n p s :
  wf_rules P -> run pick P n p s_empty = Ok s ->
  let c := c_dict (s_chart s) in
  s_agenda s = ∅ /\ (safe P c -> solution P (fun _ => szero) c).
Proof.
  intros Hwf E c. destruct (forward_chaining_ok wt approx ord cmpf is_run is_true Hord His Happrox all_kept pick P n p s_empty s Hwf (state_ok_empty _) E) as (_ & H1 & _ & H2).
  split; [done|]. intros Hs x. destruct (H2 (fun _ => szero) Hs (inv_empty wt cmpf is_true _ P)) as [_ H3]. by apply H3.
Qed.

Lemma safe_no_variables P c : (forall r v, r ∈ P -> Var v ∉ rbody r) -> safe P c.
Proof. intros H r σ Hr _ _ v Hv. by destruct (H r v Hr). Qed.

(** In programs without variables as subgoals, no condition on the chart is
    needed. *)
Theorem C23_solution_no_variables pick P n p s :
  wf_rules P -> (forall r v, r ∈ P -> Var v ∉ rbody r) -> run pick P n p s_empty = Ok s ->
  solution P (fun _ => szero) (c_dict (s_chart s)).
Proof. intros Hwf Hv E. apply (C23_solution pick P n p s Hwf E). by apply safe_no_variables. Qed.

(** * Interleavings of loading data and running *)
Definition loaded (o : op) : list (list rule) := match o with OpLoad _ _ _ D => [D] | OpRun _ _ _ => [] end.
Definition data_of (os : list op) : list (list rule) := concat (map loaded os).

Definition total_of (ds : list (gmap term R)) (x : term) : R := suml ds (fun d => default szero (d !! x)).

Lemma history_ok keep P os : forall s s' data,
  wf_rules P -> Forall wf_rules (data_of os) -> state_ok keep s -> foldM (do_op keep P) os s = Ok s' ->
  state_ok keep s' /\ (forall x, is_Some (c_dict (s_chart s) !! x) -> is_Some (c_dict (s_chart s') !! x)) /\
  exists ds, Forall2 (fun D d => safe D d -> solution D (fun _ => szero) d) (data_of os) ds /\
    (safe P (c_dict (s_chart s')) -> inv wt cmpf is_true keep P data s ->
     inv wt cmpf is_true keep P (fun x => sadd (data x) (total_of ds x)) s').
Proof.
  induction os as [|o os IH]; intros s s' data Hwf HD Hs E; cbn [foldM] in E.
  { injection E as <-. split; [done|]. split; [done|]. exists []. split; [constructor|]. intros _ Hinv x Hk.
    destruct (Hinv x Hk) as (v & Hv & Heq). exists v. split; [done|]. unfold total_of. by rewrite suml_nil, sadd_0_r. }
  destruct (do_op keep P o s) as [s1| |] eqn:E1; try done. simpl in E.
  unfold data_of in HD. simpl in HD. apply Forall_app in HD as [HD1 HD2]. destruct o as [pick n p D|pick n p]; simpl in E1.
  - apply Forall_inv in HD1.
    destruct (load_data_ok wt approx ord cmpf is_run is_true Hord His Happrox keep pick P D n p s s1 HD1 Hs E1) as (H1 & H2 & d & Hd & Hinv).
    destruct (IH s1 s' (fun x => sadd (data x) (default szero (d !! x))) Hwf HD2 H1 E) as (H3 & H4 & ds & Hds & H5).
    split; [done|]. rewrite H2 in H4. split; [done|]. exists (d :: ds). split; [by constructor|].
    intros Hsafe Hi. specialize (H5 Hsafe (Hinv data Hi)). intros x Hk. destruct (H5 x Hk) as (v & Hv & Heq). exists v. split; [done|].
    rewrite <- Heq. unfold total_of. rewrite suml_cons. f_equal. apply sadd_assoc.
  - destruct (forward_chaining_ok wt approx ord cmpf is_run is_true Hord His Happrox keep pick P n p s s1 Hwf Hs E1) as (H1 & _ & H2 & H3).
    destruct (IH s1 s' data Hwf HD2 H1 E) as (H4 & H5 & ds & Hds & H6).
    split; [done|]. split; [intros x Hx; by apply H5, H2|]. exists ds. split; [done|].
    intros Hsafe Hi. apply H6; [done|]. refine (proj1 (H3 data _ Hi)). eapply safe_grow; [|done]. done.
Qed.

Lemma history_run keep P os pick n p s :
  wf_rules P -> Forall wf_rules (data_of os) ->
  foldM (do_op keep P) (os ++ [OpRun pick n p]) s_empty = Ok s ->
  let c := c_dict (s_chart s) in
  s_agenda s = ∅ /\ (forall x, is_Some (c !! x) -> ground x /\ keep x = true) /\
  exists ds, Forall2 (fun D d => safe D d -> solution D (fun _ => szero) d) (data_of os) ds /\
    (safe P c -> forall x, keep x = true -> solution_at wt cmpf is_true P (total_of ds) c x).
Proof.
  intros Hwf HD E c.
  assert (Hsplit : forall (l : list op) s0, foldM (do_op keep P) (l ++ [OpRun pick n p]) s0 =
    let* s1 := foldM (do_op keep P) l s0 in forward_chaining wt approx ord cmpf is_run keep pick P n p s1).
  { induction l as [|o l IH]; intros s0; cbn [foldM app bind].
    - simpl. by destruct (forward_chaining wt approx ord cmpf is_run keep pick P n p s0).
    - destruct (do_op keep P o s0) as [s1| |]; [|done..]. cbn [bind]. apply IH. }
  rewrite Hsplit in E. destruct (foldM (do_op keep P) os s_empty) as [s1| |] eqn:E1; try done. simpl in E.
  destruct (history_ok keep P os s_empty s1 (fun _ => szero) Hwf HD (state_ok_empty _) E1) as (H1 & H2 & ds & Hds & H3).
  destruct (forward_chaining_ok wt approx ord cmpf is_run is_true Hord His Happrox keep pick P n p s1 s Hwf H1 E) as (H0 & H4 & H5 & H6).
  split; [done|]. split.
  { intros x Hx. destruct H0 as ([_ Hgr] & _ & _ & Hkc). split; [by apply Hgr|by apply Hkc]. }
  exists ds. split; [done|]. intros Hsafe.
  destruct (H6 (fun x => sadd szero (total_of ds x)) Hsafe) as [_ Hsol].
  { apply H3; [|apply inv_empty]. eapply safe_grow; [exact H5|done]. }
  intros x Hk. destruct (Hsol x Hk) as (v & Hv & Heq). exists v. split; [done|]. etransitivity; [exact Heq|]. cbv beta. by rewrite sadd_0_l.
Qed.

(** C24.  For any history of loading data and running that ends with a run, the
    chart satisfies the equations of the program, with the sum of the charts of
    the data (each a solution of its own equations) as additional
    contributions. *)
Theorem C24_history P os pick n p s :
  wf_rules P -> Forall wf_rules (data_of os) ->
  foldM (do_op all_kept P) (os ++ [OpRun pick n p]) s_empty = Ok s ->
  let c := c_dict (s_chart s) in
  s_agenda s = ∅ /\
  exists ds, Forall2 (fun D d => safe D d -> solution D (fun _ => szero) d) (data_of os) ds /\
    (safe P c -> solution P (total_of ds) c).
Proof.
  intros Hwf HD E c. destruct (history_run all_kept P os pick n p s Hwf HD E) as (H1 & _ & ds & H2 & H3).
  split; [done|]. exists ds. split; [done|]. intros Hs x. by apply H3.
Qed.

Lemma facts_safe D c : facts D -> safe D c.
Proof.
  intros HD. apply safe_no_variables. intros r v Hr Hv. unfold facts in HD. rewrite Forall_forall in HD.
  destruct (HD r Hr _ Hv) as [k Hk]. done.
Qed.

Lemma facts_val D (c d : gmap term R) x iy : facts D -> instances D x iy ->
  prodl (map (val wt cmpf is_true c) (snd iy)) = prodl (map (val wt cmpf is_true d) (snd iy)).
Proof.
  intros HD (r & Hr & σ & _ & _ & <-). unfold facts in HD. rewrite Forall_forall in HD.
  assert (Hin : r ∈ D) by (apply elem_of_list_In; by eapply nth_error_In). f_equal. rewrite !map_map. apply map_ext_in.
  intros b Hb. apply elem_of_list_In in Hb. destruct (HD r Hin b Hb) as [k ->]. done.
Qed.

Lemma instances_app P D x (F : list term -> R) v w :
  sum_over (instances P x) (fun iy => F (snd iy)) v -> sum_over (instances D x) (fun iy => F (snd iy)) w ->
  sum_over (instances (P ++ D) x) (fun iy => F (snd iy)) (sadd v w).
Proof.
  intros (L & HL1 & HL2 & HL3 & ->) (M & HM1 & HM2 & HM3 & ->).
  set (sh := fun iy : nat * list term => (length P + fst iy, snd iy)).
  exists (L ++ map sh M). split; [|split; [|split]].
  - apply NoDup_app. split; [done|]. split.
    + intros iy HiL HiM. apply HL2 in HiL as (r & Hr & _). apply elem_of_list_fmap in HiM as (iy' & -> & _). simpl in Hr.
      assert (length P + fst iy' < length P) by (apply nth_error_Some; congruence). lia.
    + apply NoDup_fmap_2; [|done]. intros [i ys] [i' ys'] [= E1 E2]. f_equal; [lia|done].
  - intros iy Hin. apply elem_of_app in Hin as [Hin|Hin].
    + apply HL2 in Hin as (r & Hr & Hi). exists r. split; [|done]. rewrite nth_error_app1; [done|]. apply nth_error_Some. congruence.
    + apply elem_of_list_fmap in Hin as (iy' & -> & Hin). apply HM2 in Hin as (r & Hr & Hi). exists r. simpl. split; [|done].
      rewrite nth_error_app2 by lia. by rewrite Nat.add_comm, Nat.add_sub.
  - intros [i ys] (r & Hr & Hi). simpl in *. destruct (decide (i < length P)) as [Hlt|Hge].
    + rewrite nth_error_app1 in Hr by done. destruct (HL3 (i, ys)) as [?|?]; [by exists r|left; apply elem_of_app; by left|by right].
    + rewrite nth_error_app2 in Hr by lia. destruct (HM3 (i - length P, ys)) as [Hm|?]; [by exists r| |by right].
      left. apply elem_of_app. right. apply elem_of_list_fmap. exists (i - length P, ys). split; [|done]. unfold sh. simpl. f_equal. lia.
  - rewrite suml_app, suml_map. done.
Qed.

(** C24 for data that consists of facts, in any number of parts: the result
    satisfies the equations of the program together with all the data. *)
Theorem C24_facts P os pick n p s :
  wf_rules P -> Forall facts (data_of os) ->
  foldM (do_op all_kept P) (os ++ [OpRun pick n p]) s_empty = Ok s ->
  let c := c_dict (s_chart s) in
  safe P c -> solution (P ++ concat (data_of os)) (fun _ => szero) c.
Proof.
  intros Hwf HD E c Hsafe.
  assert (Hwd : Forall wf_rules (data_of os)).
  { eapply Forall_impl; [exact HD|]. intros D HDf. eapply Forall_impl; [exact HDf|]. intros r Hr. apply Forall_forall. intros b Hb.
    by destruct (Hr b Hb) as [k ->]. }
  destruct (C24_history P os pick n p s Hwf Hwd E) as (_ & ds & Hds & Hsol).
  specialize (Hsol Hsafe). fold c in Hsol. intros x. destruct (Hsol x) as (v & Hv & Heq).
  assert (Hsum : sum_over (instances (concat (data_of os)) x) (fun iy => prodl (map (val wt cmpf is_true c) (snd iy))) (total_of ds x)).
  { clear - HD Hds. unfold total_of. revert HD. induction Hds as [|D d Ds ds Hd Hds IH]; intros HD; simpl.
    - rewrite suml_nil. exists []. split; [constructor|]. split; [intros a Ha; by apply elem_of_nil in Ha|]. split; [|done].
      intros [i ys] (r & Hr & _). simpl in Hr. by destruct i.
    - apply Forall_cons in HD as [HD1 HD2]. rewrite suml_cons. apply (instances_app D (concat Ds) x (fun ys => prodl (map (val wt cmpf is_true c) ys))).
      + destruct (Hd (facts_safe D d HD1) x) as (w & Hw & ->). rewrite sadd_0_r. eapply sum_over_ext; [|exact Hw].
        intros iy Hi. by apply (facts_val D d c x).
      + by apply IH. }
  exists (sadd v (total_of ds x)). split.
  - by apply (instances_app P (concat (data_of os)) x (fun ys => prodl (map (val wt cmpf is_true c) ys))).
  - by rewrite Heq, sadd_0_r.
Qed.
End props.

(** * Witnesses *)
Section witness.
  Notation S s := (Cst (CStr s)). Notation I z := (Cst (CInt z)).
  Let f x := Fn [S "f"; x]. Let g x y := Fn [S "g"; x; y]. Let h := Fn [S "h"].
  Let lt x y := Fn [S "<"; x; y].
  Definition is_lt (op : String.string) : bool := match CStr "<" with CStr s => String.eqb op s | _ => false end.
  Definition w_cmp (op : String.string) (x y : term) : res bool :=
    match x, y with Cst (CInt a), Cst (CInt b) => if is_lt op then Ok (a <? b)%Z else Raise OtherError | _, _ => Raise TypeError end.
  Definition w_is (n : nat) (st : store) (x y : term) : res (list store) := Raise OtherError.
  Lemma w_is_exact : is_exact (fun _ _ => false) w_is.
  Proof. intros V n st x y sts _ _ E. done. Qed.
  Definition w_nat (k : const) : nat_sr := match k with CInt z => Z.to_nat z | CStr _ => 0 end.
  Definition w_eq (x y : nat_sr) : bool := Nat.eqb x y.

  (** f(1) += 2. f(2) += 3. g(X,Y) += f(X)*f(Y)*(X<Y). h += f(X)*f(X). h += g(X,Y). h += 5. *)
  Definition w_P : list rule :=
    [Rule (f (I 1)) [I 2]; Rule (f (I 2)) [I 3]; Rule (g (Var 0) (Var 1)) [f (Var 0); f (Var 1); lt (Var 0) (Var 1)];
     Rule h [f (Var 0); f (Var 0)]; Rule h [g (Var 0) (Var 1)]; Rule h [I 5]].
  Definition w_pick (k : nat) (A : gset term) : term := default h (elements A !! 0).
  Definition w_pick' (k : nat) (A : gset term) : term := default h (elements A !! (length (elements A) - 1)).
  Definition w_run pick P := forward_chaining w_nat w_eq id w_cmp w_is all_kept pick P 20 20 s_empty.

  Lemma w_wf : wf_rules w_P /\ forall r v, r ∈ w_P -> Var v ∉ rbody r.
  Proof.
    split.
    - repeat constructor; try done; intros H; exfalso; by destruct H.
    - intros r v Hr. unfold w_P in Hr. rewrite !elem_of_cons in Hr.
      repeat (destruct Hr as [->|Hr]; [simpl; rewrite ?elem_of_cons; intros H; repeat (destruct H as [H|H]; [done|]); by apply elem_of_nil in H|]).
      by apply elem_of_nil in Hr.
  Qed.

  Definition w_val (r : res (sstate nat_sr)) (x : term) : option nat :=
    match r with Ok s => c_dict (s_chart s) !! x | _ => None end.

  (** Both schedules end, with h = 2*2 + 3*3 + 2*3 + 5. *)
  Lemma C23_witness :
    wf_rules w_P /\ (exists s, w_run w_pick w_P = Ok s) /\ (exists s, w_run w_pick' w_P = Ok s) /\
    w_val (w_run w_pick w_P) h = Some 24 /\ w_val (w_run w_pick' w_P) h = Some 24 /\
    w_val (w_run w_pick w_P) (g (I 1) (I 2)) = Some 6.
  Proof.
    split; [apply w_wf|].
    assert (H : forall r : res (sstate nat_sr), match r with Ok _ => true | _ => false end = true -> exists s, r = Ok s) by (intros []; naive_solver).
    split; [apply H; vm_compute; reflexivity|]. split; [apply H; vm_compute; reflexivity|].
    split; [vm_compute; reflexivity|]. split; vm_compute; reflexivity.
  Qed.

  (** A recursive program over the booleans: paths in a graph with a cycle.
      e(1,2). e(2,1). e(2,3). p(X,Y) += e(X,Y). p(X,Z) += p(X,Y)*p(Y,Z). *)
  Definition w_path : list rule :=
    let e x y := Fn [S "e"; x; y] in let p x y := Fn [S "p"; x; y] in
    [Rule (e (I 1) (I 2)) []; Rule (e (I 2) (I 1)) []; Rule (e (I 2) (I 3)) []; Rule (p (Var 0) (Var 1)) [e (Var 0) (Var 1)];
     Rule (p (Var 0) (Var 2)) [p (Var 0) (Var 1); p (Var 1) (Var 2)]].
  Definition w_bool (k : const) : bool_sr := true.
  Definition w_runb := forward_chaining w_bool (Bool.eqb : bool_sr -> bool_sr -> bool) id w_cmp w_is all_kept w_pick w_path 20 100 s_empty.
  Lemma C23_witness_recursive :
    wf_rules w_path /\ (exists s, w_runb = Ok s) /\
    match w_runb with Ok s => length (elements (dom (c_dict (s_chart s)))) | _ => 0 end = 9 /\
    match w_runb with Ok s => c_dict (s_chart s) !! Fn [S "p"; I 1; I 1] | _ => None end = Some true.
  Proof.
    split; [repeat constructor; try done; intros [Hx|Hx]; discriminate Hx|].
    assert (H : forall r : res (sstate bool_sr), match r with Ok _ => true | _ => false end = true -> exists s, r = Ok s) by (intros []; naive_solver).
    split; [apply H; vm_compute; reflexivity|]. split; vm_compute; reflexivity.
  Qed.

  (** Data in two parts, with a run in between. *)
  Definition w_D1 : list rule := [Rule (f (I 3)) [I 7]]. 
  Definition w_D2 : list rule := [Rule (f (I 1)) [I 1]; Rule (f (I 1)) [I 1; I 4]].
  Definition w_ops : list op := [OpLoad w_pick 20 20 w_D1; OpRun w_pick' 20 30; OpLoad w_pick' 20 20 w_D2].
  Definition w_hist := foldM (do_op w_nat w_eq id w_cmp w_is all_kept w_P) (w_ops ++ [OpRun w_pick 20 40]) s_empty.
  Lemma C24_witness :
    wf_rules w_P /\ Forall facts (data_of w_ops) /\ (exists s, w_hist = Ok s) /\ w_val w_hist (f (I 1)) = Some 7 /\
    w_val w_hist h = Some (7*7 + 3*3 + 7*7 + 7*3 + 7*7 + 3*7 + 5).
  Proof.
    split; [apply w_wf|]. split.
    { repeat constructor; intros b Hb; simpl in Hb; rewrite ?elem_of_cons in Hb;
        repeat (destruct Hb as [->|Hb]; [by eexists|]); by apply elem_of_nil in Hb. }
    assert (H : forall r : res (sstate nat_sr), match r with Ok _ => true | _ => false end = true -> exists s, r = Ok s) by (intros []; naive_solver).
    split; [apply H; vm_compute; reflexivity|]. split; vm_compute; reflexivity.
  Qed.

  (** A variable as a subgoal whose value is an item: [goal += f(X) * X. f(a) += 1. a += 1.]
      The solver does not notice that [a] changes, so the result depends on the
      order of the agenda and need not be a solution. *)
  Let a := Fn [S "a"].
  Definition w_bad : list rule := [Rule h [f (Var 0); Var 0]; Rule (f a) [I 1]; Rule a [I 1]].
  (** pop [f(a)] first, or [a] first *)
  Definition pick_f (k : nat) (A : gset term) : term := if decide (f a ∈ A) then f a else if decide (a ∈ A) then a else h.
  Definition pick_a (k : nat) (A : gset term) : term := if decide (a ∈ A) then a else if decide (f a ∈ A) then f a else h.

  Lemma w_not_solution (c : gmap term nat_sr) : c !! h = None -> c !! f a = Some (1 : nat_sr) -> c !! a = Some (1 : nat_sr) ->
    ~ solution w_nat w_cmp (fun _ _ => false) w_bad (fun _ => szero) c.
  Proof.
    intros H1 H2 H3 Hsol. destruct (Hsol h) as (v & Hv & Heq). rewrite H1 in Heq. cbn [default] in Heq.
    destruct Hv as (L & _ & HL & Hz & ->).
    assert (Hi : instances w_bad h (0, [f a; a])).
    { exists (Rule h [f (Var 0); Var 0]). split; [done|]. exists (fun _ => a). done. }
    assert (Hval : prodl (map (val w_nat w_cmp (fun _ _ => false) c) [f a; a]) = (1 : nat_sr)).
    { cbn [map]. unfold val. replace (look w_nat w_cmp (fun _ _ => false) c (f a)) with (c !! f a) by reflexivity.
      replace (look w_nat w_cmp (fun _ _ => false) c a) with (c !! a) by reflexivity. rewrite H2, H3. reflexivity. }
    destruct (Hz _ Hi) as [Hin|Hc]; [|cbn [snd] in Hc; rewrite Hval in Hc; discriminate Hc].
    apply elem_of_list_split in Hin as (l1 & l2 & ->). rewrite suml_app, suml_cons in Heq. cbn [snd] in Heq. rewrite Hval in Heq.
    cbn in Heq. lia.
  Qed.

  Theorem C23_variable_subgoal_refuted : exists s,
    w_run pick_f w_bad = Ok s /\ wf_rules w_bad /\ s_agenda s = ∅ /\
    ~ solution w_nat w_cmp (fun _ _ => false) w_bad (fun _ => szero) (c_dict (s_chart s)) /\
    w_val (w_run pick_f w_bad) h <> w_val (w_run pick_a w_bad) h.
  Proof.
    assert (H : match w_run pick_f w_bad with
                | Ok s => (bool_decide (elements (s_agenda s) = []), c_dict (s_chart s) !! h, c_dict (s_chart s) !! f a, c_dict (s_chart s) !! a)
                | _ => (false, None, None, None) end = (true, None, Some 1, Some 1)) by (vm_compute; reflexivity).
    assert (Hne : w_val (w_run pick_f w_bad) h <> w_val (w_run pick_a w_bad) h) by (vm_compute; done).
    generalize dependent (w_run pick_f w_bad). intros [s|e|] H Hne; [|discriminate H..]. exists s. split; [reflexivity|].
    injection H as H0 H1 H2 H3. apply bool_decide_eq_true in H0. split; [repeat constructor; try done; intros [Hx|Hx]; discriminate Hx|].
    split; [by apply leibniz_equiv, elements_empty_inv|]. split; [|done].
    refine (w_not_solution (c_dict (s_chart s)) _ _ _); [exact H1|exact H2|exact H3].
  Qed.
End witness.

Print Assumptions C23_solution.
Print Assumptions C23_solution_no_variables.
Print Assumptions C24_history.
Print Assumptions C24_facts.
Print Assumptions C23_variable_subgoal_refuted.
