(** C48: simple types. *)
From Coq Require Import List Lia.
From stdpp Require Import gmap.
From Coq Require String Ascii.
From Verif Require Import PyBase TermModel TermSpec TermProofs SetsModel PruneModel PropagateModel TypesSpec PropagateProofs RewriteProofs.
Import String.StringSyntax Ascii.AsciiSyntax.
Import ListNotations.
Local Open Scope string_scope.
Local Open Scope list_scope.
Local Open Scope nat_scope.

Section C48.
Context (ord : list term -> list term) (pick : list term -> nat) (Hord : any_order ord).
Context (chk : term -> res checked) (ready : term -> bool) (rules : list rule) (fv : nat).
Context (I : term -> Prop).

Lemma good_constraint rules' θ b : model_of I rules' -> gsub θ -> I (sub θ b) -> apart rules' b -> constraint b -> good I rules' θ b.
Proof.
  intros HI Hθ Hb Ha [Hp|(v & y & ->)]; [by apply good_plain|]. eapply good_eq; [done|done| | |].
  - by apply (mo_eq I rules' HI) in Hb; [|apply Hθ|by apply gsub_ground].
  - intros (r & Hr & Hv). apply (Ha r v Hr Hv). simpl. auto.
  - intros w Hw (r & Hr & Hv). apply (Ha r w Hr Hv). simpl. rewrite app_nil_r. auto.
Qed.

(** C48.  Constraint propagation.  A set of constraints that is reported to be
    contradictory is satisfied by no assignment of ground terms; otherwise
    everything propagation concludes is true under every assignment that satisfies
    the constraints, and none of them is lost. *)
Theorem C48_propagate : forall n D o,
  right_for I chk rules -> (forall b, b ∈ D -> constraint b /\ apart rules b) ->
  propagate ord pick chk ready n rules D = Ok o ->
  (forall θ, gsub θ -> (forall b, b ∈ D -> I (sub θ b)) ->
     exists s, o = Some s /\ (forall x, x ∈ cp_chart s -> I (sub θ x)) /\ forall X Y, (X, Y) ∈ cp_bindings s -> sub θ X = sub θ Y) /\
  forall s x, o = Some s -> x ∈ D -> x ∈ cp_chart s.
Proof.
  intros n D o (HI & Hchk & Hpl) HD E. split.
  - intros θ Hθ Hb. pose proof E as E'. apply (propagate_sound ord pick Hord chk ready I rules HI Hchk Hpl θ Hθ) in E'.
    + destruct o as [s|]; [|done]. destruct E' as (H1 & H2 & H3). exists s. split; [done|]. split; [intros x Hx; by apply H1|].
      intros X Y HXY. by destruct (H3 X Y HXY) as (v & -> & Hv).
    + intros b Hin. destruct (HD b Hin) as [Hc Ha]. by apply good_constraint; [| |apply Hb| |].
  - intros s x -> Hx. apply (propagate_track ord pick) in E as [[H1 _ _ _] _]. by apply H1.
Qed.

(** Simplifying a type.  No ground instance is lost: if there is one, the result is
    not "empty" and has it too.  None is added as long as the constraints are not
    equalities (and, when the checked ones are dropped, not named [ks] or [ws]). *)
Theorem C48_rewrites : forall n R dc ui o,
  right_for I chk rules -> free_true I -> (forall b, b ∈ rbody R -> constraint b /\ apart rules b) ->
  rw_call ord pick chk ready rules fv n R dc ui true = Ok o ->
  (forall x, denotes I R x -> exists t, o = Some t /\ denotes I t x) /\
  (forall t, o = Some t -> (forall b, b ∈ rbody R -> plain_constraint b /\ (dc = true -> no_kw b)) ->
     forall x, denotes I t x -> denotes I R x).
Proof.
  intros n R dc ui o (HI & Hchk & Hpl) Hfr HR E. split.
  - intros x (θ & Hθ & Hx & Hb). apply (rw_call_sound ord pick Hord chk ready rules fv I Hchk n R dc ui true θ o HI Hpl) in E as (t & -> & Ht & Hbt); [| |done|].
    + exists t. split; [done|]. exists θ. split; [done|]. split; [by rewrite Ht|done].
    + by left.
    + intros b Hin. destruct (HR b Hin) as [Hc Ha]. by apply good_constraint; [| |apply Hb| |].
  - intros t -> Hp x (θ & Hθ & Hx & Hb).
    destruct (rw_call_back ord pick Hord chk ready rules fv I Hchk n R t dc ui true θ HI (fun _ => Hfr) Hθ E Hb) as (θ' & Hθ' & Hh & Hbr).
    exists θ'. split; [done|]. split; [by rewrite Hh|]. intros b Hin. destruct (Hp b Hin) as [H1 H2]. by apply Hbr.
Qed.

(** covers(r, s) implies that every ground instance of s is one of r. *)
Theorem C48_covers : forall n r s,
  right_for I chk rules ->
  (forall b, b ∈ rbody s -> plain_constraint b /\ apart rules b) ->
  (forall b, b ∈ rbody r -> plain_constraint b /\ no_kw b) ->
  rw_covers ord pick chk ready rules fv n r s = Ok true ->
  forall x, denotes I s x -> denotes I r x.
Proof. intros n r s (HI & Hchk & Hpl). by apply rw_covers_sound. Qed.

(** intersect(r, s): "empty" only if no ground term is an instance of both;
    otherwise the result has all the common instances, and only instances of r.
    With ALLOW_FREE_MERGE switched off this is for types whose variables are not
    free: [$free] then counts as false. *)
Theorem C48_intersect : forall n c r s afm o,
  right_for I chk (rules_of rules fv afm) -> (if afm then free_true I else free_false I) ->
  (forall b, b ∈ rbody r ++ rbody s -> plain_constraint b) ->
  (forall b, b ∈ rhead r :: rbody r -> apart (rules_of rules fv afm) b) ->
  (forall v, In v (rule_vars r) -> v < c) -> (forall q v, q ∈ rules_of rules fv afm -> In v (rule_vars q) -> v < c) ->
  rw_intersect ord pick chk ready rules fv n c r s afm = Ok o ->
  (o = None -> forall x, ~ (denotes I r x /\ denotes I s x)) /\
  (forall t, o = Some t -> forall x, (denotes I r x /\ denotes I s x -> denotes I t x) /\ (denotes I t x -> denotes I r x)).
Proof.
  intros n c r s afm o (HI & Hchk & Hpl) Hfr Hp Ha Hc Hq E.
  assert (Hs : forall x, denotes I r x -> denotes I s x -> exists t, o = Some t /\ denotes I t x).
  { eapply rw_intersect_sound; try done. destruct afm; auto. }
  split.
  - intros -> x [H1 H2]. by destruct (Hs x H1 H2) as (t & ? & _).
  - intros t -> x. split; [intros [H1 H2]; destruct (Hs x H1 H2) as (t' & [= <-] & ?); done|].
    intros (θ & Hθ & Hx & Hb). unfold rw_intersect in E.
    destruct (fresh (fun j => j) n ∅ c (Fn (rhead s :: rbody s))) as [[t' c']| |]; try done. cbn [bind] in E.
    destruct t' as [|?|[|sh sb]]; try done. destruct (mgu n ∅ (rhead r) sh) as [[σ ok]| |]; try done. cbn [bind] in E.
    destruct ok; [|done].
    apply (rw_call_back ord pick Hord chk ready rules fv I Hchk _ _ _ _ _ afm θ HI) in E as (θ' & Hθ' & Hh & Hbr); [| |done|done].
    + exists θ'. split; [done|]. split; [cbn [rhead] in Hh; by rewrite Hh|]. intros b Hin. apply Hbr.
      * cbn [rbody]. apply elem_of_app. auto.
      * apply Hp. apply elem_of_app. auto.
      * done.
    + intros ->. done.
Qed.
End C48.

(** * Witness *)
Notation F f args := (Fn (Cst (CStr f) :: args)).
Definition idl (l : list term) : list term := l.
Lemma idl_order : any_order idl.
Proof. done. Qed.
Definition first (l : list term) : nat := 0.

(** integers are numbers; nothing is a number and a string *)
Definition ex_rules : list rule :=
  [Rule (F "num" [Var 0]) [F "int" [Var 0]]; Rule t_fail [F "num" [Var 0]; F "str" [Var 0]]].
(** comparison of integers, and addition *)
Definition ex_chk (q : term) : res checked :=
  match q with
  | Fn [Cst (CStr f); Cst (CInt a); Cst (CInt b)] =>
      if String.eqb f "<" then Ok (if Z.ltb a b then Passed [] else Failed) else Ok NotReady
  | Fn [Cst (CStr f); Var v; Fn [Cst (CStr g); Cst (CInt a); Cst (CInt b)]] =>
      if String.eqb f "is" && String.eqb g "+" then Ok (Passed [(Var v, Cst (CInt (a + b)))]) else Ok NotReady
  | _ => Ok NotReady
  end.
(** everything that is not listed is false *)
Definition ex_I (x : term) : Prop :=
  match x with
  | Fn [Cst (CStr f); y] =>
      f = "$bound" \/ f = "$free" \/
      (f = "int" /\ exists z, y = Cst (CInt z)) \/ (f = "num" /\ exists z, y = Cst (CInt z)) \/ (f = "str" /\ exists g, y = Cst (CStr g))
  | Fn [Cst (CStr f); y; z] =>
      (f = "=" /\ y = z) \/ (f = "<" /\ exists a b, y = Cst (CInt a) /\ z = Cst (CInt b) /\ (a < b)%Z) \/
      (f = "is" /\ exists a b, z = F "+" [Cst (CInt a); Cst (CInt b)] /\ y = Cst (CInt (a + b)))
  | _ => False
  end.

Lemma ex_right : right_for ex_I ex_chk ex_rules.
Proof.
  split; [|split].
  - split.
    + intros x y _ _. simpl. split; [|by left]. intros [[_ ?]|[[? _]|[? _]]]; done.
    + simpl. tauto.
    + simpl. auto.
    + intros r θ Hr Hθ Hb. apply elem_of_cons in Hr as [->|Hr]; [|apply elem_of_list_singleton in Hr as ->].
      * specialize (Hb (F "int" [Var 0]) ltac:(left)). simpl in *. destruct Hb as [?|[?|[[_ ?]|[[? _]|[? _]]]]]; try done.
        right. right. right. left. done.
      * pose proof (Hb (F "num" [Var 0]) ltac:(left)) as H1. pose proof (Hb (F "str" [Var 0]) ltac:(right; left)) as H2. simpl in *.
        destruct H1 as [?|[?|[[? _]|[[_ [z Hz]]|[? _]]]]]; try done. destruct H2 as [?|[?|[[? _]|[[? _]|[_ [g Hg]]]]]]; try done. congruence.
  - intros q. destruct q as [|c|[|[|[|f]|] [|x [|y [|? ?]]]]]; try exact Logic.I.
    + by destruct x as [|[|]|].
    + cbn [ex_chk]. destruct x as [v|[a|]|]; [| |exact Logic.I|exact Logic.I].
      * destruct y as [| |[|[|[|g]|] [|[|[a|]|] [|[|[b|]|] [|? ?]]]]]; try exact Logic.I.
        destruct (String.eqb f "is" && String.eqb g "+") eqn:E; [|exact Logic.I]. apply andb_true_iff in E as [->%String.eqb_eq ->%String.eqb_eq].
        split.
        { intros k u H. apply elem_of_list_singleton in H as [= -> ->]. split; [exists v; split; [done|simpl; auto]|]. intros w []. }
        intros θ Hθ. simpl. split.
        { intros [[? _]|[[? _]|[_ (a' & b' & [= <- <-] & E)]]] k u Hku; try done. apply elem_of_list_singleton in Hku as [= -> ->]. exact E. }
        { intros H. right. right. split; [done|]. exists a, b. split; [done|]. apply (H (Var v) (Cst (CInt (a + b)))). left. }
      * destruct y as [| [b|] |]; try exact Logic.I. destruct (String.eqb f "<") eqn:E; [|exact Logic.I]. apply String.eqb_eq in E as ->.
        destruct (Z.ltb a b) eqn:El.
        { split; [intros k v H; by apply elem_of_nil in H|]. intros θ _. simpl. split; [intros _ k v H; by apply elem_of_nil in H|].
          intros _. right. left. split; [done|]. exists a, b. split; [done|]. split; [done|]. by apply Z.ltb_lt. }
        { intros θ _. simpl. intros [[? _]|[[_ (a' & b' & [= <-] & [= <-] & Hab)]|[? _]]]; try done. apply Z.ltb_ge in El. lia. }
    + unfold ex_chk. repeat case_match; simplify_eq; try exact Logic.I.
  - intros r Hr. apply elem_of_cons in Hr as [->|Hr]; [|apply elem_of_list_singleton in Hr as ->].
    + split; [intros v Hv; exact Hv|]. split; [exists (CStr "num"), [Var 0]; done|]. intros b Hb. apply elem_of_list_singleton in Hb as ->.
      by exists (CStr "int"), [Var 0].
    + split; [intros v []|]. split; [exists (CStr "$fail"), []; done|]. intros b Hb.
      apply elem_of_cons in Hb as [->|Hb]; [by exists (CStr "num"), [Var 0]|]. apply elem_of_list_singleton in Hb as ->. by exists (CStr "str"), [Var 0].
Qed.

Definition ty_num : rule := Rule (F "f" [Var 11]) [F "num" [Var 11]].
Definition ty_int : rule := Rule (F "f" [Var 12]) [F "int" [Var 12]].
Definition ty_str : rule := Rule (F "f" [Var 13]) [F "str" [Var 13]].
(** f(X) :- X is 1+2, X < 5, int(X) *)
Definition ty_sum : rule := Rule (F "f" [Var 14]) [F "is" [Var 14; F "+" [Cst (CInt 1); Cst (CInt 2)]]; F "<" [Var 14; Cst (CInt 5)]; F "int" [Var 14]].

Lemma ex_plain : forall r, r ∈ [ty_num; ty_int; ty_str; ty_sum] -> forall b, b ∈ rbody r -> plain_constraint b /\ no_kw b /\ apart ex_rules b.
Proof.
  intros r Hr b Hb.
  assert (Hap : forall b, (forall v, In v (vars b) -> v <> 0) -> apart ex_rules b).
  { intros x Hx q v Hq Hv Hin. apply (Hx v Hin). apply elem_of_cons in Hq as [->|Hq]; [|apply elem_of_list_singleton in Hq as ->];
      simpl in Hv; destruct Hv as [<-|[<-|[]]]; done. }
  repeat (apply elem_of_cons in Hr as [->|Hr]); [..|by apply elem_of_nil in Hr];
    repeat (apply elem_of_cons in Hb as [->|Hb]); try (by apply elem_of_nil in Hb).
  all: split; [eexists _, _; split; [reflexivity|done]|]; split; [done|]; apply Hap; simpl; intros v Hv; repeat (destruct Hv as [<-|Hv]; [done|]); destruct Hv.
Qed.

Theorem C48_witness :
  any_order idl /\ right_for ex_I ex_chk ex_rules /\
  (forall r, r ∈ [ty_num; ty_int; ty_str; ty_sum] -> forall b, b ∈ rbody r -> plain_constraint b /\ no_kw b /\ apart ex_rules b) /\
  rw_covers idl first ex_chk (fun _ => true) ex_rules 9 30 ty_num ty_int = Ok true /\
  rw_covers idl first ex_chk (fun _ => true) ex_rules 9 30 ty_int ty_num = Ok false /\
  rw_covers idl first ex_chk (fun _ => true) ex_rules 9 30 ty_num ty_sum = Ok true /\
  rw_covers idl first ex_chk (fun _ => true) ex_rules 9 30 ty_sum ty_num = Ok false /\
  rw_intersect idl first ex_chk (fun _ => true) ex_rules 9 30 20 ty_num ty_str true = Ok None /\
  rw_intersect idl first ex_chk (fun _ => true) ex_rules 9 30 20 ty_num ty_int true = Ok (Some (Rule (F "f" [Var 20]) [F "num" [Var 20]; F "int" [Var 20]])) /\
  rw_call idl first ex_chk (fun _ => true) ex_rules 9 30 ty_sum true true true =
    Ok (Some (Rule (F "f" [Cst (CInt 3)])
      [F "is" [Cst (CInt 3); F "+" [Cst (CInt 1); Cst (CInt 2)]]; F "int" [Cst (CInt 3)]; F "num" [Cst (CInt 3)]])) /\
  denotes ex_I ty_sum (F "f" [Cst (CInt 3)]).
Proof.
  split; [done|]. split; [apply ex_right|]. split; [apply ex_plain|].
  do 7 (split; [vm_compute; reflexivity|]).
  exists (fun _ => Cst (CInt 3)). split; [done|]. split; [done|]. intros b Hb.
  repeat (apply elem_of_cons in Hb as [->|Hb]); [..|by apply elem_of_nil in Hb]; simpl.
  - right. right. split; [done|]. by exists 1%Z, 2%Z.
  - right. left. split; [done|]. by exists 3%Z, 5%Z.
  - right. right. left. split; [done|]. by exists 3%Z.
Qed.

(** * Refutations *)
Definition no_chk (q : term) : res checked := Ok NotReady.

(** Everything is true but equality, [$fail] and the constraints in [false]. *)
Definition all_but (false : term -> Prop) (x : term) : Prop :=
  match x with
  | Fn [Cst (CStr f); y; z] => if String.eqb f "=" then y = z else ~ false x
  | Fn [Cst (CStr f)] => f <> "$fail"
  | _ => ~ false x
  end.
Lemma all_but_model false : (forall x, ~ false (t_bound x)) -> model_of (all_but false) [].
Proof.
  intros Hb. split.
  - intros x y _ _. done.
  - simpl. auto.
  - intros x. simpl. apply Hb.
  - intros r θ Hr. by apply elem_of_nil in Hr.
Qed.

(** A constraint named [ks] or [ws] counts as checked whatever its argument is: the
    type f(X) :- ks(X) is said to cover f(X) :- n(X). *)
Theorem C48_ks_refuted :
  exists I r s x,
    model_of I [] /\ chk_right I no_chk /\ (forall b, b ∈ rbody r ++ rbody s -> plain_constraint b) /\
    rw_covers idl first no_chk (fun _ => true) [] 9 30 r s = Ok true /\
    denotes I s x /\ ~ denotes I r x.
Proof.
  exists (all_but (fun x => x = F "ks" [Cst (CInt 1)])), (Rule (F "f" [Var 1]) [F "ks" [Var 1]]), (Rule (F "f" [Var 2]) [F "n" [Var 2]]),
    (F "f" [Cst (CInt 1)]).
  split; [by apply all_but_model|]. split; [by intros q|]. split.
  { intros b Hb. apply elem_of_cons in Hb as [->|Hb]; [|apply elem_of_list_singleton in Hb as ->]; eexists _, _; done. }
  split; [vm_compute; reflexivity|]. split.
  - exists (fun _ => Cst (CInt 1)). split; [done|]. split; [done|]. intros b Hb. apply elem_of_list_singleton in Hb as ->. by intros ?.
  - intros (θ & _ & [= E] & Hb). apply (Hb (F "ks" [Var 1])); [left|]. cbn [sub map]. by rewrite E.
Qed.

(** An equality between two terms is reported as a contradiction although an
    assignment satisfies it. *)
Theorem C48_equation_refuted :
  exists I θ D,
    model_of I [] /\ chk_right I no_chk /\ gsub θ /\ (forall b, b ∈ D -> I (sub θ b)) /\
    propagate idl first no_chk (fun _ => true) 30 [] D = Ok None.
Proof.
  exists (all_but (fun _ => False)), (fun _ => Cst (CInt 3)), [t_eq (F "f" [Var 1]) (F "f" [Cst (CInt 3)])].
  split; [apply all_but_model; auto|]. split; [by intros q|]. split; [done|]. split; [|vm_compute; reflexivity].
  intros b Hb. by apply elem_of_list_singleton in Hb as ->.
Qed.

(** Of two equalities for the same variable one is forgotten: the simplified type
    has an instance that the type does not have. *)
Theorem C48_equalities_refuted :
  exists I R t x,
    model_of I [] /\ free_true I /\ chk_right I no_chk /\ (forall b, b ∈ rbody R -> constraint b) /\
    rw_call idl first no_chk (fun _ => true) [] 9 30 R false true true = Ok (Some t) /\
    denotes I t x /\ ~ denotes I R x.
Proof.
  exists (all_but (fun _ => False)), (Rule (F "f" [Var 1; Var 2; Var 3]) [t_eq (Var 1) (Var 2); t_eq (Var 1) (Var 3)]),
    (Rule (F "f" [Var 3; Var 2; Var 3]) []), (F "f" [Cst (CInt 1); Cst (CInt 2); Cst (CInt 1)]).
  split; [apply all_but_model; auto|]. split; [intros x; simpl; auto|]. split; [by intros q|]. split.
  { intros b Hb. right. apply elem_of_cons in Hb as [->|Hb]; [|apply elem_of_list_singleton in Hb as ->]; by eexists _, _. }
  split; [vm_compute; reflexivity|]. split.
  - exists (fun v => Cst (CInt (if Nat.eqb v 2 then 2 else 1))). split; [done|]. split; [done|]. intros b Hb. by apply elem_of_nil in Hb.
  - intros (θ & _ & [= E1 E2 E3] & Hb). pose proof (Hb (t_eq (Var 1) (Var 2)) ltac:(left)) as H. cbn in H. congruence.
Qed.

(** A rule that derives equalities (a functional dependency): the equality of a
    variable with itself is derived, and applying the bindings never ends. *)
Lemma self_loop n v : sapply n (<[v := Var v]> ∅) (Var v) = OutOfFuel.
Proof. induction n as [|n IH]; [done|]. cbn [sapply]. by rewrite lookup_insert. Qed.

Lemma stuck_w n : sapply (S (S n)) (<[5 := Var 5]> ∅) (F "w" [Var 5; Cst (CInt 1)]) = OutOfFuel.
Proof. cbn [sapply mapM bind]. by rewrite lookup_insert, self_loop. Qed.
Lemma rw_call_stuck ord pick chk ready rules fv n R dc ui s σ x xs :
  propagate ord pick chk ready n rules (rbody R) = Ok (Some s) -> rw_subst (cp_bindings s) ∅ = Ok σ ->
  List.filter (fun x => is_Term x && negb (has_fn "=" x)) (ord (cp_chart s)) = x :: xs -> sapply n σ x = OutOfFuel ->
  rw_call ord pick chk ready rules fv n R dc ui true = OutOfFuel.
Proof. intros E1 E2 E3 E4. unfold rw_call. rewrite E1. cbn [bind]. rewrite E2. cbn [bind]. rewrite E3. cbn [mapM]. by rewrite E4. Qed.

Definition fundep : list rule := [Rule (t_eq (Var 1) (Var 2)) [F "w" [Var 1; Var 0]; F "w" [Var 2; Var 0]]].
Theorem C48_fundep_refuted : forall n,
  rw_call idl first no_chk (fun _ => true) fundep 9 (30 + n) (Rule (F "f" [Var 5]) [F "w" [Var 5; Cst (CInt 1)]]) false true true = OutOfFuel.
Proof.
  intros n. apply (rw_call_stuck _ _ _ _ _ _ _ _ _ _
    (CP [F "w" [Var 5; Cst (CInt 1)]; t_eq (Var 5) (Var 5)] [] [(Var 5, Var 5)] [t_eq (Var 5) (Var 5)]) (<[5 := Var 5]> ∅) (F "w" [Var 5; Cst (CInt 1)]) []).
  - vm_compute. reflexivity.
  - reflexivity.
  - reflexivity.
  - apply (stuck_w (28 + n)).
Qed.

Print Assumptions C48_propagate.
Print Assumptions C48_rewrites.
Print Assumptions C48_covers.
Print Assumptions C48_intersect.
Print Assumptions C48_witness.
Print Assumptions C48_ks_refuted.
Print Assumptions C48_equation_refuted.
Print Assumptions C48_equalities_refuted.
Print Assumptions C48_fundep_refuted.
