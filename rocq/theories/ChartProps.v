(** C25: lookups in the chart do not depend on which indexes exist. *)
From stdpp Require Import gmap.
From Coq Require Import Lia Permutation ZArith.
From Coq Require String Ascii.
From Verif Require Import PyBase TermModel TermSpec TermProofs UnifyProofs SetsProofs FuelProofs SolverModel ChartSpec ChartProofs.
Import String.StringSyntax Ascii.AsciiSyntax.

(** Items are ground; queries have a constant functor and may be made under any
    bindings without cycles. *)
Definition chart_op_ok {A} (o : chart_op A) : Prop :=
  match o with
  | CSet x _ => ground x
  | CGet _ st q => acyclic st /\ exists c args, q = Fn (Cst c :: args)
  end.

Lemma chart_run_ok {A} ord h (ch0 ch : chart A) d0 :
  (forall l, Permutation (ord l) l) -> Forall chart_op_ok h -> foldM (chart_do ord) h ch0 = Ok ch ->
  index_ok ch0 -> c_dict ch0 = d0 -> (forall x, is_Some (d0 !! x) -> ground x) ->
  let d := fold_left (fun d o => match o with CSet x v => <[x := v]> d | CGet _ _ _ => d end) h d0 in
  index_ok ch /\ c_dict ch = d /\ forall x, is_Some (d !! x) -> ground x.
Proof.
  intros Hord. revert ch0 d0. induction h as [|o h IH]; intros ch0 d0 Hf E Hok Hd Hg; simpl in *.
  { injection E as <-. done. }
  apply Forall_cons in Hf as [Ho Hf]. destruct (chart_do ord o ch0) as [ch1| |] eqn:E1; try done. simpl in E.
  apply (IH ch1); [done|done|..]; destruct o as [x v|n st q]; simpl in *.
  - by apply chart_set_ok in E1 as [? _].
  - destruct (chart_get ord n st q ch0) as [[rs ch1']| |] eqn:E2; try done. injection E1 as ->.
    destruct Ho as (Hac & c & args & Hq). rewrite <- Hd in Hg. by apply (chart_get_ok ord Hord n st q ch0 rs ch1 c args) in E2 as [? _].
  - rewrite <- Hd. by apply chart_set_ok in E1 as (_ & ? & _).
  - destruct (chart_get ord n st q ch0) as [[rs ch1']| |] eqn:E2; try done. injection E1 as ->.
    destruct Ho as (Hac & c & args & Hq). rewrite <- Hd in *. by apply (chart_get_ok ord Hord n st q ch0 rs ch1 c args) in E2 as (_ & ? & _).
  - intros y. destruct (decide (x = y)) as [->|Hne]; [done|]. rewrite lookup_insert_ne by done. apply Hg.
  - done.
Qed.

(** C25.  After any history of writes and lookups (each lookup may create an
    index, each write must maintain them all), a lookup terminates and returns
    exactly the items last written that match the query, once each, with their
    last value. *)
Theorem C25_lookup_exact {A} (ord : list term -> list term) (h : list (chart_op A)) ch st c args :
  (forall l, Permutation (ord l) l) ->
  Forall chart_op_ok h -> foldM (chart_do ord) h chart_empty = Ok ch ->
  acyclic st ->
  let q := Fn (Cst c :: args) in
  exists rs ch', settles (fun n => chart_get ord n st q ch) (rs, ch') /\
    exact_matches (written h) st q rs /\ c_dict ch' = written h.
Proof.
  intros Hord Hf E Hac q.
  destruct (chart_run_ok ord h chart_empty ch ∅ Hord Hf E (index_ok_empty) eq_refl) as (Hok & Hd & Hg).
  { intros x [? Hx]. done. }
  change (c_dict ch = written h) in Hd. change (forall x, is_Some (written h !! x) -> ground x) in Hg. rewrite <- Hd in Hg |- *.
  destruct (chart_get_settles ord Hord st q ch c args Hok Hg Hac eq_refl) as (rs & ch' & Hs).
  exists rs, ch'. split; [done|]. destruct Hs as [n0 Hs].
  destruct (chart_get_ok ord Hord n0 st q ch rs ch' c args Hok Hg Hac eq_refl) as (_ & Hd' & Hm); [by apply Hs|]. done.
Qed.

(** Writing an item [f(...)] never fails, whatever indexes exist. *)
Theorem C25_write_total {A} (ch : chart A) f args v : exists ch', chart_set (Fn (f :: args)) v ch = Ok ch'.
Proof.
  unfold chart_set, update_index. destruct (decide _); simpl; [eauto|]. destruct (c_index ch !! _); simpl; eauto.
Qed.

(** Two charts with the same contents answer every lookup with the same items. *)
Theorem C25_same_answers {A} ord ord' (h h' : list (chart_op A)) ch ch' st c args n n' rs rs' ch1 ch1' :
  (forall l, Permutation (ord l) l) -> (forall l, Permutation (ord' l) l) ->
  Forall chart_op_ok h -> foldM (chart_do ord) h chart_empty = Ok ch ->
  Forall chart_op_ok h' -> foldM (chart_do ord') h' chart_empty = Ok ch' ->
  written h = written h' -> acyclic st ->
  let q := Fn (Cst c :: args) in
  chart_get ord n st q ch = Ok (rs, ch1) -> chart_get ord' n' st q ch' = Ok (rs', ch1') ->
  Permutation (map snd rs) (map snd rs').
Proof.
  intros Hord Hord' Hf E Hf' E' Hw Hac q Eg Eg'.
  destruct (chart_run_ok ord h chart_empty ch ∅ Hord Hf E (index_ok_empty) eq_refl) as (Hok & Hd & Hg).
  { intros x [? Hx]. done. }
  destruct (chart_run_ok ord' h' chart_empty ch' ∅ Hord' Hf' E' (index_ok_empty) eq_refl) as (Hok' & Hd' & Hg').
  { intros x [? Hx]. done. }
  change (c_dict ch = written h) in Hd. change (forall x, is_Some (written h !! x) -> ground x) in Hg.
  change (c_dict ch' = written h') in Hd'. change (forall x, is_Some (written h' !! x) -> ground x) in Hg'. rewrite <- Hw in Hd', Hg'.
  apply (chart_get_ok ord Hord n st q ch rs ch1 c args) in Eg as (_ & _ & xs & Hn & Hin & Hf2); [|done|by rewrite Hd|done|done].
  apply (chart_get_ok ord' Hord' n' st q ch' rs' ch1' c args) in Eg' as (_ & _ & xs' & Hn' & Hin' & Hf2'); [|done|by rewrite Hd'|done|done].
  rewrite Hd in Hin, Hf2. rewrite Hd' in Hin', Hf2'.
  assert (Hp : Permutation xs xs').
  { apply list.NoDup_Permutation; [done|done|]. intros x. by rewrite Hin, Hin'. }
  assert (Hval : forall xs (rs : list (store * A)), Forall2 (fun x r => written h !! x = Some (snd r) /\ acyclic (fst r) /\
      forall σ, solves σ (fst r) <-> solves σ st /\ sub σ q = x) xs rs -> map (fun x => Some (snd x)) rs = map (fun x => written h !! x) xs).
  { clear. induction 1 as [|x r xs rs (Hx & _) _ IH]; [done|]. simpl. by rewrite Hx, IH. }
  apply (Permutation_map (fun x => written h !! x)) in Hp. rewrite <- (Hval _ _ Hf2), <- (Hval _ _ Hf2') in Hp.
  rewrite <- !(map_map snd Some) in Hp. apply Permutation_map_inv in Hp as (l & E1 & Hp).
  assert (l = map snd rs).
  { clear -E1. revert E1. generalize (map snd rs). intros m. revert l. induction m as [|a m IH]; intros [|b l] E; try done.
    simpl in E. injection E as -> E. f_equal. by apply IH. }
  subst. symmetry. done.
Qed.

(** A history that queries [f] with three different patterns, before and after
    the writes they must see. *)
Section witness.
  Let a := Cst (CStr "a"). Let b := Cst (CStr "b").
  Let f x y := Fn [Cst (CStr "f"); x; y].
  Let g x := Fn [Cst (CStr "g"); x].
  Definition C25_h : list (chart_op Z) :=
    [CSet (f a b) 1%Z; CGet 9 ∅ (f (Var 0) b); CSet (f a a) 2%Z; CGet 9 ∅ (f a (Var 0)); CSet (g a) 5%Z;
     CSet (f b b) 3%Z; CSet (f a b) 4%Z].

  Definition C25_ch : chart Z := match foldM (chart_do id) C25_h chart_empty with Ok ch => ch | _ => chart_empty end.

  Lemma C25_witness :
    Forall chart_op_ok C25_h /\ foldM (chart_do id) C25_h chart_empty = Ok C25_ch /\
      forall n, 9 <= n ->
        (let* (rs, _) := chart_get id n {[1 := b]} (f (Var 0) (Var 1)) C25_ch in
         Ok (map (fun r => (fst r !! 0, fst r !! 1, snd r)) rs)) =
          Ok [(Some b, Some b, 3%Z); (Some a, Some b, 4%Z)] /\
        (let* (rs, _) := chart_get id n ∅ (f a (Var 0)) C25_ch in Ok (map snd rs)) = Ok [2%Z; 4%Z] /\
        (let* (rs, _) := chart_get id n ∅ (f (Var 0) (Var 0)) C25_ch in Ok (length rs)) = Ok 2.
  Proof.
    split.
    { repeat constructor; simpl; eauto; exists (fun _ => 0); intros ? ? H; by rewrite lookup_empty in H. }
    split.
    { unfold C25_ch. destruct (foldM (chart_do id) C25_h chart_empty) eqn:E; [done|exfalso..];
        assert (H : match foldM (chart_do id) C25_h chart_empty with Ok _ => true | _ => false end = true) by (vm_compute; reflexivity);
        by rewrite E in H. }
    intros n Hn. replace n with (9 + (n - 9)) by lia. generalize (n - 9). intros m.
    split; [|split]; vm_compute; reflexivity.
  Qed.
End witness.

Print Assumptions C25_lookup_exact.
Print Assumptions C25_write_total.
Print Assumptions C25_same_answers.
