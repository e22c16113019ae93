(** Proofs about the enumeration of derivations. *)
From Coq Require Import List.
From stdpp Require Import gmap.
From Coq Require Import Lia.
From Verif Require Import PyBase Semiring TermModel TermSpec SetsModel PruneModel SolverProofs UpdateModel UpdateSpec EvalModel EvalSpec EvalProofs.
Import ListNotations.

(** * Lists *)
Lemma flat_map_app_f {A B} (f g : A -> list B) l : flat_map (fun a => f a ++ g a) l ≡ₚ flat_map f l ++ flat_map g l.
Proof.
  induction l as [|a l IH]; simpl; [done|]. rewrite IH. rewrite <- !app_assoc. apply Permutation_app_head.
  rewrite !app_assoc. apply Permutation_app_tail. apply Permutation_app_comm.
Qed.
Lemma flat_map_nil {A B} (l : list A) : flat_map (fun _ => @nil B) l = [].
Proof. by induction l. Qed.
Lemma flat_map_swap {A B C} (F : A -> B -> list C) la lb :
  flat_map (fun a => flat_map (F a) lb) la ≡ₚ flat_map (fun b => flat_map (fun a => F a b) la) lb.
Proof.
  induction la as [|a la IH]; simpl; [by rewrite flat_map_nil|]. rewrite IH. symmetry. apply flat_map_app_f.
Qed.
Lemma flat_map_perm_f {A B} (f g : A -> list B) l : (forall a, a ∈ l -> f a ≡ₚ g a) -> flat_map f l ≡ₚ flat_map g l.
Proof.
  induction l as [|a l IH]; intros H; simpl; [done|]. rewrite IH by (intros b Hb; apply H; by right). by rewrite (H a) by (by left).
Qed.
Lemma flat_map_eq_f {A B} (f g : A -> list B) l : (forall a, f a = g a) -> flat_map f l = flat_map g l.
Proof. intros H. induction l as [|a l IH]; simpl; [done|]. by rewrite H, IH. Qed.
Lemma map_flat_map {A B C} (h : B -> C) (f : A -> list B) l : map h (flat_map f l) = flat_map (fun a => map h (f a)) l.
Proof. induction l as [|a l IH]; simpl; [done|]. by rewrite map_app, IH. Qed.
Lemma flat_map_flat_map {A B C} (g : B -> list C) (f : A -> list B) l : flat_map g (flat_map f l) = flat_map (fun a => flat_map g (f a)) l.
Proof. induction l as [|a l IH]; simpl; [done|]. by rewrite flat_map_app, IH. Qed.
Lemma flat_map_map {A B C} (g : B -> list C) (f : A -> B) l : flat_map g (map f l) = flat_map (fun a => g (f a)) l.
Proof. induction l as [|a l IH]; simpl; [done|]. by rewrite IH. Qed.
Lemma map_as_flat_map {A B} (f : A -> B) l : map f l = flat_map (fun a => [f a]) l.
Proof. induction l as [|a l IH]; simpl; [done|]. by rewrite IH. Qed.
Lemma elem_of_flat_map {A B} (f : A -> list B) l b : b ∈ flat_map f l <-> exists a, a ∈ l /\ b ∈ f a.
Proof.
  rewrite elem_of_list_In, in_flat_map. split; intros (a & H1 & H2); exists a; rewrite ?elem_of_list_In in *; done.
Qed.
Lemma NoDup_flat_map {A B} (f : A -> list B) l : NoDup l -> (forall a, a ∈ l -> NoDup (f a)) ->
  (forall a a' b, a ∈ l -> a' ∈ l -> b ∈ f a -> b ∈ f a' -> a = a') -> NoDup (flat_map f l).
Proof.
  induction 1 as [|a l Ha Hl IH]; intros Hf Hd; simpl; [constructor|]. apply NoDup_app. split; [apply Hf; by left|]. split.
  - intros b Hb Hb'. apply elem_of_flat_map in Hb' as (a' & Ha' & Hb'). assert (a = a'); [|by subst].
    apply (Hd a a' b); [by left|by right|done|done].
  - apply IH; [intros; apply Hf; by right|]. intros a1 a2 b H1 H2. apply Hd; by right.
Qed.

Section derivations.
  Context {R : semiring} (wt : const -> R) (test : term -> option bool).
  Notation dchart := (list (term * dtree R)).
  Notation dlk := (dlookup wt test).
  Notation dj := (djoin wt test).

  Definition den (D : dchart) (x : term) : R := suml (filter (fun e => fst e = x) D) (fun e => dvalue (snd e)).

  Lemma suml_snd D b : suml (map snd (filter (fun e => fst e = b) D)) dvalue = den D b.
  Proof. unfold den. by rewrite suml_map. Qed.
  Lemma dlookup_val D f : suml (dlk true D f) dvalue = factor_val wt test (den D) f.
  Proof.
    destruct f as [v|[w|k|ts]]; simpl; rewrite ?suml_cons, ?suml_nil, ?sadd_0_r; simpl; try done.
    all: destruct (test _) as [[]|]; rewrite ?suml_cons, ?suml_nil, ?sadd_0_r; simpl; try done; apply suml_snd.
  Qed.
  Lemma dlookup_val0 D f : suml (dlk false D f) dvalue = fv0 (den D) f.
  Proof. destruct f as [v|[w|k|ts]]; simpl; try done; apply suml_snd. Qed.
  Notation pval ds := (prodl (map dvalue ds)).
  Lemma djoin_val D fs : suml (dj D fs) (fun ds => pval ds) = prodl (map (factor_val wt test (den D)) fs).
  Proof.
    induction fs as [|f fs IH]; simpl; [by rewrite suml_cons, suml_nil, sadd_0_r|].
    rewrite suml_flat_map, <- dlookup_val, suml_mul_r. apply suml_ext. intros d _. rewrite suml_map. simpl.
    by rewrite <- suml_mul_l, IH.
  Qed.
  Lemma den_app a b x : den (a ++ b) x = sadd (den a x) (den b x).
  Proof. unfold den. by rewrite list.filter_app, suml_app. Qed.
  Lemma den_map {A} (h : term) (g : A -> dtree R) l x :
    den (map (fun a => (h, g a)) l) x = if decide (h = x) then suml l (fun a => dvalue (g a)) else szero.
  Proof.
    unfold den. rewrite suml_filter_dec, suml_map. simpl. case_decide; [done|]. apply suml_zero.
  Qed.
  Lemma den_perm a b x : a ≡ₚ b -> den a x = den b x.
  Proof. intros H. unfold den. rewrite !suml_filter_dec. by apply suml_perm. Qed.
  Lemma den_flat_map {A} (g : A -> dchart) l x : den (flat_map g l) x = suml l (fun a => den (g a) x).
  Proof. unfold den. rewrite suml_filter_dec, suml_flat_map. apply suml_ext. intros a _. by rewrite suml_filter_dec. Qed.

  Lemma dstep_val i P D x : den (dstep wt test i P D) x = rhs wt test P (den D) x.
  Proof.
    rewrite rhs_contrib. revert i. induction P as [|r P IH]; intros i; [done|]. cbn [dstep].
    rewrite den_app, IH. unfold contrib. rewrite suml_cons. f_equal. rewrite den_map. case_decide; [|done]. simpl. apply djoin_val.
  Qed.
  Lemma dextend_val new old d i r k x : den (dextend wt test new old d i r k) x =
    if decide (whead r = x) then dterm wt test (den new) (den old) (den d) (wbody r) k else szero.
  Proof.
    unfold dextend, dterm. destruct (wbody r !! k) as [f|]; [|by case_decide].
    rewrite den_flat_map. case_decide as E.
    - rewrite <- dlookup_val0, <- !djoin_val. rewrite (suml_mul_l _ (dlk false d f)), (suml_mul_r _ (dlk false d f)). apply suml_ext. intros vk _.
      rewrite den_flat_map. rewrite (suml_mul_r _ (dj new (take k (wbody r)))), (suml_mul_r _ (dj new (take k (wbody r)))). apply suml_ext. intros l _. rewrite den_map, decide_True by done.
      rewrite suml_mul_l. apply suml_ext. intros rt _. simpl. rewrite !map_app, !prodl_app. simpl. by rewrite smul_assoc.
    - rewrite (suml_ext _ _ (fun _ => szero)); [apply suml_zero|]. intros vk _. rewrite den_flat_map.
      rewrite (suml_ext _ _ (fun _ => szero)); [apply suml_zero|]. intros l _. by rewrite den_map, decide_False.
  Qed.
  Lemma ddelta_val i P new old d x : den (ddelta wt test i P new old d) x = delta wt test P (den new) (den old) (den d) x.
  Proof.
    revert i. induction P as [|r P IH]; intros i; [done|]. cbn [ddelta]. rewrite den_app, IH. unfold delta, contrib. rewrite suml_cons. f_equal.
    rewrite den_flat_map. unfold dsum. case_decide as E.
    - apply suml_ext. intros k _. by rewrite dextend_val, decide_True.
    - rewrite (suml_ext _ _ (fun _ => szero)); [apply suml_zero|]. intros k _. by rewrite dextend_val, decide_False.
  Qed.

  (** * Telescoping *)
  Definition dplain (D : dchart) : Prop := forall e, e ∈ D -> test (fst e) = None.
  Lemma dlookup_split old d f : dplain d -> dlk true (old ++ d) f = dlk true old f ++ dlk false d f.
  Proof.
    intros Hd.
    assert (Hz : forall b v, test b = Some v -> filter (fun e => fst e = b) d = []).
    { intros b v Hb. destruct (filter _ d) as [|e l] eqn:E; [done|].
      assert (He : e ∈ filter (fun e => fst e = b) d) by (rewrite E; by left). apply elem_of_list_filter in He as [<- He].
      rewrite (Hd e He) in Hb. done. }
    destruct f as [v|[w|k|ts]]; cbn [dlookup]; try done.
    all: destruct (test _) as [[]|] eqn:E; [by rewrite (Hz _ _ E)..|by rewrite list.filter_app, map_app].
  Qed.
  Definition ext (new old d : dchart) (fs : list (factor R)) (k : nat) : list (list (dtree R)) :=
    match fs !! k with
    | None => []
    | Some f => flat_map (fun vk => flat_map (fun left => map (fun right => left ++ [vk] ++ right) (dj old (drop (S k) fs))) (dj new (take k fs)))
                  (dlk false d f)
    end.
  Lemma djoin_split old d fs : dplain d ->
    dj (old ++ d) fs ≡ₚ dj old fs ++ flat_map (ext (old ++ d) old d fs) (seq 0 (length fs)).
  Proof.
    intros Hd. set (new := old ++ d). induction fs as [|f fs IH]; [done|].
    cbn [djoin length seq flat_map]. rewrite <- seq_shift, flat_map_map.
    rewrite (flat_map_perm_f (fun e => map (cons e) (dj new fs)) (fun e => map (cons e) (dj old fs) ++
       map (cons e) (flat_map (ext new old d fs) (seq 0 (length fs))))).
    2:{ intros e _. by rewrite IH, map_app. }
    rewrite flat_map_app_f. unfold new at 1. rewrite dlookup_split by done. fold new. rewrite flat_map_app, <- app_assoc.
    apply Permutation_app_head. apply Permutation_app.
    - unfold ext. simpl. rewrite drop_0. apply flat_map_perm_f. intros vk _. by rewrite app_nil_r.
    - rewrite (flat_map_eq_f _ (fun e => flat_map (fun k => map (cons e) (ext new old d fs k)) (seq 0 (length fs)))).
      2:{ intros e. apply map_flat_map. }
      rewrite flat_map_swap. apply flat_map_perm_f. intros k _. unfold ext. cbn [base.lookup list_lookup]. simpl.
      destruct (fs !! k) as [g|]; [|induction (dlk true new f) as [|e es IHe]; [done|]; simpl; exact IHe].
      rewrite (flat_map_eq_f _ (fun e => flat_map (fun vk => map (cons e) (flat_map (fun left => map (fun right => left ++ vk :: right) (dj old (drop (S k) fs))) (dj new (take k fs)))) (dlk false d g))).
      2:{ intros e. apply map_flat_map. }
      rewrite flat_map_swap. apply flat_map_perm_f. intros vk _. rewrite flat_map_flat_map. apply flat_map_perm_f. intros e _.
      rewrite map_flat_map, flat_map_map. apply flat_map_perm_f. intros l _. by rewrite map_map.
  Qed.
  Lemma dextend_ext new old d i r k : dextend wt test new old d i r k = map (fun ds => (whead r, DNode i ds)) (ext new old d (wbody r) k).
  Proof.
    unfold dextend, ext. destruct (wbody r !! k) as [f|]; [|done]. rewrite map_flat_map. apply flat_map_eq_f. intros vk.
    rewrite map_flat_map. apply flat_map_eq_f. intros l. by rewrite map_map.
  Qed.
  Lemma dstep_split i P old d : dplain d -> dstep wt test i P (old ++ d) ≡ₚ dstep wt test i P old ++ ddelta wt test i P (old ++ d) old d.
  Proof.
    intros Hd. revert i. induction P as [|r P IH]; intros i; [done|]. cbn [dstep ddelta]. rewrite IH.
    rewrite (djoin_split old d (wbody r) Hd) at 1. rewrite map_app, map_flat_map.
    rewrite (flat_map_eq_f (fun a => map _ (ext (old ++ d) old d (wbody r) a)) (dextend wt test (old ++ d) old d i r)).
    2:{ intros k. symmetry. apply dextend_ext. }
    rewrite <- !app_assoc. apply Permutation_app_head. rewrite !app_assoc. apply Permutation_app_tail. apply Permutation_app_comm.
  Qed.
  Lemma dagenda_ddelta i P new old u : dplain [u] -> (forall k, fst u <> Cst k) ->
    dagenda_rules wt test i P new old u = ddelta wt test i P new old [u].
  Proof.
    intros Hu Hc. revert i. induction P as [|r P IH]; intros i; [done|]. cbn [dagenda_rules ddelta]. rewrite IH. f_equal.
    apply flat_map_eq_f. intros k. unfold dagenda_extend, dextend. destruct (wbody r !! k) as [[v|b]|]; [done| |done].
    case_decide as E.
    - subst b. assert (El : dlk false [u] (Goal (fst u)) = [snd u]).
      { unfold dlookup. destruct (fst u) as [w|c|ts] eqn:Ef; [|by destruct (Hc c)|]; rewrite filter_cons, list.filter_nil, Ef, decide_True by done; done. }
      rewrite El. simpl. by rewrite app_nil_r.
    - assert (El : dlk false [u] (Goal b) = []).
      { unfold dlookup. destruct b as [w|c|ts]; [|done|]; rewrite filter_cons, list.filter_nil, decide_False by done; done. }
      by rewrite El.
  Qed.

  (** * What the charts contain *)
  Context (P : list (wrule R)).
  Context (HP : forall r, r ∈ P -> test (whead r) = None /\ forall k, whead r <> Cst k).
  Notation ok := (derives wt test P).
  Notation oks := (derives_all wt test P).

  (** [d] derives the item [x] *)
  Definition item_deriv (x : term) (d : dtree R) : Prop := (exists i ds, d = DNode i ds) /\ ok (Goal x) d.

  Lemma elem_of_djoin D fs ds : ds ∈ dj D fs <-> Forall2 (fun f d => d ∈ dlk true D f) fs ds.
  Proof.
    revert ds. induction fs as [|f fs IH]; intros ds; simpl.
    - rewrite elem_of_list_singleton. split; [by intros ->|]. inversion 1. done.
    - rewrite elem_of_flat_map. split.
      + intros (d & Hd & H). apply elem_of_list_fmap in H as (ds' & -> & H). constructor; [done|]. by apply IH.
      + inversion 1 as [|? d ? ds' Hd Hds]; subst. exists d. split; [done|]. apply elem_of_list_fmap. exists ds'. split; [done|]. by apply IH.
  Qed.
  Lemma elem_of_dstep i0 Q D x t : (x, t) ∈ dstep wt test i0 Q D <->
    exists i r ds, Q !! i = Some r /\ x = whead r /\ t = DNode (i0 + i) ds /\ ds ∈ dj D (wbody r).
  Proof.
    revert i0. induction Q as [|r Q IH]; intros i0; cbn [dstep].
    - split; [by intros ?%elem_of_nil|]. intros (i & r & ds & H & _). by rewrite lookup_nil in H.
    - rewrite elem_of_app, IH, elem_of_list_fmap. split.
      + intros [(ds & [= -> ->] & H)|(i & s & ds & Hi & -> & -> & H)].
        * exists 0, r, ds. by rewrite Nat.add_0_r.
        * exists (S i), s, ds. by rewrite Nat.add_succ_r.
      + intros ([|i] & s & ds & Hi & -> & -> & H).
        * left. injection Hi as ->. exists ds. by rewrite Nat.add_0_r.
        * right. exists i, s, ds. by rewrite Nat.add_succ_r.
  Qed.
  Lemma derives_node x i ds : ok (Goal x) (DNode i ds) <-> exists r, P !! i = Some r /\ x = whead r /\ oks (wbody r) ds.
  Proof.
    split.
    - inversion 1; subst. eauto.
    - intros (r & Hr & -> & H). destruct (HP r) as [H1 H2]; [by eapply elem_of_list_lookup_2|]. by constructor.
  Qed.
  Lemma oks_Forall2 fs ds : oks fs ds <-> Forall2 ok fs ds.
  Proof. split; [induction 1; by constructor|]. induction 1; by constructor. Qed.

  (** exactly the derivations with property [Q] *)
  Definition holds (D : dchart) (Q : dtree R -> Prop) : Prop :=
    NoDup (map snd D) /\ forall x t, (x, t) ∈ D <-> item_deriv x t /\ Q t.

  Lemma elem_of_dlookup D f d : d ∈ dlk true D f <->
    (f = Val (dvalue d) /\ d = DLeaf (dvalue d)) \/
    (exists k, f = Goal (Cst k) /\ d = DLeaf (wt k)) \/
    (exists b, f = Goal b /\ (forall k, b <> Cst k) /\ test b = Some true /\ d = DLeaf sone) \/
    (exists b, f = Goal b /\ (forall k, b <> Cst k) /\ test b = None /\ (b, d) ∈ D).
  Proof.
    assert (Hf : forall b, d ∈ map snd (filter (fun e => fst e = b) D) <-> (b, d) ∈ D).
    { intros b. rewrite elem_of_list_fmap. split.
      - intros ([x e] & -> & H). apply elem_of_list_filter in H as [<- H]. done.
      - intros H. exists (b, d). split; [done|]. by apply elem_of_list_filter. }
    assert (Hit : forall b, (forall k, b <> Cst k) -> d ∈ match test b with
       | Some true => [DLeaf sone] | Some false => [] | None => map snd (filter (fun e => fst e = b) D) end <->
       (test b = Some true /\ d = DLeaf sone) \/ (test b = None /\ (b, d) ∈ D)).
    { intros b Hb. destruct (test b) as [[]|].
      - rewrite elem_of_list_singleton. naive_solver.
      - rewrite elem_of_nil. naive_solver.
      - rewrite Hf. naive_solver. }
    destruct f as [v|b].
    - simpl. rewrite elem_of_list_singleton. split; [intros ->; by left|]. intros [[[= ->] E]|[(k & [=] & _)|[(b & [=] & _)|(b & [=] & _)]]]. done.
    - assert (Hc : (exists k, b = Cst k) \/ forall k, b <> Cst k) by (destruct b; [right|left|right]; eauto).
      destruct Hc as [[k ->]|Hb].
      + simpl. rewrite elem_of_list_singleton. split; [intros ->; right; left; eauto|].
        intros [[[=] _]|[(k' & [= <-] & H)|[(b & [= <-] & H & _)|(b & [= <-] & H & _)]]]; [done|by destruct (H k)..].
      + transitivity (d ∈ match test b with
          | Some true => [DLeaf sone] | Some false => [] | None => map snd (filter (fun e => fst e = b) D) end).
        { unfold dlookup. destruct b as [w|c|ts]; [done|by destruct (Hb c)|done]. }
        rewrite Hit by done. split.
        * intros [[H1 H2]|[H1 H2]]; right; right; [left|right]; eauto.
        * intros [[[=] _]|[(k' & [= ->] & _)|[(b' & [= <-] & _ & H)|(b' & [= <-] & _ & H)]]]; [by destruct (Hb k')|by left|by right].
  Qed.
  Lemma dlookup_ok D (Q : dtree R -> Prop) f d : holds D Q -> (forall v, Q (DLeaf v)) -> d ∈ dlk true D f <-> ok f d /\ Q d.
  Proof.
    intros [_ HD] HQ. rewrite elem_of_dlookup. split.
    - intros [[-> E]|[(k & -> & ->)|[(b & -> & Hb & Ht & ->)|(b & -> & Hb & Ht & H)]]].
      + rewrite E. simpl. split; [constructor|apply HQ].
      + split; [constructor|apply HQ].
      + split; [by constructor|apply HQ].
      + apply HD in H as [[_ H] HQd]. done.
    - intros [H HQd]. inversion H; subst.
      + by left.
      + right; left. eauto.
      + right; right; left. eauto.
      + right; right; right. exists (whead r). repeat split; try done. apply HD. split; [|done]. split; [eauto|done].
  Qed.
  Lemma NoDup_dlookup D f : NoDup (map snd D) -> NoDup (dlk true D f).
  Proof.
    intros H. assert (Hf : forall b, NoDup (map snd (filter (fun e => fst e = b) D))).
    { intros b. revert H. clear. induction D as [|e D IH]; intros H; [constructor|]. simpl in H. apply NoDup_cons in H as [H1 H2].
      rewrite filter_cons. case_decide; [|by apply IH]. simpl. constructor; [|by apply IH].
      intros Hin. apply H1. apply elem_of_list_fmap in Hin as (y & Ey & Hy). apply elem_of_list_filter in Hy as [_ Hy]. apply elem_of_list_fmap. eauto. }
    destruct f as [v|[w|k|ts]]; simpl; try apply NoDup_singleton.
    all: destruct (test _) as [[]|]; [apply NoDup_singleton|constructor|apply Hf].
  Qed.
  Lemma NoDup_djoin D fs : NoDup (map snd D) -> NoDup (dj D fs).
  Proof.
    intros H. induction fs as [|f fs IH]; simpl; [apply NoDup_singleton|]. apply NoDup_flat_map.
    - by apply NoDup_dlookup.
    - intros d _. apply NoDup_fmap_2; [by intros ? ? [= ->]|done].
    - intros d d' ds _ _ H1 H2. apply elem_of_list_fmap in H1 as (a & -> & _). apply elem_of_list_fmap in H2 as (b & [= <- _] & _). done.
  Qed.
  Lemma NoDup_dstep i0 Q D : NoDup (map snd D) -> NoDup (map snd (dstep wt test i0 Q D)).
  Proof.
    intros H. revert i0. induction Q as [|r Q IH]; intros i0; cbn [dstep]; [constructor|]. rewrite map_app. apply NoDup_app. split; [|split].
    - rewrite map_map. simpl. apply NoDup_fmap_2; [by intros ? ? [= ->]|]. by apply NoDup_djoin.
    - intros t H1 H2. rewrite map_map in H1. apply elem_of_list_fmap in H1 as (ds & -> & _).
      apply elem_of_list_fmap in H2 as ([x t] & E & H2). apply elem_of_dstep in H2 as (i & s & ds' & _ & _ & -> & _). simpl in E. injection E as E _. lia.
    - apply IH.
  Qed.

  Lemma kids_Forall2 D Q fs ds : holds D Q -> (forall v, Q (DLeaf v)) -> ds ∈ dj D fs <-> oks fs ds /\ Forall Q ds.
  Proof.
    intros HD HQ. rewrite elem_of_djoin, oks_Forall2. split.
    - induction 1 as [|f d fs ds H _ [IH1 IH2]]; [done|]. apply (dlookup_ok D Q) in H as [H1 H2]; [|done..]. split; by constructor.
    - intros [H HF]. induction H as [|f d fs ds H _ IH]; [constructor|]. inversion HF; subst. constructor; [|by apply IH].
      by apply (dlookup_ok D Q).
  Qed.
  Lemma dstep_holds D Q (Q' : dtree R -> Prop) : holds D Q -> (forall v, Q (DLeaf v)) ->
    (forall i ds, Q' (DNode i ds) <-> Forall Q ds) -> holds (dstep wt test 0 P D) Q'.
  Proof.
    intros HD HQ HQ'. split; [apply NoDup_dstep, HD|]. intros x t. rewrite elem_of_dstep. split.
    - intros (i & r & ds & Hi & -> & -> & H). apply (kids_Forall2 D Q) in H as [H1 H2]; [|done..]. simpl.
      split; [|by apply HQ']. split; [eauto|]. apply derives_node. eauto.
    - intros [[(i & ds & ->) H] Ht]. apply derives_node in H as (r & Hi & -> & H). exists i, r, ds. repeat split; try done.
      apply (kids_Forall2 D Q); [done..|]. split; [done|]. by apply HQ' in Ht.
  Qed.
  Notation exact D k := (holds D (fun t : dtree R => dheight t <= k)).
  Lemma height_node k i (ds : list (dtree R)) : dheight (DNode i ds) <= S k <-> Forall (fun t => dheight t <= k) ds.
  Proof.
    simpl. split.
    - intros H. apply Forall_forall. intros t Ht. assert (dheight t <= list_max (map dheight ds)); [|lia].
      clear H. induction ds as [|d ds IH]; [by apply elem_of_nil in Ht|]. simpl. apply elem_of_cons in Ht as [->|Ht]; [lia|]. specialize (IH Ht). lia.
    - intros H. induction H as [|d ds Hd _ IH]; simpl in *; lia.
  Qed.
  Lemma exact_step D k : exact D k -> exact (dstep wt test 0 P D) (S k).
  Proof. intros H. eapply dstep_holds; [exact H|simpl; lia|]. intros i ds. apply height_node. Qed.
  Lemma exact_nil : exact [] 0.
  Proof.
    split; [constructor|]. intros x t. split; [by intros ?%elem_of_nil|]. intros [[(i & ds & ->) _] H]. simpl in H. lia.
  Qed.
  Lemma holds_perm D D' Q : D ≡ₚ D' -> holds D Q -> holds D' Q.
  Proof. intros Hp [H1 H2]. split; [by rewrite <- Hp|]. intros x t. rewrite <- Hp. apply H2. Qed.
  Lemma holds_same D D' Q : (forall x t, (x, t) ∈ D <-> (x, t) ∈ D') -> NoDup (map snd D) -> holds D' Q -> holds D Q.
  Proof. intros H Hn [_ H']. split; [done|]. intros x t. by rewrite H. Qed.
  Lemma exact_stop D j : exact D j -> exact D (S j) -> forall k, j <= k -> exact D k.
  Proof.
    intros H1 H2 k Hk. induction Hk as [|k Hk IH]; [done|].
    apply (holds_same D (dstep wt test 0 P D)); [|apply H1|by apply exact_step].
    intros x t. apply exact_step in H1. destruct H1 as [_ H1], H2 as [_ H2]. by rewrite H1, H2.
  Qed.
  Lemma holds_NoDup_pairs D Q : holds D Q -> NoDup D.
  Proof. intros [H _]. by apply NoDup_fmap_1 in H. Qed.

  (** * naive *)
  Lemma dnaive_ok k j D : exact D j -> exact (dnaive wt test k P D) (k + j).
  Proof.
    revert j D. induction k as [|k IH]; intros j D HD; [done|]. cbn [dnaive].
    pose proof (exact_step D j HD) as H1. case_bool_decide as E.
    - apply (exact_stop D j HD); [|lia].
      assert (Hp : D ≡ₚ dstep wt test 0 P D).
      { apply submseteq_Permutation_length_eq; [done|]. apply NoDup_submseteq; [by eapply holds_NoDup_pairs|].
        intros [x t] Hx. apply (proj2 H1). apply (proj2 HD) in Hx as [Hx Hh]. split; [done|]. lia. }
      by eapply holds_perm; [symmetry|].
    - replace (S k + j) with (k + S j) by lia. by apply IH.
  Qed.

  (** * seminaive *)
  Lemma holds_plain D Q : holds D Q -> dplain D.
  Proof. intros [_ H] [x t] He. apply H in He as [[(i & ds & ->) He] _]. apply derives_node in He as (r & Hr & -> & _). apply HP. by eapply elem_of_list_lookup_2. Qed.
  Lemma dplain_sub D D' : (forall e, e ∈ D' -> e ∈ D) -> dplain D -> dplain D'.
  Proof. intros H HD e He. by apply HD, H. Qed.
  Definition dsn_inv (j : nat) (m d : dchart) : Prop := exact m j /\ m ++ d ≡ₚ dstep wt test 0 P m.
  Lemma dsn_start : dsn_inv 0 [] (dstep wt test 0 P []).
  Proof. split; [apply exact_nil|done]. Qed.
  Lemma dsn_step j m d : dsn_inv j m d -> dsn_inv (S j) (m ++ d) (ddelta wt test 0 P (m ++ d) m d).
  Proof.
    intros [Hm Hp]. assert (H1 : exact (m ++ d) (S j)) by (eapply holds_perm; [symmetry; exact Hp|]; by apply exact_step).
    split; [done|]. rewrite dstep_split; [by rewrite Hp at 1|]. eapply dplain_sub; [|by eapply holds_plain]. intros e He. apply elem_of_app. by right.
  Qed.
  Lemma dsn_diff j m d : dsn_inv j m d -> holds d (fun t => dheight t = S j).
  Proof.
    intros [Hm Hp]. pose proof (exact_step m j Hm) as H1. apply (holds_perm _ (m ++ d)) in H1; [|done].
    destruct H1 as [N1 H1], Hm as [Nm Hm]. rewrite map_app in N1. apply NoDup_app in N1 as (_ & Hdis & Nd). split; [done|].
    intros x t. split.
    - intros Ht. assert (Ht' : (x, t) ∈ m ++ d) by (apply elem_of_app; by right). apply H1 in Ht' as [Hd Hh]. split; [done|].
      destruct (decide (dheight t <= j)) as [Hle|Hgt]; [|lia]. exfalso. apply (Hdis t); apply elem_of_list_fmap; exists (x, t); split; try done. by apply Hm.
    - intros [Hd Hh]. assert (Ht' : (x, t) ∈ m ++ d) by (apply H1; split; [done|lia]). apply elem_of_app in Ht' as [Ht'|Ht']; [|done].
      apply Hm in Ht' as [_ Ht']. lia.
  Qed.
  Lemma dseminaive_ok k j m d : dsn_inv j m d -> exact (dseminaive_loop wt test k P m d) (k + j).
  Proof.
    revert j m d. induction k as [|k IH]; intros j m d Hi; cbn [dseminaive_loop]; [apply Hi|].
    pose proof (dsn_step j m d Hi) as Hi'. replace (S k + j) with (k + S j) by lia.
    destruct (ddelta wt test 0 P (m ++ d) m d) as [|e l] eqn:E; [|by apply IH].
    destruct Hi' as [H1 H2]. rewrite app_nil_r in H2. apply (exact_stop _ (S j)); [done| |lia].
    eapply holds_perm; [symmetry; exact H2|]. by apply exact_step.
  Qed.

  (** * agenda *)
  Definition dag_inv (old change : dchart) : Prop :=
    NoDup (map snd old) /\ (forall x t, (x, t) ∈ old -> item_deriv x t) /\ old ++ change ≡ₚ dstep wt test 0 P old.
  Lemma dag_all old change : dag_inv old change ->
    NoDup (map snd (old ++ change)) /\ forall x t, (x, t) ∈ old ++ change -> item_deriv x t.
  Proof.
    intros (H1 & H2 & H3). rewrite H3. split; [by apply NoDup_dstep|]. intros x t Ht. rewrite H3 in Ht.
    apply elem_of_dstep in Ht as (i & r & ds & Hi & -> & -> & Hd). split; [eauto|]. apply derives_node. exists r. split; [done|]. split; [done|].
    apply oks_Forall2. apply elem_of_djoin in Hd. eapply Forall2_impl; [exact Hd|]. intros f d Hf.
    apply elem_of_dlookup in Hf as [[-> E]|[(k & -> & ->)|[(b & -> & Hb & Ht & ->)|(b & -> & Hb & Ht & H)]]].
    - rewrite E. constructor.
    - constructor.
    - by constructor.
    - by apply H2.
  Qed.
  Lemma dag_start : dag_inv [] (dstep wt test 0 P []).
  Proof. split; [constructor|]. split; [by intros x t ?%elem_of_nil|done]. Qed.
  Lemma dag_step old u change : dag_inv old (u :: change) ->
    dag_inv (old ++ [u]) (change ++ dagenda_rules wt test 0 P (old ++ [u]) old u).
  Proof.
    intros Hi. destruct (dag_all old (u :: change) Hi) as [N Hv]. destruct Hi as (H1 & H2 & H3).
    assert (Hu : item_deriv (fst u) (snd u)) by (apply Hv; destruct u; apply elem_of_app; right; by left).
    destruct Hu as [(i & ds & Ed) Hu]. rewrite Ed in Hu. apply derives_node in Hu as (r & Hr & Ex & _).
    destruct (HP r) as [Ht Hc]; [by eapply elem_of_list_lookup_2|].
    assert (Hpl : dplain [u]) by (intros e He; apply elem_of_list_singleton in He as ->; congruence).
    split; [|split].
    - rewrite map_app in N |- *. simpl in N. apply NoDup_app in N as (N1 & N2 & N3). apply NoDup_app. split; [done|]. split; [|apply NoDup_singleton].
      intros t Ht1 Ht2. apply elem_of_list_singleton in Ht2 as ->. apply (N2 _ Ht1). by left.
    - intros x t Hx. apply Hv. apply elem_of_app in Hx as [Hx|Hx]; apply elem_of_app; [by left|]. apply elem_of_list_singleton in Hx as <-. right; by left.
    - rewrite dagenda_ddelta; [|done|intros k; by rewrite Ex]. rewrite dstep_split by done. rewrite <- H3. rewrite <- !app_assoc. done.
  Qed.
  Lemma dagenda_loop_inv t old change old' change' : dag_inv old change -> dagenda_loop wt test t P old change = (old', change') -> dag_inv old' change'.
  Proof.
    revert old change. induction t as [|t IH]; intros old change Hi; cbn [dagenda_loop]; [by intros [= <- <-]|].
    destruct change as [|u change]; [by intros [= <- <-]|]. apply IH. by apply dag_step.
  Qed.
  Lemma dagenda_loop_plus t1 t2 old change : dagenda_loop wt test (t1 + t2) P old change =
    let '(o, c) := dagenda_loop wt test t1 P old change in dagenda_loop wt test t2 P o c.
  Proof.
    revert old change. induction t1 as [|t1 IH]; intros old change; [by destruct change|]. cbn [Nat.add dagenda_loop].
    destruct change as [|u change]; [|apply IH]. by destruct t2.
  Qed.
  Lemma dagenda_loop_prefix t old change : exists l, fst (dagenda_loop wt test t P old change) = old ++ l.
  Proof.
    revert old change. induction t as [|t IH]; intros old change; cbn [dagenda_loop]; [exists []; simpl; by rewrite app_nil_r|].
    destruct change as [|u change]; [exists []; simpl; by rewrite app_nil_r|].
    destruct (IH (old ++ [u]) (change ++ dagenda_rules wt test 0 P (old ++ [u]) old u)) as [l ->]. exists (u :: l). by rewrite <- app_assoc.
  Qed.
  (** FIFO: what is waiting comes out *)
  Lemma dagenda_loop_fifo c1 e c2 old : exists l, fst (dagenda_loop wt test (S (length c1)) P old (c1 ++ e :: c2)) = old ++ c1 ++ [e] ++ l.
  Proof.
    revert c2 old. induction c1 as [|u c1 IH]; intros c2 old.
    - simpl. destruct c2; simpl; exists []; done.
    - cbn [length app]. change (dagenda_loop wt test (S (S (length c1))) P old (u :: c1 ++ e :: c2)) with
        (dagenda_loop wt test (S (length c1)) P (old ++ [u]) ((c1 ++ e :: c2) ++ dagenda_rules wt test 0 P (old ++ [u]) old u)).
      rewrite <- app_assoc. simpl ((e :: c2) ++ _). destruct (IH (c2 ++ dagenda_rules wt test 0 P (old ++ [u]) old u) (old ++ [u])) as [l Hl].
      exists l. rewrite Hl. by rewrite <- !app_assoc.
  Qed.

  Notation yields t := (fst (dagenda wt test t P)).
  Lemma yields_mono t t' e : t <= t' -> e ∈ yields t -> e ∈ yields t'.
  Proof.
    intros H He. replace t' with (t + (t' - t)) by lia. unfold dagenda in *. rewrite dagenda_loop_plus.
    destruct (dagenda_loop wt test t P [] (dstep wt test 0 P [])) as [o c]. destruct (dagenda_loop_prefix (t' - t) o c) as [l ->].
    apply elem_of_app. by left.
  Qed.
  Lemma dagenda_inv t : dag_inv (yields t) (snd (dagenda wt test t P)).
  Proof. unfold dagenda. eapply dagenda_loop_inv; [apply dag_start|]. apply surjective_pairing. Qed.

  Scheme derives_mut := Induction for derives Sort Prop
    with derives_all_mut := Induction for derives_all Sort Prop.

  Lemma dagenda_fair f d : ok f d -> exists t, forall t', t <= t' -> d ∈ dlk true (yields t') f.
  Proof.
    intros H. refine (derives_mut R wt test P (fun f d _ => exists t, forall t', t <= t' -> d ∈ dlk true (yields t') f)
      (fun fs ds _ => exists t, forall t', t <= t' -> ds ∈ dj (yields t') fs) _ _ _ _ _ _ f d H); clear H.
    - intros v. exists 0. intros t' _. apply elem_of_dlookup. by left.
    - intros k. exists 0. intros t' _. apply elem_of_dlookup. right; left. eauto.
    - intros b Hb Ht. exists 0. intros t' _. apply elem_of_dlookup. right; right; left. eauto.
    - intros i r ds Hr Ht Hc _ [t1 IH].
      assert (Hin : exists t, (whead r, DNode i ds) ∈ yields t).
      { destruct (dagenda_inv t1) as (_ & _ & Hp). specialize (IH t1 (le_n _)).
        assert (He : (whead r, DNode i ds) ∈ dstep wt test 0 P (yields t1)) by (apply elem_of_dstep; exists i, r, ds; done).
        rewrite <- Hp in He. apply elem_of_app in He as [He|He]; [by exists t1|].
        apply elem_of_list_split in He as (c1 & c2 & Hc').
        exists (t1 + S (length c1)). unfold dagenda in *. rewrite dagenda_loop_plus.
        destruct (dagenda_loop wt test t1 P [] (dstep wt test 0 P [])) as [o c]. simpl in Hc'. subst c.
        destruct (dagenda_loop_fifo c1 (whead r, DNode i ds) c2 o) as [l ->].
        apply elem_of_app. right. apply elem_of_app. right. by left. }
      destruct Hin as [t Hin]. exists t. intros t' Ht'. apply elem_of_dlookup. right; right; right. exists (whead r).
      repeat split; try done. by eapply yields_mono.
    - exists 0. intros t' _. by left.
    - intros f0 fs d0 ds _ [t1 IH1] _ [t2 IH2]. exists (max t1 t2). intros t' Ht'. apply elem_of_djoin. constructor; [apply IH1; lia|].
      apply elem_of_djoin. apply IH2. lia.
  Qed.
End derivations.
