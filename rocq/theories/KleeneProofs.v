From Coq Require Import List Arith Lia Bool.
Import ListNotations.
From Verif Require Import Semiring KleeneModel KleeneSpec.
Local Open Scope sr_scope.

Lemma for_range_inv {T} (P : nat -> T -> Prop) n body s :
  P 0%nat s -> (forall m s, (m < n)%nat -> P m s -> P (Datatypes.S m) (body m s)) -> P n (for_range n body s).
Proof.
  intros H0 Hs. induction n as [|n IH]; simpl; [exact H0|].
  apply Hs; [lia|]. apply IH. intros m s' Hm. apply Hs. lia.
Qed.

Lemma mset_same {R} (m : matrix R) i k v : mset m i k v i k = v.
Proof. unfold mset. rewrite !Nat.eqb_refl. reflexivity. Qed.

Lemma mset_other {R} (m : matrix R) i k v a b : (a <> i \/ b <> k)%nat -> mset m i k v a b = m a b.
Proof.
  unfold mset. intros H. destruct (Nat.eqb_spec a i), (Nat.eqb_spec b k); simpl; try reflexivity.
  subst. destruct H; congruence.
Qed.

Section K.
Context {S : semiring} (star : S -> S).

Lemma row_fill N i (v : nat -> S) new0 :
  let r := for_range N (fun k new => mset new i k (v k)) new0 in
  (forall k, (k < N)%nat -> r i k = v k) /\ (forall a k, (a <> i \/ N <= k)%nat -> r a k = new0 a k).
Proof.
  simpl.
  apply (for_range_inv (fun n r => (forall k, (k < n)%nat -> r i k = v k) /\
     (forall a k, (a <> i \/ n <= k)%nat -> r a k = new0 a k))).
  - split; [intros; lia|auto].
  - intros m s Hm [H1 H2]. split.
    + intros k Hk. destruct (Nat.eq_dec k m) as [->|Hne].
      * apply mset_same.
      * rewrite mset_other by auto. apply H1. lia.
    + intros a k Hak. rewrite mset_other by lia. apply H2. lia.
Qed.

Lemma kleene_round_spec N j (old new : matrix S) i k :
  (i < N)%nat -> (k < N)%nat ->
  kleene_round star N j old new i k = old i k + old i j * star (old j j) * old j k.
Proof.
  intros Hi Hk. unfold kleene_round.
  assert (H : forall n : nat, (n <= N)%nat ->
    forall a b, (a < n)%nat -> (b < N)%nat ->
    for_range n (fun i new =>
      for_range N (fun k new => mset new i k (old i k + old i j * star (old j j) * old j k)) new) (fun _ _ => 0) a b
    = old a b + old a j * star (old j j) * old j b).
  { induction n as [|n IH]; intros Hn a b Ha Hb; [lia|]. simpl.
    destruct (row_fill N n (fun k => old n k + old n j * star (old j j) * old j k)
      (for_range n (fun i new =>
      for_range N (fun k new => mset new i k (old i k + old i j * star (old j j) * old j k)) new) (fun _ _ => 0))) as [H1 H2].
    destruct (Nat.eq_dec a n) as [->|Hne].
    - apply H1. exact Hb.
    - rewrite H2 by lia. apply IH; lia. }
  apply (H N); lia.
Qed.

(** Abstract iterates. *)
Fixpoint iter (A : matrix S) (m : nat) : matrix S :=
  match m with
  | O => A
  | Datatypes.S m => fun i k => iter A m i k + iter A m i m * star (iter A m m m) * iter A m m k
  end.

Lemma kleene_iter N (A : matrix S) i k : (i < N)%nat -> (k < N)%nat ->
  kleene star N A false i k = iter A N i k.
Proof.
  intros Hi Hk. unfold kleene.
  assert (H : forall m, (m <= N)%nat -> forall i k, (i < N)%nat -> (k < N)%nat ->
    fst (for_range m (fun j st => let '(old, new) := st in
                             (kleene_round star N j old new, old)) (A, A)) i k = iter A m i k).
  { induction m as [|m IH]; intros Hm a b Ha Hb; [reflexivity|]. simpl.
    destruct (for_range m _ (A, A)) as [old new] eqn:E. simpl in IH |- *.
    rewrite kleene_round_spec by assumption.
    rewrite !IH by lia. reflexivity. }
  specialize (H N (le_n _) i k Hi Hk).
  destruct (for_range N _ (A, A)) as [old new]. exact H.
Qed.

Lemma diag_add N (old : matrix S) i k : (i < N)%nat -> (k < N)%nat ->
  for_range N (fun i old => mset old i i (old i i + 1)) old i k = ident i k + old i k.
Proof.
  intros Hi Hk.
  assert (H : forall n,
    for_range n (fun i old => mset old i i (old i i + 1)) old i k =
    (if (Nat.eqb i k && Nat.ltb i n)%bool then 1 + old i k else old i k)).
  { induction n as [|n IH]; simpl.
    - rewrite andb_false_r. reflexivity.
    - destruct (Nat.eq_dec i n) as [->|Hne].
      + destruct (Nat.eq_dec k n) as [->|Hk'].
        * rewrite mset_same. rewrite IH. rewrite Nat.eqb_refl. simpl.
          rewrite Nat.ltb_irrefl. replace (Nat.leb n n) with true by (symmetry; apply Nat.leb_le; lia).
          replace (Nat.ltb n (Datatypes.S n)) with true by (symmetry; apply Nat.ltb_lt; lia).
          apply sadd_comm.
        * rewrite mset_other by lia. rewrite IH.
          destruct (Nat.eqb_spec n k); [lia|]. reflexivity.
      + rewrite mset_other by lia. rewrite IH.
        destruct (Nat.eqb_spec i k); [|reflexivity]. simpl.
        destruct (Nat.ltb_spec i n), (Nat.ltb_spec i (Datatypes.S n)); try lia; reflexivity. }
  rewrite H. unfold ident. destruct (Nat.eqb i k); simpl.
  - destruct (Nat.ltb_spec i N); [reflexivity|lia].
  - symmetry. apply sadd_0_l.
Qed.

Lemma kleene_refl N (A : matrix S) i k : (i < N)%nat -> (k < N)%nat ->
  kleene star N A true i k = ident i k + iter A N i k.
Proof.
  intros Hi Hk. rewrite <- (kleene_iter N A i k Hi Hk). unfold kleene.
  destruct (for_range N _ (A, A)) as [old new]. rewrite diag_add by assumption. reflexivity.
Qed.

Hypothesis Hstar : star_unfold star.

(** Lehmann's invariant. *)
Lemma iter_inv (A : matrix S) m : forall i k,
  iter A m i k = A i k + sumn m (fun j => A i j * iter A m j k).
Proof.
  induction m as [|m IH]; intros i k; simpl; [rewrite sadd_0_r; reflexivity|].
  set (B := iter A m) in *. set (s := star (B m m)) in *.
  rewrite (sumn_ext m _ (fun j => A i j * B j k + A i j * B j m * (s * B m k))).
  2:{ intros j _. rewrite smul_add_r. f_equal. rewrite !smul_assoc. reflexivity. }
  rewrite sumn_add, <- sumn_mul_r.
  assert (E : B m k + B m m * s * B m k = s * B m k).
  { unfold s. rewrite (Hstar (B m m)) at 2. rewrite smul_add_l, smul_1_l. reflexivity. }
  rewrite E.
  rewrite !sadd_assoc. rewrite <- (IH i k). fold B.
  rewrite <- !sadd_assoc. f_equal.
  rewrite <- smul_add_l, sadd_comm.
  rewrite sadd_comm. rewrite <- smul_assoc.
  rewrite (sadd_comm _ (sumn m _)). rewrite <- (IH i m). reflexivity.
Qed.

Lemma kleene_fixpoint N (A : matrix S) i k : (i < N)%nat -> (k < N)%nat ->
  kleene star N A true i k = ident i k + mmul N A (kleene star N A true) i k.
Proof.
  intros Hi Hk. rewrite kleene_refl by assumption. f_equal. unfold mmul.
  rewrite (sumn_ext N _ (fun j => A i j * ident j k + A i j * iter A N j k)).
  2:{ intros j Hj. rewrite kleene_refl by assumption. apply smul_add_r. }
  rewrite sumn_add, (iter_inv A N i k). f_equal.
  assert (E : forall n, (k < n)%nat -> sumn n (fun j => A i j * ident j k) = A i k).
  { induction n as [|n IH]; intros Hn; [lia|]. simpl. unfold ident.
    destruct (Nat.eq_dec k n) as [->|Hne].
    - rewrite Nat.eqb_refl, smul_1_r.
      rewrite (sumn_ext n _ (fun _ => 0)).
      + rewrite sumn_zero. apply sadd_0_l.
      + intros j Hj. destruct (Nat.eqb_spec j n); [lia|]. apply smul_0_r.
    - destruct (Nat.eqb_spec n k); [lia|]. rewrite smul_0_r, sadd_0_r. apply IH. lia. }
  symmetry. apply E, Hk.
Qed.

Lemma kleene_fixpoint_plus N (A : matrix S) i k : (i < N)%nat -> (k < N)%nat ->
  kleene star N A false i k = A i k + mmul N A (kleene star N A false) i k.
Proof.
  intros Hi Hk. rewrite kleene_iter, (iter_inv A N i k) by assumption. f_equal. unfold mmul.
  apply sumn_ext. intros j Hj. rewrite kleene_iter by assumption. reflexivity.
Qed.

Lemma linsolve_fixpoint N (M : matrix S) V i : (i < N)%nat ->
  linsolve star N M V i = V i + sumn N (fun j => M i j * linsolve star N M V j).
Proof.
  intros Hi. unfold linsolve at 1.
  rewrite (sumn_ext N _ (fun k => ident i k * V k + mmul N M (kleene star N M true) i k * V k)).
  2:{ intros k Hk. rewrite (kleene_fixpoint N M i k) by assumption. apply smul_add_l. }
  rewrite sumn_add. f_equal.
  - unfold ident. rewrite sumn_delta by assumption. reflexivity.
  - unfold linsolve, mmul.
    rewrite (sumn_ext N _ (fun k => sumn N (fun j => M i j * kleene star N M true j k * V k))).
    2:{ intros k Hk. apply sumn_mul_r. }
    rewrite sumn_swap. apply sumn_ext. intros j Hj.
    rewrite sumn_mul_l. apply sumn_ext. intros k Hk. symmetry. apply smul_assoc.
Qed.

(** Leastness. *)
Section Least.
Context (le : S -> S -> Prop) (SO : star_order star le).

Lemma sumn_le n f g : (forall j, (j < n)%nat -> le (f j) (g j)) -> le (sumn n f) (sumn n g).
Proof.
  induction n as [|n IH]; intros H; simpl; [apply (so_refl _ _ SO)|].
  apply (so_add _ _ SO); auto.
Qed.

(** Sum of [f j] for [m <= j < n]. *)
Definition sumr (m n : nat) (f : nat -> S) : S := sumn (n - m) (fun t => f (m + t)%nat).

Lemma sumr_first m n f : (m < n)%nat -> sumr m n f = f m + sumr (Datatypes.S m) n f.
Proof.
  intros H. unfold sumr. replace (n - m)%nat with (Datatypes.S (n - Datatypes.S m)) by lia.
  generalize (n - Datatypes.S m)%nat. intros d. clear H.
  transitivity (f m + sumn d (fun t => f (m + Datatypes.S t)%nat)).
  - induction d as [|d IH].
    + simpl. rewrite Nat.add_0_r, sadd_0_l, sadd_0_r. reflexivity.
    + change (sumn (Datatypes.S (Datatypes.S d)) (fun t => f (m + t)%nat))
        with (sumn (Datatypes.S d) (fun t => f (m + t)%nat) + f (m + Datatypes.S d)%nat).
      rewrite IH. simpl. symmetry. apply sadd_assoc.
  - f_equal. apply sumn_ext. intros t _. f_equal. lia.
Qed.

Lemma sumr_ext m n f g : (forall j, (m <= j < n)%nat -> f j = g j) -> sumr m n f = sumr m n g.
Proof. intros H. apply sumn_ext. intros t Ht. apply H. lia. Qed.

Lemma sumr_add m n f g : sumr m n (fun j => f j + g j) = sumr m n f + sumr m n g.
Proof. apply sumn_add. Qed.

Lemma sumr_mul_l m n c f : c * sumr m n f = sumr m n (fun j => c * f j).
Proof. apply sumn_mul_l. Qed.

Lemma elim_inv N (A : matrix S) (b x : nat -> S) :
  (forall i, (i < N)%nat -> le (b i + sumn N (fun j => A i j * x j)) (x i)) ->
  forall m, (m <= N)%nat -> forall i, (i < N)%nat ->
  le ((b i + sumn m (fun j => iter A m i j * b j)) + sumr m N (fun j => iter A m i j * x j)) (x i).
Proof.
  intros Hx. induction m as [|m IH]; intros Hm i Hi.
  - simpl. rewrite sadd_0_r. unfold sumr. rewrite Nat.sub_0_r. apply Hx, Hi.
  - set (B := iter A m) in *. set (s := star (B m m)) in *.
    set (rest := (b m + sumn m (fun j => B m j * b j)) + sumr (Datatypes.S m) N (fun j => B m j * x j)).
    assert (Hrest : le (s * rest) (x m)).
    { apply (so_ind _ _ SO). eapply (so_trans _ _ SO); [|apply (IH ltac:(lia) m ltac:(lia))].
      rewrite (sumr_first m N) by lia. unfold rest. fold B.
      rewrite <- sadd_assoc. rewrite (sadd_comm _ (sumr (Datatypes.S m) N _)).
      apply (so_refl _ _ SO). }
    eapply (so_trans _ _ SO); [|apply (IH ltac:(lia) i Hi)].
    fold B. rewrite (sumr_first m N) by lia.
    eapply (so_trans _ _ SO).
    2:{ apply (so_add _ _ SO); [apply (so_refl _ _ SO)|].
        apply (so_add _ _ SO); [|apply (so_refl _ _ SO)].
        apply (so_mul_l _ _ SO), Hrest. }
    (* the two sides are equal *)
    match goal with |- le ?a ?b => cut (a = b); [intros ->; apply (so_refl _ _ SO)|] end.
    simpl. fold B. fold s.
    assert (Es : B i m + B i m * s * B m m = B i m * s).
    { unfold s. rewrite (so_star_r _ _ SO (B m m)) at 2.
      rewrite smul_add_r, smul_1_r, smul_assoc. reflexivity. }
    rewrite Es.
    rewrite (sumn_ext m (fun j => (B i j + B i m * s * B m j) * b j)
               (fun j => B i j * b j + B i m * s * (B m j * b j))).
    2:{ intros j _. rewrite smul_add_l. f_equal. symmetry. apply smul_assoc. }
    rewrite sumn_add, <- sumn_mul_l.
    rewrite (sumr_ext (Datatypes.S m) N (fun j => (B i j + B i m * s * B m j) * x j)
               (fun j => B i j * x j + B i m * s * (B m j * x j))).
    2:{ intros j _. rewrite smul_add_l. f_equal. symmetry. apply smul_assoc. }
    rewrite sumr_add, <- sumr_mul_l.
    unfold rest. rewrite !smul_assoc. rewrite !smul_add_r.
    set (c := B i m * s).
    set (bi := b i). set (S1 := sumn m (fun j => B i j * b j)). set (S2 := c * sumn m (fun j => B m j * b j)).
    set (R1 := sumr (Datatypes.S m) N (fun j => B i j * x j)).
    set (R2 := c * sumr (Datatypes.S m) N (fun j => B m j * x j)).
    set (cb := c * b m).
    rewrite <- !sadd_assoc. f_equal. f_equal.
    rewrite (sadd_comm _ S2 (cb + (R1 + R2))). rewrite <- !sadd_assoc. f_equal.
    rewrite (sadd_comm _ R1 (R2 + S2)). rewrite <- sadd_assoc.
    rewrite (sadd_comm _ S2 (R2 + R1)), <- sadd_assoc. f_equal. apply sadd_comm.
Qed.

Lemma linsolve_least N (M : matrix S) V x :
  (forall i, (i < N)%nat -> le (V i + sumn N (fun j => M i j * x j)) (x i)) ->
  forall i, (i < N)%nat -> le (linsolve star N M V i) (x i).
Proof.
  intros Hx i Hi. pose proof (elim_inv N M V x Hx N (le_n _) i Hi) as H.
  unfold sumr in H. rewrite Nat.sub_diag in H. simpl in H. rewrite sadd_0_r in H.
  eapply (so_trans _ _ SO); [|exact H].
  match goal with |- le ?a ?b => cut (a = b); [intros ->; apply (so_refl _ _ SO)|] end.
  unfold linsolve.
  rewrite (sumn_ext N _ (fun k => ident i k * V k + iter M N i k * V k)).
  2:{ intros k Hk. rewrite kleene_refl by assumption. apply smul_add_l. }
  rewrite sumn_add. f_equal. unfold ident. apply sumn_delta, Hi.
Qed.

Lemma kleene_least N (A X : matrix S) :
  (forall i k, (i < N)%nat -> (k < N)%nat -> le (ident i k + mmul N A X i k) (X i k)) ->
  forall i k, (i < N)%nat -> (k < N)%nat -> le (kleene star N A true i k) (X i k).
Proof.
  intros HX i k Hi Hk.
  pose proof (elim_inv N A (fun i => ident i k) (fun i => X i k)
    (fun i Hi => HX i k Hi Hk) N (le_n _) i Hi) as H.
  unfold sumr in H. rewrite Nat.sub_diag in H. simpl in H. rewrite sadd_0_r in H.
  eapply (so_trans _ _ SO); [|exact H].
  match goal with |- le ?a ?b => cut (a = b); [intros ->; apply (so_refl _ _ SO)|] end.
  rewrite kleene_refl by assumption. f_equal.
  assert (E : forall n, (k < n)%nat -> sumn n (fun j => iter A N i j * ident j k) = iter A N i k).
  { induction n as [|n IH]; intros Hn; [lia|]. simpl. unfold ident.
    destruct (Nat.eq_dec k n) as [->|Hne].
    - rewrite Nat.eqb_refl, smul_1_r.
      rewrite (sumn_ext n _ (fun _ => 0)).
      + rewrite sumn_zero. apply sadd_0_l.
      + intros j Hj. destruct (Nat.eqb_spec j n); [lia|]. apply smul_0_r.
    - destruct (Nat.eqb_spec n k); [lia|]. rewrite smul_0_r, sadd_0_r. apply IH. lia. }
  symmetry. apply E, Hk.
Qed.
End Least.
End K.

(** Graphs. *)
Lemma index_of_nth x l i : index_of x l = Some i -> nth_error l i = Some x.
Proof.
  revert i. induction l as [|y l IH]; intros i; simpl; [discriminate|].
  destruct (Nat.eqb_spec x y) as [->|Hne].
  - intros [= <-]. reflexivity.
  - destruct (index_of x l) as [j|]; simpl; [|discriminate]. intros [= <-]. simpl. auto.
Qed.

Lemma index_of_in x l : In x l -> exists i, index_of x l = Some i.
Proof.
  induction l as [|y l IH]; simpl; [tauto|]. intros H.
  destruct (Nat.eqb_spec x y) as [->|Hne]; [eauto|].
  destruct H as [->|H]; [congruence|]. destruct (IH H) as [i ->]. simpl. eauto.
Qed.

Lemma nth_index_of l : NoDup l -> forall i x, nth_error l i = Some x -> index_of x l = Some i.
Proof.
  induction l as [|y l IH]; intros Hnd i x; [destruct i; discriminate|].
  inversion Hnd as [|? ? Hy Hl]; subst. destruct i as [|i]; simpl.
  - intros [= ->]. rewrite Nat.eqb_refl. reflexivity.
  - intros Hx. destruct (Nat.eqb_spec x y) as [->|Hne].
    + exfalso. apply Hy. eapply nth_error_In; eauto.
    + rewrite (IH Hl i x Hx). reflexivity.
Qed.

Lemma nth_lt (l : list nat) i x : nth_error l i = Some x -> (i < length l)%nat.
Proof. intros H. apply nth_error_Some. congruence. Qed.

Lemma mset_true (E : matrix bool) i k a b :
  mset E i k true a b = true <-> (a = i /\ b = k) \/ E a b = true.
Proof.
  unfold mset. destruct (Nat.eqb_spec a i), (Nat.eqb_spec b k); simpl; intuition congruence.
Qed.

Lemma adjacency_spec g : wf_graph g -> forall i j,
  adjacency g i j = true <->
  exists x y, nth_error (g_nodes g) i = Some x /\ nth_error (g_nodes g) j = Some y /\ In y (g_out g x).
Proof.
  intros W i j. unfold adjacency.
  set (ix := fun x => index_of x (g_nodes g)).
  assert (Hin : forall x ys E, fold_left (fun E y =>
      match ix x, ix y with Some i, Some j => mset E i j true | _, _ => E end) ys E i j = true <->
      E i j = true \/ exists y, In y ys /\ ix x = Some i /\ ix y = Some j).
  { intros x ys. induction ys as [|y ys IH]; intros E; simpl.
    - firstorder.
    - rewrite IH. destruct (ix x) as [a|] eqn:Ex; [|firstorder congruence].
      destruct (ix y) as [b|] eqn:Ey.
      + rewrite mset_true. split.
        * intros [[(-> & ->)|H]|(y' & H1 & H2 & H3)]; eauto 7.
        * intros [H|(y' & [->|H1] & H2 & H3)]; eauto 7. left. left. split; congruence.
      + split.
        * intros [H|(y' & H1 & H2 & H3)]; eauto 7.
        * intros [H|(y' & [->|H1] & H2 & H3)]; eauto 7. congruence. }
  assert (Hout : forall xs E, fold_left (fun E x => fold_left (fun E y =>
      match ix x, ix y with Some i, Some j => mset E i j true | _, _ => E end) (g_out g x) E) xs E i j = true <->
      E i j = true \/ exists x y, In x xs /\ In y (g_out g x) /\ ix x = Some i /\ ix y = Some j).
  { induction xs as [|x xs IH]; intros E; simpl.
    - firstorder.
    - rewrite IH, Hin. split.
      + intros [[H|(y & H1 & H2 & H3)]|(x' & y & H1 & H2 & H3)]; eauto 9.
      + intros [H|(x' & y & [->|H1] & H2 & H3 & H4)]; eauto 9. }
  etransitivity; [apply Hout|]. split.
  - intros [H|(x & y & H1 & H2 & H3 & H4)]; [discriminate|].
    exists x, y. split; [|split; [|exact H2]]; apply index_of_nth; assumption.
  - intros (x & y & H1 & H2 & H3). right. exists x, y. split; [|split; [exact H3|]].
    + eapply nth_error_In; eauto.
    + split; apply nth_index_of; auto using wfg_nodup.
Qed.

Lemma path_trans g x y z : path g x y -> path g y z -> path g x z.
Proof. induction 1; intros; [eapply path_step; eauto|]. eapply path_step; eauto. Qed.

(** Indices i,k name nodes joined by a path. *)
Definition ipath g i k := exists x y,
  nth_error (g_nodes g) i = Some x /\ nth_error (g_nodes g) k = Some y /\ path g x y.

Lemma iter_sound g m : wf_graph g -> forall i k,
  @iter bool_sr bool_star (adjacency g) m i k = true -> ipath g i k.
Proof.
  intros W. induction m as [|m IH]; intros i k H; simpl in H.
  - apply adjacency_spec in H as (x & y & H1 & H2 & H3); [|exact W]. exists x, y. eauto using path_edge.
  - apply orb_true_iff in H as [H|H]; [auto|].
    apply andb_true_iff in H as [H H2]. apply andb_true_iff in H as [H1 _].
    apply IH in H1 as (x & y & Hx & Hy & P1). apply IH in H2 as (y' & z & Hy' & Hz & P2).
    assert (y' = y) as -> by congruence. exists x, z. eauto using path_trans.
Qed.

Lemma bool_star_unfold : @star_unfold bool_sr bool_star.
Proof. intros x. reflexivity. Qed.

Lemma sumn_true n (f : nat -> bool) : @sumn bool_sr n f = true <-> exists j, (j < n)%nat /\ f j = true.
Proof.
  induction n as [|n IH]; simpl.
  - split; [discriminate|]. intros (j & Hj & _). lia.
  - rewrite orb_true_iff, IH. split.
    + intros [(j & Hj & H)|H]; [exists j|exists n]; auto with arith.
    + intros (j & Hj & H). destruct (Nat.eq_dec j n) as [->|Hne]; [auto|]. left. exists j. split; [lia|auto].
Qed.

Lemma iter_complete g : wf_graph g -> forall x y, path g x y ->
  forall i k, nth_error (g_nodes g) i = Some x -> nth_error (g_nodes g) k = Some y ->
  @iter bool_sr bool_star (adjacency g) (length (g_nodes g)) i k = true.
Proof.
  intros W. induction 1 as [x y Hxy|x y z Hxy P IH]; intros i k Hi Hk.
  - rewrite (iter_inv (S := bool_sr) bool_star bool_star_unfold). apply orb_true_iff. left.
    apply adjacency_spec; [exact W|]. eauto.
  - rewrite (iter_inv (S := bool_sr) bool_star bool_star_unfold). apply orb_true_iff. right.
    apply sumn_true. destruct (In_nth_error (g_nodes g) y) as [j Hj]; [eapply wfg_dst; eauto|].
    exists j. split; [eapply nth_lt; eauto|]. apply andb_true_iff. split; [|eauto].
    apply adjacency_spec; [exact W|]. eauto.
Qed.

Lemma closure_in g refl x y : In (x, y) (transitive_closure g refl) <->
  exists i j, nth_error (g_nodes g) i = Some x /\ nth_error (g_nodes g) j = Some y /\
    @kleene bool_sr bool_star (length (g_nodes g)) (adjacency g) refl i j = true.
Proof.
  unfold transitive_closure. rewrite in_flat_map. split.
  - intros (i & Hi & H). apply in_flat_map in H as (j & Hj & H).
    destruct (kleene _ _ _ _ i j) eqn:E; [|destruct H].
    destruct (nth_error (g_nodes g) i) as [x'|] eqn:Ei; [|destruct H].
    destruct (nth_error (g_nodes g) j) as [y'|] eqn:Ej; [|destruct H].
    destruct H as [[= -> ->]|[]]. exists i, j. auto.
  - intros (i & j & Hi & Hj & H). exists i. split; [apply in_seq; apply nth_lt in Hi; lia|].
    apply in_flat_map. exists j. split; [apply in_seq; apply nth_lt in Hj; lia|].
    rewrite H, Hi, Hj. left. reflexivity.
Qed.

Lemma closure_plus g : wf_graph g -> forall x y,
  In (x, y) (transitive_closure g false) <-> path g x y.
Proof.
  intros W x y. rewrite closure_in. split.
  - intros (i & j & Hi & Hj & H). rewrite kleene_iter in H by (eapply nth_lt; eauto).
    apply iter_sound in H as (x' & y' & Hx & Hy & P); [|exact W]. congruence.
  - intros P.
    assert (In x (g_nodes g)) as Hx by (destruct P; eapply wfg_src; eauto).
    assert (In y (g_nodes g)) as Hy by (induction P; eauto using wfg_dst, wfg_src).
    apply In_nth_error in Hx as [i Hi]. apply In_nth_error in Hy as [j Hj].
    exists i, j. split; [exact Hi|]. split; [exact Hj|].
    rewrite kleene_iter by (eapply nth_lt; eauto). eapply iter_complete; eauto.
Qed.

Lemma closure_star g : wf_graph g -> forall x y,
  In (x, y) (transitive_closure g true) <-> (x = y /\ In x (g_nodes g)) \/ path g x y.
Proof.
  intros W x y. rewrite closure_in. split.
  - intros (i & j & Hi & Hj & H). rewrite kleene_refl in H by (eapply nth_lt; eauto).
    apply orb_true_iff in H as [H|H].
    + left. unfold ident in H. destruct (Nat.eqb_spec i j) as [->|]; [|discriminate].
      split; [congruence|]. eapply nth_error_In; eauto.
    + right. apply iter_sound in H as (x' & y' & Hx & Hy & P); [|exact W]. congruence.
  - intros [[-> Hx]|P].
    + apply In_nth_error in Hx as [i Hi]. exists i, i. split; [exact Hi|]. split; [exact Hi|].
      rewrite kleene_refl by (eapply nth_lt; eauto). unfold ident. rewrite Nat.eqb_refl. reflexivity.
    + apply (closure_plus g W) in P. apply closure_in in P as (i & j & Hi & Hj & H).
      exists i, j. split; [exact Hi|]. split; [exact Hj|].
      rewrite kleene_refl by (eapply nth_lt; eauto). rewrite kleene_iter in H by (eapply nth_lt; eauto).
      rewrite H. apply orb_true_r.
Qed.
