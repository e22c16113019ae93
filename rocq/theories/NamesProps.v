(** C36: generated names are new. *)
From Coq Require Import List Lia DecimalString DecimalNat.
From Coq Require String Ascii Decimal.
From stdpp Require Import gmap.
From Verif Require Import PyBase TermModel SetsModel NamesModel.
Import String.StringSyntax Ascii.AsciiSyntax.

(** * Specification *)
Definition is_digit (c : Ascii.ascii) : bool := Nat.leb 48 (Ascii.nat_of_ascii c) && Nat.leb (Ascii.nat_of_ascii c) 57.
Fixpoint ends_with_digit (s : String.string) : bool :=
  match s with
  | String.EmptyString => false
  | String.String c String.EmptyString => is_digit c
  | String.String _ s => ends_with_digit s
  end.
(** [f] is the functor of a head or a subgoal of some rule. *)
Definition functor_of (f : String.string) (t : term) : Prop := exists args, t = Fn (Cst (CStr f) :: args).
Definition used (f : String.string) (P : list rule) : Prop :=
  exists r, r ∈ P /\ (functor_of f (rhead r) \/ exists b, b ∈ rbody r /\ functor_of f b).

(** * Proofs *)
Fixpoint all_digits (s : String.string) : bool :=
  match s with String.EmptyString => true | String.String c s => is_digit c && all_digits s end.

Lemma str_nat_inj i j : str_nat i = str_nat j -> i = j.
Proof.
  unfold str_nat. intros H. apply Unsigned.to_uint_inj.
  pose proof (NilEmpty.usu (Nat.to_uint i)) as H1. pose proof (NilEmpty.usu (Nat.to_uint j)) as H2. rewrite H in H1. congruence.
Qed.

Lemma str_nat_digits i : all_digits (str_nat i) = true.
Proof. unfold str_nat. generalize (Nat.to_uint i). induction u; try done; simpl; by rewrite IHu. Qed.

Lemma str_nat_nonempty i : str_nat i <> String.EmptyString.
Proof.
  intros H. destruct i as [|i]; [done|]. unfold str_nat in H.
  assert (Hn : Nat.to_uint (S i) = Decimal.Nil) by (destruct (Nat.to_uint (S i)); done).
  pose proof (Unsigned.of_to (S i)) as Ho. rewrite Hn in Ho. done.
Qed.

Lemma append_inj_l p s t : String.append p s = String.append p t -> s = t.
Proof. induction p as [|c p IH]; [done|]. intros H. change (String.String c (String.append p s) = String.String c (String.append p t)) in H. injection H as H. auto. Qed.

Lemma digits_suffix s q t : s = String.append q t -> all_digits s = true -> ends_with_digit q = false -> q = String.EmptyString.
Proof.
  revert s. induction q as [|c q IH]; [done|]. intros s -> Hd He.
  change (is_digit c && all_digits (String.append q t) = true) in Hd. apply andb_true_iff in Hd as [Hc Hd].
  destruct q as [|d q].
  - simpl in He. congruence.
  - specialize (IH _ eq_refl Hd He). done.
Qed.

Lemma decompose p : forall q s t, String.append p s = String.append q t -> all_digits s = true -> all_digits t = true ->
  ends_with_digit p = false -> ends_with_digit q = false -> p = q /\ s = t.
Proof.
  assert (Htl : forall c p, ends_with_digit (String.String c p) = false -> ends_with_digit p = false) by (intros c [|d p0]; done).
  induction p as [|c p IH]; intros q s t E Hs Ht Hp Hq.
  - assert (q = String.EmptyString) as -> by (by eapply digits_suffix). done.
  - destruct q as [|d q].
    + assert (String.String c p = String.EmptyString) by (eapply digits_suffix; [symmetry; exact E|done|done]). done.
    + change (String.String c (String.append p s) = String.String d (String.append q t)) in E. injection E as -> E.
      destruct (IH q s t E Hs Ht) as [-> ->]; [by eapply Htl..|]. done.
Qed.

Lemma gen_all_in ps : forall i x, x ∈ gen_all ps i -> exists p j, p ∈ ps /\ i < j /\ x = String.append p (str_nat j).
Proof.
  induction ps as [|p ps IH]; intros i x Hx; simpl in Hx; [by apply elem_of_nil in Hx|].
  apply elem_of_cons in Hx as [->|Hx].
  - exists p, (S i). split; [by left|]. split; [lia|done].
  - destruct (IH (S i) x Hx) as (q & j & Hq & Hj & ->). exists q, j. split; [by right|]. split; [lia|done].
Qed.

(** C36.  Between resets, names generated with prefixes that do not end in a
    digit are pairwise distinct. *)
Theorem C36_distinct prefixes i :
  Forall (fun p => ends_with_digit p = false) prefixes -> NoDup (gen_all prefixes i).
Proof.
  revert i. induction prefixes as [|p ps IH]; intros i Hp; [constructor|]. apply Forall_cons in Hp as [Hp Hps]. simpl. constructor; [|by apply IH].
  intros Hin. apply gen_all_in in Hin as (q & j & Hq & Hj & E). rewrite Forall_forall in Hps.
  destruct (decompose p q _ _ E (str_nat_digits _) (str_nat_digits _) Hp (Hps q Hq)) as [_ Hs]. apply str_nat_inj in Hs. lia.
Qed.

(** ... and so are names with one prefix, whatever it is. *)
Theorem C36_distinct_one_prefix p n i : NoDup (gen_all (replicate n p) i).
Proof.
  revert i. induction n as [|n IH]; intros i; [constructor|]. simpl. constructor; [|by apply IH].
  intros Hin. apply gen_all_in in Hin as (q & j & Hq & Hj & E). apply elem_of_replicate in Hq as [-> _].
  apply append_inj_l, str_nat_inj in E. lia.
Qed.

(** With a prefix that ends in a digit names may collide. *)
Theorem C36_digit_prefix_refuted : exists prefixes, ~ NoDup (gen_all prefixes 0).
Proof.
  exists ((match CStr "$gen1" with CStr s => s | _ => String.EmptyString end) :: replicate 10 (match CStr "$gen" with CStr s => s | _ => String.EmptyString end)).
  intros H. apply NoDup_cons in H as [H _]. apply H. apply elem_of_list_lookup. exists 9. vm_compute. reflexivity.
Qed.

Lemma syms_used P f : f ∈ syms P <-> used f P.
Proof.
  unfold syms, used, functor_of.
  assert (Hf : forall t, f ∈ fn_name t <-> exists args, t = Fn (Cst (CStr f) :: args)).
  { intros t. unfold fn_name. destruct t as [v|c|[|[v|[z|s]|l] args]]; split; try (intros H; by apply elem_of_nil in H); try (intros [a [=]]).
    - intros H. apply elem_of_list_singleton in H as ->. by eexists.
    - subst. by left. }
  rewrite elem_of_list_In, in_flat_map. split.
  - intros (r & Hr & Hin). exists r. split; [by apply elem_of_list_In|]. apply in_app_iff in Hin as [Hin|Hin].
    + left. apply Hf. by apply elem_of_list_In.
    + right. apply in_flat_map in Hin as (b & Hb & Hin). exists b. split; [by apply elem_of_list_In|]. apply Hf. by apply elem_of_list_In.
  - intros (r & Hr & H). exists r. split; [by apply elem_of_list_In|]. apply in_app_iff. destruct H as [H|(b & Hb & H)].
    + left. apply elem_of_list_In. by apply Hf.
    + right. apply in_flat_map. exists b. split; [by apply elem_of_list_In|]. apply elem_of_list_In. by apply Hf.
Qed.

(** The name a program generates with the global counter is not used in the
    program; if the next name is used, the call fails instead. *)
Theorem C36_program P prefix i :
  match prog_gen_functor (syms P) prefix i with
  | Ok (f, i') => ~ used f P /\ i < i'
  | Raise e => e = AssertionError /\ used (fst (gen_functor prefix i)) P
  | OutOfFuel => False
  end.
Proof.
  unfold prog_gen_functor. simpl. case_decide as H.
  - split; [done|]. by apply syms_used.
  - split; [by rewrite <- syms_used|lia].
Qed.


(** The candidates, as a list. *)
Definition cand (prefix : String.string) (c n : nat) : list String.string := map (fun j => String.append prefix (str_nat j)) (seq (S c) n).

Lemma local_loop_finds fuel sy prefix : forall f c,
  (exists x, x ∈ f :: cand prefix c fuel /\ x ∉ sy) ->
  match local_loop (S fuel) sy prefix f c with Ok x => x ∉ sy /\ (x = f \/ exists j, x = String.append prefix (str_nat j)) | _ => False end.
Proof.
  induction fuel as [|fuel IH]; intros f c (x & Hx & Hn).
  - apply elem_of_cons in Hx as [->|Hx]; [|by apply elem_of_nil in Hx]. cbn [local_loop]. rewrite decide_False by done. auto.
  - cbn [local_loop]. destruct (decide (f ∈ sy)) as [Hf|Hf]; [|auto].
    apply elem_of_cons in Hx as [->|Hx]; [done|].
    pose proof (IH (String.append prefix (str_nat (S c))) (S c)) as H. cbn [local_loop] in H.
    assert (He : exists x, x ∈ String.append prefix (str_nat (S c)) :: cand prefix (S c) fuel /\ x ∉ sy) by (exists x; done).
    specialize (H He). destruct (decide (_ ∈ sy)) as [Hd|Hd] in H |- *.
    + destruct (local_loop fuel _ _ _ _) in H |- *; try done. destruct H as [H1 [->|H2]]; split; eauto.
    + split; [done|]. right. by eexists.
Qed.

(** The local generator always ends, with a name that is not used. *)
Theorem C36_local P prefix fuel :
  length (syms P) < fuel ->
  exists f, local_gen_functor fuel (syms P) prefix = Ok f /\ ~ used f P /\ exists s, f = String.append prefix s.
Proof.
  intros Hf. destruct fuel as [|fuel]; [lia|]. unfold local_gen_functor.
  pose proof (local_loop_finds fuel (syms P) prefix prefix 1) as H.
  assert (Hnil : prefix = String.append prefix String.EmptyString).
  { clear. induction prefix as [|c p IH]; [done|]. change (String.String c p = String.String c (String.append p String.EmptyString)). by f_equal. }
  assert (Hnd : NoDup (prefix :: cand prefix 1 fuel)).
  { constructor.
    - intros Hin. apply elem_of_list_fmap in Hin as (j & E & _). rewrite Hnil in E at 1. apply append_inj_l in E. by destruct (str_nat_nonempty j).
    - apply NoDup_fmap_2; [|apply NoDup_seq]. intros a b E. by apply append_inj_l, str_nat_inj in E. }
  assert (He : exists x, x ∈ prefix :: cand prefix 1 fuel /\ x ∉ syms P).
  { destruct (decide (Exists (fun x => x ∉ syms P) (prefix :: cand prefix 1 fuel))) as [He|He]; [by apply Exists_exists in He|].
    exfalso. assert (Hs : forall x, x ∈ prefix :: cand prefix 1 fuel -> x ∈ syms P).
    { intros x Hx. destruct (decide (x ∈ syms P)); [done|]. destruct He. apply Exists_exists. eauto. }
    pose proof (submseteq_length _ _ (NoDup_submseteq _ _ Hnd Hs)) as Hl. simpl in Hl. unfold cand in Hl. rewrite map_length, seq_length in Hl. lia. }
  specialize (H He). destruct (local_loop _ _ _ _ _) as [x| |] in H |- *; try done. destruct H as [H1 H2].
  exists x. split; [done|]. split; [by rewrite <- syms_used|]. destruct H2 as [->|[j ->]]; eauto.
Qed.

(** * Witnesses *)
Section witness.
  Notation F f args := (Fn (Cst (CStr f) :: args)).
  Let P : list rule := [Rule (F "p" [Var 0]) [F "q" [Var 0]; F "p2" []]; Rule (F "p3" []) [Cst (CInt 1)]].
  Notation s x := (match CStr x with CStr s => s | _ => String.EmptyString end).
  Lemma C36_witness :
    Forall (fun p => ends_with_digit p = false) [s "$gen"; s "$magic"; s "$gen"] /\
    gen_all [s "$gen"; s "$magic"; s "$gen"] 8 = [s "$gen9"; s "$magic10"; s "$gen11"] /\
    prog_gen_functor (syms P) (s "p") 1 = Raise AssertionError /\
    local_gen_functor 10 (syms P) (s "p") = Ok (s "p4") /\ length (syms P) < 10.
  Proof. split; [by repeat constructor|]. split; [vm_compute; reflexivity|]. split; [vm_compute; reflexivity|]. split; [vm_compute; reflexivity|]. vm_compute. lia. Qed.
End witness.

Print Assumptions C36_distinct.
Print Assumptions C36_distinct_one_prefix.
Print Assumptions C36_program.
Print Assumptions C36_local.
