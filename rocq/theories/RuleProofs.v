(** Proofs about products, rules and program comparison. *)
From stdpp Require Import gmap.
From Coq Require Import Lia Permutation ZArith.
From Coq Require String Ascii.
Import String.StringSyntax Ascii.AsciiSyntax.
From Verif Require Import PyBase TermModel TermSpec TermProofs UnifyProofs CoverProofs TermProps
  SetsModel SetsSpec SetsProofs RuleSpec.

Lemma mapM_exists {A B} (f : A -> res B) (Q : A -> B -> Prop) l :
  (forall a, In a l -> exists b, f a = Ok b /\ Q a b) ->
  exists bs, mapM f l = Ok bs /\ Forall2 Q l bs.
Proof.
  induction l as [|a l IH]; intros H; [by exists []|].
  destruct (H a ltac:(by left)) as (b & E & HQ).
  destruct IH as (bs & Es & HF); [intros; apply H; by right|].
  exists (b :: bs). simpl. rewrite E. simpl. rewrite Es. auto.
Qed.

Lemma NoDup_app_rule {A} (l1 l2 : list A) :
  List.NoDup l1 -> List.NoDup l2 -> (forall a, In a l1 -> In a l2 -> False) -> List.NoDup (l1 ++ l2).
Proof.
  induction l1 as [|a l1 IH]; intros H1 H2 Hd; [done|]. inversion H1; subst. simpl. constructor.
  - intros Hin. apply in_app_or in Hin as [?|?]; [done|]. apply (Hd a); [by left|done].
  - apply IH; [done|done|]. intros b Hb. apply Hd. by right.
Qed.

Lemma Forall2_In_r {A B} {Q : A -> B -> Prop} {l l'} (H : Forall2 Q l l') b :
  In b l' -> exists a, In a l /\ Q a b.
Proof.
  induction H as [|a b' l l' HQ H IH]; [done|]. intros [<-|Hb]; [exists a; split; [by left|done]|].
  destruct (IH Hb) as (a' & ? & ?). exists a'. split; [by right|done].
Qed.

Lemma Forall2_In_l {A B} {Q : A -> B -> Prop} {l l'} (H : Forall2 Q l l') a :
  In a l -> exists b, In b l' /\ Q a b.
Proof.
  induction H as [|a' b l l' HQ H IH]; [done|]. intros [<-|Hb]; [exists b; split; [by left|done]|].
  destruct (IH Hb) as (b' & ? & ?). exists b'. split; [by right|done].
Qed.

Section products.
  Variable P : nat -> Prop.
  Hypothesis Pdec : forall v, {P v} + {~ P v}.
  Variable ys : list term.
  Variable n : nat.
  Hypothesis Hys : forall y, In y ys -> tsize y <= n /\ tgt P y.

  Notation sel σ := (fun x j => nth_error ys j = Some (sub σ x)).
  Notation without j := (List.filter (fun k => negb (Nat.eqb k j))).

  Lemma in_without j k js : In k (without j js) <-> In k js /\ k <> j.
  Proof.
    rewrite filter_In. destruct (Nat.eqb_spec k j); simpl; naive_solver.
  Qed.

  Lemma NoDup_without j js : List.NoDup js -> List.NoDup (without j js).
  Proof. apply List.NoDup_filter. Qed.

  Definition rest (ks js : list nat) : list nat := List.filter (fun k => negb (existsb (Nat.eqb k) ks)) js.

  Definition presult (i : nat) (xs : list term) (js : list nat) (s : subst)
    (r : subst * list (nat * nat) * list nat) : Prop :=
    exists ks, snd (fst r) = combine ks (seq i (length xs)) /\ length ks = length xs /\
      List.NoDup ks /\ (forall k, In k ks -> In k js) /\ snd r = rest ks js /\
      cover_dom P (fst (fst r)) /\
      (forall σ, agrees σ (fst (fst r)) <-> agrees σ s /\ Forall2 (sel σ) xs ks) /\
      (forall v, is_Some (fst (fst r) !! v) <-> is_Some (s !! v) \/ In v (flat_map vars xs)).

  Lemma rest_cons j ks js : rest ks (without j js) = rest (j :: ks) js.
  Proof.
    unfold rest. induction js as [|k js IH]; [done|]. simpl.
    destruct (Nat.eqb_spec k j); simpl; [done|]. destruct (existsb (Nat.eqb k) ks); simpl; by rewrite IH.
  Qed.

  Lemma rest_nil js : rest [] js = js.
  Proof. unfold rest. induction js as [|k js IH]; [done|]. simpl. f_equal. exact IH. Qed.

  Lemma pcovers_go_spec xs i js s :
    (forall x, In x xs -> pat P x) -> cover_dom P s -> List.NoDup js ->
    (forall j, In j js -> j < length ys) ->
    exists rs, pcovers_go n ys i xs js s = Ok rs /\
      List.NoDup (map (fun r => snd (fst r)) rs) /\
      (forall r, In r rs -> presult i xs js s r) /\
      (forall ks, List.NoDup ks -> (forall k, In k ks -> In k js) ->
         (exists σ, agrees σ s /\ Forall2 (sel σ) xs ks) ->
         exists r, In r rs /\ snd (fst r) = combine ks (seq i (length xs))).
  Proof.
    revert i js s. induction xs as [|x xs IH]; intros i js s Hx Hs Hnd Hjs.
    { exists [(s, [], js)]. split; [done|]. split; [repeat constructor; auto|]. split.
      - intros r [<-|[]]. exists []. simpl. split; [done|]. split; [done|]. split; [constructor|].
        split; [done|]. split; [by rewrite rest_nil|]. split; [done|]. split; [|naive_solver].
        intros σ. split; [intros; split; [done|constructor]|by intros []].
      - intros ks _ _ (σ & _ & HF). inversion HF; subst. exists (s, [], js). split; [by left|done]. }
    cbn -[Nat.ltb]. destruct (Nat.ltb_spec (length js) (S (length xs))) as [Hlt|Hge].
    { exists []. split; [done|]. split; [constructor|]. split; [done|].
      intros ks Hk1 Hk2 (σ & _ & HF). exfalso.
      pose proof (Forall2_length _ _ _ HF) as Hl. simpl in Hl.
      pose proof (NoDup_incl_length Hk1 (l' := js)) as H. feed specialize H; [intros k; apply Hk2|]. lia. }
    set (f := fun j => match nth_error ys j with
          | None => Raise IndexError
          | Some y => let* (s', ok) := cover n s x y in
              if ok then let* sub := pcovers_go n ys (S i) xs (without j js) s' in
                Ok (map (fun r => (fst (fst r), (j, i) :: snd (fst r), snd r)) sub)
              else Ok [] end).
    destruct (mapM_exists f (fun j rs =>
      List.NoDup (map (fun r => snd (fst r)) rs) /\
      (forall r, In r rs -> presult i (x :: xs) js s r /\ head (snd (fst r)) = Some (j, i)) /\
      (forall ks, List.NoDup (j :: ks) -> (forall k, In k ks -> In k js) ->
         (exists σ, agrees σ s /\ Forall2 (sel σ) (x :: xs) (j :: ks)) ->
         exists r, In r rs /\ snd (fst r) = combine (j :: ks) (seq i (length (x :: xs)))))
      js) as (bs & Ebs & HF).
    { intros j Hj. unfold f. destruct (nth_error ys j) as [y|] eqn:Ey.
      2:{ apply nth_error_None in Ey. specialize (Hjs j Hj). lia. }
      destruct (Hys y) as [Hty Hyt]; [by eapply nth_error_In|].
      destruct (cover_spec P n s x y Hty) as (s' & ok & Ec & Hsub & Hd & Hr);
        [apply Hx; by left|done|done|].
      rewrite Ec. simpl. destruct ok.
      2:{ exists []. split; [done|]. split; [constructor|]. split; [done|].
          intros ks _ _ (σ & Ha & HF'). inversion HF'; subst. exfalso. apply (Hr σ Ha). congruence. }
      destruct Hr as [Hr Hr'].
      destruct (IH (S i) (without j js) s') as (rs & Er & R1 & R2 & R3).
      { intros z Hz. apply Hx. by right. } { done. } { by apply NoDup_without. }
      { intros k Hk. apply in_without in Hk as []. by apply Hjs. }
      rewrite Er. simpl. eexists. split; [done|]. split; [|split].
      - rewrite map_map. simpl.
        assert (E : map (fun r : subst * list (nat * nat) * list nat => (j, i) :: snd (fst r)) rs
                = map (cons (j, i)) (map (fun r => snd (fst r)) rs)) by (by rewrite map_map).
        rewrite E. apply FinFun.Injective_map_NoDup; [|done]. by intros a b [= ->].
      - intros r Hin. apply in_map_iff in Hin as (r0 & <- & Hr0). split; [|done].
        destruct (R2 r0 Hr0) as (ks & K1 & K2 & K3 & K4 & K5 & K6 & K7 & K8).
        exists (j :: ks). simpl. split; [by rewrite K1|]. split; [by rewrite K2|].
        split; [constructor; [|done]; intros Hin; apply K4, in_without in Hin as []; done|].
        split; [intros k [<-|Hk]; [done|]; apply K4, in_without in Hk as []; done|].
        split; [by rewrite K5, rest_cons|]. split; [done|]. split.
        + intros σ. rewrite K7, Hr. split.
          * intros [[? <-] ?]. split; [done|]. by constructor.
          * intros [? HF']. inversion HF'; subst. split; [|done]. split; [done|]. congruence.
        + intros v. rewrite K8, Hr', in_app_iff. tauto.
      - intros ks Hk1 Hk2 (σ & Ha & HF'). inversion Hk1; inversion HF'; subst.
        destruct (R3 ks) as (r & Hin & E).
        { done. } { intros k Hk. apply in_without. split; [by apply Hk2|]. by intros ->. }
        { exists σ. split; [|done]. apply Hr. split; [done|congruence]. }
        eexists. split; [apply in_map_iff; exists r; split; [reflexivity|done]|]. simpl. by rewrite E. }
    change (mapM _ js) with (mapM f js). rewrite Ebs. simpl. exists (concat bs). split; [done|].
    clear Ebs. split; [|split].
    - assert (Hl : forall l bs,
        Forall2 (fun j rs => List.NoDup (map (fun r => snd (fst r)) rs) /\
          (forall r : subst * list (nat * nat) * list nat, In r rs -> head (snd (fst r)) = Some (j, i))) l bs ->
        List.NoDup l -> List.NoDup (map (fun r => snd (fst r)) (concat bs))).
      { clear. intros l bs HF. induction HF as [|j rs l bs HQ HF IH]; intros Hnd; [constructor|].
        inversion Hnd; subst. simpl. rewrite map_app. destruct HQ as (Q1 & Q2).
        apply NoDup_app_rule; auto.
        intros a Ha Hb. apply in_map_iff in Ha as (r & <- & Hr). apply Q2 in Hr as Hh.
        apply in_map_iff in Hb as (r' & Er & Hr'). apply in_concat in Hr' as (rs' & Hrs' & Hr').
        destruct (Forall2_In_r HF rs' Hrs') as (j' & Hj' & _ & Q2').
        apply Q2' in Hr' as Hh'. rewrite Er, Hh in Hh'. by injection Hh' as <-. }
      apply (Hl js bs); [|done]. eapply Forall2_impl; [exact HF|].
      intros j rs (Q1 & Q2 & _). split; [done|]. intros r Hr. by apply Q2.
    - intros r Hr. apply in_concat in Hr as (rs & Hrs & Hr).
      destruct (Forall2_In_r HF rs Hrs) as (j & Hj & _ & Q2 & _). by apply Q2.
    - intros ks Hk1 Hk2 Hσ. pose proof Hσ as (σ & Ha & HF'). inversion HF' as [|? j ? ks' ? ?]; subst.
      destruct (Forall2_In_l HF j) as (rs & Hrs & _ & _ & Q3); [apply Hk2; by left|].
      destruct (Q3 ks') as (r & Hin & E); [done|intros; apply Hk2; by right|done|].
      exists r. split; [|done]. apply in_concat. eauto.
  Qed.
End products.

Lemma pcovers_go_mono n m ys xs i js s rs :
  pcovers_go n ys i xs js s = Ok rs -> n <= m -> pcovers_go m ys i xs js s = Ok rs.
Proof.
  intros H Hnm. revert i js s rs H. induction xs as [|x xs IH]; intros i js s rs; [done|].
  cbn -[Nat.ltb]. destruct (Nat.ltb (length js) (S (length xs))); [done|].
  match goal with |- context [mapM ?f js] => set (f1 := f) end.
  match goal with |- (let* rs := mapM f1 js in Ok (concat rs)) = Ok rs -> (let* rs := mapM ?f js in _) = _ => set (f2 := f) end.
  assert (Hf : forall j r, f1 j = Ok r -> f2 j = Ok r).
  { intros j r. subst f1 f2. simpl. destruct (nth_error ys j) as [y|]; [|done].
    destruct (cover n s x y) as [[s' ok]| |] eqn:Ec; [|done|done].
    rewrite (cover_mono _ _ _ _ _ _ Ec Hnm). simpl. destruct ok; [|done].
    match goal with |- context [pcovers_go n ys (S i) xs ?l s'] =>
      destruct (pcovers_go n ys (S i) xs l s') as [r0| |] eqn:E; [|done|done] end.
    by rewrite (IH _ _ _ _ E). }
  assert (Hm : forall r, mapM f1 js = Ok r -> mapM f2 js = Ok r).
  { clearbody f1 f2. clear - Hf. induction js as [|j js IHjs]; intros r; [done|]. simpl.
    destruct (f1 j) as [b| |] eqn:E; [|done|done]. rewrite (Hf _ _ E). simpl.
    destruct (mapM f1 js) as [bs| |] eqn:E2; [|done|done]. by rewrite (IHjs _ eq_refl). }
  destruct (mapM f1 js) as [bs| |] eqn:E; [|done|done]. by rewrite (Hm _ eq_refl).
Qed.

Lemma length_without j (js : list nat) :
  List.NoDup js -> In j js -> S (length (List.filter (fun k => negb (Nat.eqb k j)) js)) = length js.
Proof.
  induction js as [|k js IH]; [done|]. intros Hnd Hin. inversion Hnd; subst. simpl.
  destruct (Nat.eqb_spec k j) as [->|Hne]; simpl.
  - f_equal. clear - H1. induction js as [|k js IH]; [done|]. simpl.
    destruct (Nat.eqb_spec k j) as [->|]; simpl; [exfalso; apply H1; by left|].
    f_equal. apply IH. intros ?. apply H1. by right.
  - f_equal. apply IH; [done|]. destruct Hin; [done|done].
Qed.

Lemma mapM_ext_In {A B} (f g : A -> res B) l :
  (forall a, In a l -> f a = g a) -> mapM f l = mapM g l.
Proof.
  induction l as [|a l IH]; intros H; [done|]. simpl. rewrite H by (by left).
  destruct (g a); [|done|done]. simpl. rewrite IH; [done|]. intros; apply H; by right.
Qed.

Lemma match_comm_pcovers n ys xs i js s :
  length xs = length js -> List.NoDup js ->
  match_comm_go n ys xs js s = let* rs := pcovers_go n ys i xs js s in Ok (map (fun r => fst (fst r)) rs).
Proof.
  revert i js s. induction xs as [|x xs IH]; intros i js s Hlen Hnd; [done|].
  cbn -[Nat.ltb Nat.eqb]. simpl in Hlen. rewrite <- Hlen, Nat.eqb_refl. cbn -[Nat.ltb].
  destruct (Nat.ltb_spec (S (length xs)) (S (length xs))); [lia|].
  match goal with |- (let* rs := mapM ?f js in _) = bind (bind (mapM ?g js) _) _ => set (f1 := f); set (f2 := g) end.
  assert (Hf : mapM f1 js = mapM (fun j => let* r := f2 j in Ok (map (fun r => fst (fst r)) r)) js).
  { apply mapM_ext_In. intros j Hj. subst f1 f2. simpl. destruct (nth_error ys j) as [y|]; [|done].
    destruct (cover n s x y) as [[s' ok]| |]; [|done|done]. simpl. destruct ok; [|done].
    rewrite (IH (S i)); [|pose proof (length_without j js Hnd Hj); lia|by apply List.NoDup_filter].
    match goal with |- context [pcovers_go n ys (S i) xs ?l s'] =>
      destruct (pcovers_go n ys (S i) xs l s') as [r0| |]; [|done|done] end.
    simpl. rewrite map_map. done. }
  rewrite Hf. clearbody f2. clear. induction js as [|j js IHjs]; [done|]. simpl.
  destruct (f2 j) as [r| |]; [|done|done]. simpl.
  destruct (mapM f2 js) as [rs| |]; simpl in *.
  - destruct (mapM _ js) as [rs'| |]; simpl in *; [|done|done]. injection IHjs as ->. by rewrite map_app.
  - destruct (mapM _ js) as [rs'| |]; simpl in *; [done| |done]. done.
  - destruct (mapM _ js) as [rs'| |]; simpl in *; [done|done|done].
Qed.

(** Permutations as lists of positions. *)
Lemma select_perm {A B} (f : A -> B) xs (ys : list B) ks :
  Forall2 (fun x k => nth_error ys k = Some (f x)) xs ks ->
  List.NoDup ks -> length ks = length ys -> Permutation ys (map f xs).
Proof.
  intros HF Hnd Hlen.
  assert (Hperm : Permutation ks (seq 0 (length ys))).
  { apply NoDup_Permutation_bis; [done|by rewrite seq_length, Hlen|].
    intros k Hk. destruct (Forall2_In_r HF k Hk) as (x & _ & E). apply in_seq.
    assert (k < length ys) by (apply nth_error_Some; congruence). lia. }
  assert (E1 : map f xs = omap (fun k => nth_error ys k) ks).
  { clear - HF. induction HF as [|x k xs ks E HF IH]; [done|]. simpl. rewrite E. by rewrite IH. }
  assert (E2 : ys = omap (fun k => nth_error ys k) (seq 0 (length ys))).
  { clear. induction ys as [|y ys IH]; [done|]. simpl. f_equal.
    rewrite IH at 1. rewrite <- seq_shift. generalize (seq 0 (length ys)) as l.
    induction l as [|k l IHl]; [done|]. cbn. destruct (nth_error ys k); [f_equal|]; exact IHl. }
  rewrite E1. rewrite E2 at 1. symmetry. by rewrite Hperm.
Qed.

Lemma perm_select {A B} (f : A -> B) xs (ys : list B) :
  Permutation ys (map f xs) ->
  exists ks, Forall2 (fun x k => nth_error ys k = Some (f x)) xs ks /\ List.NoDup ks.
Proof.
  intros Hp.
  assert (Hgen : forall (l l' : list B), Permutation l l' ->
    exists ks, Forall2 (fun y k => nth_error l k = Some y) l' ks /\ List.NoDup ks).
  { clear. intros l l' H. induction H as [|x l l' H IH|x y l|l l' l'' H1 IH1 H2 IH2].
    - exists []. split; constructor.
    - destruct IH as (ks & HF & Hnd). exists (0 :: map S ks). split.
      + constructor; [done|]. clear - HF. induction HF; simpl; constructor; auto.
      + constructor; [intros Hin; apply in_map_iff in Hin as (? & ? & _); done|].
        apply FinFun.Injective_map_NoDup; [|done]. by intros a b [= ->].
    - exists (1 :: 0 :: map (fun k => S (S k)) (seq 0 (length l))). split.
      + constructor; [done|]. constructor; [done|].
        assert (Hgen : forall pre m : list B, Forall2 (fun z k => nth_error (pre ++ m) k = Some z) m
                   (seq (length pre) (length m))).
        { intros pre m. revert pre. induction m as [|a m IHm]; intros pre; simpl; [constructor|].
          constructor.
          - rewrite nth_error_app2 by lia. by rewrite Nat.sub_diag.
          - specialize (IHm (pre ++ [a])). rewrite <- app_assoc in IHm. simpl in IHm.
            by rewrite app_length, Nat.add_comm in IHm. }
        specialize (Hgen [y; x] l). simpl in Hgen. rewrite <- seq_shift, <- seq_shift, map_map in Hgen.
        done.
      + constructor; [intros [?|Hin]; [done|apply in_map_iff in Hin as (? & ? & _); done]|].
        constructor; [intros Hin; apply in_map_iff in Hin as (? & ? & _); done|].
        apply FinFun.Injective_map_NoDup; [|apply seq_NoDup]. by intros a b [= ->].
    - destruct IH1 as (ks1 & F1 & N1), IH2 as (ks2 & F2 & N2).
      assert (Hc : forall m ks, Forall2 (fun z k => nth_error l' k = Some z) m ks ->
        exists ks', Forall2 (fun z k => nth_error l k = Some z) m ks' /\
                    Forall2 (fun k k' => nth_error ks1 k = Some k') ks ks').
      { intros m ks HF. induction HF as [|z k m ks E HF IH]; [by exists []|].
        destruct IH as (ks' & ? & ?).
        assert (Hk : exists k', nth_error ks1 k = Some k' /\ nth_error l k' = Some z).
        { clear - F1 E. revert k E. induction F1 as [|a b l' ks1 E1 F1 IH]; intros [|k] E; try done.
          - simpl in *. injection E as ->. eauto.
          - by apply IH. }
        destruct Hk as (k' & ? & ?). exists (k' :: ks'). split; by constructor. }
      destruct (Hc l'' ks2 F2) as (ks' & HF & HK). exists ks'. split; [done|].
      clear - HK N1 N2. induction HK as [|k k' ks ks' E HK IH]; [constructor|].
      inversion N2; subst. constructor; [|by apply IH].
      intros Hin. destruct (Forall2_In_r HK k' Hin) as (k2 & Hk2 & E2).
      assert (k = k2) as ->; [|done].
      eapply NoDup_nth_error; [exact N1| |congruence]. apply nth_error_Some. congruence. }
  destruct (Hgen _ _ Hp) as (ks & HF & Hnd). exists ks. split; [|done].
  clear - HF. revert ks HF. induction xs as [|x xs IH]; intros ks HF; inversion HF; subst; constructor; auto.
Qed.

(** is_non_specializing *)
Lemma length_nodup {A} (dec : forall a b : A, {a = b} + {a <> b}) l :
  length (nodup dec l) = length l <-> List.NoDup l.
Proof.
  split.
  - intros H. assert (Hle : forall l, length (nodup dec l) <= length l).
    { clear. induction l as [|a l IH]; simpl; [lia|]. destruct (in_dec dec a l); simpl; lia. }
    induction l as [|a l IH]; [constructor|]. simpl in H.
    destruct (in_dec dec a l) as [Hin|Hin].
    + specialize (Hle l). lia.
    + constructor; [done|]. apply IH. simpl in H. lia.
  - intros H. by rewrite nodup_fixed_point.
Qed.

Lemma nonspec_spec (s : subst) :
  is_non_specializing s = true <->
  exists ρ : nat -> nat, (forall v t, s !! v = Some t -> t = Var (ρ v)) /\
    (forall v w, is_Some (s !! v) -> is_Some (s !! w) -> ρ v = ρ w -> v = w).
Proof.
  unfold is_non_specializing. rewrite andb_true_iff, Nat.eqb_eq, forallb_forall.
  set (vv := fun t => match t with Var v => Some v | _ => None end).
  assert (Hsz : size s = length (map snd (map_to_list s))).
  { rewrite map_length. done. }
  assert (Hlen : (forall t, In t (map snd (map_to_list s)) -> exists v, t = Var v) ->
    length (omap vv (map snd (map_to_list s))) = size s).
  { rewrite Hsz. generalize (map snd (map_to_list s)) as l. induction l as [|t l IH]; [done|].
    intros H. destruct (H t ltac:(by left)) as [v ->]. simpl. f_equal. apply IH.
    intros; apply H; by right. }
  split.
  - intros [H1 H2].
    assert (Hv : forall t, In t (map snd (map_to_list s)) -> exists v, t = Var v).
    { intros t Ht. specialize (H1 t Ht). destruct t; eauto; done. }
    rewrite <- (Hlen Hv) in H2. symmetry in H2. apply length_nodup in H2.
    assert (Hlk : forall v t, s !! v = Some t -> exists u, t = Var u).
    { intros v t E. apply Hv. apply in_map_iff. exists (v, t). split; [done|].
      by apply elem_of_list_In, elem_of_map_to_list. }
    exists (fun v => match s !! v with Some (Var u) => u | _ => 0 end). split.
    + intros v t E. destruct (Hlk v t E) as [u ->]. by rewrite E.
    + intros v w [tv Ev] [tw Ew]. rewrite Ev, Ew.
      destruct (Hlk _ _ Ev) as [a ->], (Hlk _ _ Ew) as [b ->]. intros <-.
      destruct (decide (v = w)) as [|Hne]; [done|]. exfalso.
      assert (Hi1 : In (v, Var a) (map_to_list s)) by (by apply elem_of_list_In, elem_of_map_to_list).
      assert (Hi2 : In (w, Var a) (map_to_list s)) by (by apply elem_of_list_In, elem_of_map_to_list).
      clear - Hi1 Hi2 H2 Hne. revert H2 Hi1 Hi2. generalize (map_to_list s) as l.
      induction l as [|[k t] l IH]; [done|]. intros Hnd Hi1 Hi2.
      assert (Hin : forall k, In (k, Var a) l -> In a (omap vv (map snd l))).
      { intros k' Hk. apply elem_of_list_In, elem_of_list_omap. exists (Var a). split; [|done].
        apply elem_of_list_In, in_map_iff. exists (k', Var a). done. }
      destruct Hi1 as [E1|Hi1], Hi2 as [E2|Hi2].
      * congruence.
      * injection E1 as -> ->. simpl in Hnd. inversion Hnd; subst. eauto.
      * injection E2 as -> ->. simpl in Hnd. inversion Hnd; subst. eauto.
      * apply IH; [|done|done]. simpl in Hnd. destruct (vv t); [by inversion Hnd|done].
  - intros (ρ & H1 & H2).
    assert (Hv : forall t, In t (map snd (map_to_list s)) -> exists v, t = Var v).
    { intros t Ht. apply in_map_iff in Ht as ([k t'] & <- & Hin).
      apply elem_of_list_In, elem_of_map_to_list in Hin. rewrite (H1 _ _ Hin). eauto. }
    split.
    { intros t Ht. by destruct (Hv t Ht) as [v ->]. }
    rewrite <- (Hlen Hv). symmetry. apply length_nodup.
    assert (Hk : List.NoDup (map fst (map_to_list s))).
    { pose proof (NoDup_fst_map_to_list s) as H. by rewrite NoDup_ListNoDup in H. }
    assert (Hs : forall v t, In (v, t) (map_to_list s) -> s !! v = Some t).
    { intros v t Hin. by apply elem_of_list_In, elem_of_map_to_list in Hin. }
    revert Hk Hs. generalize (map_to_list s) as l. induction l as [|[k t] l IH]; intros Hk Hs; [constructor|].
    inversion Hk; subst. pose proof (Hs k t ltac:(by left)) as Ek. pose proof (H1 _ _ Ek) as ->. simpl.
    constructor; [|apply IH; [done|]; intros; apply Hs; by right].
    intros Hin. apply elem_of_list_In, elem_of_list_omap in Hin as (u & Hu & Eu).
    apply elem_of_list_In, in_map_iff in Hu as ([k' t'] & <- & Hin). simpl in Eu.
    pose proof (Hs k' t' ltac:(by right)) as Ek'. rewrite (H1 _ _ Ek') in Eu. simpl in Eu. injection Eu as Eu.
    assert (k' = k) as -> by (apply H2; eauto).
    apply H3. apply in_map_iff. by exists (k, t').
Qed.

(** * rule_variant is an equivalence *)

Lemma rule_vars_term r : rule_vars r = vars (rule_term r).
Proof. done. Qed.

Lemma rule_variant_refl r : rule_variant r r.
Proof.
  exists (fun v => v). split; [done|]. split; [by rewrite rename_id|].
  rewrite (map_ext _ id) by (intros; apply rename_id). by rewrite map_id.
Qed.

Lemma rename_in_rule_vars ρ r s v :
  rhead s = rename ρ (rhead r) -> Permutation (rbody s) (map (rename ρ) (rbody r)) ->
  In v (rule_vars r) -> In (ρ v) (rule_vars s).
Proof.
  intros H1 H2 Hv. unfold rule_vars in *. rewrite H1. apply in_app_or in Hv as [Hv|Hv]; apply in_or_app.
  - left. rewrite vars_rename. by apply in_map.
  - right. apply in_flat_map in Hv as (t & Ht & Hv). apply in_flat_map.
    exists (rename ρ t). split.
    + eapply Permutation_in; [symmetry; exact H2|]. by apply in_map.
    + rewrite vars_rename. by apply in_map.
Qed.

Lemma rule_vars_image ρ r s u :
  rhead s = rename ρ (rhead r) -> Permutation (rbody s) (map (rename ρ) (rbody r)) ->
  In u (rule_vars s) -> exists v, In v (rule_vars r) /\ u = ρ v.
Proof.
  intros H1 H2 Hu. unfold rule_vars in *. rewrite H1 in Hu. apply in_app_or in Hu as [Hu|Hu].
  - rewrite vars_rename in Hu. apply in_map_iff in Hu as (v & <- & Hv). exists v. split; [|done].
    apply in_or_app. by left.
  - apply in_flat_map in Hu as (t & Ht & Hu).
    eapply Permutation_in in Ht; [|exact H2]. apply in_map_iff in Ht as (t' & <- & Ht').
    rewrite vars_rename in Hu. apply in_map_iff in Hu as (v & <- & Hv). exists v. split; [|done].
    apply in_or_app. right. apply in_flat_map. eauto.
Qed.

Lemma rule_variant_trans r s t : rule_variant r s -> rule_variant s t -> rule_variant r t.
Proof.
  intros (ρ & I1 & H1 & B1) (τ & I2 & H2 & B2). exists (fun v => τ (ρ v)). split; [|split].
  - intros v w Hv Hw E. apply I1; [done|done|]. apply I2; [..|done];
      by eapply rename_in_rule_vars.
  - by rewrite H2, H1, rename_rename.
  - rewrite B2, B1, map_map. apply Permutation_refl'. apply map_ext. intros; apply rename_rename.
Qed.

Lemma rule_variant_sym r s : rule_variant r s -> rule_variant s r.
Proof.
  intros (ρ & I & H & B).
  pose proof (rename_inverse ρ (rule_term r) I) as E. unfold rule_term at 2 3 in E.
  cbn in E. injection E as E1 E2. fold (rule_term r) in E1, E2.
  set (τ := inv_on ρ (vars (rule_term r))) in *.
  exists τ. split; [|split].
  - intros a b Ha Hb. destruct (rule_vars_image ρ r s a H B Ha) as (a' & Ha' & ->).
    destruct (rule_vars_image ρ r s b H B Hb) as (b' & Hb' & ->).
    subst τ. rewrite !inv_on_spec by done. congruence.
  - rewrite H. symmetry. exact E1.
  - rewrite B. apply Permutation_refl'. symmetry.
    transitivity (map (fun t => sub (fun v => Var (τ v)) t) (map (fun t => sub (fun v => Var (ρ v)) t) (rbody r)));
      [|exact E2]. done.
Qed.

(** * Signatures *)
Definition tsig (cv : nat -> nat) (t : term) : term :=
  match t with
  | Fn _ => canonical cv t
  | _ => Fn [Cst (CStr "$const"); t]
  end.

Definition rsig (cv : nat -> nat) (r : rule) : term * list term :=
  (tsig cv (rhead r), map (tsig cv) (rbody r)).

Lemma term_signature_settles cv t : settles (fun n => term_signature cv n t) (tsig cv t).
Proof.
  destruct t as [v|c|xs]; [apply settles_ret|apply settles_ret|].
  apply canonical_settles.
Qed.

Lemma mapM_settles {A B} (f : nat -> A -> res B) (g : A -> B) l :
  (forall a, In a l -> settles (fun n => f n a) (g a)) -> settles (fun n => mapM (f n) l) (map g l).
Proof.
  induction l as [|a l IH]; intros H; [apply settles_ret|]. simpl.
  eapply (settles_bind (fun n => f n a)); [apply H; by left|].
  eapply (settles_bind (fun n => mapM (f n) l)); [apply IH; intros; apply H; by right|].
  apply settles_ret.
Qed.

Lemma rule_signature_settles cv r :
  settles (fun n => rule_signature cv n r) (tsig cv (rhead r), map (tsig cv) (rbody r)).
Proof.
  eapply (settles_bind (fun n => term_signature cv n (rhead r))); [apply term_signature_settles|].
  eapply (settles_bind (fun n => mapM (term_signature cv n) (rbody r))).
  - apply mapM_settles. intros; apply term_signature_settles.
  - apply settles_ret.
Qed.

Lemma tsig_rename cv ρ t : ~ bare_var t -> renames ρ t -> tsig cv (rename ρ t) = tsig cv t.
Proof.
  intros Hb Hr. destruct t as [v|c|xs]; [destruct Hb; by exists v|done|].
  change (canonical cv (rename ρ (Fn xs)) = canonical cv (Fn xs)). symmetry. apply canonical_complete.
  by exists ρ.
Qed.

Section rule_same.
  Variables (al cv : nat -> nat).
  Hypothesis Hal : forall i j, al i = al j -> i = j.
  Variable hash : term * list term -> Z.
  Hypothesis hash_bag : forall h b b', Permutation b b' -> hash (h, b) = hash (h, b').

  Lemma variant_hash r s :
    no_bare_vars r -> rule_variant r s ->
    hash (tsig cv (rhead r), map (tsig cv) (rbody r)) = hash (tsig cv (rhead s), map (tsig cv) (rbody s)).
  Proof.
    intros Hb (ρ & I & H & B).
    assert (Hsub : forall t, In t (rhead r :: rbody r) -> renames ρ t).
    { intros t Ht v w Hv Hw. apply I; unfold rule_vars.
      - destruct Ht as [<-|Ht]; apply in_or_app; [by left|right; apply in_flat_map; eauto].
      - destruct Ht as [<-|Ht]; apply in_or_app; [by left|right; apply in_flat_map; eauto]. }
    rewrite H, tsig_rename; [|apply Hb; by left|apply Hsub; by left].
    apply hash_bag. rewrite (Permutation_map (tsig cv) B), map_map.
    apply Permutation_refl'. apply map_ext_in. intros t Ht. symmetry. apply tsig_rename.
    - apply Hb. by right.
    - apply Hsub. by right.
  Qed.

  (** The core of the test, on rules without common variables. *)
  Definition same_core (n : nat) (r s : rule) : res bool :=
    let* (s0, ok) := cover n ∅ (rhead r) (rhead s) in
      if negb ok then Ok false
      else
        let* ms := match_comm_go n (rbody s) (rbody r) (seq 0 (length (rbody s))) s0 in
        existsM (fun s1 =>
          if is_non_specializing s1
          then let* h := sapply n s1 (rhead r) in Ok (term_eqb h (rhead s))
          else Ok false) ms.

  Lemma existsM_settles {A} (f : nat -> A -> res bool) (g : A -> bool) l :
    (forall a, In a l -> settles (fun n => f n a) (g a)) ->
    settles (fun n => existsM (f n) l) (existsb g l).
  Proof.
    induction l as [|a l IH]; intros H; [apply settles_ret|]. simpl.
    eapply (settles_bind (fun n => f n a)); [apply H; by left|].
    destruct (g a); [apply settles_ret|]. apply IH. intros; apply H; by right.
  Qed.

  Lemma sapply_settles P s x :
    cover_dom P s -> (forall v, is_Some (s !! v) -> P v) ->
    settles (fun n => sapply n s x) (sub (msub s) x).
  Proof.
    intros Hd HP.
    assert (Hac : acyclic s).
    { exists (fun v => if s !! v then 1 else 0). intros v t E w Hw. rewrite E.
      destruct (s !! w) eqn:Ew; [|lia]. exfalso. apply (proj2 (Hd v t E) w Hw). apply HP. eauto. }
    destruct (acyclic_weighted s Hac) as [w Hw].
    assert (Hres : resolution s (msub s)).
    { split; [|intros v E; unfold msub; by rewrite E].
      intros v t E. unfold msub at 1. rewrite E. simpl. symmetry.
      rewrite <- (sub_Var t) at 2. apply sub_ext. intros u Hu. unfold msub.
      destruct (s !! u) eqn:Eu; [|done]. exfalso. apply (proj2 (Hd v t E) u Hu). apply HP. eauto. }
    exists (tw w x). intros n Hn. rewrite sapply_deref. by apply (deref_spec s w).
  Qed.

  Lemma same_core_spec r s :
    length (rbody r) = length (rbody s) ->
    (forall v, In v (rule_vars r) -> ~ In v (rule_vars s)) ->
    exists b, settles (fun n => same_core n r s) b /\ (b = true <-> rule_variant r s).
  Proof.
    intros Hlen Hd. set (P := fun v => In v (rule_vars r)).
    set (N := tsize (rhead s) + list_sum (map tsize (rbody s))).
    assert (Hpat : forall t, In t (rhead r :: rbody r) -> pat P t).
    { intros t Ht v Hv. unfold P, rule_vars. apply in_or_app.
      destruct Ht as [<-|Ht]; [by left|right; apply in_flat_map; eauto]. }
    assert (Htgt : forall t, In t (rhead s :: rbody s) -> tgt P t).
    { intros t Ht v Hv HP. apply (Hd v HP). unfold rule_vars. apply in_or_app.
      destruct Ht as [<-|Ht]; [by left|right; apply in_flat_map; eauto]. }
    destruct (cover_spec P N ∅ (rhead r) (rhead s)) as (s0 & ok & Ec & Hsub & Hdom & Hr).
    { lia. } { apply Hpat. by left. } { apply Htgt. by left. } { intros v t. by rewrite lookup_empty. }
    assert (Hempty : forall σ, agrees σ ∅) by (intros σ v t; by rewrite lookup_empty).
    assert (Ecs : settles (fun n => cover n ∅ (rhead r) (rhead s)) (s0, ok)).
    { exists N. intros n Hn. by eapply cover_mono. }
    destruct ok.
    2:{ exists false. split.
        - eapply (settles_bind (fun n => cover n ∅ (rhead r) (rhead s)) (fun n sk => let '(s0, ok) := sk in _));
            [exact Ecs|]. apply settles_ret.
        - split; [done|]. intros (ρ & _ & H & _). exfalso.
          apply (Hr (fun v => Var (ρ v)) (Hempty _)). by rewrite H. }
    destruct Hr as [Hr Hr'].
    destruct (pcovers_go_spec P (rbody s) N) with (xs := rbody r) (i := 0)
      (js := seq 0 (length (rbody s))) (s := s0) as (rs & Er & _ & R2 & R3).
    { intros y Hy. split; [|apply Htgt; by right].
      pose proof (list_sum_in (tsize y) (map tsize (rbody s)) (in_map _ _ _ Hy)). lia. }
    { intros x Hx. apply Hpat. by right. } { done. } { apply seq_NoDup. }
    { intros j Hj. apply in_seq in Hj. lia. }
    set (ms := map (fun r => fst (fst r)) rs).
    assert (Ems : settles (fun n => match_comm_go n (rbody s) (rbody r) (seq 0 (length (rbody s))) s0) ms).
    { exists N. intros n Hn. rewrite (match_comm_pcovers _ _ _ 0).
      - by rewrite (pcovers_go_mono _ _ _ _ _ _ _ _ Er Hn).
      - by rewrite seq_length.
      - apply seq_NoDup. }
    (* every substitution found maps the head of r to the head of s *)
    assert (Hhead : forall m, In m ms -> cover_dom P m /\ sub (msub m) (rhead r) = rhead s).
    { intros m Hm. apply in_map_iff in Hm as (q & <- & Hq).
      destruct (R2 q Hq) as (ks & _ & _ & _ & _ & _ & K6 & K7 & _). split; [done|].
      pose proof (proj1 (K7 _) (msub_agrees _)) as [Ha _]. by apply Hr in Ha as [_ ?]. }
    exists (existsb is_non_specializing ms). split.
    - eapply (settles_bind (fun n => cover n ∅ (rhead r) (rhead s)) (fun n sk => let '(s0, ok) := sk in
        if negb ok then Ok false
        else
          let* ms := match_comm_go n (rbody s) (rbody r) (seq 0 (length (rbody s))) s0 in
          existsM (fun s1 =>
            if is_non_specializing s1
            then let* h := sapply n s1 (rhead r) in Ok (term_eqb h (rhead s))
            else Ok false) ms)); [exact Ecs|].
      cbn -[seq]. eapply (settles_bind (fun n => match_comm_go n (rbody s) (rbody r) (seq 0 (length (rbody s))) s0));
        [exact Ems|].
      apply existsM_settles. intros m Hm. destruct (Hhead m Hm) as [Hdm Hsm].
      destruct (is_non_specializing m); [|apply settles_ret].
      eapply (settles_bind (fun n => sapply n m (rhead r))).
      { apply (sapply_settles P); [done|]. intros v [t E]. by apply (Hdm v t). }
      rewrite Hsm, term_eqb_refl. apply settles_ret.
    - rewrite existsb_exists. split.
      + intros (m & Hm & Hns). apply nonspec_spec in Hns as (ρ & N1 & N2).
        apply in_map_iff in Hm as (q & <- & Hq).
        destruct (R2 q Hq) as (ks & _ & K2 & K3 & _ & _ & _ & K7 & K8).
        assert (Hag : agrees (fun v => Var (ρ v)) (fst (fst q))).
        { intros v t E. by rewrite (N1 v t E). }
        pose proof (proj1 (K7 _) Hag) as [Ha0 HF]. apply Hr in Ha0 as [_ Ehead].
        exists ρ. split; [|split].
        * assert (Hin : forall v, In v (rule_vars r) -> is_Some (fst (fst q) !! v)).
          { intros v Hv. apply K8. apply in_app_or in Hv as [Hv|Hv]; [|by right].
            left. apply Hr'. by right. }
          intros v w Hv Hw. apply N2; by apply Hin.
        * by rewrite <- Ehead.
        * apply (select_perm (rename ρ) _ _ ks); [exact HF|done|]. by rewrite K2.
      + intros (ρ & I & H & B).
        destruct (perm_select _ _ _ B) as (ks & HF & Hnd).
        destruct (R3 ks) as (q & Hq & Eq).
        { done. }
        { intros k Hk. destruct (Forall2_In_r HF k Hk) as (x & _ & E). apply in_seq.
          assert (k < length (rbody s)) by (apply nth_error_Some; congruence). lia. }
        { exists (fun v => Var (ρ v)). split; [|exact HF]. apply Hr. split; [apply Hempty|]. by rewrite H. }
        exists (fst (fst q)). split; [by apply (in_map (fun r => fst (fst r)))|].
        destruct (R2 q Hq) as (ks' & K1 & K2 & K3 & _ & _ & _ & K7 & K8).
        assert (ks' = ks) as ->.
        { assert (Hl : length ks = length (rbody r)) by (symmetry; by eapply Forall2_length).
          rewrite Eq in K1. clear - K1 Hl K2. revert ks' K1 K2. generalize 0 as i.
          generalize (length (rbody r)) as m, Hl. clear. intros m Hl. revert m Hl.
          induction ks as [|k ks IH]; intros m Hl i [|k' ks'] K1 K2; simpl in *; subst m; simpl in *;
            [done|done|done|].
          injection K1 as -> K1. f_equal. eapply (IH (length ks)); [done|exact K1|lia]. }
        assert (Hag : agrees (fun v => Var (ρ v)) (fst (fst q))).
        { apply K7. split; [|exact HF]. apply Hr. split; [apply Hempty|]. by rewrite H. }
        apply nonspec_spec. exists ρ. split.
        * intros v t E. symmetry. by apply Hag.
        * assert (Hin : forall v, is_Some (fst (fst q) !! v) -> In v (rule_vars r)).
          { intros v Hv. apply K8 in Hv as [Hv|Hv]; [|apply in_or_app; by right].
            apply Hr' in Hv as [Hv|Hv]; [|apply in_or_app; by left].
            rewrite lookup_empty in Hv. by destruct Hv. }
          intros v w Hv Hw. apply I; by apply Hin.
  Qed.

  Lemma tsize_term_vars n t : tsize t <= n -> term_vars n ∅ t [] = Ok (collect [] (vars t)).
  Proof.
    intros Hn. rewrite (term_vars_spec ∅ (fun _ => 1) Var weighted_empty resolution_empty).
    - by rewrite sub_Var.
    - by rewrite tw_one.
  Qed.

  Lemma rule_same_spec c r s :
    (forall j, c <= j -> ~ In (al j) (rule_vars r)) ->
    (hash (rsig cv r) = hash (rsig cv s) -> length (rbody r) = length (rbody s)) ->
    exists b, settles (fun n => rule_same al cv hash n c false r s) b /\
      (b = true -> rule_variant r s) /\ (no_bare_vars r -> rule_variant r s -> b = true).
  Proof.
    intros Hc hash_len.
    set (hr := (tsig cv (rhead r), map (tsig cv) (rbody r))).
    set (hs := (tsig cv (rhead s), map (tsig cv) (rbody s))).
    assert (Hpre : forall b,
      settles (fun n =>
        if negb (Z.eqb (hash hr) (hash hs)) then Ok false
        else
          let* vr := term_vars n ∅ (rule_term r) [] in
          let* vs := term_vars n ∅ (rule_term s) [] in
          let* s := (if existsb (fun v => existsb (Nat.eqb v) vs) vr
                     then let* (t, _) := fresh al n ∅ c (rule_term s) in Ok (rule_of_term t)
                     else Ok s) in same_core n r s) b ->
      settles (fun n => rule_same al cv hash n c false r s) b).
    { intros b Hb. cbn -[Z.eqb].
      eapply (settles_bind (fun n => rule_signature cv n r)); [apply rule_signature_settles|].
      eapply (settles_bind (fun n => rule_signature cv n s)); [apply rule_signature_settles|].
      exact Hb. }
    destruct (Z.eqb_spec (hash hr) (hash hs)) as [Eh|Eh].
    2:{ exists false. split; [apply Hpre; simpl; apply settles_ret|]. split; [done|].
        intros Hb Hv. exfalso. by apply Eh, variant_hash. }
    assert (Hlen : length (rbody r) = length (rbody s)).
    { by apply hash_len. }
    (* the rule that is compared with r *)
    assert (Hs' : exists s', settles (fun n =>
        (if existsb (fun v => existsb (Nat.eqb v) (collect [] (vars (rule_term s)))) (collect [] (vars (rule_term r)))
         then let* (t, _) := fresh al n ∅ c (rule_term s) in Ok (rule_of_term t)
         else Ok s)) s' /\ rule_variant s s' /\ length (rbody s') = length (rbody s) /\
        forall v, In v (rule_vars r) -> ~ In v (rule_vars s')).
    { destruct (existsb _ _) eqn:Ex.
      - destruct (fresh_settles al Hal c (rule_term s)) as (y & c' & Hf & (ρ & Hρ & ->) & _ & Hfr).
        exists (rule_of_term (rename ρ (rule_term s))). split; [|split; [|split]].
        + eapply (settles_bind (fun n => fresh al n ∅ c (rule_term s)) (fun n tc => let '(t, _) := tc in Ok (rule_of_term t)));
            [exact Hf|]. apply settles_ret.
        + exists ρ. split; [exact Hρ|]. split; done.
        + simpl. by rewrite map_length.
        + intros v Hv Hin.
          assert (Hin' : In v (vars (rename ρ (rule_term s)))) by exact Hin.
          destruct (Hfr v Hin') as (j & -> & ?). by apply (Hc j); [lia|].
      - exists s. split; [apply settles_ret|]. split; [apply rule_variant_refl|]. split; [done|].
        intros v Hv Hin.
        assert (Hcl : forall t, In v (vars t) -> In v (collect [] (vars t))).
        { intros t Ht. apply collect_In. by right. }
        assert (existsb (fun v => existsb (Nat.eqb v) (collect [] (vars (rule_term s))))
                  (collect [] (vars (rule_term r))) = true); [|congruence].
        apply existsb_exists. exists v. split; [by apply Hcl|]. apply existsb_exists.
        exists v. split; [by apply Hcl|]. apply Nat.eqb_refl. }
    destruct Hs' as (s' & Es' & Hvs & Hl' & Hd').
    destruct (same_core_spec r s') as (b & Eb & Hb); [congruence|done|].
    exists b. split.
    - apply Hpre. simpl.
      eapply (settles_bind (fun n => term_vars n ∅ (rule_term r) [])).
      { exists (tsize (rule_term r)). intros n Hn. by apply tsize_term_vars. }
      eapply (settles_bind (fun n => term_vars n ∅ (rule_term s) [])).
      { exists (tsize (rule_term s)). intros n Hn. by apply tsize_term_vars. }
      eapply settles_bind; [exact Es'|]. exact Eb.
    - split.
      + intros E. apply Hb in E. eapply rule_variant_trans; [exact E|]. by apply rule_variant_sym.
      + intros _ Hv. apply Hb. by eapply rule_variant_trans.
  Qed.
End rule_same.

(** * Greedy alignment for an equivalence *)
Section align.
  Context {A : Type}.
  Variable R : A -> A -> Prop.
  Hypothesis Rrefl : forall x, R x x.
  Hypothesis Rsym : forall x y, R x y -> R y x.
  Hypothesis Rtrans : forall x y z, R x y -> R y z -> R x z.
  Variable D : A -> Prop.
  Variable sm : A -> A -> bool.
  Hypothesis Hsm : forall x y, D x -> D y -> (sm x y = true <-> R x y).

  Definition cnt (r : A) (l : list A) : nat := length (List.filter (sm r) l).

  Lemma cnt_cons r x l : cnt r (x :: l) = (if sm r x then 1 else 0) + cnt r l.
  Proof. unfold cnt. simpl. by destruct (sm r x). Qed.

  Lemma cnt_perm r l l' : Permutation l l' -> cnt r l = cnt r l'.
  Proof.
    induction 1 as [|x l l' H IH|x y l|l l' l'' H1 IH1 H2 IH2]; [done| | |congruence].
    - by rewrite !cnt_cons, IH.
    - rewrite !cnt_cons. lia.
  Qed.

  Lemma sm_class r x y : D r -> D x -> D y -> R x y -> sm r x = sm r y.
  Proof.
    intros H1 H2 H3 H. destruct (sm r x) eqn:E1, (sm r y) eqn:E2; try done.
    - apply Hsm in E1; [|done|done]. assert (sm r y = true) by (apply Hsm; eauto). congruence.
    - apply Hsm in E2; [|done|done]. assert (sm r x = true) by (apply Hsm; eauto). congruence.
  Qed.

  Lemma take_match_some r Sb Sb' :
    take_match sm r Sb = Some Sb' -> exists s, sm r s = true /\ Permutation Sb (s :: Sb').
  Proof.
    revert Sb'. induction Sb as [|s Sb IH]; intros Sb'; [done|]. simpl. destruct (sm r s) eqn:E.
    - intros [= <-]. by exists s.
    - destruct (take_match sm r Sb) as [l|]; [|done]. intros [= <-].
      destruct (IH l eq_refl) as (t & Ht & Hp). exists t. split; [done|]. rewrite Hp. apply perm_swap.
  Qed.

  Lemma take_match_none r Sb : take_match sm r Sb = None -> forall s, In s Sb -> sm r s = false.
  Proof.
    induction Sb as [|s Sb IH]; [done|]. simpl. destruct (sm r s) eqn:E; [done|].
    destruct (take_match sm r Sb); [done|]. intros _ x [<-|Hx]; [done|by apply IH].
  Qed.

  Lemma cnt_zero r l : (forall s, In s l -> sm r s = false) -> cnt r l = 0.
  Proof.
    induction l as [|s l IH]; intros H; [done|]. rewrite cnt_cons, H by (by left).
    rewrite IH; [done|]. intros; apply H; by right.
  Qed.

  Lemma check_bucket_sound Rb Sb :
    check_bucket sm Rb Sb = true ->
    exists Q rest, Permutation Sb (Q ++ rest) /\ Forall2 (fun r s => sm r s = true) Rb Q.
  Proof.
    revert Sb. induction Rb as [|r Rb IH]; intros Sb H; [by exists [], Sb|]. simpl in H.
    destruct (take_match sm r Sb) as [Sb'|] eqn:E; [|done].
    destruct (take_match_some _ _ _ E) as (s & Hs & Hp).
    destruct (IH Sb' H) as (Q & rst & Hp' & HF). exists (s :: Q), rst. split; [|by constructor].
    rewrite Hp. simpl. by constructor.
  Qed.

  Lemma check_bucket_cnt Rb Sb :
    (forall x, In x Rb \/ In x Sb -> D x) ->
    check_bucket sm Rb Sb = true <-> forall r, D r -> cnt r Rb <= cnt r Sb.
  Proof.
    revert Sb. induction Rb as [|r Rb IH]; intros Sb HD; simpl.
    { split; [|done]. intros _ r _. unfold cnt. simpl. lia. }
    assert (HDr : D r) by (apply HD; left; by left).
    destruct (take_match sm r Sb) as [Sb'|] eqn:E.
    - destruct (take_match_some _ _ _ E) as (s & Hs & Hp).
      assert (HDs : D s).
      { apply HD. right. eapply Permutation_in; [symmetry; exact Hp|]. by left. }
      rewrite IH.
      2:{ intros x [Hx|Hx]; apply HD; [left; by right|right].
          eapply Permutation_in; [symmetry; exact Hp|]. by right. }
      apply Hsm in Hs; [|done|done].
      split; intros H x Hx; specialize (H x Hx); rewrite (cnt_perm x _ _ Hp), !cnt_cons in *;
        rewrite (sm_class x r s) in * by done; lia.
    - split; [done|]. intros H. specialize (H r HDr). rewrite cnt_cons in H.
      rewrite (cnt_zero r Sb) in H by (by apply take_match_none).
      assert (sm r r = true) by (apply Hsm; auto). rewrite H0 in H. lia.
  Qed.

  (** Buckets by hash. *)
  Variable h : A -> Z.
  Hypothesis Hh : forall x y, D x -> D y -> R x y -> h x = h y.

  Notation bucket k := (List.filter (fun r => Z.eqb (h r) k)).

  Lemma cnt_bucket r l : D r -> (forall x, In x l -> D x) -> cnt r (bucket (h r) l) = cnt r l.
  Proof.
    intros HD. induction l as [|x l IH]; intros Hl; [done|]. rewrite cnt_cons. simpl.
    destruct (Z.eqb_spec (h x) (h r)) as [E|E].
    - rewrite cnt_cons, IH; [done|]. intros; apply Hl; by right.
    - rewrite IH by (intros; apply Hl; by right). destruct (sm r x) eqn:Es; [|done].
      apply Hsm in Es; [|done|apply Hl; by left]. exfalso. apply E. symmetry. apply Hh; [done|apply Hl; by left|done].
  Qed.

  Lemma bucket_none r k l : h r <> k -> D r -> (forall x, In x l -> D x) -> cnt r (bucket k l) = 0.
  Proof.
    intros Hne HD Hl. apply cnt_zero. intros s Hs. apply filter_In in Hs as [Hs Hk].
    apply Z.eqb_eq in Hk. destruct (sm r s) eqn:E; [|done].
    apply Hsm in E; [|done|by apply Hl]. exfalso. apply Hne. rewrite <- Hk. apply Hh; [done|by apply Hl|done].
  Qed.

  Lemma aligned_cnt P Q :
    (forall x, In x P \/ In x Q -> D x) -> length P = length Q ->
    (aligned R P Q <-> forall r, D r -> cnt r P <= cnt r Q).
  Proof.
    intros HD Hlen. split.
    - intros (Q' & Hp & HF) r Hr. rewrite (cnt_perm r _ _ Hp).
      assert (HD' : forall x, In x P \/ In x Q' -> D x).
      { intros x [Hx|Hx]; apply HD; [by left|right]. eapply Permutation_in; [symmetry; exact Hp|done]. }
      clear - HF Hr HD' Hsm Rsym Rtrans. induction HF as [|x y P Q' HR HF IH]; [done|].
      rewrite !cnt_cons. rewrite (sm_class r x y); [|done|apply HD'; left; by left|apply HD'; right; by left|done].
      feed specialize IH; [intros z [Hz|Hz]; apply HD'; [left; by right|right; by right]|]. lia.
    - intros H. rewrite <- check_bucket_cnt in H by done.
      apply check_bucket_sound in H as (Q' & rst & Hp & HF).
      assert (rst = []) as ->.
      { apply Permutation_length in Hp. rewrite app_length in Hp.
        pose proof (Forall2_length _ _ _ HF). destruct rst; [done|]. simpl in *. lia. }
      rewrite app_nil_r in Hp. exists Q'. split; [done|].
      assert (HD' : forall x, In x P \/ In x Q' -> D x).
      { intros x [Hx|Hx]; apply HD; [by left|right]. eapply Permutation_in; [symmetry; exact Hp|done]. }
      clear - HF HD' Hsm. induction HF as [|x y P Q' E HF IH]; constructor.
      + apply Hsm; [apply HD'; left; by left|apply HD'; right; by left|done].
      + apply IH. intros z [Hz|Hz]; apply HD'; [left; by right|right; by right].
  Qed.

  Lemma aligned_key P Q r : aligned R P Q -> (forall x, In x P \/ In x Q -> D x) -> In r P ->
    exists s, In s Q /\ h s = h r.
  Proof.
    intros (Q' & Hp & HF) HD Hr. destruct (Forall2_In_l HF r Hr) as (s & Hs & HR).
    assert (Hs' : In s Q) by (eapply Permutation_in; [symmetry; exact Hp|done]).
    exists s. split; [done|]. symmetry. apply Hh; [apply HD; by left|apply HD; by right|done].
  Qed.

  Lemma aligned_sym P Q : aligned R P Q -> aligned R Q P.
  Proof.
    intros (Q' & Hp & HF). revert P Q' Hp HF.
    assert (Hgen : forall Q Q', Permutation Q Q' -> forall P, Forall2 R P Q' -> exists P', Permutation P P' /\ Forall2 R Q P').
    { clear - Rsym. induction 1 as [|x l l' H IH|x y l|l l' l'' H1 IH1 H2 IH2]; intros P HF.
      - inversion HF; subst. by exists [].
      - inversion HF as [|p ? P1 ? HR HF']; subst. destruct (IH _ HF') as (P' & Hp & HF2).
        exists (p :: P'). split; [by constructor|]. constructor; auto.
      - inversion HF as [|p1 ? P1 ? HR1 HF1]; subst. inversion HF1 as [|p2 ? P2 ? HR2 HF2]; subst.
        exists (p2 :: p1 :: P2). split; [apply perm_swap|]. constructor; [auto|]. constructor; [auto|].
        clear - HF2 Rsym. induction HF2; constructor; auto.
      - destruct (IH2 _ HF) as (P' & Hp & HF').
        destruct (IH1 P') as (P'' & Hp' & HF'').
        { clear - HF' Rsym. induction HF'; constructor; auto. }
        exists P''. split; [by etrans|done]. }
    intros P Q' Hp HF. destruct (Hgen _ _ Hp _ HF) as (P' & ? & ?). by exists P'.
  Qed.

  Lemma bucket_equal_spec P Q :
    (forall x, In x P \/ In x Q -> D x) -> length P = length Q ->
    bucket_equal h sm P Q = true <-> aligned R P Q.
  Proof.
    intros HD Hlen. unfold bucket_equal. rewrite !andb_true_iff, !forallb_forall. split.
    - intros [_ H]. apply aligned_cnt; [done|done|]. intros r Hr.
      destruct (cnt r P) as [|k] eqn:E; [lia|]. rewrite <- E.
      assert (Hk : exists x, In x P /\ h x = h r).
      { unfold cnt in E. destruct (List.filter (sm r) P) as [|x l] eqn:Ef; [done|].
        assert (Hin : In x (List.filter (sm r) P)) by (rewrite Ef; by left).
        apply filter_In in Hin as [Hx Hs]. exists x. split; [done|]. symmetry.
        apply Hh; [done|apply HD; by left|]. apply Hsm; [done|apply HD; by left|done]. }
      destruct Hk as (x & Hx & Ex).
      specialize (H (h x) (in_map h _ _ Hx)). rewrite Ex in H.
      rewrite check_bucket_cnt in H.
      2:{ intros y [Hy|Hy]; apply filter_In in Hy as [Hy _]; apply HD; [by left|by right]. }
      specialize (H r Hr). rewrite !cnt_bucket in H; [done|done| |done|];
        intros y Hy; apply HD; [by right|by left].
    - intros Hal. pose proof (aligned_sym _ _ Hal) as Hal'. split; [split|].
      + intros k Hk. apply in_map_iff in Hk as (r & <- & Hr).
        destruct (aligned_key P Q r Hal HD Hr) as (s & Hs & E). apply existsb_exists.
        exists (h s). split; [by apply in_map|]. apply Z.eqb_eq. done.
      + intros k Hk. apply in_map_iff in Hk as (r & <- & Hr).
        destruct (aligned_key Q P r Hal') as (s & Hs & E); [intros x [?|?]; apply HD; [by right|by left]|done|].
        apply existsb_exists. exists (h s). split; [by apply in_map|]. apply Z.eqb_eq. done.
      + intros k _. apply check_bucket_cnt.
        { intros y [Hy|Hy]; apply filter_In in Hy as [Hy _]; apply HD; [by left|by right]. }
        intros r Hr. rewrite aligned_cnt in Hal by done. destruct (decide (h r = k)) as [<-|Hne].
        * rewrite !cnt_bucket; [by apply Hal|done| |done|]; intros y Hy; apply HD; auto.
        * rewrite (bucket_none r k P); [lia|done|done|]. intros; apply HD; auto.
  Qed.

  (** ** Program.align *)
  Notation at_ S := (omap (nth_error S)).

  Lemma at_seq (S : list A) : at_ S (seq 0 (length S)) = S.
  Proof.
    assert (H : forall pre S : list A, at_ (pre ++ S) (seq (length pre) (length S)) = S).
    { intros pre S'. revert pre. induction S' as [|x S' IH]; intros pre; [done|]. cbn.
      rewrite nth_error_app2, Nat.sub_diag by lia. cbn. f_equal.
      specialize (IH (pre ++ [x])). rewrite app_length in IH. simpl in IH.
      rewrite <- app_assoc in IH. simpl in IH. by rewrite Nat.add_1_r in IH. }
    exact (H [] S).
  Qed.

  Definition others (j : nat) (avail : list nat) := List.filter (fun k => negb (Nat.eqb k j)) avail.

  Lemma others_perm j avail : List.NoDup avail -> In j avail -> Permutation avail (j :: others j avail).
  Proof.
    induction 1 as [|k avail Hk Hn IH]; [done|]. simpl. intros [->|Hj].
    - rewrite Nat.eqb_refl. simpl. constructor. unfold others.
      assert (He : forall l, ~ In j l -> List.filter (fun k => negb (Nat.eqb k j)) l = l).
      { induction l as [|x l IHl]; [done|]. simpl. intros Hx. destruct (Nat.eqb_spec x j) as [->|].
        - exfalso. apply Hx. by left.
        - simpl. f_equal. apply IHl. intros ?; apply Hx; by right. }
      by rewrite He.
    - destruct (Nat.eqb_spec k j) as [->|Hne]; [done|]. simpl. rewrite perm_swap. constructor. by apply IH.
  Qed.

  Lemma others_NoDup j avail : List.NoDup avail -> List.NoDup (others j avail).
  Proof. apply List.NoDup_filter. Qed.

  Lemma at_perm (S : list A) l l' : Permutation l l' -> Permutation (at_ S l) (at_ S l').
  Proof.
    induction 1 as [|x l l' H IH|x y l|l l' l'' H1 IH1 H2 IH2]; cbn; [done| | |by etrans].
    - destruct (nth_error S x); [by constructor|done].
    - destruct (nth_error S x), (nth_error S y); try done. apply perm_swap.
  Qed.

  Lemma align_find_some S r avail j :
    align_find h sm S r avail = Some j -> In j avail /\ exists s, nth_error S j = Some s /\ sm r s = true.
  Proof.
    induction avail as [|k avail IH]; [done|]. simpl. destruct (nth_error S k) as [s|] eqn:E.
    - destruct (_ && _) eqn:E2.
      + intros [= <-]. apply andb_true_iff in E2 as [_ E2]. split; [by left|by exists s].
      + intros H. destruct (IH H) as [? ?]. split; [by right|done].
    - intros H. destruct (IH H) as [? ?]. split; [by right|done].
  Qed.

  Lemma align_find_none S r avail : D r -> (forall x, In x S -> D x) ->
    align_find h sm S r avail = None ->
    forall j s, In j avail -> nth_error S j = Some s -> sm r s = false.
  Proof.
    intros HD HS. induction avail as [|k avail IH]; [done|]. simpl. destruct (nth_error S k) as [s|] eqn:E.
    - destruct (_ && _) eqn:E2; [done|].
      intros H j t [->|Hj] Hj2; [|by eapply IH].
      assert (t = s) as -> by congruence.
      destruct (sm r s) eqn:Es; [|done]. exfalso.
      assert (HDs : D s) by (by eapply HS, nth_error_In).
      apply Hsm in Es; [|done|done]. rewrite (Hh r s) in E2 by done. rewrite Z.eqb_refl in E2.
      simpl in E2. assert (sm r s = true) by (by apply Hsm). congruence.
    - intros H j t [->|Hj] Hj2; [congruence|by eapply IH].
  Qed.

  Lemma align_go_fst S i P avail :
    omap fst (align_go h sm S i P avail) = seq i (length P).
  Proof.
    revert i avail. induction P as [|r P IH]; intros i avail; simpl.
    - induction avail as [|k avail IH]; [done|]. exact IH.
    - destruct (align_find h sm S r avail) as [j|]; cbn; f_equal; apply IH.
  Qed.

  Lemma align_go_snd S i P avail : List.NoDup avail ->
    Permutation (omap snd (align_go h sm S i P avail)) avail.
  Proof.
    revert i avail. induction P as [|r P IH]; intros i avail Hn; simpl.
    - clear Hn. induction avail as [|k avail IH]; [done|]. cbn. by constructor.
    - destruct (align_find h sm S r avail) as [j|] eqn:E; cbn.
      + apply align_find_some in E as (Hj & _).
        transitivity (j :: others j avail); [|symmetry; by apply others_perm]. constructor.
        apply IH. by apply others_NoDup.
      + by apply IH.
  Qed.

  Lemma align_go_pair S i P avail a b :
    In (Some a, Some b) (align_go h sm S i P avail) ->
    exists r s, i <= a /\ nth_error P (a - i) = Some r /\ nth_error S b = Some s /\ sm r s = true.
  Proof.
    revert i avail. induction P as [|r P IH]; intros i avail; simpl.
    - intros H. apply in_map_iff in H as (? & ? & ?). done.
    - assert (Hrec : forall av, In (Some a, Some b) (align_go h sm S (1 + i) P av) ->
        exists r' s, i <= a /\ nth_error (r :: P) (a - i) = Some r' /\ nth_error S b = Some s /\ sm r' s = true).
      { intros av H. destruct (IH _ _ H) as (r' & s & Hle & H1 & H2 & H3). exists r', s.
        split; [lia|]. replace (a - i) with (Datatypes.S (a - (1 + i))) by lia. done. }
      destruct (align_find h sm S r avail) as [j|] eqn:E; simpl.
      + intros [[= <- <-]|H]; [|by eapply Hrec].
        apply align_find_some in E as (_ & s & H1 & H2). exists r, s. rewrite Nat.sub_diag. done.
      + intros [?|H]; [done|by eapply Hrec].
  Qed.

  Lemma align_go_unmatched S i P avail a b r s : List.NoDup avail ->
    (forall x, In x P \/ In x S -> D x) ->
    In (Some a, None) (align_go h sm S i P avail) -> In (None, Some b) (align_go h sm S i P avail) ->
    nth_error P (a - i) = Some r -> nth_error S b = Some s -> i <= a -> ~ R r s.
  Proof.
    intros Hn HD. revert i avail Hn. induction P as [|r' P IH]; intros i avail Hn; simpl.
    - intros H. apply in_map_iff in H as (? & ? & ?). done.
    - assert (HD' : forall x, In x P \/ In x S -> D x) by (intros x [?|?]; apply HD; [left; by right|by right]).
      assert (Hbig : forall av, List.NoDup av -> In (Some a, None) (align_go h sm S (1 + i) P av) -> i <> a \/ i < a).
      { intros av Hav H. right.
        assert (Hin : In a (omap fst (align_go h sm S (1 + i) P av))).
        { apply elem_of_list_In, elem_of_list_omap. exists (Some a, None). split; [by apply elem_of_list_In|done]. }
        rewrite align_go_fst in Hin. apply in_seq in Hin. lia. }
      destruct (align_find h sm S r' avail) as [j|] eqn:E; simpl.
      + intros [?|H1]; [done|]. intros [?|H2]; [done|]. intros Hr Hs Hle.
        pose proof (others_NoDup j avail Hn) as Hn'.
        destruct (Hbig _ Hn' H1); [assert (i < a) by lia|];
        (eapply (IH HD' (1 + i) _ Hn' H1 H2); [|done|lia]);
        replace (a - i) with (Datatypes.S (a - (1 + i))) in Hr by lia; exact Hr.
      + intros [[= <-]|H1].
        * intros [?|H2]; [done|]. rewrite Nat.sub_diag. simpl. intros [= ->] Hs _ HR.
          assert (Hb : In b avail).
          { assert (Hin : In b (omap snd (align_go h sm S (1 + i) P avail))).
            { apply elem_of_list_In, elem_of_list_omap. exists (None, Some b). split; [by apply elem_of_list_In|done]. }
            by eapply Permutation_in in Hin; [|by apply align_go_snd]. }
          assert (sm r s = false).
          { eapply align_find_none; [apply HD; left; by left|intros x Hx; apply HD; by right|exact E|exact Hb|done]. }
          assert (sm r s = true); [|congruence].
          apply Hsm; [apply HD; left; by left|apply HD; right; by eapply nth_error_In|done].
        * intros [?|H2]; [done|]. intros Hr Hs Hle.
          destruct (Hbig _ Hn H1); [assert (i < a) by lia|];
          (eapply (IH HD' (1 + i) _ Hn H1 H2); [|done|lia]);
          replace (a - i) with (Datatypes.S (a - (1 + i))) in Hr by lia; exact Hr.
  Qed.

  Definition perfect (al : list (option nat * option nat)) : Prop :=
    forall p, In p al -> fst p <> None /\ snd p <> None.

  Lemma align_go_perfect S i P avail : List.NoDup avail -> length P = length avail ->
    (forall x, In x P \/ In x S -> D x) ->
    perfect (align_go h sm S i P avail) <-> forall r, D r -> cnt r P <= cnt r (at_ S avail).
  Proof.
    revert i avail. induction P as [|r P IH]; intros i avail Hn Hlen HD.
    - destruct avail; [|done]. split; [intros _ r _; unfold cnt; simpl; lia|done].
    - assert (HD' : forall x, In x P \/ In x S -> D x) by (intros x [?|?]; apply HD; [left; by right|by right]).
      assert (HDr : D r) by (apply HD; left; by left). simpl.
      destruct (align_find h sm S r avail) as [j|] eqn:E.
      + apply align_find_some in E as (Hj & s & Hs & Hrs).
        assert (HDs : D s) by (apply HD; right; by eapply nth_error_In).
        apply Hsm in Hrs; [|done|done].
        pose proof (others_perm j avail Hn Hj) as Hp.
        pose proof (at_perm S _ _ Hp) as Hp'. cbn in Hp'. rewrite Hs in Hp'. cbn in Hp'.
        assert (Hl' : length P = length (others j avail)).
        { apply Permutation_length in Hp. simpl in *. lia. }
        assert (IH' := IH (1 + i) (others j avail) (others_NoDup j avail Hn) Hl' HD').
        transitivity (perfect (align_go h sm S (1 + i) P (others j avail))).
        { split; [intros H p Hp2; apply H; by right|]. intros H p [<-|Hp2]; [done|by apply H]. }
        rewrite IH'. split; intros H x Hx; specialize (H x Hx).
        * rewrite (cnt_perm x _ _ Hp'), !cnt_cons, (sm_class x r s) by done. lia.
        * rewrite (cnt_perm x _ _ Hp'), !cnt_cons, (sm_class x r s) in H by done. lia.
      + split.
        * intros H. exfalso. destruct (H (Some i, None)); [by left|done].
        * intros H. exfalso. specialize (H r HDr). rewrite cnt_cons in H.
          assert (Hrr : sm r r = true) by (apply Hsm; auto). rewrite Hrr in H.
          rewrite (cnt_zero r (at_ S avail)) in H; [lia|]. intros s Hs.
          apply elem_of_list_In, elem_of_list_omap in Hs as (k & Hk & Ek).
          eapply align_find_none; [done| |exact E|by apply elem_of_list_In|exact Ek].
          intros; apply HD; by right.
  Qed.

  Lemma align_perfect P Q : (forall x, In x P \/ In x Q -> D x) -> length P = length Q ->
    perfect (align h sm P Q) <-> aligned R P Q.
  Proof.
    intros HD Hlen. unfold align. rewrite align_go_perfect; [|apply seq_NoDup|by rewrite seq_length|done].
    rewrite at_seq. symmetry. by apply aligned_cnt.
  Qed.

  Lemma perfect_length P Q : perfect (align h sm P Q) -> length P = length Q.
  Proof.
    intros Hp. pose proof (align_go_fst Q 0 P (seq 0 (length Q))) as Hf.
    pose proof (align_go_snd Q 0 P (seq 0 (length Q)) (seq_NoDup _ _)) as Hs.
    assert (Hl : forall l, perfect l -> length (omap fst l) = length l /\ length (omap snd l) = length l).
    { clear. induction l as [|[a b] l IH]; [done|]. intros H. destruct (H (a, b)) as [H1 H2]; [by left|]. simpl in *.
      destruct a, b; try done. cbn. destruct IH as [I1 I2]; [intros p Hp; apply H; by right|]. split; f_equal; done. }
    destruct (Hl _ Hp) as [H1 H2]. unfold align in *. rewrite Hf, seq_length in H1.
    apply Permutation_length in Hs. rewrite seq_length in Hs. lia.
  Qed.

  Lemma aligned_length P Q : aligned R P Q -> length P = length Q.
  Proof.
    intros (Q' & Hp & HF). rewrite (Permutation_length Hp). by eapply Forall2_length.
  Qed.
End align.

(** * Bags *)
Lemma count_occ_filter (eqb : term -> term -> bool) (Heq : forall x y, eqb x y = true <-> x = y) x l :
  bag_count eqb x l = count_occ (fun a b : term => decide (a = b)) l x.
Proof.
  unfold bag_count. induction l as [|y l IH]; [done|]. simpl.
  destruct (eqb x y) eqn:E, (decide (y = x)) as [E'|E']; simpl.
  - by rewrite IH.
  - apply Heq in E. congruence.
  - assert (eqb x y = true) by (by apply Heq). congruence.
  - done.
Qed.

Lemma term_eqb_eq x y : term_eqb x y = true <-> x = y.
Proof. split; [by apply term_eqb_true|]. intros ->. apply term_eqb_refl. Qed.

Lemma bag_eqb_perm l l' : bag_eqb term_eqb l l' = true <-> Permutation l l'.
Proof.
  rewrite (Permutation_count_occ (fun a b : term => decide (a = b))).
  unfold bag_eqb. rewrite forallb_forall. split.
  - intros H x. rewrite <- !(count_occ_filter term_eqb term_eqb_eq).
    destruct (in_dec (fun a b : term => decide (a = b)) x (l ++ l')) as [Hx|Hx].
    + by apply Nat.eqb_eq, H.
    + rewrite !(count_occ_filter term_eqb term_eqb_eq). rewrite !(proj1 (count_occ_not_In _ _ _)); [done|..];
        intros Hi; apply Hx, in_or_app; auto.
  - intros H x _. apply Nat.eqb_eq. rewrite !(count_occ_filter term_eqb term_eqb_eq). apply H.
Qed.

Definition sig_same (a b : term * list term) : Prop := fst a = fst b /\ Permutation (snd a) (snd b).

Lemma sig_eqb_same a b : sig_eqb a b = true <-> sig_same a b.
Proof. unfold sig_eqb, sig_same. by rewrite andb_true_iff, term_eqb_eq, bag_eqb_perm. Qed.

Lemma bag_sigs_aligned l l' : aligned sig_same l l' -> bag_eqb sig_eqb l l' = true.
Proof.
  intros H. unfold bag_eqb. apply forallb_forall. intros x _. apply Nat.eqb_eq.
  assert (Hs : forall x y, sig_same x y -> sig_same y x) by (intros ? ? []; by split).
  assert (Ht : forall x y z, sig_same x y -> sig_same y z -> sig_same x z).
  { intros ? ? ? [] []. split; [congruence|by etrans]. }
  assert (Hle : forall l l', aligned sig_same l l' -> bag_count sig_eqb x l <= bag_count sig_eqb x l').
  { intros k k' Hk. change (cnt sig_eqb x k <= cnt sig_eqb x k').
    assert (Hl := aligned_length sig_same k k' Hk).
    assert (Hsm : forall a b, True -> True -> (sig_eqb a b = true <-> sig_same a b)) by (intros; apply sig_eqb_same).
    exact (proj1 (aligned_cnt sig_same (fun x => conj eq_refl (Permutation_refl _)) Hs Ht (fun _ => True) sig_eqb Hsm k k' (fun _ _ => I) Hl) Hk x I). }
  apply Nat.le_antisymm; apply Hle; [done|]. by apply aligned_sym.
Qed.

Lemma aligned_map {A B} (f : A -> B) (R : A -> A -> Prop) (R' : B -> B -> Prop) l l' :
  (forall x y, In x l -> In y l' -> R x y -> R' (f x) (f y)) -> aligned R l l' -> aligned R' (map f l) (map f l').
Proof.
  intros H (l2 & Hp & HF). exists (map f l2). split; [by apply Permutation_map|].
  assert (H' : forall x y, In x l -> In y l2 -> R x y -> R' (f x) (f y)).
  { intros x y Hx Hy. apply H; [done|]. eapply Permutation_in; [symmetry; exact Hp|done]. }
  clear - HF H'. induction HF as [|x y l l2 HR HF IH]; [constructor|]. simpl. constructor.
  - apply H'; [by left|by left|done].
  - apply IH. intros; apply H'; [by right|by right|done].
Qed.

Lemma variant_sig cv r s : no_bare_vars r -> rule_variant r s -> sig_same (rsig cv r) (rsig cv s).
Proof.
  intros Hb (ρ & I & H & B).
  assert (Hsub : forall t, In t (rhead r :: rbody r) -> renames ρ t).
  { intros t Ht v w Hv Hw. apply I; unfold rule_vars.
    - destruct Ht as [<-|Ht]; apply in_or_app; [by left|right; apply in_flat_map; eauto].
    - destruct Ht as [<-|Ht]; apply in_or_app; [by left|right; apply in_flat_map; eauto]. }
  split; simpl.
  - rewrite H, tsig_rename; [done|apply Hb; by left|apply Hsub; by left].
  - rewrite (Permutation_map (tsig cv) B), map_map.
    apply Permutation_refl'. apply map_ext_in. intros t Ht. symmetry. apply tsig_rename.
    + apply Hb. by right.
    + apply Hsub. by right.
Qed.
