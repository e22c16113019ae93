(** Abstract facts behind the safety of fold/unfold sequences: programs whose
    rules carry bounds on sizes in a reference program; relabelling, unfolding and
    folding such programs. *)
From Coq Require Import List Permutation.
From stdpp Require Import gmap.
From Coq Require Import Lia ZArith.
From Verif Require Import PyBase Semiring TermModel TermSpec TermProofs UpdateModel UpdateSpec UpdateProofs TransSpec TransProofs LinearProofs FoldProofs.
Import ListNotations.
Local Open Scope Z_scope.

Section core.
  Context {R : semiring} (only : Prop) (base : term -> Prop).
  Notation mrule := (wrule R * (Z -> Prop))%type.
  Implicit Types (ps qs : list mrule).
  Notation D ps := (wderives only (map fst ps) base).

  (** * Correspondence *)
  Definition iso (A B : wderiv R -> Prop) (f g : wderiv R -> wderiv R) : Prop :=
    (forall t, A t -> B (f t) /\ g (f t) = t /\ wroot (f t) = wroot t /\ forall w, wvalue w (f t) = wvalue w t) /\
    (forall t, B t -> A (g t) /\ f (g t) = t) /\ keeps_leaves f /\ keeps_leaves g.
  Lemma iso_refl A : iso A A id id.
  Proof. split; [done|]. split; [done|]. split; by intros t. Qed.
  Lemma iso_sym A B f g : iso A B f g -> iso B A g f.
  Proof.
    intros (H1 & H2 & H3 & H4). split; [|split; [|done]].
    - intros t Ht. destruct (H2 t Ht) as [Ha E]. destruct (H1 _ Ha) as (_ & _ & E1 & E2). rewrite E in E1, E2.
      split; [done|]. split; [done|]. split; [done|]. intros w. by rewrite E2.
    - intros t Ht. destruct (H1 t Ht) as (Hb & E & _). done.
  Qed.
  Lemma keeps_comp (f g : wderiv R -> wderiv R) : keeps_leaves f -> keeps_leaves g -> keeps_leaves (fun t => g (f t)).
  Proof. intros H1 H2 t. by rewrite (H2 (f t)), (H1 t). Qed.
  Lemma iso_trans A B C f g f' g' : iso A B f g -> iso B C f' g' -> iso A C (fun t => f' (f t)) (fun t => g (g' t)).
  Proof.
    intros (H1 & H2 & H3 & H4) (H1' & H2' & H3' & H4'). split; [|split; [|split; by apply keeps_comp]].
    - intros t Ht. destruct (H1 t Ht) as (Hb & E & Er & Ev). destruct (H1' _ Hb) as (Hc & E' & Er' & Ev').
      split; [done|]. split; [by rewrite E'|]. split; [congruence|]. intros w. by rewrite Ev'.
    - intros t Ht. destruct (H2' t Ht) as [Hb E']. destruct (H2 _ Hb) as [Ha E]. split; [done|]. by rewrite E.
  Qed.
  Lemma iso_meaning A B f g : iso A B f g -> same_meaning A B.
  Proof. intros (H1 & H2 & _). by exists f, g. Qed.

  (** * Sizes *)
  Fixpoint sumz (l : list Z) : Z := match l with [] => 0 | z :: l => z + sumz l end.
  Lemma sumz_app l l' : sumz (l ++ l') = sumz l + sumz l'.
  Proof. induction l as [|a l IH]; cbn [sumz app]; [done|]. rewrite IH. lia. Qed.
  Lemma sumz_perm l l' : l ≡ₚ l' -> sumz l = sumz l'.
  Proof. induction 1; cbn [sumz]; lia. Qed.
  Lemma sumz_ge l : Forall (fun z => 1 <= z) l -> Z.of_nat (length l) <= sumz l.
  Proof. induction 1; cbn [sumz length]; lia. Qed.

  (** the size of a derivation: every rule has a size, every leaf has size 1 *)
  Fixpoint size (F : list (wrule R * Z)) (t : wderiv R) : Z :=
    match t with
    | WNode i _ ts => from_option snd 0 (F !! i) + sumz (map (size F) ts)
    | _ => 1
    end.

  Definition sized ps (μ : wderiv R -> Z) : Prop :=
    (forall t, D ps t -> 1 <= μ t) /\
    forall i x ts r P, ps !! i = Some (r, P) -> D ps (WNode i x ts) ->
      P (μ (WNode i x ts) - sumz (map μ ts)) /\ Forall (fun u => μ u < μ (WNode i x ts)) ts.

  (** the derivations of [ps] correspond to those of [F], and the bounds hold for
      the sizes in [F] *)
  Definition represents (F : list (wrule R * Z)) ps : Prop :=
    exists f g, iso (D ps) (wderives only (map fst F) base) f g /\ sized ps (fun t => size F (f t)).

  Lemma size_pos F t : Forall (fun f => 0 < snd f) F -> wderives only (map fst F) base t -> 1 <= size F t.
  Proof.
    intros HF. induction t as [v|x|i x ts IH] using wderiv_ind'; cbn [size]; [lia|lia|]. rewrite wderives_node. intros (r & Hr & _ & _ & Hts).
    rewrite list_lookup_fmap in Hr. destruct (F !! i) as [[r' z]|] eqn:E; [|done]. cbn.
    apply elem_of_list_lookup_2 in E. rewrite Forall_forall in HF. apply HF in E. cbn in E.
    assert (H : 0 <= sumz (map (size F) ts)); [|lia]. clear - IH Hts. induction IH as [|t ts Ht _ IHl]; cbn [sumz map]; [lia|]. apply Forall_cons in Hts as [H1 H2].
    apply Ht in H1. apply IHl in H2. lia.
  Qed.
  Lemma sumz_lt (μ : wderiv R -> Z) ts z : Forall (fun t => 1 <= μ t) ts -> 0 < z -> Forall (fun t => μ t < z + sumz (map μ ts)) ts.
  Proof.
    induction 1 as [|t ts Ht HF IH]; intros Hz; [constructor|]. cbn [map sumz].
    assert (H : 0 <= sumz (map μ ts)). { clear - HF. induction HF; cbn [map sumz]; lia. }
    constructor; [lia|]. eapply Forall_impl; [exact (IH Hz)|]. cbn. intros u Hu. lia.
  Qed.
  Lemma represents_ref F : Forall (fun f => 0 < snd f) F -> represents F (map (fun f => (fst f, eq (snd f))) F).
  Proof.
    intros HF. assert (E : map fst (map (fun f : wrule R * Z => (fst f, eq (snd f))) F) = map fst F) by (rewrite map_map; by apply map_ext).
    exists id, id. unfold sized. rewrite E. split; [apply iso_refl|]. unfold id. split; [intros t; by apply size_pos|].
    intros i x ts r P Hi Hd. rewrite list_lookup_fmap in Hi. destruct (F !! i) as [[r' z]|] eqn:Ei; [|done]. injection Hi as -> <-. cbn [size]. rewrite Ei. cbn [snd from_option]. change (map (fun t => size F t) ts) with (map (size F) ts). split; [lia|].
    apply wderives_node in Hd as (_ & _ & _ & _ & Hts). apply sumz_lt.
    - eapply Forall_impl; [exact Hts|]. intros t. by apply size_pos.
    - rewrite Forall_forall in HF. by apply (HF _ (elem_of_list_lookup_2 _ _ _ Ei)).
  Qed.

  (** a step from [ps] to [ps'] *)
  Definition steps ps ps' (μ : wderiv R -> Z) : Prop := exists h k, iso (D ps') (D ps) h k /\ sized ps' (fun t => μ (h t)).
  Lemma represents_step F ps ps' f g : iso (D ps) (wderives only (map fst F) base) f g -> steps ps ps' (fun t => size F (f t)) -> represents F ps'.
  Proof. intros Hi (h & k & Hi' & Hs). exists (fun t => f (h t)), (fun t => k (g t)). split; [by eapply iso_trans|done]. Qed.

  (** * Variants *)
  Definition matches (r s : wrule R) (q q' : list nat) : Prop :=
    q ≡ₚ seq 0 (length (wbody r)) /\ q' ≡ₚ seq 0 (length (wbody s)) /\ length (wbody s) = length (wbody r) /\
    (forall ts : list (wderiv R), length ts = length (wbody r) -> permute q' (permute q ts) = ts /\ permute q (permute q' ts) = ts) /\
    (forall x fs, inst r x fs -> inst s x (permute q fs)) /\ (forall x fs, inst s x fs -> inst r x (permute q' fs)) /\
    (forall ts, leafy only r ts -> leafy only s (permute q ts)) /\ (forall ts, leafy only s ts -> leafy only r (permute q' ts)).
  Lemma wvariant_matches r s : wvariant r s -> exists q q', matches r s q q'.
  Proof.
    intros (ρ & Hρ & Hh & Hb). symmetry in Hb. destruct (perm_indices (R := R) _ _ Hb) as (q & q' & H1 & H2 & H3 & H4 & H5).
    destruct (requiv_rename only ρ r Hρ) as (L1 & L2 & L3). pose proof (Permutation_length Hb) as Hl. rewrite map_length in *.
    exists q, q'. split; [done|]. split; [by rewrite <- Hl|]. split; [done|]. split; [done|].
    split; [|split; [|split]].
    - intros x fs Hi. apply L2 in Hi as (σ & G & <- & <-). exists σ. split; [done|]. rewrite Hh. split; [done|]. rewrite <- H3. symmetry. apply permute_map.
    - intros x fs (σ & G & <- & <-). apply L2. exists σ. split; [done|]. rewrite Hh. split; [done|]. cbn [rrename rsub wbody]. rewrite permute_map, H4. done.
    - intros ts Hl3. apply L3 in Hl3. intros Ho. rewrite <- H3. apply permute_Forall2. by apply Hl3.
    - intros ts Hl3. apply L3. intros Ho. cbn [rrename rsub wbody]. rewrite <- H4. apply permute_Forall2. by apply Hl3.
  Qed.

  (** [ps'] is [ps] with the rules reordered and replaced by variants; the bounds
      may get weaker *)
  Definition moved ps ps' (p1 p2 : nat -> nat) : Prop :=
    (forall k r (P : Z -> Prop), ps !! k = Some (r, P) -> exists s (Q : Z -> Prop), ps' !! p1 k = Some (s, Q) /\ p2 (p1 k) = k /\ wvariant r s /\ forall z, P z -> Q z) /\
    (forall k s Q, ps' !! k = Some (s, Q) -> exists r P, ps !! p2 k = Some (r, P) /\ p1 (p2 k) = k).

  Lemma moved_steps ps ps' p1 p2 μ : (forall x y : R, smul x y = smul y x) -> moved ps ps' p1 p2 -> sized ps μ -> steps ps ps' μ.
  Proof.
    intros Hc [M1 M2] [Hpos Hsz].
    assert (Hix : exists ls : list (list nat * list nat), Forall2 (fun k qq => forall r P s Q, ps !! k = Some (r, P) -> ps' !! p1 k = Some (s, Q) -> matches r s (fst qq) (snd qq)) (seq 0 (length ps)) ls).
    { assert (H : Forall (fun k => exists qq : list nat * list nat, forall r P s Q, ps !! k = Some (r, P) -> ps' !! p1 k = Some (s, Q) -> matches r s (fst qq) (snd qq)) (seq 0 (length ps))).
      { apply Forall_forall. intros k _. destruct (ps !! k) as [[r P]|] eqn:E; [|exists ([], []); by intros].
        destruct (M1 k r P E) as (s & Q & Hs & _ & Hv & _). destruct (wvariant_matches _ _ Hv) as (q & q' & Hm). exists (q, q').
        intros r' P' s' Q' [= <- <-] Hs'. assert (s' = s) as -> by congruence. done. }
      induction H as [|k l [qq Hk] _ [ls IH]]; [by exists []|]. exists (qq :: ls). by constructor. }
    destruct Hix as [ls Hls].
    set (q1 k := from_option fst [] (ls !! k)). set (q2 k := from_option snd [] (ls !! p2 k)).
    assert (Hm : forall k r P s Q, ps !! k = Some (r, P) -> ps' !! p1 k = Some (s, Q) -> matches r s (q1 k) (q2 (p1 k))).
    { intros k r P s Q Hk Hs. destruct (M1 k r P Hk) as (s' & Q' & Hs' & E & _). unfold q1, q2. rewrite E.
      assert (Hsq : seq 0 (length ps) !! k = Some k) by (apply lookup_seq; split; [done|]; by eapply lookup_lt_Some).
      destruct (Forall2_lookup_l _ _ _ _ _ Hls Hsq) as (qq & -> & H). cbn. by eapply H. }
    assert (A1 : TransProofs.aligned only (map fst ps) (map fst ps') p1 p2 q1 q2).
    { intros k r Hr. rewrite list_lookup_fmap in Hr. destruct (ps !! k) as [[r' P]|] eqn:E; [|done]. injection Hr as ->.
      destruct (M1 k r P E) as (s & Q & Hs & Ep & _). destruct (Hm k r P s Q E Hs) as (B1 & B2 & B3 & B4 & B5 & B6 & B7 & B8).
      exists s. rewrite list_lookup_fmap, Hs. split; [done|]. split; [done|]. split; [done|]. split; [intros l Hl; by apply B4|]. split; [done|]. intros ts _. by apply B7. }
    assert (A2 : TransProofs.aligned only (map fst ps') (map fst ps) p2 p1 q2 q1).
    { intros k s Hs. rewrite list_lookup_fmap in Hs. destruct (ps' !! k) as [[s' Q]|] eqn:E; [|done]. injection Hs as ->.
      destruct (M2 k s Q E) as (r & P & Hr & Ep). assert (Hs : ps' !! p1 (p2 k) = Some (s, Q)) by (by rewrite Ep).
      destruct (Hm (p2 k) r P s Q Hr Hs) as (B1 & B2 & B3 & B4 & B5 & B6 & B7 & B8). rewrite Ep in *.
      exists r. rewrite list_lookup_fmap, Hr. split; [done|]. split; [done|]. split; [done|]. split; [intros l Hl; apply B4; by rewrite Hl|].
      split; [done|]. intros ts _. by apply B8. }
    assert (Hi : iso (D ps') (D ps) (realign p2 q2) (realign p1 q1)).
    { split; [|split; [|split; apply realign_leaves]].
      - intros t Ht. destruct (realign_ok only base _ _ _ _ _ _ t A2 Ht) as (C1 & C2 & C3). split; [done|]. split; [done|]. split; [done|].
        apply (realign_value only (map fst ps') (map fst ps) base p2 p1 q2 q1); [by right|done..].
      - intros t Ht. destruct (realign_ok only base _ _ _ _ _ _ t A1 Ht) as (C1 & C2 & C3). done. }
    exists (realign p2 q2), (realign p1 q1). split; [done|]. split.
    - intros t Ht. apply Hpos. by apply Hi.
    - intros i x ts s Q Hs Hd. destruct (M2 i s Q Hs) as (r & P & Hr & Ep). destruct (M1 _ _ _ Hr) as (s' & Q' & Hs' & _ & _ & HPQ). rewrite Ep in Hs'.
      assert (s' = s /\ Q' = Q) as [-> ->] by (split; congruence).
      assert (Hd' : D ps (realign p2 q2 (WNode i x ts))) by (by apply Hi). cbn [realign] in *.
      destruct (Hsz _ _ _ _ _ Hr Hd') as [H1 H2].
      assert (Hp : permute (q2 i) (map (realign p2 q2) ts) ≡ₚ map (realign p2 q2) ts).
      { apply permute_permutation. rewrite map_length. assert (Hs2 : ps' !! p1 (p2 i) = Some (s, Q)) by (by rewrite Ep).
        destruct (Hm _ _ _ _ _ Hr Hs2) as (_ & B2 & B3 & _). rewrite Ep in B2. rewrite B2.
        apply wderives_node in Hd as (s2 & Hs3 & Hin & _). rewrite list_lookup_fmap, Hs in Hs3. injection Hs3 as <-. apply inst_kids in Hin. by rewrite Hin. }
      split.
      + apply HPQ. rewrite (sumz_perm _ _ (Permutation_map μ Hp)), map_map in H1. exact H1.
      + rewrite Hp, Forall_map in H2. exact H2.
  Qed.

  Lemma combine_lookup {A B} (l : list A) (l' : list B) k : combine l l' !! k = match l !! k, l' !! k with Some a, Some b => Some (a, b) | _, _ => None end.
  Proof. revert l' k. induction l as [|a l IH]; intros [|b l'] [|k]; cbn; try done; by destruct (l !! k). Qed.
  Lemma cut_at {A} (l : list A) n : (n < length l)%nat -> exists L a Q, l = L ++ a :: Q /\ length L = n.
  Proof.
    intros H. destruct (lookup_lt_is_Some_2 l n H) as [a Ha]. exists (take n l), a, (drop (S n) l). split.
    - by rewrite take_drop_middle.
    - apply take_length_le. lia.
  Qed.
  Lemma cut3 {A} (l : list A) a b : (a + b <= length l)%nat -> exists L M Q, l = L ++ M ++ Q /\ length L = a /\ length M = b.
  Proof.
    intros H. exists (take a l), (take b (drop a l)), (drop b (drop a l)). split; [by rewrite !take_drop|].
    split; [apply take_length_le; lia|]. apply take_length_le. rewrite drop_length. lia.
  Qed.

  (** * Going to corresponding derivations and back *)
  Section conv.
  Context (A B : wderiv R -> Prop) (a a' : wderiv R -> wderiv R) (μp μq : wderiv R -> Z).
  Context (Ha : iso A B a a') (Hμ : forall t, A t -> μq (a t) = μp t).
  Lemma to_ok t : A t -> B (a t) /\ a' (a t) = t /\ wroot (a t) = wroot t /\ (forall w, wvalue w (a t) = wvalue w t) /\ μq (a t) = μp t.
  Proof. intros Ht. destruct (proj1 Ha t Ht) as (H1 & H2 & H3 & H4). split_and!; try done. by apply Hμ. Qed.
  Lemma from_ok t : B t -> A (a' t) /\ a (a' t) = t /\ wroot (a' t) = wroot t /\ (forall w, wvalue w (a' t) = wvalue w t) /\ μp (a' t) = μq t.
  Proof.
    intros Ht. destruct (proj1 (iso_sym _ _ _ _ Ha) t Ht) as (H1 & H2 & H3 & H4). split_and!; try done. by rewrite <- (Hμ _ H1), H2.
  Qed.
  Lemma to_leaves : keeps_leaves a. Proof. apply Ha. Qed.
  Lemma from_leaves : keeps_leaves a'. Proof. apply Ha. Qed.
  Lemma to_list ts : Forall A ts -> Forall B (map a ts) /\ map a' (map a ts) = ts /\ map wroot (map a ts) = map wroot ts /\
    (forall w, map (wvalue w) (map a ts) = map (wvalue w) ts) /\ map μq (map a ts) = map μp ts.
  Proof.
    induction 1 as [|t ts Ht _ (A1 & A2 & A3 & A4 & A5)]; [split; [constructor|done]|]. destruct (to_ok t Ht) as (B1 & B2 & B3 & B4 & B5). cbn [map].
    split_and!; [by constructor|by rewrite B2, A2|by rewrite B3, A3|intros w; by rewrite B4, A4|by rewrite B5, A5].
  Qed.
  Lemma from_list ts : Forall B ts -> Forall A (map a' ts) /\ map a (map a' ts) = ts /\ map wroot (map a' ts) = map wroot ts /\
    (forall w, map (wvalue w) (map a' ts) = map (wvalue w) ts) /\ map μp (map a' ts) = map μq ts.
  Proof.
    induction 1 as [|t ts Ht _ (A1 & A2 & A3 & A4 & A5)]; [split; [constructor|done]|]. destruct (from_ok t Ht) as (B1 & B2 & B3 & B4 & B5). cbn [map].
    split_and!; [by constructor|by rewrite B2, A2|by rewrite B3, A3|intros w; by rewrite B4, A4|by rewrite B5, A5].
  Qed.
  End conv.

  (** * Unfolding and folding by definitions *)
  Section defs.
  (** the rule [r], number [i], and the program without it that has the new rules instead *)
  Context (ps qs : list mrule) (i j : nat) (r : wrule R) (P : Z -> Prop).
  Context (us : list (nat * wrule R)) (Ns : list (Z -> Prop)) (mid : nat -> term -> list (factor R) -> term).
  Context (Hi : ps !! i = Some (r, P)) (Hj : (j < length (wbody r))%nat) (HN : NoDup (map fst us)) (HNs : length Ns = length us).
  Notation m := (length (wbody r) - S j)%nat.
  Context (HA : forall p k t, us !! p = Some (k, t) -> exists s, map fst qs !! k = Some s /\ (length (wbody t) = j + length (wbody s) + m)%nat /\
    (forall x L zs Q y, length L = j -> length zs = length (wbody s) -> inst r x (L ++ Goal y :: Q) -> inst s y zs ->
       inst t x (L ++ zs ++ Q) /\ mid p x (L ++ zs ++ Q) = y) /\
    (forall x L zs Q, length L = j -> length zs = length (wbody s) -> inst t x (L ++ zs ++ Q) ->
       inst r x (L ++ Goal (mid p x (L ++ zs ++ Q)) :: Q) /\ inst s (mid p x (L ++ zs ++ Q)) zs) /\
    (forall L vs Q k y ws, length L = j -> length vs = length (wbody s) -> length Q = m ->
       leafy only t (L ++ vs ++ Q) <-> leafy only r (L ++ WNode k y ws :: Q) /\ leafy only s vs)).
  Context (HB : forall k s x L y Q zs, map fst qs !! k = Some s -> length L = j -> inst r x (L ++ Goal y :: Q) -> inst s y zs -> k ∈ map fst us).
  Context (HC : forall x L f Q, length L = j -> inst r x (L ++ f :: Q) -> exists y, f = Goal y /\ ~ base y).

  Notation ws := (delete i ps ++ combine (map snd us) Ns).
  Notation sh := (shift i).
  Notation ush := (unshift i).
  Notation N := (N1 (map fst ps)).

  Lemma ws_fst : map fst ws = delete i (map fst ps) ++ map snd us.
  Proof.
    rewrite map_app. f_equal.
    - clear. revert i. induction ps as [|p l IH]; intros [|i]; cbn; [done..|]. f_equal. apply IH.
    - assert (H : length Ns = length (map snd us)) by (by rewrite map_length). clear - H. revert Ns H.
      induction (map snd us) as [|t l IH]; intros [|z Ns] H; try done. cbn. f_equal. apply IH. by injection H.
  Qed.
  Lemma Hi' : map fst ps !! i = Some r.
  Proof. by rewrite list_lookup_fmap, Hi. Qed.
  Lemma N_len : length (delete i ps) = N.
  Proof. unfold N1. rewrite length_delete by eauto. rewrite map_length. lia. Qed.
  Lemma ws_old k rP : k <> i -> ps !! k = Some rP -> ws !! sh k = Some rP /\ (sh k < N)%nat /\ ush (sh k) = k.
  Proof.
    intros Hk Hs. pose proof (lookup_lt_Some _ _ _ Hs) as Hlt. pose proof (lookup_lt_Some _ _ _ Hi) as Hlti. pose proof N_len as HNl.
    assert (HN1 : S N = length ps) by (unfold N1; rewrite map_length; lia). unfold shift, unshift. destruct (decide (k < i)%nat) as [Hl|Hl].
    - split; [|split; [lia|by rewrite decide_True]]. rewrite lookup_app_l by lia. by rewrite lookup_delete_lt.
    - rewrite lookup_app_l by lia. rewrite lookup_delete_ge by lia. replace (S (pred k)) with k by lia. split; [done|]. split; [lia|]. rewrite decide_False by lia. lia.
  Qed.
  Lemma ws_old' p rP : (p < N)%nat -> ws !! p = Some rP -> ps !! ush p = Some rP /\ ush p <> i /\ sh (ush p) = p.
  Proof.
    intros Hp. rewrite lookup_app_l by (by rewrite N_len). unfold shift, unshift. destruct (decide (p < i)%nat) as [Hl|Hl].
    - rewrite lookup_delete_lt by done. intros E. split; [done|]. split; [lia|]. by rewrite decide_True.
    - rewrite lookup_delete_ge by lia. intros E. split; [done|]. split; [lia|]. rewrite decide_False by lia. lia.
  Qed.
  Lemma ws_new p t S : (N <= p)%nat -> ws !! p = Some (t, S) -> exists k pp, us !! pp = Some (k, t) /\ Ns !! pp = Some S /\ p = (N + pp)%nat.
  Proof.
    intros Hp. rewrite lookup_app_r by (by rewrite N_len). rewrite N_len, combine_lookup, list_lookup_fmap.
    destruct (us !! (p - N)%nat) as [[k t']|] eqn:E; [|done]. destruct (Ns !! (p - N)%nat) as [S'|] eqn:E'; [|done]. intros [= -> ->]. exists k, (p - N)%nat. split; [done|]. split; [done|lia].
  Qed.
  Lemma ws_new' pp k t S : us !! pp = Some (k, t) -> Ns !! pp = Some S -> ws !! (N + pp)%nat = Some (t, S).
  Proof.
    intros E E'. rewrite lookup_app_r by (rewrite N_len; lia). rewrite N_len, combine_lookup, list_lookup_fmap.
    replace (N + pp - N)%nat with pp by lia. by rewrite E, E'.
  Qed.
  Lemma ws_fst_old k s : k <> i -> map fst ps !! k = Some s -> map fst ws !! sh k = Some s /\ (sh k < N)%nat /\ ush (sh k) = k.
  Proof. rewrite !list_lookup_fmap. intros Hk. destruct (ps !! k) as [rP|] eqn:E; [|done]. intros [= <-]. destruct (ws_old k rP Hk E) as (-> & ? & ?). done. Qed.
  Lemma ws_fst_old' p s : (p < N)%nat -> map fst ws !! p = Some s -> map fst ps !! ush p = Some s /\ ush p <> i /\ sh (ush p) = p.
  Proof. rewrite !list_lookup_fmap. intros Hp. destruct (ws !! p) as [rP|] eqn:E; [|done]. intros [= <-]. destruct (ws_old' p rP Hp E) as (-> & ? & ?). done. Qed.
  Lemma ws_fst_new p t : (N <= p)%nat -> map fst ws !! p = Some t -> exists k pp, us !! pp = Some (k, t) /\ p = (N + pp)%nat.
  Proof.
    rewrite list_lookup_fmap. intros Hp. destruct (ws !! p) as [[t' S]|] eqn:E; [|done]. intros [= ->].
    destruct (ws_new p t S Hp E) as (k & pp & ? & _ & ?). eauto.
  Qed.
  Lemma Ns_some pp k t : us !! pp = Some (k, t) -> exists S, Ns !! pp = Some S.
  Proof. intros E. apply lookup_lt_Some in E. rewrite <- HNs in E. by apply lookup_lt_is_Some_2 in E. Qed.
  Lemma ws_fst_new' pp k t : us !! pp = Some (k, t) -> map fst ws !! (N + pp)%nat = Some t.
  Proof. intros E. destruct (Ns_some _ _ _ E) as [S ES]. rewrite list_lookup_fmap. by rewrite (ws_new' _ _ _ _ E ES). Qed.
  Lemma us_at k : k ∈ map fst us -> exists t, us !! pos k (map fst us) = Some (k, t).
  Proof.
    intros Hk. apply pos_spec in Hk. rewrite list_lookup_fmap in Hk. destruct (us !! pos k (map fst us)) as [[k' t]|]; [|done]. injection Hk as ->. eauto.
  Qed.
  Lemma us_pos pp k t : us !! pp = Some (k, t) -> pos k (map fst us) = pp.
  Proof. intros E. apply pos_lookup; [done|]. by rewrite list_lookup_fmap, E. Qed.

  (** a node of the rule [r] *)
  Lemma node_r x ts : D ps (WNode i x ts) -> exists L u Q y, ts = L ++ u :: Q /\ length L = j /\ length Q = m /\ wroot u = Goal y /\ ~ base y /\
    inst r x (map wroot L ++ Goal y :: map wroot Q) /\ leafy only r (L ++ u :: Q) /\ Forall (D ps) L /\ D ps u /\ Forall (D ps) Q.
  Proof.
    intros Hd. apply wderives_node in Hd as (s & Hs & Hin & Hlf & HF). rewrite Hi' in Hs. injection Hs as <-.
    pose proof (inst_kids _ _ _ Hin) as Hlen. destruct (cut_at ts j) as (L & u & Q & -> & HL); [lia|].
    rewrite map_app in Hin. cbn [map] in Hin.
    assert (HLr : length (map wroot L) = j) by (by rewrite map_length).
    destruct (HC _ _ _ _ HLr Hin) as (y & Ey & Hbase). rewrite Ey in Hin.
    apply Forall_app in HF as [HF1 HF2]. apply Forall_cons in HF2 as [HFu HFQ]. rewrite app_length in Hlen. cbn [length] in Hlen.
    exists L, u, Q, y. split_and!; try done. lia.
  Qed.
  (** a node of a new rule *)
  Lemma node_new p x ts : (N <= p)%nat -> D ws (WNode p x ts) -> exists pp k t s L vs Q, p = (N + pp)%nat /\ us !! pp = Some (k, t) /\ map fst qs !! k = Some s /\
    ts = L ++ vs ++ Q /\ length L = j /\ length vs = length (wbody s) /\ length Q = m /\
    inst r x (map wroot L ++ Goal (mid pp x (map wroot ts)) :: map wroot Q) /\ inst s (mid pp x (map wroot ts)) (map wroot vs) /\
    (forall k' y' ws', leafy only r (L ++ WNode k' y' ws' :: Q)) /\ leafy only s vs /\ Forall (D ws) L /\ Forall (D ws) vs /\ Forall (D ws) Q.
  Proof.
    intros Hp Hd. apply wderives_node in Hd as (t & Ht & Hin & Hlf & HF). destruct (ws_fst_new p t Hp Ht) as (k & pp & Eu & ->).
    destruct (HA _ _ _ Eu) as (s & Hs & Hlt & Hf & Hb & Hl). pose proof (inst_kids _ _ _ Hin) as Hlen. rewrite Hlt in Hlen.
    destruct (cut3 ts j (length (wbody s))) as (L & vs & Q & -> & HL & Hvs); [lia|]. rewrite !app_length in Hlen.
    rewrite !(map_app wroot) in Hin. destruct (Hb x (map wroot L) (map wroot vs) (map wroot Q)) as [H1 H2]; [by rewrite map_length..|done|].
    rewrite !Forall_app in HF. destruct HF as (HF1 & HF2 & HF3).
    exists pp, k, t, s, L, vs, Q. rewrite !(map_app wroot). assert (HQ : length Q = m) by lia.
    split_and!; try done.
    - intros k' y' ws'. exact (proj1 (proj1 (Hl L vs Q k' y' ws' HL Hvs HQ) Hlf)).
    - exact (proj2 (proj1 (Hl L vs Q 0%nat x [] HL Hvs HQ) Hlf)).
  Qed.
  Lemma leafy_swap L u Q u' : ((exists x, u = TLeaf x) <-> exists x, u' = TLeaf x) -> leafy only r (L ++ u :: Q) -> leafy only r (L ++ u' :: Q).
  Proof.
    intros Hu Hl Ho. specialize (Hl Ho). apply Forall2_app_inv_r in Hl as (b1 & b2 & Hb1 & Hb2 & ->). apply Forall2_app; [done|].
    apply Forall2_cons_inv_r in Hb2 as (f & b3 & Hf0 & Hb3 & ->). constructor; [|done]. intros v E. apply Hu. by eapply Hf0.
  Qed.

  Lemma leafy_parts (h h' : wderiv R -> wderiv R) L Q k y vs u : keeps_leaves h -> keeps_leaves h' -> ~ (exists x, u = TLeaf x) ->
    leafy only r (L ++ WNode k y vs :: Q) <-> leafy only r (map h L ++ u :: map h' Q).
  Proof.
    intros Hh Hh' Hu. unfold leafy.
    enough (Forall2 value_like (wbody r) (L ++ WNode k y vs :: Q) <-> Forall2 value_like (wbody r) (map h L ++ u :: map h' Q)) by tauto.
    assert (HL : forall b, Forall2 value_like b L <-> Forall2 value_like b (map h L)).
    { intros b. rewrite Forall2_fmap_r. unfold value_like. split; intros H; eapply Forall2_impl; try exact H; intros f t Hf v E; apply Hh; by eapply Hf. }
    assert (HQ : forall b, Forall2 value_like b Q <-> Forall2 value_like b (map h' Q)).
    { intros b. rewrite Forall2_fmap_r. unfold value_like. split; intros H; eapply Forall2_impl; try exact H; intros f t Hf v E; apply Hh'; by eapply Hf. }
    split; intros (b1 & b2 & H1 & H2 & E)%Forall2_app_inv_r; rewrite E;
      apply Forall2_cons_inv_r in H2 as (f & b3 & Hf & H3 & ->); (apply Forall2_app; [by apply HL|]); (constructor; [|by apply HQ]).
    - intros v Ev. by destruct (Hf v Ev).
    - intros v Ev. by destruct (Hf v Ev) as [? ->]; destruct Hu; eauto.
  Qed.

  Section unfolding.
  Context (a a' : wderiv R -> wderiv R) (μp μq : wderiv R -> Z).
  Context (Ha : iso (D ps) (D qs) a a') (Hμ : forall t, D ps t -> μq (a t) = μp t) (Hsp : sized ps μp) (Hsq : sized qs μq).
  Context (HS : forall pp k t (S : Z -> Prop) s (Q : Z -> Prop) z1 z2, us !! pp = Some (k, t) -> Ns !! pp = Some S -> qs !! k = Some (s, Q) -> P z1 -> Q z2 -> S (z1 + z2)).

  Notation a_ok := (to_ok _ _ a a' μp μq Ha Hμ).
  Notation a'_ok := (from_ok _ _ a a' μp μq Ha Hμ).
  Notation a_list := (to_list _ _ a a' μp μq Ha Hμ).
  Notation a'_list := (from_list _ _ a a' μp μq Ha Hμ).
  Notation a_leaves := (to_leaves _ _ a a' Ha).
  Notation a'_leaves := (from_leaves _ _ a a' Ha).

  Fixpoint back (t : wderiv R) : wderiv R :=
    match t with
    | VLeaf v => VLeaf v
    | TLeaf x => TLeaf x
    | WNode p x ts =>
        let ts' := map back ts in
        if decide (p < N)%nat then WNode (ush p) x ts'
        else let n := (length ts - j - m)%nat in
             let k := default 0%nat (map fst us !! (p - N)%nat) in
             WNode i x (take j ts' ++ a' (WNode k (mid (p - N)%nat x (map wroot ts)) (map a (take n (drop j ts')))) :: drop (j + n)%nat ts')
    end.
  Fixpoint forth (n : nat) (t : wderiv R) : wderiv R :=
    match n, t with
    | S n, WNode k x ts =>
        if decide (k = i) then
          match ts !! j with
          | Some u => match a u with
                      | WNode k' _ vs => WNode (N + pos k' (map fst us))%nat x (map (forth n) (take j ts) ++ map (forth n) (map a' vs) ++ map (forth n) (drop (S j) ts))
                      | _ => t
                      end
          | None => t
          end
        else WNode (sh k) x (map (forth n) ts)
    | _, _ => t
    end.
  Lemma back_leaves : keeps_leaves back.
  Proof. intros [v|x|k x ts]; cbn [back]; [split; by intros [? [=]]|done|]. split; [|by intros [? [=]]]. case_decide; by intros [? [=]]. Qed.
  Lemma forth_leaves n : keeps_leaves (forth n).
  Proof.
    destruct n as [|n]; [by intros t|]. intros [v|x|k x ts]; cbn [forth]; [done|done|]. split; [|by intros [? [=]]]. case_decide; [|by intros [? [=]]].
    destruct (ts !! j) as [u|]; [|by intros [? [=]]]. destruct (a u); by intros [? [=]].
  Qed.
  Lemma back_new pp k t x L vs Q (n : nat) : us !! pp = Some (k, t) -> length L = j -> length Q = m ->
    back (WNode (N + pp)%nat x (L ++ vs ++ Q)) = WNode i x (map back L ++ a' (WNode k (mid pp x (map wroot (L ++ vs ++ Q))) (map a (map back vs))) :: map back Q).
  Proof.
    intros Eu HL HQ. cbn [back]. rewrite decide_False by lia. replace (N + pp - N)%nat with pp by lia.
    rewrite (list_lookup_fmap fst), Eu. cbn [fmap option_fmap option_map default fst].
    assert (En : (length (L ++ vs ++ Q) - j - m)%nat = length vs) by (rewrite !app_length; lia). rewrite En.
    rewrite !(map_app back). f_equal. rewrite take_app_alt by (by rewrite map_length). rewrite drop_app_alt by (by rewrite map_length).
    rewrite take_app_alt by (by rewrite map_length). rewrite drop_app_ge by (rewrite map_length; lia). rewrite map_length.
    replace (j + length vs - length L)%nat with (length vs) by lia. by rewrite drop_app_alt by (by rewrite map_length).
  Qed.
  Lemma forth_new n x L u Q k y vs : length L = j -> a u = WNode k y vs ->
    forth (S n) (WNode i x (L ++ u :: Q)) = WNode (N + pos k (map fst us))%nat x (map (forth n) L ++ map (forth n) (map a' vs) ++ map (forth n) Q).
  Proof.
    intros HL Eu. cbn [forth]. rewrite decide_True by done. rewrite list_lookup_middle by done. rewrite Eu. rewrite take_app_alt by done.
    rewrite drop_app_ge by lia. replace (S j - length L)%nat with 1%nat by lia. done.
  Qed.

  Definition back_ok (t : wderiv R) : Prop :=
    D ws t -> D ps (back t) /\ wroot (back t) = wroot t /\ (forall w, wvalue w (back t) = wvalue w t) /\ forall n, μp (back t) <= Z.of_nat n -> forth n (back t) = t.
  Lemma back_list ts : Forall back_ok ts -> Forall (D ws) ts -> Forall (D ps) (map back ts) /\ map wroot (map back ts) = map wroot ts /\
    (forall w, map (wvalue w) (map back ts) = map (wvalue w) ts) /\
    forall n, Forall (fun t => μp t <= Z.of_nat n) (map back ts) -> map (forth n) (map back ts) = ts.
  Proof.
    induction 1 as [|t ts Ht _ IH]; intros HF; [split; [constructor|done]|]. apply Forall_cons in HF as [H1 H2]. destruct (Ht H1) as (A1 & A2 & A3 & A4). destruct (IH H2) as (B1 & B2 & B3 & B4).
    cbn [map]. split_and!; [by constructor|by rewrite A2, B2|intros w; by rewrite A3, B3|]. intros n [C1 C2]%Forall_cons. by rewrite A4, B4.
  Qed.
  (** what the image of a node of a new rule looks like *)
  Lemma back_at p x ts : (N <= p)%nat -> Forall back_ok ts -> D ws (WNode p x ts) -> exists pp k t s L vs Q y, p = (N + pp)%nat /\ us !! pp = Some (k, t) /\ map fst qs !! k = Some s /\
    ts = L ++ vs ++ Q /\ length L = j /\ length Q = m /\
    Forall back_ok L /\ Forall back_ok vs /\ Forall back_ok Q /\ Forall (D ws) L /\ Forall (D ws) vs /\ Forall (D ws) Q /\
    D qs (WNode k y (map a (map back vs))) /\
    back (WNode p x ts) = WNode i x (map back L ++ a' (WNode k y (map a (map back vs))) :: map back Q) /\ D ps (back (WNode p x ts)).
  Proof.
    intros Hp IH Hd. destruct (node_new p x ts Hp Hd) as (pp & k & t & s & L & vs & Q & -> & Eu & Hs & -> & HL & Hvs & HQ & Hir & His & Hlr & Hls & F1 & F2 & F3).
    rewrite !Forall_app in IH. destruct IH as (I1 & I2 & I3). set (y := mid pp x (map wroot (L ++ vs ++ Q))) in *.
    destruct (back_list L I1 F1) as (A1 & A2 & A3 & A4). destruct (back_list vs I2 F2) as (B1 & B2 & B3 & B4). destruct (back_list Q I3 F3) as (C1 & C2 & C3 & C4).
    destruct (a_list _ B1) as (E1 & E2 & E3 & E4 & E5).
    assert (Hdn : D qs (WNode k y (map a (map back vs)))).
    { apply wderives_node. exists s. split; [done|]. rewrite E3, B2. split; [done|]. split; [|done].
      rewrite leafy_map by apply a_leaves. by rewrite leafy_map by apply back_leaves. }
    exists pp, k, t, s, L, vs, Q, y. split_and!; try done.
    - by apply (back_new pp k t x L vs Q 0).
    - rewrite (back_new pp k t x L vs Q 0 Eu HL HQ). fold y. destruct (a'_ok _ Hdn) as (G1 & G2 & G3 & G4 & G5).
      apply wderives_node. exists r. split; [apply Hi'|]. rewrite (map_app wroot). cbn [map]. rewrite A2, C2, G3. cbn [wroot]. split; [done|]. split.
      + apply (leafy_parts back back L Q k y vs); [apply back_leaves..| |done]. intros Hx. by destruct (proj1 (a'_leaves _) Hx).
      + apply Forall_app. split; [done|]. by constructor.
  Qed.
  Lemma back_correct t : back_ok t.
  Proof.
    induction t as [v|x|p x ts IH] using wderiv_ind'.
    - intros _. split; [constructor|]. split; [done|]. split; [done|]. by intros [|n].
    - intros Hd. split; [inversion Hd; by constructor|]. split; [done|]. split; [done|]. by intros [|n].
    - intros Hd. destruct (decide (p < N)%nat) as [Hp|Hp].
      + pose proof Hd as Hd0. apply wderives_node in Hd as (s & Hs & Hin & Hlf & HF). destruct (back_list ts IH HF) as (A1 & A2 & A3 & A4).
        destruct (ws_fst_old' p s Hp Hs) as (E1 & E2 & E3). cbn [back]. rewrite decide_True by done.
        assert (Hd' : D ps (WNode (ush p) x (map back ts))).
        { apply wderives_node. exists s. rewrite A2, leafy_map by apply back_leaves. done. }
        split; [done|]. split; [done|]. split; [intros w; cbn [wvalue]; by rewrite A3|]. intros n Hn.
        destruct n as [|n]. { apply Hsp in Hd'. lia. }
        cbn [forth]. rewrite decide_False by done. rewrite E3, A4; [done|].
        rewrite list_lookup_fmap in E1. destruct (ps !! ush p) as [[s' S']|] eqn:Ep; [|done].
        destruct (proj2 Hsp _ _ _ _ _ Ep Hd') as [_ Hlt]. eapply Forall_impl; [exact Hlt|]. cbn. intros u Hu. lia.
      + destruct (back_at p x ts ltac:(lia) IH Hd) as (pp & k & t & s & L & vs & Q & y & -> & Eu & Hs & -> & HL & HQ & I1 & I2 & I3 & F1 & F2 & F3 & Hdn & Eb & Hb).
        destruct (back_list L I1 F1) as (A1 & A2 & A3 & A4). destruct (back_list vs I2 F2) as (B1 & B2 & B3 & B4). destruct (back_list Q I3 F3) as (C1 & C2 & C3 & C4).
        destruct (a_list _ B1) as (E1 & E2 & E3 & E4 & E5). destruct (a'_ok _ Hdn) as (G1 & G2 & G3 & G4 & G5).
        split; [done|]. rewrite Eb in *. split; [done|]. split.
        * intros w. cbn [wvalue]. rewrite !(map_app (wvalue w)). cbn [map]. rewrite G4. cbn [wvalue]. rewrite A3, C3, E4, B3, !prodl_app. cbn [prodl]. by rewrite <- ?smul_assoc.
        * intros n Hn. destruct n as [|n]. { apply Hsp in Hb. lia. }
          rewrite (forth_new n x (map back L) _ (map back Q) _ _ _ (eq_trans (map_length back L) HL) G2).
          destruct (proj2 Hsp _ _ _ _ _ Hi Hb) as [_ Hlt]. rewrite Forall_app in Hlt. destruct Hlt as [Hl1 [Hl2 Hl3]%Forall_cons].
          rewrite list_lookup_fmap in Hs. destruct (qs !! k) as [[s' S']|] eqn:Ek; [|done].
          destruct (proj2 Hsq _ _ _ _ _ Ek Hdn) as [_ Hlt2]. rewrite Forall_map in Hlt2.
          rewrite (us_pos _ _ _ Eu), E2, A4, B4, C4; [done|..].
          -- eapply Forall_impl; [exact Hl3|]. cbn. intros u Hu. lia.
          -- rewrite Forall_forall in Hlt2, B1. apply Forall_forall. intros u Hu. pose proof (Hlt2 u Hu) as H1. cbn in H1. rewrite Hμ in H1 by (by apply B1). cbn in Hl2. lia.
          -- eapply Forall_impl; [exact Hl1|]. cbn. intros u Hu. lia.
  Qed.

  Lemma forth_list n ts : (forall t, D ps t -> μp t <= Z.of_nat n -> D ws (forth n t) /\ back (forth n t) = t) ->
    Forall (D ps) ts -> Forall (fun t => μp t <= Z.of_nat n) ts -> Forall (D ws) (map (forth n) ts) /\ map back (map (forth n) ts) = ts /\ map wroot (map (forth n) ts) = map wroot ts.
  Proof.
    intros IH HD. induction HD as [|t ts Ht _ IHl]; intros HF; [split; [constructor|done]|]. apply Forall_cons in HF as [H1 H2]. destruct (IH t Ht H1) as [A1 A2]. destruct (IHl H2) as (B1 & B2 & B3).
    cbn [map]. rewrite A2, B2, B3. split; [by constructor|]. split; [done|]. f_equal. destruct (back_correct _ A1) as (_ & E & _). by rewrite A2 in E.
  Qed.
  Lemma forth_correct n : forall t, D ps t -> μp t <= Z.of_nat n -> D ws (forth n t) /\ back (forth n t) = t.
  Proof.
    induction n as [|n IH]; intros t Ht Hn. { apply Hsp in Ht. lia. }
    destruct t as [v|x|k x ts]; [split; [constructor|done]|inversion Ht; split; [by constructor|done]|]. destruct (decide (k = i)) as [->|Hk].
    - destruct (proj2 Hsp _ _ _ _ _ Hi Ht) as [_ Hlt].
      destruct (node_r x ts Ht) as (L & u & Q & y & -> & HL & HQ & Ey & Hbase & Hin & Hlf & F1 & F2 & F3).
      rewrite Forall_app in Hlt. destruct Hlt as [Hl1 [Hl2 Hl3]%Forall_cons].
      destruct (a_ok u F2) as (A1 & A2 & A3 & A4 & A5).
      destruct (a u) as [v|y'|k y' vs] eqn:Eu; cbn [wroot] in A3; [congruence| |].
      { exfalso. inversion A1; subst. rewrite Ey in A3. congruence. }
      rewrite Ey in A3. injection A3 as ->. rewrite (forth_new n x L u Q k y vs HL Eu).
      pose proof A1 as A1'. apply wderives_node in A1' as (s & Hs & Hin' & Hlf' & HFv).
      assert (HLr : length (map wroot L) = j) by (by rewrite map_length).
      pose proof (HB _ _ _ _ _ _ _ Hs HLr Hin Hin') as Hk. destruct (us_at k Hk) as [t Et]. set (pp := pos k (map fst us)) in *.
      destruct (HA pp k t Et) as (s' & Es' & Hlt & Hf & Hb & Hl). assert (s' = s) as -> by congruence.
      pose proof (inst_length _ _ _ Hin') as Hlz. destruct (Hf x (map wroot L) (map wroot vs) (map wroot Q) y HLr Hlz Hin Hin') as [Ht' Hm].
      destruct (a'_list vs HFv) as (B1 & B2 & B3 & B4 & B5).
      assert (Hk' : exists S, qs !! k = Some (s, S)). { rewrite list_lookup_fmap in Hs. destruct (qs !! k) as [[s' S']|]; [|done]. injection Hs as ->. eauto. }
      destruct Hk' as [S' HS']. destruct (proj2 Hsq _ _ _ _ _ HS' A1) as [_ Hlv]. rewrite A5 in Hlv. cbn in Hlv, Hl2.
      destruct (forth_list n L IH F1) as (C1 & C2 & C3). { eapply Forall_impl; [exact Hl1|]. cbn. intros z Hz. lia. }
      destruct (forth_list n (map a' vs) IH B1) as (E1 & E2 & E3).
      { rewrite Forall_forall in Hlv, HFv. apply Forall_forall. intros z (v & -> & Hv)%elem_of_list_fmap. destruct (a'_ok v (HFv v Hv)) as (_ & _ & _ & _ & Ez). specialize (Hlv v Hv). cbn in Hlv. lia. }
      destruct (forth_list n Q IH F3) as (G1 & G2 & G3). { eapply Forall_impl; [exact Hl3|]. cbn. intros z Hz. lia. }
      split.
      + apply wderives_node. exists t. split; [by eapply ws_fst_new'|]. rewrite !(map_app wroot), C3, E3, B3, G3. split; [done|].
        rewrite map_length in Hlz. split; [|rewrite !Forall_app; done].
        apply (Hl _ _ _ k y vs); [by rewrite map_length|by rewrite !map_length|by rewrite map_length|]. split.
        * apply (leafy_parts (forth n) (forth n) L Q k y vs (WNode k y vs)); [apply forth_leaves..|by intros [? [=]]|].
          eapply leafy_swap; [|exact Hlf]. rewrite <- (a_leaves u), Eu. done.
        * rewrite leafy_map by apply forth_leaves. by rewrite leafy_map by apply a'_leaves.
      + rewrite (back_new pp k t x _ _ _ 0 Et) by (by rewrite map_length). rewrite C2, E2, B2, G2.
        rewrite !(map_app wroot), C3, E3, B3, G3, Hm. by rewrite <- Eu, (proj1 (proj2 (a_ok u F2))).
    - pose proof Ht as Ht0. apply wderives_node in Ht as (s & Hs & Hin & Hlf & HF). destruct (ws_fst_old k s Hk Hs) as (E1 & E2 & E3).
      cbn [forth]. rewrite decide_False by done.
      assert (Hk' : exists S, ps !! k = Some (s, S)). { rewrite list_lookup_fmap in Hs. destruct (ps !! k) as [[s' S']|]; [|done]. injection Hs as ->. eauto. }
      destruct Hk' as [S' HS']. destruct (proj2 Hsp _ _ _ _ _ HS' Ht0) as [_ Hlv].
      destruct (forth_list n ts IH HF) as (C1 & C2 & C3). { eapply Forall_impl; [exact Hlv|]. cbn. intros z Hz. lia. }
      split.
      + apply wderives_node. exists s. rewrite C3, leafy_map by apply forth_leaves. done.
      + cbn [back]. rewrite decide_True by done. by rewrite E3, C2.
  Qed.

  Lemma unfold_steps : steps ps ws μp.
  Proof.
    exists back, (fun t => forth (Z.to_nat (μp t)) t). split; [split; [|split; [|split]]|split].
    - intros t Ht. destruct (back_correct t Ht) as (A1 & A2 & A3 & A4). split; [done|]. split; [|done]. apply A4. lia.
    - intros t Ht. apply forth_correct; [done|]. lia.
    - apply back_leaves.
    - intros t. apply forth_leaves.
    - intros t Ht. apply Hsp. by apply back_correct.
    - intros p x ts t S Hp Hd. destruct (decide (p < N)%nat) as [Hlt|Hge].
      + destruct (back_correct _ Hd) as (Hd' & _). destruct (ws_old' p _ Hlt Hp) as (E1 & _). cbn [back] in *. rewrite decide_True in * by done.
        destruct (proj2 Hsp _ _ _ _ _ E1 Hd') as [H1 H2]. rewrite map_map in H1. rewrite Forall_map in H2. done.
      + assert (IH : Forall back_ok ts) by (apply Forall_forall; intros; apply back_correct).
        destruct (back_at p x ts ltac:(lia) IH Hd) as (pp & k & t' & s & L & vs & Q & y & -> & Eu & Hs & -> & HL & HQ & I1 & I2 & I3 & F1 & F2 & F3 & Hdn & Eb & Hb).
        destruct (ws_new (N + pp)%nat _ _ (Nat.le_add_r _ _) Hp) as (k2 & pp2 & Eu2 & ENs & Epp). assert (pp2 = pp) as -> by lia. rewrite Eu in Eu2. injection Eu2 as <- <-.
        destruct (back_list vs I2 F2) as (B1 & _). destruct (a_list _ B1) as (E1 & E2 & E3 & E4 & E5). destruct (a'_ok _ Hdn) as (G1 & G2 & G3 & G4 & G5).
        rewrite Eb in *. destruct (proj2 Hsp _ _ _ _ _ Hi Hb) as [H1 H2].
        assert (Hk' : exists S', qs !! k = Some (s, S')). { rewrite list_lookup_fmap in Hs. destruct (qs !! k) as [[s' S']|]; [|done]. injection Hs as ->. eauto. }
        destruct Hk' as [S' HS']. destruct (proj2 Hsq _ _ _ _ _ HS' Hdn) as [H3 H4]. rewrite E5 in H3.
        rewrite Forall_app in H2. destruct H2 as [Hl1 [Hl2 Hl3]%Forall_cons]. rewrite G5 in Hl2.
        split.
        * pose proof (HS _ _ _ _ _ _ _ _ Eu ENs HS' H1 H3) as H5. rewrite (map_app μp), sumz_app in H5. cbn [map sumz] in H5. rewrite G5, !map_map in H5.
          rewrite !(map_app (fun t => μp (back t))), !sumz_app. eapply eq_rect; [exact H5|]. rewrite ?map_map. lia.
        * rewrite !Forall_app. rewrite Forall_map in Hl1, Hl3. split; [done|]. split; [|done]. rewrite Forall_map in H4.
          rewrite Forall_map in B1. rewrite Forall_forall in H4, B1. apply Forall_forall. intros u Hu.
          assert (Hu' : back u ∈ map back vs) by (apply elem_of_list_fmap; eauto). specialize (H4 _ Hu'). cbn in H4. rewrite Hμ in H4 by (by apply B1). lia.
  Qed.
  End unfolding.

  Section folding.
  Context (a a' : wderiv R -> wderiv R) (μw μq : wderiv R -> Z).
  Context (Ha : iso (D ws) (D qs) a a') (Hμ : forall t, D ws t -> μq (a t) = μw t) (Hsw : sized ws μw) (Hsq : sized qs μq).
  Context (HS : forall pp k t (S : Z -> Prop) s (Q : Z -> Prop) z1 z2, us !! pp = Some (k, t) -> Ns !! pp = Some S -> qs !! k = Some (s, Q) -> S z1 -> Q z2 ->
    0 < z1 - z2 + Z.of_nat (j + m) /\ P (z1 - z2)).
  Notation a_ok := (to_ok _ _ a a' μw μq Ha Hμ).
  Notation a'_ok := (from_ok _ _ a a' μw μq Ha Hμ).
  Notation a_list := (to_list _ _ a a' μw μq Ha Hμ).
  Notation a'_list := (from_list _ _ a a' μw μq Ha Hμ).
  Notation a_leaves := (to_leaves _ _ a a' Ha).
  Notation a'_leaves := (from_leaves _ _ a a' Ha).

  Fixpoint fw (t : wderiv R) : wderiv R :=
    match t with
    | VLeaf v => VLeaf v
    | TLeaf x => TLeaf x
    | WNode k x ts =>
        let ts' := map fw ts in
        if decide (k = i) then
          match ts' !! j with
          | Some u => match a u with
                      | WNode k' _ vs => WNode (N + pos k' (map fst us))%nat x (take j ts' ++ map a' vs ++ drop (S j) ts')
                      | _ => t
                      end
          | None => t
          end
        else WNode (sh k) x ts'
    end.
  Fixpoint bw (n : nat) (t : wderiv R) : wderiv R :=
    match n, t with
    | S n, WNode p x ts =>
        if decide (p < N)%nat then WNode (ush p) x (map (bw n) ts)
        else let c := (length ts - j - m)%nat in
             let k := default 0%nat (map fst us !! (p - N)%nat) in
             WNode i x (map (bw n) (take j ts) ++ bw n (a' (WNode k (mid (p - N)%nat x (map wroot ts)) (map a (take c (drop j ts))))) :: map (bw n) (drop (j + c)%nat ts))
    | _, _ => t
    end.
  Lemma fw_leaves : keeps_leaves fw.
  Proof.
    intros [v|x|k x ts]; cbn [fw]; [split; by intros [? [=]]|done|]. split; [|by intros [? [=]]]. case_decide; [|by intros [? [=]]].
    destruct (map fw ts !! j) as [u|]; [|by intros [? [=]]]. destruct (a u); by intros [? [=]].
  Qed.
  Lemma bw_leaves n : keeps_leaves (bw n).
  Proof. destruct n as [|n]; [by intros t|]. intros [v|x|k x ts]; cbn [bw]; [done|done|]. split; [|by intros [? [=]]]. case_decide; by intros [? [=]]. Qed.
  Lemma fw_new x L u Q k y vs : length L = j -> a (fw u) = WNode k y vs ->
    fw (WNode i x (L ++ u :: Q)) = WNode (N + pos k (map fst us))%nat x (map fw L ++ map a' vs ++ map fw Q).
  Proof.
    intros HL Eu. cbn [fw]. rewrite decide_True by done. rewrite (map_app fw). cbn [map]. rewrite list_lookup_middle by (by rewrite map_length). rewrite Eu.
    rewrite take_app_alt by (by rewrite map_length). rewrite drop_app_ge by (rewrite map_length; lia). rewrite map_length.
    replace (S j - length L)%nat with 1%nat by lia. done.
  Qed.
  Lemma bw_new n pp k t x L vs Q : us !! pp = Some (k, t) -> length L = j -> length Q = m ->
    bw (S n) (WNode (N + pp)%nat x (L ++ vs ++ Q)) =
    WNode i x (map (bw n) L ++ bw n (a' (WNode k (mid pp x (map wroot (L ++ vs ++ Q))) (map a vs))) :: map (bw n) Q).
  Proof.
    intros Eu HL HQ. cbn [bw]. rewrite decide_False by lia. replace (N + pp - N)%nat with pp by lia.
    rewrite (list_lookup_fmap fst), Eu. cbn [fmap option_fmap option_map default fst].
    assert (En : (length (L ++ vs ++ Q) - j - m)%nat = length vs) by (rewrite !app_length; lia). rewrite En.
    rewrite take_app_alt by done. rewrite drop_app_alt by done.
    rewrite take_app_alt by done. rewrite drop_app_ge by lia.
    replace (j + length vs - length L)%nat with (length vs) by lia. by rewrite drop_app_alt by done.
  Qed.

  (** a node of a new rule is larger than the derivation by a definition in it *)
  Lemma smaller pp k t s y x L vs Q : us !! pp = Some (k, t) -> map fst qs !! k = Some s -> length L = j -> length Q = m ->
    Forall (D ws) L -> Forall (D ws) vs -> Forall (D ws) Q -> D qs (WNode k y (map a vs)) -> D ws (WNode (N + pp)%nat x (L ++ vs ++ Q)) ->
    μq (WNode k y (map a vs)) < μw (WNode (N + pp)%nat x (L ++ vs ++ Q)) /\
    P (μw (WNode (N + pp)%nat x (L ++ vs ++ Q)) - (sumz (map μw L) + μq (WNode k y (map a vs)) + sumz (map μw Q))).
  Proof.
    intros Eu Hs HL HQ F1 F2 F3 Hdn Hd. destruct (Ns_some _ _ _ Eu) as [S ES].
    destruct (proj2 Hsw _ _ _ _ _ (ws_new' _ _ _ _ Eu ES) Hd) as [H1 _].
    assert (Hk' : exists S', qs !! k = Some (s, S')). { rewrite list_lookup_fmap in Hs. destruct (qs !! k) as [[s' S']|]; [|done]. injection Hs as ->. eauto. }
    destruct Hk' as [S' HS']. destruct (proj2 Hsq _ _ _ _ _ HS' Hdn) as [H2 _].
    destruct (HS _ _ _ _ _ _ _ _ Eu ES HS' H1 H2) as [H3 H4]. destruct (a_list _ F2) as (_ & _ & _ & _ & E5). rewrite E5 in H3, H4.
    rewrite !(map_app μw), !sumz_app in H3, H4.
    assert (G1 : Z.of_nat (length (map μw L)) <= sumz (map μw L)).
    { apply sumz_ge. rewrite Forall_map. eapply Forall_impl; [exact F1|]. apply Hsw. }
    assert (G2 : Z.of_nat (length (map μw Q)) <= sumz (map μw Q)).
    { apply sumz_ge. rewrite Forall_map. eapply Forall_impl; [exact F3|]. apply Hsw. }
    rewrite map_length in G1, G2. split; [lia|]. eapply eq_rect; [exact H4|]. lia.
  Qed.

  Definition fw_ok (t : wderiv R) : Prop :=
    D ps t -> D ws (fw t) /\ wroot (fw t) = wroot t /\ (forall w, wvalue w (fw t) = wvalue w t) /\ forall n, μw (fw t) <= Z.of_nat n -> bw n (fw t) = t.
  Lemma fw_list ts : Forall fw_ok ts -> Forall (D ps) ts -> Forall (D ws) (map fw ts) /\ map wroot (map fw ts) = map wroot ts /\
    (forall w, map (wvalue w) (map fw ts) = map (wvalue w) ts) /\
    forall n, Forall (fun t => μw t <= Z.of_nat n) (map fw ts) -> map (bw n) (map fw ts) = ts.
  Proof.
    induction 1 as [|t ts Ht _ IH]; intros HF; [split; [constructor|done]|]. apply Forall_cons in HF as [H1 H2]. destruct (Ht H1) as (A1 & A2 & A3 & A4). destruct (IH H2) as (B1 & B2 & B3 & B4).
    cbn [map]. split_and!; [by constructor|by rewrite A2, B2|intros w; by rewrite A3, B3|]. intros n [C1 C2]%Forall_cons. by rewrite A4, B4.
  Qed.
  (** what the image of a node of the rule [r] looks like *)
  Lemma fw_at x ts : Forall fw_ok ts -> D ps (WNode i x ts) -> exists L u Q pp k t s y vs, ts = L ++ u :: Q /\ length L = j /\ length Q = m /\
    us !! pp = Some (k, t) /\ map fst qs !! k = Some s /\
    Forall fw_ok L /\ fw_ok u /\ Forall fw_ok Q /\ Forall (D ps) L /\ D ps u /\ Forall (D ps) Q /\
    a (fw u) = WNode k y vs /\ D qs (WNode k y vs) /\ mid pp x (map wroot (map fw L ++ map a' vs ++ map fw Q)) = y /\
    fw (WNode i x ts) = WNode (N + pp)%nat x (map fw L ++ map a' vs ++ map fw Q) /\ D ws (fw (WNode i x ts)).
  Proof.
    intros IH Hd. destruct (node_r x ts Hd) as (L & u & Q & y & -> & HL & HQ & Ey & Hbase & Hin & Hlf & F1 & F2 & F3).
    rewrite Forall_app in IH. destruct IH as [I1 [I2 I3]%Forall_cons]. destruct (I2 F2) as (U1 & U2 & U3 & U4).
    destruct (a_ok _ U1) as (A1 & A2 & A3 & A4 & A5). rewrite U2, Ey in A3.
    destruct (a (fw u)) as [v|y'|k y' vs] eqn:Eu; cbn [wroot] in A3; [congruence| |].
    { exfalso. inversion A1; subst. congruence. }
    injection A3 as ->. pose proof A1 as A1'. apply wderives_node in A1' as (s & Hs & Hin' & Hlf' & HFv).
    assert (HLr : length (map wroot L) = j) by (by rewrite map_length).
    pose proof (HB _ _ _ _ _ _ _ Hs HLr Hin Hin') as Hk. destruct (us_at k Hk) as [t Et].
    destruct (HA _ k t Et) as (s' & Es' & Hlt & Hf & Hb & Hl). assert (s' = s) as -> by congruence.
    pose proof (inst_length _ _ _ Hin') as Hlz. destruct (Hf x (map wroot L) (map wroot vs) (map wroot Q) y HLr Hlz Hin Hin') as [Ht' Hm].
    destruct (a'_list vs HFv) as (B1 & B2 & B3 & B4 & B5). destruct (fw_list L I1 F1) as (C1 & C2 & C3 & C4). destruct (fw_list Q I3 F3) as (E1 & E2 & E3 & E4).
    exists L, u, Q, (pos k (map fst us)), k, t, s, y, vs. rewrite !(map_app wroot), C2, B3, E2. split_and!; try done; [by apply (fw_new x L u Q k y vs)|].
    rewrite (fw_new x L u Q k y vs HL Eu). apply wderives_node. exists t. split; [by eapply ws_fst_new'|]. rewrite !(map_app wroot), C2, B3, E2. split; [done|].
    rewrite map_length in Hlz. split; [|rewrite !Forall_app; done].
    apply (Hl _ _ _ k y vs); [by rewrite map_length|by rewrite map_length|by rewrite map_length|]. split.
    - apply (leafy_parts fw fw L Q k y vs (WNode k y vs)); [apply fw_leaves..|by intros [? [=]]|].
      eapply leafy_swap; [|exact Hlf]. rewrite <- (fw_leaves u), <- (a_leaves (fw u)), Eu. done.
    - by rewrite leafy_map by apply a'_leaves.
  Qed.
  Lemma fw_correct t : fw_ok t.
  Proof.
    induction t as [v|x|k x ts IH] using wderiv_ind'.
    - intros _. split; [constructor|]. split; [done|]. split; [done|]. by intros [|n].
    - intros Hd. split; [inversion Hd; by constructor|]. split; [done|]. split; [done|]. by intros [|n].
    - intros Hd. destruct (decide (k = i)) as [->|Hk].
      + destruct (fw_at x ts IH Hd) as (L & u & Q & pp & k & t & s & y & vs & -> & HL & HQ & Eu & Hs & I1 & I2 & I3 & F1 & F2 & F3 & Ea & Hdn & Hm & Ef & Hw).
        destruct (fw_list L I1 F1) as (A1 & A2 & A3 & A4). destruct (I2 F2) as (B1 & B2 & B3 & B4). destruct (fw_list Q I3 F3) as (C1 & C2 & C3 & C4).
        destruct (a_ok _ B1) as (G1 & G2 & G3 & G4 & G5). rewrite Ea in *.
        pose proof Hdn as Hdn'. apply wderives_node in Hdn' as (_ & _ & _ & _ & HFv). destruct (a'_list vs HFv) as (E1 & E2 & E3 & E4 & E5).
        split; [done|]. rewrite Ef in *. split; [done|]. split.
        * intros w. cbn [wvalue]. rewrite !(map_app (wvalue w)). cbn [map]. rewrite A3, E4, C3, <- B3, <- G4. cbn [wvalue]. rewrite !prodl_app. cbn [prodl]. by rewrite <- ?smul_assoc.
        * intros n Hn. destruct n as [|n]. { apply Hsw in Hw. lia. }
          rewrite (bw_new n pp k t x _ _ _ Eu) by (by rewrite map_length). rewrite Hm, E2, G2.
          assert (HLf : length (map fw L) = j) by (by rewrite map_length). assert (HQf : length (map fw Q) = m) by (by rewrite map_length).
          assert (Hdn2 : D qs (WNode k y (map a (map a' vs)))) by (by rewrite E2).
          destruct (smaller pp k t s y x _ _ _ Eu Hs HLf HQf A1 E1 C1 Hdn2 Hw) as [Hlt _]. rewrite E2, G5 in Hlt.
          destruct (Ns_some _ _ _ Eu) as [S ES]. destruct (proj2 Hsw _ _ _ _ _ (ws_new' _ _ _ _ Eu ES) Hw) as [_ Hl]. rewrite !Forall_app in Hl. destruct Hl as (Hl1 & _ & Hl3).
          rewrite A4, C4, B4; [done|lia|..]; (eapply Forall_impl; [eassumption|]; cbn; intros z Hz; lia).
      + pose proof Hd as Hd0. apply wderives_node in Hd as (s & Hs & Hin & Hlf & HF). destruct (fw_list ts IH HF) as (A1 & A2 & A3 & A4).
        destruct (ws_fst_old k s Hk Hs) as (E1 & E2 & E3). cbn [fw]. rewrite decide_False by done.
        assert (Hd' : D ws (WNode (sh k) x (map fw ts))).
        { apply wderives_node. exists s. rewrite A2, leafy_map by apply fw_leaves. done. }
        split; [done|]. split; [done|]. split; [intros w; cbn [wvalue]; by rewrite A3|]. intros n Hn.
        destruct n as [|n]. { apply Hsw in Hd'. lia. }
        cbn [bw]. rewrite decide_True by done. rewrite E3, A4; [done|].
        rewrite list_lookup_fmap in E1. destruct (ws !! sh k) as [[s' S']|] eqn:Ep; [|done].
        destruct (proj2 Hsw _ _ _ _ _ Ep Hd') as [_ Hlt]. eapply Forall_impl; [exact Hlt|]. cbn. intros u Hu. lia.
  Qed.

  Lemma bw_list n ts : (forall t, D ws t -> μw t <= Z.of_nat n -> D ps (bw n t) /\ fw (bw n t) = t) ->
    Forall (D ws) ts -> Forall (fun t => μw t <= Z.of_nat n) ts -> Forall (D ps) (map (bw n) ts) /\ map fw (map (bw n) ts) = ts /\ map wroot (map (bw n) ts) = map wroot ts.
  Proof.
    intros IH HD. induction HD as [|t ts Ht _ IHl]; intros HF; [split; [constructor|done]|]. apply Forall_cons in HF as [H1 H2]. destruct (IH t Ht H1) as [A1 A2]. destruct (IHl H2) as (B1 & B2 & B3).
    cbn [map]. rewrite A2, B2, B3. split; [by constructor|]. split; [done|]. f_equal. destruct (fw_correct _ A1) as (_ & E & _). by rewrite A2 in E.
  Qed.
  Lemma bw_correct n : forall t, D ws t -> μw t <= Z.of_nat n -> D ps (bw n t) /\ fw (bw n t) = t.
  Proof.
    induction n as [|n IH]; intros t Ht Hn. { apply Hsw in Ht. lia. }
    destruct t as [v|x|p x ts]; [split; [constructor|done]|inversion Ht; split; [by constructor|done]|].
    pose proof Ht as Hd. apply wderives_node in Hd as (s0 & Hs0 & Hin0 & Hlf0 & HF).
    assert (Hlt : Forall (fun t => μw t <= Z.of_nat n) ts).
    { rewrite list_lookup_fmap in Hs0. destruct (ws !! p) as [[s' S']|] eqn:E; [|done]. destruct (proj2 Hsw _ _ _ _ _ E Ht) as [_ H].
      eapply Forall_impl; [exact H|]. cbn. intros z Hz. lia. }
    destruct (decide (p < N)%nat) as [Hp|Hp].
    - destruct (ws_fst_old' p s0 Hp Hs0) as (E1 & E2 & E3). cbn [bw]. rewrite decide_True by done.
      destruct (bw_list n ts IH HF Hlt) as (C1 & C2 & C3). split.
      + apply wderives_node. exists s0. rewrite C3, leafy_map by apply bw_leaves. done.
      + cbn [fw]. rewrite decide_False by done. by rewrite E3, C2.
    - destruct (node_new p x ts ltac:(lia) Ht) as (pp & k & t & s & L & vs & Q & -> & Eu & Hs & -> & HL & Hvs & HQ & Hir & His & Hlr & Hls & F1 & F2 & F3).
      rewrite (bw_new n pp k t x L vs Q Eu HL HQ). set (y := mid pp x (map wroot (L ++ vs ++ Q))) in *.
      destruct (a_list _ F2) as (E1 & E2 & E3 & E4 & E5).
      assert (Hdn : D qs (WNode k y (map a vs))).
      { apply wderives_node. exists s. split; [done|]. rewrite E3. split; [done|]. split; [|done]. by rewrite leafy_map by apply a_leaves. }
      destruct (a'_ok _ Hdn) as (G1 & G2 & G3 & G4 & G5).
      destruct (smaller pp k t s y x L vs Q Eu Hs HL HQ F1 F2 F3 Hdn Ht) as [Hsm _].
      destruct (IH (a' (WNode k y (map a vs))) G1 ltac:(lia)) as [I1 I2].
      rewrite !Forall_app in Hlt. destruct Hlt as (Hl1 & Hl2 & Hl3).
      destruct (bw_list n L IH F1 Hl1) as (A1 & A2 & A3). destruct (bw_list n Q IH F3 Hl3) as (C1 & C2 & C3).
      assert (Ew : wroot (bw n (a' (WNode k y (map a vs)))) = Goal y).
      { destruct (fw_correct _ I1) as (_ & E & _). rewrite I2, G3 in E. by rewrite <- E. }
      split.
      + apply wderives_node. exists r. split; [apply Hi'|]. rewrite (map_app wroot). cbn [map]. rewrite A3, C3, Ew. split; [done|]. split.
        * apply (leafy_parts (bw n) (bw n) L Q k y vs); [apply bw_leaves..| |done]. intros Hx.
          destruct (proj1 (bw_leaves n _) Hx) as [z Hz]. by destruct (proj1 (a'_leaves _) (ex_intro _ z Hz)).
        * apply Forall_app. split; [done|]. by constructor.
      + assert (Ea : a (fw (bw n (a' (WNode k y (map a vs))))) = WNode k y (map a vs)) by (by rewrite I2).
        rewrite (fw_new x (map (bw n) L) _ (map (bw n) Q) _ _ _ (eq_trans (map_length _ L) HL) Ea). rewrite A2, C2, E2, (us_pos _ _ _ Eu). done.
  Qed.

  Lemma fold_steps : steps ws ps μw.
  Proof.
    exists fw, (fun t => bw (Z.to_nat (μw t)) t). split; [split; [|split; [|split]]|split].
    - intros t Ht. destruct (fw_correct t Ht) as (A1 & A2 & A3 & A4). split; [done|]. split; [|done]. apply A4. lia.
    - intros t Ht. apply bw_correct; [done|]. lia.
    - apply fw_leaves.
    - intros t. apply bw_leaves.
    - intros t Ht. apply Hsw. by apply fw_correct.
    - intros k x ts s S Hk Hd. destruct (decide (k = i)) as [->|Hne].
      + assert (IH : Forall fw_ok ts) by (apply Forall_forall; intros; apply fw_correct).
        destruct (fw_at x ts IH Hd) as (L & u & Q & pp & k & t & s' & y & vs & -> & HL & HQ & Eu & Hs & I1 & I2 & I3 & F1 & F2 & F3 & Ea & Hdn & Hm & Ef & Hw).
        assert (S = P) as -> by congruence.
        destruct (fw_list L I1 F1) as (A1 & _). destruct (I2 F2) as (B1 & _). destruct (fw_list Q I3 F3) as (C1 & _).
        destruct (a_ok _ B1) as (G1 & G2 & G3 & G4 & G5). rewrite Ea in *.
        pose proof Hdn as Hdn'. apply wderives_node in Hdn' as (_ & _ & _ & _ & HFv). destruct (a'_list vs HFv) as (E1 & E2 & E3 & E4 & E5).
        rewrite Ef in *.
        assert (HLf : length (map fw L) = j) by (by rewrite map_length). assert (HQf : length (map fw Q) = m) by (by rewrite map_length).
        assert (Hdn2 : D qs (WNode k y (map a (map a' vs)))) by (by rewrite E2).
        destruct (smaller pp k t s' y x _ _ _ Eu Hs HLf HQf A1 E1 C1 Hdn2 Hw) as [Hlt HP]. rewrite E2, G5 in Hlt, HP.
        destruct (Ns_some _ _ _ Eu) as [S ES]. destruct (proj2 Hsw _ _ _ _ _ (ws_new' _ _ _ _ Eu ES) Hw) as [_ Hl]. rewrite !Forall_app in Hl. destruct Hl as (Hl1 & _ & Hl3).
        split.
        * rewrite (map_app (fun t => μw (fw t))), sumz_app. cbn [map sumz]. rewrite !map_map in HP. eapply eq_rect; [exact HP|]. lia.
        * rewrite Forall_map in Hl1, Hl3. apply Forall_app. split; [done|]. constructor; done.
      + destruct (fw_correct _ Hd) as (Hd' & _). destruct (ws_old k _ Hne Hk) as (E1 & _). cbn [fw] in *. rewrite decide_False in * by done.
        destruct (proj2 Hsw _ _ _ _ _ E1 Hd') as [H1 H2]. rewrite map_map in H1. rewrite Forall_map in H2. done.
  Qed.
  End folding.
  End defs.
End core.
