(** Proofs about the slash and left-corner transformations. *)
From Coq Require Import List.
From stdpp Require Import gmap.
From Coq Require Import Lia.
From Verif Require Import PyBase Semiring TermModel TermSpec TermProofs ChartProofs SetsModel SetsProofs FuelProofs UnifyProofs SolverProofs
  PruneModel UpdateModel UpdateSpec UpdateProofs TransSpec TransProofs TransModel UnfoldProofs CoverProofs SlashSpec.
Import ListNotations.

(** The kinds of rules: [KO i], [KOO i] and [KSS i] come from rule [i]; [KB] is the
    base rule; [KRO p] and [KRSO p q] are the recovery rules for the nodes. *)
Inductive skind := KO (i : nat) | KOO (i : nat) | KSS (i : nat) | KB | KRO (p : nat) | KRSO (p q : nat).
#[global] Instance skind_dec : EqDecision skind.
Proof. solve_decision. Defined.

Definition arg1 (x : term) : term := match x with Fn (_ :: y :: _) => y | _ => x end.
Definition arg2 (x : term) : term := match x with Fn (_ :: _ :: y :: _) => y | _ => x end.
Definition item_of {R} (f : factor R) : term := match f with Goal x => x | Val _ => Cst (CInt 0) end.

Section abstract.
  Context {R : semiring} (Hcomm : forall a b : R, smul a b = smul b a).
  (** left-corner or slash *)
  Context (lc : bool).
  Context (rs L : list (wrule R)) (base : term -> Prop) (Xb : term -> bool).
  Context (slf otf nmf : const) (Hso : slf <> otf) (Hsn : slf <> nmf) (Hon : otf <> nmf) (tok : term).
  Definition sl (y z : term) : term := Fn [Cst slf; y; z].
  Definition ot (y : term) : term := Fn [Cst otf; y].
  Definition nm (y : term) : term := Fn [Cst nmf; tok; y].
  Definition old (x : term) : Prop := forall f args, x = Fn (Cst f :: args) -> f <> slf /\ f <> otf /\ f <> nmf.
  Definition base' (x : term) : Prop := base x \/ exists y, x = nm y /\ ground y /\ Xb y = false.
  Context (pos : nat -> option nat) (up ex : nat -> bool) (N : nat -> term -> Prop) (nd : term -> nat).
  Context (endo ro con zex : nat -> bool).
  Context (ix : skind -> nat) (kind : nat -> skind).
  Definition hd (i : nat) (y : term) : term := if up i then ot y else y.
  Definition exs (b : bool) (z : term) : term := if b then z else ot z.
  (** the ground instances of the new rules *)
  Definition kinst (K : skind) (x : term) (fs : list (factor R)) : Prop :=
    match K with
    | KO i => exists r y, rs !! i = Some r /\ pos i = None /\ inst r y fs /\ x = hd i y
    | KOO i => exists r y A b Q, rs !! i = Some r /\ pos i = Some (length A) /\ inst r y (A ++ Goal b :: Q) /\ Xb b = false /\
                 x = hd i y /\ fs = A ++ Goal (exs (ex i) b) :: Q
    | KSS i => exists r y A b Q, rs !! i = Some r /\ pos i = Some (length A) /\ inst r y (A ++ Goal b :: Q) /\
                 if lc then exists t, ground t /\ x = sl t b /\ fs = A ++ Q ++ [Goal (sl t y)]
                 else exists z, ground z /\ Xb z = true /\ x = sl y z /\ fs = A ++ Goal (sl b z) :: Q
    | KB => exists z, ground z /\ (lc = false -> Xb z = true) /\ x = sl z z /\ fs = []
    | KRO p => ro p = true /\ N p x /\ fs = Goal (ot x) :: (if con p then [Goal (nm x)] else [])
    | KRSO p q => endo p = true /\ N p x /\ exists z, N q z /\ Xb z = true /\ fs = [Goal (exs (zex q) z); Goal (sl x z)]
    end.
  Context (HI : forall K x fs, kinst K x fs -> exists t, L !! ix K = Some t /\ inst t x fs /\ kind (ix K) = K).
  Context (HL : forall k t x fs, L !! k = Some t -> inst t x fs -> kinst (kind k) x fs /\ ix (kind k) = k).
  Definition is_head (y : term) : Prop := exists i r fs, rs !! i = Some r /\ inst r y fs.
  (** [z] is what the position of a rule selects *)
  Definition at_pos (z : term) : Prop := exists i r y A Q, rs !! i = Some r /\ pos i = Some (length A) /\ inst r y (A ++ Goal z :: Q).
  Context (Hold : forall i r y fs, rs !! i = Some r -> inst r y fs -> old y /\ forall b, Goal b ∈ fs -> old b).
  Context (Hbase : forall x, base x -> old x).
  Context (Hpos : forall i r j y fs, rs !! i = Some r -> pos i = Some j -> inst r y fs -> exists A b Q, fs = A ++ Goal b :: Q /\ length A = j).
  (** the asserts: either all instances of the subgoal are instances of [x], or none *)
  Context (Hmeet : forall i r y A b Q y' A' b' Q', rs !! i = Some r -> pos i = Some (length A) -> length A' = length A ->
    inst r y (A ++ Goal b :: Q) -> inst r y' (A' ++ Goal b' :: Q') -> Xb b = Xb b').
  Context (Hex : forall i r y A b Q, rs !! i = Some r -> pos i = Some (length A) -> inst r y (A ++ Goal b :: Q) ->
    if ex i then ~ is_head b else ~ base b).
  Context (Hnd : forall z, is_head z \/ (at_pos z /\ base z) -> N (nd z) z /\ forall p, N p z -> p = nd z).
  Context (HN : forall p z, N p z -> ground z) (HN' : forall p z, N p z -> old z).
  Context (Hendo : forall y, is_head y -> endo (nd y) = true).
  Context (Hendo' : forall p y, endo p = true -> N p y -> ~ base y).
  Context (Hzex : forall q z, N q z -> Xb z = true -> if zex q then ~ is_head z else ~ base z).
  Context (Hup : forall i r y fs, rs !! i = Some r -> inst r y fs -> Xb y = true -> up i = true).
  Context (Hup' : forall i r y fs k r' x A Q, rs !! i = Some r -> inst r y fs -> rs !! k = Some r' -> pos k = Some (length A) ->
    inst r' x (A ++ Goal y :: Q) -> ex k = false -> up i = true).
  Context (Hro : forall i r y fs, rs !! i = Some r -> inst r y fs -> up i = true -> Xb y = false -> ro (nd y) = true).
  Context (Hcon : forall p y, ro p = true -> con p = false -> N p y -> Xb y = false).

  Definition frame : Type := nat * term * term * list (wderiv R) * list (wderiv R).
  Definition fmapF (f : wderiv R -> wderiv R) : list frame -> list frame :=
    map (fun fr : frame => let '(i, y, b, A, Q) := fr in (i, y, b, map f A, map f Q)).
  (** the slashed item as a derivation *)
  Fixpoint enc_slash (fr : list frame) (z : term) : wderiv R :=
    match fr with
    | [] => WNode (ix KB) (sl z z) []
    | (i, y, b, A, Q) :: fr => WNode (ix (KSS i)) (sl y z) (A ++ enc_slash fr z :: Q)
    end.
  Fixpoint enc_lct (top : term) (fr : list frame) (s : wderiv R) : wderiv R :=
    match fr with
    | [] => s
    | (i, y, b, A, Q) :: fr => enc_lct top fr (WNode (ix (KSS i)) (sl top b) (A ++ Q ++ [s]))
    end.
  Definition enc (top : term) (fr : list frame) (z : term) : wderiv R :=
    if lc then enc_lct top fr (WNode (ix KB) (sl top top) []) else enc_slash fr z.

  Fixpoint tp (t : wderiv R) : wderiv R * (list frame * term * wderiv R) :=
    match t with
    | VLeaf v => (VLeaf v, ([], Cst (CInt 0), VLeaf v))
    | TLeaf x => (TLeaf x, ([], x, TLeaf x))
    | WNode i y ts =>
        let ims := map tp ts in
        let ts' := map fst ims in
        let ps := match pos i with
                  | None => ([], y, WNode (ix (KO i)) (hd i y) ts')
                  | Some j =>
                      match ims !! j with
                      | None => ([], y, t)
                      | Some (u, (fr, z, o)) =>
                          if Xb z then ((i, y, item_of (wroot u), take j ts', drop (S j) ts') :: fr, z, o)
                          else ([], y, WNode (ix (KOO i)) (hd i y) (take j ts' ++ o :: drop (S j) ts'))
                      end
                  end in
        let '(fr, z, o) := ps in
        (if Xb z then WNode (ix (KRSO (nd y) (nd z))) y [o; enc y fr z]
         else if up i then WNode (ix (KRO (nd y))) y (o :: if con (nd y) then [TLeaf (nm y)] else [])
         else o, ps)
    end.
  Definition im (t : wderiv R) : wderiv R := fst (tp t).
  Definition parts (t : wderiv R) : list frame * term * wderiv R := snd (tp t).
  Lemma tp_im ts : map fst (map tp ts) = map im ts.
  Proof. by rewrite map_map. Qed.
  Lemma im_node i y ts fr z o : parts (WNode i y ts) = (fr, z, o) ->
    im (WNode i y ts) = if Xb z then WNode (ix (KRSO (nd y) (nd z))) y [o; enc y fr z]
         else if up i then WNode (ix (KRO (nd y))) y (o :: if con (nd y) then [TLeaf (nm y)] else [])
         else o.
  Proof.
    unfold im, parts. cbn [tp]. destruct (pos i) as [j|].
    - destruct (map tp ts !! j) as [[u [[fr' z'] o']]|].
      + destruct (Xb z') eqn:E; cbn [fst snd]; intros [= <- <- <-]; by rewrite ?E.
      + cbn [fst snd]. by intros [= <- <- <-].
    - cbn [fst snd]. by intros [= <- <- <-].
  Qed.
  Lemma parts_none i y ts : pos i = None -> parts (WNode i y ts) = ([], y, WNode (ix (KO i)) (hd i y) (map im ts)).
  Proof. intros E. unfold parts. cbn [tp]. rewrite E. cbn [snd]. by rewrite tp_im. Qed.
  Lemma parts_some i y A c Q fr z o : pos i = Some (length A) -> parts c = (fr, z, o) ->
    parts (WNode i y (A ++ c :: Q)) =
      if Xb z then ((i, y, item_of (wroot (im c)), map im A, map im Q) :: fr, z, o)
      else ([], y, WNode (ix (KOO i)) (hd i y) (map im A ++ o :: map im Q)).
  Proof.
    intros E Ec. unfold parts in *. assert (Et : tp c = (im c, (fr, z, o))) by (rewrite <- Ec; apply surjective_pairing).
    cbn [tp]. rewrite E, tp_im, list_lookup_fmap, list_lookup_middle by done. cbn [fmap option_fmap option_map]. rewrite Et.
    rewrite map_app. cbn [map]. rewrite take_app_alt by (by rewrite map_length). rewrite drop_app_ge by (rewrite map_length; lia).
    rewrite map_length. replace (S (length A) - length A) with 1 by lia. cbn [drop]. rewrite drop_0.
    destruct (Xb z) eqn:Ez; cbn [snd fst]; rewrite ?Ez; done.
  Qed.

  (** back *)
  Definition plugf (F : list frame) (c : wderiv R) : wderiv R :=
    foldr (fun (fr : frame) c => let '(i, y, b, A, Q) := fr in WNode i y (A ++ c :: Q)) c F.
  Definition head_or (os : list (wderiv R)) : wderiv R := match os with u :: _ => u | [] => TLeaf (Cst (CInt 0)) end.
  Fixpoint un (t : wderiv R) : wderiv R * list frame :=
    match t with
    | VLeaf v => (VLeaf v, [])
    | TLeaf x => (TLeaf x, [])
    | WNode k x ts =>
        let ims := map un ts in
        let os := map fst ims in
        match kind k with
        | KO i | KOO i => (WNode i (if up i then arg1 x else x) os, [])
        | KRO p => (head_or os, [])
        | KRSO p q => (plugf (match ims !! 1 with Some u => snd u | None => [] end) (head_or os), [])
        | KB => (t, [])
        | KSS i =>
            let j := default 0 (pos i) in
            if lc then
              let n := length ts - 1 in
              (t, match ims !! n with Some u => snd u | None => [] end ++
                  [(i, arg2 (item_of (match ts !! n with Some s => wroot s | None => Goal x end)), arg2 x, take j os, take (n - j) (drop j os))])
            else
              (t, (i, arg1 x, arg1 (item_of (match ts !! j with Some s => wroot s | None => Goal x end)), take j os, drop (S j) os) ::
                  match ims !! j with Some u => snd u | None => [] end)
        end
    end.
  Definition un1 (t : wderiv R) : wderiv R := fst (un t).
  Definition un2 (t : wderiv R) : list frame := snd (un t).
  Lemma un_un1 ts : map fst (map un ts) = map un1 ts.
  Proof. by rewrite map_map. Qed.

  Notation D := (wderives False rs base).
  Notation D' := (wderives False L base').
  Definition W (w : term -> R) : Prop := forall y, w (nm y) = sone.

  Lemma d_node (P : list (wrule R)) B i x ts : wderives False P B (WNode i x ts) <-> exists r, P !! i = Some r /\ inst r x (map wroot ts) /\ Forall (wderives False P B) ts.
  Proof.
    rewrite wderives_node. split; intros (r & H1 & H2 & H3); exists r; [tauto|]. split; [done|]. split; [done|]. split; [by intros []|done].
  Qed.
  Lemma k_node K x ts : kinst K x (map wroot ts) -> Forall D' ts -> D' (WNode (ix K) x ts) /\ kind (ix K) = K.
  Proof. intros H HF. destruct (HI _ _ _ H) as (t & Ht & Hin & Hk). split; [|done]. apply d_node. by exists t. Qed.

  (** the spine from [y] down to [z] *)
  Fixpoint path (P : wderiv R -> Prop) (y : term) (fr : list frame) (z : term) : Prop :=
    match fr with
    | [] => y = z
    | (i, y', b, A, Q) :: fr => y' = y /\ (exists r, rs !! i = Some r /\ pos i = Some (length A) /\ inst r y (map wroot A ++ Goal b :: map wroot Q)) /\
        Forall P A /\ Forall P Q /\ path P b fr z
    end.
  Lemma path_at_pos P fr : forall y z, path P y fr z -> fr <> [] -> at_pos z.
  Proof.
    induction fr as [|[[[[i y'] b] A] Q] fr IH]; intros y z Hp Hne; [done|]. cbn [path] in Hp. destruct Hp as (-> & (r & H1 & H2 & H3) & _ & _ & Hp).
    destruct fr as [|f fr]; [|by apply (IH b z Hp)]. cbn in Hp. subst b. exists i, r, y, (map wroot A), (map wroot Q). by rewrite map_length.
  Qed.
  Lemma path_head P fr : forall y z, path P y fr z -> fr <> [] -> is_head y.
  Proof.
    destruct fr as [|[[[[i y'] b] A] Q] fr]; intros y z Hp Hne; [done|]. cbn [path] in Hp. destruct Hp as (-> & (r & H1 & H2 & H3) & _).
    by eexists _, _, _.
  Qed.
  Lemma path_app P fr : forall y z fr' u, path P y fr z -> path P z fr' u -> path P y (fr ++ fr') u.
  Proof.
    induction fr as [|[[[[i y'] b] A] Q] fr IH]; intros y z fr' u Hp Hq; [by cbn in Hp; subst|].
    cbn [path app] in *. destruct Hp as (-> & H1 & H2 & H3 & Hp). split; [done|]. split; [done|]. split; [done|]. split; [done|]. by eapply IH.
  Qed.
  Fixpoint prodF (w : term -> R) (fr : list frame) : R :=
    match fr with
    | [] => sone
    | (i, y, b, A, Q) :: fr => smul (smul (prodl (map (wvalue w) A)) (prodl (map (wvalue w) Q))) (prodF w fr)
    end.

  Lemma enc_slash_ok fr : lc = false -> forall y z, path D' y fr z -> ground z -> Xb z = true ->
    D' (enc_slash fr z) /\ wroot (enc_slash fr z) = Goal (sl y z) /\ un2 (enc_slash fr z) = fmapF un1 fr /\ forall w, wvalue w (enc_slash fr z) = prodF w fr.
  Proof.
    intros Hlc. induction fr as [|[[[[i y'] b] A] Q] fr IH]; intros y z Hp Hg Hx.
    - cbn in Hp. subst y. destruct (k_node KB (sl z z) []) as [H1 H2].
      { exists z. done. }
      { constructor. }
      cbn [enc_slash]. split; [done|]. split; [done|]. split; [|done]. unfold un2. cbn [un map]. by rewrite H2.
    - cbn [path] in Hp. destruct Hp as (-> & (r & Hr & Hj & Hin) & HA & HQ & Hp). destruct (IH b z Hp Hg Hx) as (H1 & H2 & H3 & H4).
      destruct (k_node (KSS i) (sl y z) (A ++ enc_slash fr z :: Q)) as [K1 K2].
      { exists r, y, (map wroot A), b, (map wroot Q). rewrite map_length. split; [done|]. split; [done|]. split; [done|]. rewrite Hlc. exists z.
        rewrite map_app. cbn [map]. by rewrite H2. }
      { apply Forall_app. split; [done|]. by constructor. }
      cbn [enc_slash]. split; [done|]. split; [done|]. split.
      + unfold un2. cbn [un]. rewrite K2, Hj, Hlc. cbn [snd from_option]. unfold id. rewrite un_un1, list_lookup_fmap, !list_lookup_middle by done.
        cbn [fmap option_fmap option_map]. rewrite H2. cbn [item_of arg1 sl]. rewrite map_app. cbn [map].
        rewrite take_app_alt by (by rewrite map_length). rewrite drop_app_ge by (rewrite map_length; lia).
        rewrite map_length. replace (S (length A) - length A) with 1 by lia. cbn [drop]. rewrite drop_0. unfold un2 in H3.
        cbn [fmapF map]. f_equal. exact H3.
      + intros w. cbn [wvalue prodF]. rewrite map_app, prodl_app. cbn [map]. 
        change (prodl (wvalue w (enc_slash fr z) :: map (wvalue w) Q)) with (smul (wvalue w (enc_slash fr z)) (prodl (map (wvalue w) Q))).
        rewrite H4. rewrite <- smul_assoc. f_equal. apply Hcomm.
  Qed.
  Lemma enc_lct_ok fr : lc = true -> forall top y z s, path D' y fr z -> ground top -> D' s -> wroot s = Goal (sl top y) ->
    D' (enc_lct top fr s) /\ wroot (enc_lct top fr s) = Goal (sl top z) /\ un2 (enc_lct top fr s) = un2 s ++ fmapF un1 fr /\
    forall w, wvalue w (enc_lct top fr s) = smul (wvalue w s) (prodF w fr).
  Proof.
    intros Hlc. induction fr as [|[[[[i y'] b] A] Q] fr IH]; intros top y z s Hp Hg Hs Hrs.
    - cbn in Hp. subst y. cbn [enc_lct fmapF map prodF]. rewrite app_nil_r. split; [done|]. split; [done|]. split; [done|]. intros w. by rewrite smul_1_r.
    - cbn [path] in Hp. destruct Hp as (-> & (r & Hr & Hj & Hin) & HA & HQ & Hp).
      destruct (k_node (KSS i) (sl top b) (A ++ Q ++ [s])) as [K1 K2].
      { exists r, y, (map wroot A), b, (map wroot Q). rewrite map_length. split; [done|]. split; [done|]. split; [done|]. rewrite Hlc. exists top.
        rewrite !map_app. cbn [map]. by rewrite Hrs. }
      { apply Forall_app. split; [done|]. apply Forall_app. split; [done|]. by constructor. }
      destruct (IH top b z _ Hp Hg K1 eq_refl) as (H1 & H2 & H3 & H4). cbn [enc_lct]. split; [done|]. split; [done|]. split.
      + rewrite H3. unfold un2 at 1. cbn [un]. rewrite K2, Hj, Hlc. cbn [snd from_option]. unfold id.
        assert (El : length (A ++ Q ++ [s]) - 1 = length (A ++ Q)) by (rewrite !app_length; cbn; lia). rewrite El.
        rewrite (app_assoc A Q [s]), un_un1, list_lookup_fmap, !list_lookup_middle by done. cbn [fmap option_fmap option_map]. rewrite Hrs.
        cbn [item_of arg2 sl]. rewrite !map_app. cbn [map]. rewrite <- (app_assoc (map un1 A)).
        rewrite take_app_alt by (by rewrite map_length). rewrite drop_app_alt by (by rewrite map_length).
        rewrite app_length. replace (length A + length Q - length A) with (length Q) by lia. rewrite take_app_alt by (by rewrite map_length).
        fold (un2 s). rewrite <- app_assoc. done.
      + intros w. rewrite H4. cbn [wvalue prodF]. rewrite !map_app, !prodl_app. cbn [map].
        change (prodl [wvalue w s]) with (smul (wvalue w s) sone). rewrite smul_1_r.
        rewrite (smul_assoc _ (prodl (map (wvalue w) A))), (Hcomm _ (wvalue w s)). by rewrite !smul_assoc.
  Qed.
  Lemma enc_ok fr y z : path D' y fr z -> ground y -> ground z -> Xb z = true ->
    D' (enc y fr z) /\ wroot (enc y fr z) = Goal (sl y z) /\ un2 (enc y fr z) = fmapF un1 fr /\ forall w, wvalue w (enc y fr z) = prodF w fr.
  Proof.
    intros Hp Hg Hg' Hx. unfold enc. destruct lc eqn:Hlc.
    - destruct (k_node KB (sl y y) []) as [H1 H2].
      { exists y. split; [done|]. split; [by rewrite Hlc|done]. }
      { constructor. }
      destruct (enc_lct_ok fr Hlc y y z (WNode (ix KB) (sl y y) []) Hp Hg H1 eq_refl) as (K1 & K2 & K3 & K4).
      split; [done|]. split; [done|]. split.
      + rewrite K3. unfold un2 at 1. cbn [un map]. by rewrite H2.
      + intros w. rewrite K4. cbn [wvalue map]. change (@prodl R []) with (@sone R). by rewrite smul_1_l.
    - by apply enc_slash_ok.
  Qed.

  Definition oz (z : term) (o : wderiv R) : Prop :=
    (o = TLeaf z /\ base z) \/ exists k r fs, rs !! k = Some r /\ inst r z fs /\ wroot o = Goal (hd k z).
  Definition good_parts (t : wderiv R) (y : term) (fr : list frame) (z : term) (o : wderiv R) : Prop :=
    path D' y fr z /\ D' o /\ oz z o /\ plugf (fmapF un1 fr) (un1 o) = t /\ (forall w, W w -> wvalue w t = smul (prodF w fr) (wvalue w o)) /\
    (t = TLeaf y \/ is_head y) /\ (Xb z = true \/ fr = []).
  Definition tr_ok (t : wderiv R) : Prop := D t ->
    D' (im t) /\ wroot (im t) = wroot t /\ un1 (im t) = t /\ (forall w, W w -> wvalue w (im t) = wvalue w t) /\
    forall y fr z o, wroot t = Goal y -> parts t = (fr, z, o) -> good_parts t y fr z o.
  Lemma tr_kids ts : Forall tr_ok ts -> Forall D ts ->
    Forall D' (map im ts) /\ map wroot (map im ts) = map wroot ts /\ map un1 (map im ts) = ts /\
    forall w, W w -> map (wvalue w) (map im ts) = map (wvalue w) ts.
  Proof.
    induction 1 as [|t ts Ht _ IH]; intros HF; [split; [constructor|]; done|]. inversion HF as [|? ? H1 H2]; subst.
    destruct (Ht H1) as (A1 & A2 & A3 & A4 & _). destruct (IH H2) as (B1 & B2 & B3 & B4). cbn [map].
    split; [by constructor|]. split; [by rewrite A2, B2|]. split; [by rewrite A3, B3|]. intros w Hw. by rewrite A4, B4.
  Qed.
  Lemma head_or_cons u l : head_or (u :: l) = u.
  Proof. done. Qed.

  Lemma tr_correct t : tr_ok t.
  Proof.
    induction t as [v|x|i y ts IH] using wderiv_ind'; intros Hd.
    - split; [constructor|]. split; [done|]. split; [done|]. split; [done|]. done.
    - inversion Hd as [|? Hb|]; subst. split; [constructor; by left|]. split; [done|]. split; [done|]. split; [done|].
      intros y fr z o [= <-] [= <- <- <-]. split; [done|]. split; [constructor; by left|]. split; [by left|]. split; [done|].
      split; [intros w _; cbn; by rewrite smul_1_l|]. split; [by left|by right].
    - apply d_node in Hd as (r & Hr & Hin & HF).
      assert (Hh : is_head y) by (by eexists _, _, _).
      assert (Hg : exists fr z o, parts (WNode i y ts) = (fr, z, o) /\ good_parts (WNode i y ts) y fr z o /\ (Xb z = true \/ (z = y /\ wroot o = Goal (hd i y)))).
      { destruct (pos i) as [j|] eqn:Hj.
        - destruct (Hpos i r j y _ Hr Hj Hin) as (fA & b & fQ & E & HlA).
          apply map_eq_app in E as (A & l & -> & EA & E). apply map_eq_cons in E as (c & Q & -> & Ec & EQ). subst fA fQ. rewrite map_length in HlA.
          apply Forall_app in IH as [IA IH]. apply Forall_cons in IH as [IHc IQ].
          apply Forall_app in HF as [FA HF]. apply Forall_cons in HF as [Fc FQ].
          destruct (tr_kids A IA FA) as (A1 & A2 & A3 & A4). destruct (tr_kids Q IQ FQ) as (Q1 & Q2 & Q3 & Q4).
          destruct (IHc Fc) as (C1 & C2 & C3 & C4 & C5). destruct (parts c) as [[fr z] o] eqn:Ep.
          destruct (C5 b fr z o Ec eq_refl) as (G1 & G2 & G3 & G4 & G5 & G6 & G7).
          rewrite map_app in Hin. cbn [map] in Hin. rewrite Ec in Hin. subst j.
          rewrite (parts_some i y A c Q fr z o Hj Ep). destruct (Xb z) eqn:Hz.
          + eexists _, _, _. split; [done|]. split; [|by left]. rewrite C2, Ec. cbn [item_of].
            split; [|split; [done|split; [done|split; [|split; [|split; [by right|by left]]]]]].
            * cbn [path]. split; [done|]. split; [|done]. exists r. rewrite map_length, A2, Q2. done.
            * cbn [fmapF map plugf foldr]. rewrite A3, Q3. fold (fmapF un1 fr). fold (plugf (fmapF un1 fr) (un1 o)). by rewrite G4.
            * intros w Hw. cbn [wvalue prodF]. rewrite !map_app, prodl_app. cbn [map]. rewrite (A4 w Hw), (Q4 w Hw).
              change (prodl (wvalue w c :: map (wvalue w) Q)) with (smul (wvalue w c) (prodl (map (wvalue w) Q))).
              rewrite (G5 w Hw). rewrite <- !smul_assoc. f_equal. rewrite (Hcomm (prodl (map (wvalue w) Q))). by rewrite !smul_assoc.
          + assert (fr = []) as -> by (by destruct G7). cbn in G1. subst z.
            assert (Ho : wroot o = Goal (exs (ex i) b)).
            { pose proof (Hex i r y (map wroot A) b (map wroot Q) Hr ltac:(by rewrite map_length) Hin) as He.
              destruct G3 as [[-> Hb]|(k & s & fs & Hk & Hs & Ho)].
              - destruct (ex i); [done|]. by destruct He.
              - assert (Hhb : is_head b) by (by eexists _, _, _). destruct (ex i) eqn:Ei; [by destruct He|]. rewrite Ho. unfold hd.
                by rewrite (Hup' k s b fs i r y (map wroot A) (map wroot Q) Hk Hs Hr ltac:(by rewrite map_length) Hin Ei). }
            destruct (k_node (KOO i) (hd i y) (map im A ++ o :: map im Q)) as [K1 K2].
            { exists r, y, (map wroot A), b, (map wroot Q). rewrite map_length. split; [done|]. split; [done|]. split; [done|]. split; [done|]. split; [done|].
              rewrite map_app. cbn [map]. by rewrite A2, Q2, Ho. }
            { apply Forall_app. split; [done|]. by constructor. }
            assert (Hun : un1 (WNode (ix (KOO i)) (hd i y) (map im A ++ o :: map im Q)) = WNode i y (A ++ c :: Q)).
            { unfold un1. cbn [un]. rewrite K2. cbn [fst]. rewrite un_un1, map_app. cbn [map]. rewrite A3, Q3. cbn in G4. rewrite G4. f_equal.
              unfold hd. by destruct (up i). }
            eexists _, _, _. split; [done|]. split; [|by right]. split; [done|]. split; [done|]. split; [right; by eexists _, _, _|].
            split; [done|]. split; [|split; [by right|by right]]. intros w Hw. cbn [wvalue prodF]. rewrite smul_1_l, !map_app. cbn [map].
            rewrite (A4 w Hw), (Q4 w Hw). rewrite (G5 w Hw). cbn [prodF]. by rewrite smul_1_l.
        - destruct (tr_kids ts IH HF) as (A1 & A2 & A3 & A4). rewrite (parts_none i y ts Hj). eexists _, _, _. split; [done|].
          destruct (k_node (KO i) (hd i y) (map im ts)) as [K1 K2].
          { exists r, y. rewrite A2. done. }
          { done. }
          split; [|by right]. split; [done|]. split; [done|]. split; [right; by eexists _, _, _|]. split; [|split; [|split; [by right|by right]]].
          + cbn [fmapF map plugf foldr]. unfold un1. cbn [un]. rewrite K2. cbn [fst]. rewrite un_un1, A3. f_equal. unfold hd. by destruct (up i).
          + intros w Hw. cbn [wvalue prodF]. by rewrite smul_1_l, A4. }
      destruct Hg as (fr & z & o & Ep & HG & HZ). rewrite (im_node i y ts fr z o Ep).
      destruct HG as (G1 & G2 & G3 & G4 & G5 & G6 & G7) eqn:EG. clear EG.
      destruct (Hnd y (or_introl Hh)) as [Ny Uy].
      assert (HR : forall y0 fr0 z0 o0, wroot (WNode i y ts) = Goal y0 -> parts (WNode i y ts) = (fr0, z0, o0) -> good_parts (WNode i y ts) y0 fr0 z0 o0).
      { intros y0 fr0 z0 o0 [= <-]. rewrite Ep. intros [= <- <- <-]. done. }
      destruct (Xb z) eqn:Hz.
      + assert (Hspot : is_head z \/ (at_pos z /\ base z)).
        { destruct G3 as [[-> Hb]|(k & s & fs & Hk & Hs & Ho)]; [|left; by eexists _, _, _].
          destruct fr as [|f fr]; [cbn in G1; subst z; by left|]. right. split; [|done]. by eapply path_at_pos. }
        destruct (Hnd z Hspot) as [Nz Uz].
        destruct (enc_ok fr y z G1 (HN _ _ Ny) (HN _ _ Nz) Hz) as (E1 & E2 & E3 & E4).
        destruct (k_node (KRSO (nd y) (nd z)) y [o; enc y fr z]) as [K1 K2].
        { split; [by apply Hendo|]. split; [done|]. exists z. split; [done|]. split; [done|]. cbn [map]. rewrite E2. f_equal.
          pose proof (Hzex (nd z) z Nz Hz) as He. destruct G3 as [[-> Hb]|(k & s & fs & Hk & Hs & Ho)].
          - destruct (zex (nd z)); [done|]. by destruct He.
          - assert (Hhz : is_head z) by (by eexists _, _, _). destruct (zex (nd z)); [by destruct He|]. rewrite Ho. unfold hd, exs.
            by rewrite (Hup k s z fs Hk Hs Hz). }
        { constructor; [done|]. by constructor. }
        split; [done|]. split; [done|]. split; [|split; [|done]].
        * unfold un1. cbn [un]. rewrite K2. cbn [fst map]. rewrite head_or_cons. change (snd (un (enc y fr z))) with (un2 (enc y fr z)).
          change (fst (un o)) with (un1 o). cbn [lookup list_lookup]. rewrite <- G4. f_equal. exact E3.
        * intros w Hw. cbn [wvalue map]. change (prodl [wvalue w o; wvalue w (enc y fr z)]) with (smul (wvalue w o) (smul (wvalue w (enc y fr z)) sone)).
          rewrite E4, smul_1_r, Hcomm. symmetry. by apply G5.
      + destruct HZ as [?|[-> Ho]]; [done|]. assert (fr = []) as -> by (by destruct G7). cbn in G4.
        assert (Hv : forall w, W w -> wvalue w o = wvalue w (WNode i y ts)) by (intros w Hw; rewrite (G5 w Hw); cbn [prodF]; by rewrite smul_1_l).
        destruct (up i) eqn:Hu.
        * destruct (k_node (KRO (nd y)) y (o :: (if con (nd y) then [TLeaf (nm y)] else []))) as [K1 K2].
          { split; [by eapply Hro|]. split; [done|]. cbn [map]. rewrite Ho. unfold hd. rewrite Hu. by destruct (con (nd y)). }
          { constructor; [done|]. destruct (con (nd y)); [|constructor]. constructor; [|constructor]. constructor. right. exists y.
            split; [done|]. split; [by apply (HN _ _ Ny)|done]. }
          split; [done|]. split; [done|]. split; [|split; [|done]].
          -- unfold un1. cbn [un]. rewrite K2. cbn [fst map]. rewrite head_or_cons. exact G4.
          -- intros w Hw. rewrite <- (Hv w Hw). cbn [wvalue map]. destruct (con (nd y)); cbn [map wvalue].
             ++ change (smul (wvalue w o) (smul (w (nm y)) sone) = wvalue w o). by rewrite Hw, !smul_1_r.
             ++ change (smul (wvalue w o) sone = wvalue w o). by rewrite smul_1_r.
        * split; [done|]. split; [rewrite Ho; unfold hd; by rewrite Hu|]. split; [done|]. split; [done|]. done.
  Qed.

  Lemma old_sl y z : ~ old (sl y z).
  Proof. intros H. by destruct (H _ _ eq_refl) as (? & _ & _). Qed.
  Lemma old_ot y : ~ old (ot y).
  Proof. intros H. by destruct (H _ _ eq_refl) as (_ & ? & _). Qed.
  Lemma old_nm y : ~ old (nm y).
  Proof. intros H. by destruct (H _ _ eq_refl) as (_ & _ & ?). Qed.
  Lemma head_old y : is_head y -> old y.
  Proof. intros (i & r & fs & Hr & Hin). exact (proj1 (Hold i r y fs Hr Hin)). Qed.

  Lemma plug_ok F : forall y z c fr0 z0 o0, path D y F z -> D c -> wroot c = Goal z -> parts c = (fr0, z0, o0) -> Xb z0 = true ->
    D (plugf F c) /\ wroot (plugf F c) = Goal y /\ parts (plugf F c) = (fmapF im F ++ fr0, z0, o0).
  Proof.
    induction F as [|[[[[i y'] b] A] Q] F IH]; intros y z c fr0 z0 o0 Hp Hc Hrc Epc Hz.
    - cbn in Hp. subst y. done.
    - cbn [path] in Hp. destruct Hp as (-> & (r & Hr & Hj & Hin) & HA & HQ & Hp).
      destruct (IH b z c fr0 z0 o0 Hp Hc Hrc Epc Hz) as (H1 & H2 & H3). cbn [plugf foldr]. fold (plugf F c).
      split; [|split; [done|]].
      + apply d_node. exists r. split; [done|]. split; [|apply Forall_app; split; [done|by constructor]]. rewrite map_app. cbn [map]. by rewrite H2.
      + rewrite (parts_some i y A (plugf F c) Q _ _ _ Hj H3), Hz. destruct (tr_correct (plugf F c) H1) as (_ & E & _). rewrite E, H2. done.
  Qed.

  Definition back_ok (d : wderiv R) : Prop := D' d -> forall x, wroot d = Goal x ->
    (old x -> D (un1 d) /\ wroot (un1 d) = Goal x /\ im (un1 d) = d /\ (d = TLeaf x /\ base x \/ is_head x)) /\
    (forall y, x = ot y -> D (un1 d) /\ parts (un1 d) = ([], y, d) /\ is_head y /\ exists i ts, un1 d = WNode i y ts /\ up i = true) /\
    (forall y z, x = sl y z -> ground z /\ (lc = false -> Xb z = true) /\ path D y (un2 d) z /\ enc y (fmapF im (un2 d)) z = d) /\
    (forall y, x = nm y -> d = TLeaf x /\ Xb y = false).
  Lemma back_kids ts : Forall back_ok ts -> Forall D' ts -> (forall b, Goal b ∈ map wroot ts -> old b) ->
    Forall D (map un1 ts) /\ map wroot (map un1 ts) = map wroot ts /\ map im (map un1 ts) = ts.
  Proof.
    induction 1 as [|t ts Ht _ IH]; intros HF Ho; [split; [constructor|done]|]. inversion HF as [|? ? H1 H2]; subst.
    destruct IH as (B1 & B2 & B3); [done|intros b Hb; apply Ho; by right|].
    assert (Hx : D (un1 t) /\ wroot (un1 t) = wroot t /\ im (un1 t) = t).
    { destruct (wroot t) as [v|x] eqn:E.
      - destruct t; [|done..]. cbn in E. injection E as <-. split; [constructor|done].
      - destruct (Ht H1 x E) as (A & _). destruct A as (A1 & A2 & A3 & _); [apply Ho; cbn; rewrite E; by left|]. done. }
    destruct Hx as (A1 & A2 & A3). cbn [map]. split; [by constructor|]. split; [by rewrite A2, B2|by rewrite A3, B3].
  Qed.
  (** a node of a rule [KO i] or [KOO i] *)
  Lemma back_o i r y fs x ts' d : rs !! i = Some r -> inst r y fs -> x = hd i y -> un1 d = WNode i y ts' -> D (un1 d) -> parts (un1 d) = ([], y, d) ->
    (old x -> D (un1 d) /\ wroot (un1 d) = Goal x /\ im (un1 d) = d /\ (d = TLeaf x /\ base x \/ is_head x)) /\
    (forall y, x = ot y -> D (un1 d) /\ parts (un1 d) = ([], y, d) /\ is_head y /\ exists i ts, un1 d = WNode i y ts /\ up i = true) /\
    (forall y z, x = sl y z -> ground z /\ (lc = false -> Xb z = true) /\ path D y (un2 d) z /\ enc y (fmapF im (un2 d)) z = d) /\
    (forall y, x = nm y -> d = TLeaf x /\ Xb y = false).
  Proof.
    intros Hr Hin -> Eu HD Ep. assert (Hh : is_head y) by (by eexists _, _, _). pose proof (head_old y Hh) as Hy. unfold hd.
    destruct (up i) eqn:Hu; (split; [|split; [|split]]).
    - by intros ?%old_ot.
    - intros y0 [= <-]. split; [done|]. split; [done|]. split; [done|]. by exists i, ts'.
    - intros y0 z0 E. unfold ot, sl in E. done.
    - intros y0 E. unfold ot, nm in E. done.
    - intros _. split; [done|]. rewrite Eu in *. split; [done|]. split; [|by right]. rewrite (im_node i y ts' [] y d Ep), Hu.
      destruct (Xb y) eqn:Ex; [|done]. rewrite (Hup i r y fs Hr Hin Ex) in Hu. done.
    - intros y0 ->. by destruct (old_ot y0).
    - intros y0 z0 ->. by destruct (old_sl y0 z0).
    - intros y0 ->. by destruct (old_nm y0).
  Qed.
  Lemma enc_lct_app F : forall top F' s, enc_lct top (F ++ F') s = enc_lct top F' (enc_lct top F s).
  Proof. induction F as [|[[[[i y'] b] A] Q] F IH]; intros top F' s; [done|]. cbn [app enc_lct]. apply IH. Qed.

  (** a node of a recovery rule derives an item that is the head of a rule *)
  Lemma back_r x d : is_head x -> (D (un1 d) /\ wroot (un1 d) = Goal x /\ im (un1 d) = d) ->
    (old x -> D (un1 d) /\ wroot (un1 d) = Goal x /\ im (un1 d) = d /\ (d = TLeaf x /\ base x \/ is_head x)) /\
    (forall y, x = ot y -> D (un1 d) /\ parts (un1 d) = ([], y, d) /\ is_head y /\ exists i ts, un1 d = WNode i y ts /\ up i = true) /\
    (forall y z, x = sl y z -> ground z /\ (lc = false -> Xb z = true) /\ path D y (un2 d) z /\ enc y (fmapF im (un2 d)) z = d) /\
    (forall y, x = nm y -> d = TLeaf x /\ Xb y = false).
  Proof.
    intros Hh (H1 & H2 & H3). pose proof (head_old x Hh) as Hx. split; [|split; [|split]].
    - intros _. split; [done|]. split; [done|]. split; [done|]. by right.
    - intros y ->. by destruct (old_ot y).
    - intros y z ->. by destruct (old_sl y z).
    - intros y ->. by destruct (old_nm y).
  Qed.

  Lemma back_correct d : back_ok d.
  Proof.
    induction d as [v|x|k x ts IH] using wderiv_ind'; intros Hd x0 Hx0; [done| |]; cbn [wroot] in Hx0; injection Hx0 as <-.
    - inversion Hd as [|? Hb|]; subst. destruct Hb as [Hb|(y & -> & Hg & Hy)].
      + pose proof (Hbase x Hb) as Ho. split; [|split; [|split]].
        * intros _. split; [by constructor|]. split; [done|]. split; [done|]. by left.
        * intros y ->. by destruct (old_ot y).
        * intros y z ->. by destruct (old_sl y z).
        * intros y ->. by destruct (old_nm y).
      + split; [|split; [|split]].
        * by intros ?%old_nm.
        * intros y0 E. unfold nm, ot in E. done.
        * intros y0 z0 E. unfold nm, sl in E. congruence.
        * intros y0 [= ->]. done.
    - apply d_node in Hd as (t & Ht & Hin & HF). destruct (HL k t x _ Ht Hin) as [HK Hk].
      destruct (kind k) as [i|i|i| |p|p q] eqn:Ek; cbn [kinst] in HK.
      + destruct HK as (r & y & Hr & Hj & Hi & ->). destruct (Hold i r y _ Hr Hi) as [Oy Ob].
        destruct (back_kids ts IH HF Ob) as (B1 & B2 & B3).
        assert (Eu : un1 (WNode k (hd i y) ts) = WNode i y (map un1 ts)).
        { unfold un1. cbn [un]. rewrite Ek. cbn [fst]. rewrite un_un1. f_equal. unfold hd. by destruct (up i). }
        apply (back_o i r y _ _ (map un1 ts) _ Hr Hi eq_refl Eu).
        * rewrite Eu. apply d_node. exists r. by rewrite B2.
        * rewrite Eu, (parts_none i y _ Hj), B3, Hk. done.
      + destruct HK as (r & y & fA & b & fQ & Hr & Hj & Hi & Hb & -> & E).
        apply map_eq_app in E as (A & l & -> & EA & E). apply map_eq_cons in E as (c & Q & -> & Ec & EQ). subst fA fQ. rewrite map_length in Hj.
        apply Forall_app in IH as [IA IH]. apply Forall_cons in IH as [IHc IQ].
        apply Forall_app in HF as [FA HF]. apply Forall_cons in HF as [Fc FQ]. destruct (Hold i r y _ Hr Hi) as [Oy Ob].
        destruct (back_kids A IA FA) as (A1 & A2 & A3). { intros a Ha. apply Ob. apply elem_of_app. by left. }
        destruct (back_kids Q IQ FQ) as (Q1 & Q2 & Q3). { intros a Ha. apply Ob. apply elem_of_app. right. by right. }
        assert (Hc : D (un1 c) /\ wroot (un1 c) = Goal b /\ parts (un1 c) = ([], b, c)).
        { pose proof (Hex i r y (map wroot A) b (map wroot Q) Hr ltac:(by rewrite map_length) Hi) as He. destruct (ex i); cbn [exs] in Ec.
          - destruct (IHc Fc b Ec) as (P1 & _). destruct P1 as (P1 & P2 & P3 & P4); [apply Ob, elem_of_app; right; by left|].
            destruct P4 as [[-> P4]|P4]; [|by destruct He]. done.
          - destruct (IHc Fc _ Ec) as (_ & P & _). destruct (P b eq_refl) as (P1 & P2 & P3 & i' & ts' & P4 & P5). split; [done|]. rewrite P4 in *. done. }
        destruct Hc as (C1 & C2 & C3).
        assert (Eu : un1 (WNode k (hd i y) (A ++ c :: Q)) = WNode i y (map un1 A ++ un1 c :: map un1 Q)).
        { unfold un1 at 1. cbn [un]. rewrite Ek. cbn [fst]. rewrite un_un1, map_app. cbn [map]. f_equal. unfold hd. by destruct (up i). }
        apply (back_o i r y _ _ (map un1 A ++ un1 c :: map un1 Q) _ Hr Hi eq_refl Eu).
        * rewrite Eu. apply d_node. exists r. split; [done|]. rewrite map_app. cbn [map]. rewrite A2, Q2, C2. split; [done|].
          apply Forall_app. split; [done|]. by constructor.
        * rewrite Eu, (parts_some i y _ _ _ _ _ _ ltac:(by rewrite map_length) C3), Hb, A3, Q3, Hk. done.
      + destruct HK as (r & y & fA & b & fQ & Hr & Hj & Hi & HK). destruct (Hold i r y _ Hr Hi) as [Oy Ob].
        assert (Hcase : forall u v, x = sl u v ->
          ground v /\ (lc = false -> Xb v = true) /\ path D u (un2 (WNode k x ts)) v /\ enc u (fmapF im (un2 (WNode k x ts))) v = WNode k x ts).
        { destruct lc eqn:Hlc.
          - destruct HK as (top & Hg & -> & E). intros u v [= <- <-].
            apply map_eq_app in E as (A & l & -> & EA & E). apply map_eq_app in E as (Q & l2 & -> & EQ & E). apply map_eq_cons in E as (s & l3 & -> & Es & E).
            destruct l3; [|done]. subst fA fQ. rewrite map_length in Hj.
            apply Forall_app in IH as [IA IH]. apply Forall_app in IH as [IQ IHs]. apply Forall_cons in IHs as [IHs _].
            apply Forall_app in HF as [FA HF]. apply Forall_app in HF as [FQ Fs]. apply Forall_cons in Fs as [Fs _].
            destruct (back_kids A IA FA) as (A1 & A2 & A3). { intros a Ha. apply Ob. apply elem_of_app. by left. }
            destruct (back_kids Q IQ FQ) as (Q1 & Q2 & Q3). { intros a Ha. apply Ob. apply elem_of_app. right. by right. }
            destruct (IHs Fs _ Es) as (_ & _ & P & _). destruct (P top y eq_refl) as (P0 & P1 & P2 & P3).
            assert (Eu : un2 (WNode k (sl top b) (A ++ Q ++ [s])) = un2 s ++ [(i, y, b, map un1 A, map un1 Q)]).
            { unfold un2 at 1. cbn [un]. rewrite Ek, Hj, Hlc. cbn [snd from_option]. unfold id.
              assert (El : length (A ++ Q ++ [s]) - 1 = length (A ++ Q)) by (rewrite !app_length; cbn; lia). rewrite El.
              rewrite (app_assoc A Q [s]), un_un1, list_lookup_fmap, !list_lookup_middle by done. cbn [fmap option_fmap option_map]. rewrite Es.
              cbn [item_of arg2 sl]. rewrite !map_app. cbn [map]. rewrite <- (app_assoc (map un1 A)).
              rewrite take_app_alt by (by rewrite map_length). rewrite drop_app_alt by (by rewrite map_length).
              rewrite app_length. replace (length A + length Q - length A) with (length Q) by lia. rewrite take_app_alt by (by rewrite map_length). done. }
            rewrite Eu. split; [|split; [done|]].
            + destruct Hi as (σ & Hσ & _ & Ei). apply map_eq_app in Ei as (? & l & _ & _ & Ei). apply map_eq_cons in Ei as (f & l2 & _ & Ef & _).
              destruct f as [|bb]; [done|]. injection Ef as <-. by apply ground_sub_all.
            + split.
            * eapply path_app; [done|]. cbn [path]. split; [done|]. split; [|done]. exists r. rewrite map_length, A2, Q2. done.
            * unfold enc in P3 |- *. rewrite Hlc in P3 |- *. unfold fmapF. rewrite map_app. fold (fmapF im (un2 s)). cbn [map].
              rewrite enc_lct_app, P3. cbn [enc_lct]. rewrite A3, Q3, Hk. done.
          - destruct HK as (z & Hg & Hz & -> & E). intros u v [= <- <-].
            apply map_eq_app in E as (A & l & -> & EA & E). apply map_eq_cons in E as (s & Q & -> & Es & EQ). subst fA fQ. rewrite map_length in Hj.
            apply Forall_app in IH as [IA IH]. apply Forall_cons in IH as [IHs IQ].
            apply Forall_app in HF as [FA HF]. apply Forall_cons in HF as [Fs FQ].
            destruct (back_kids A IA FA) as (A1 & A2 & A3). { intros a Ha. apply Ob. apply elem_of_app. by left. }
            destruct (back_kids Q IQ FQ) as (Q1 & Q2 & Q3). { intros a Ha. apply Ob. apply elem_of_app. right. by right. }
            destruct (IHs Fs _ Es) as (_ & _ & P & _). destruct (P b z eq_refl) as (P0 & P1 & P2 & P3).
            assert (Eu : un2 (WNode k (sl y z) (A ++ s :: Q)) = (i, y, b, map un1 A, map un1 Q) :: un2 s).
            { unfold un2 at 1. cbn [un]. rewrite Ek, Hj, Hlc. cbn [snd from_option]. unfold id. rewrite un_un1, list_lookup_fmap, !list_lookup_middle by done.
              cbn [fmap option_fmap option_map]. rewrite Es. cbn [item_of arg1 sl]. rewrite map_app. cbn [map].
              rewrite take_app_alt by (by rewrite map_length). rewrite drop_app_ge by (rewrite map_length; lia).
              rewrite map_length. replace (S (length A) - length A) with 1 by lia. cbn [drop]. by rewrite drop_0. }
            rewrite Eu. split; [done|]. split; [done|]. split.
            * cbn [path]. split; [done|]. split; [|done]. exists r. rewrite map_length, A2, Q2. done.
            * unfold enc in P3 |- *. rewrite Hlc in P3 |- *. cbn [fmapF map enc_slash]. fold (fmapF im (un2 s)). rewrite P3, A3, Q3, Hk. done. }
        assert (Hx : exists u v, x = sl u v).
        { destruct lc; [destruct HK as (top & _ & -> & _)|destruct HK as (z & _ & _ & -> & _)]; by eexists _, _. }
        destruct Hx as (u & v & Hx). split; [|split; [|split; [done|]]].
        * intros Ho. rewrite Hx in Ho. by destruct (old_sl u v).
        * intros y0 E. rewrite Hx in E. unfold sl, ot in E. done.
        * intros y0 E. rewrite Hx in E. unfold sl, nm in E. congruence.
      + destruct HK as (z & Hg & Hz & -> & E). destruct ts; [|done]. split; [|split; [|split]].
        * by intros ?%old_sl.
        * intros y0 E0. unfold sl, ot in E0. done.
        * intros u v [= <- <-]. assert (Eu : un2 (WNode k (sl z z) []) = []) by (unfold un2; cbn [un map]; by rewrite Ek).
          rewrite Eu. split; [done|]. split; [done|]. split; [done|]. unfold enc. rewrite <- Hk. by destruct lc.
        * intros y0 E0. unfold sl, nm in E0. congruence.
      + destruct HK as (Hp & HNx & E). destruct ts as [|o ts]; [done|]. cbn [map] in E. injection E as Eo E.
        apply Forall_cons in IH as [IHo IH]. apply Forall_cons in HF as [Fo HF].
        destruct (IHo Fo _ Eo) as (_ & P & _). destruct (P x eq_refl) as (P1 & P2 & P3 & i & us & P4 & P5).
        destruct (Hnd x (or_introl P3)) as [_ Ux]. pose proof (Ux p HNx) as Epx. subst p.
        assert (Hc : Xb x = false /\ ts = if con (nd x) then [TLeaf (nm x)] else []).
        { destruct (con (nd x)) eqn:Hc.
          - destruct ts as [|c [|? ?]]; [done| |done]. cbn [map] in E. injection E as E. apply Forall_cons in IH as [IHc _]. apply Forall_cons in HF as [Fc _].
            destruct (IHc Fc _ E) as (_ & _ & _ & P'). destruct (P' x eq_refl) as [-> Hx]. done.
          - destruct ts; [|done]. split; [by apply (Hcon (nd x))|done]. }
        destruct Hc as [Hx ->].
        assert (Eu : un1 (WNode k x (o :: (if con (nd x) then [TLeaf (nm x)] else []))) = un1 o).
        { unfold un1 at 1. cbn [un]. rewrite Ek. done. }
        apply back_r; [done|]. rewrite Eu. split; [done|]. rewrite P4 in *. split; [done|].
        rewrite (im_node i x us [] x o P2), Hx, P5, Hk. done.
      + destruct HK as (Hp & HNx & z & HNz & Hz & E). destruct ts as [|o [|s [|? ?]]]; [done|done| |done]. cbn [map] in E. injection E as Eo Es.
        apply Forall_cons in IH as [IHo IH]. apply Forall_cons in IH as [IHs _]. apply Forall_cons in HF as [Fo HF]. apply Forall_cons in HF as [Fs _].
        destruct (IHs Fs _ Es) as (_ & _ & P & _). destruct (P x z eq_refl) as (Sg & _ & S2 & S3).
        assert (Ho : D (un1 o) /\ wroot (un1 o) = Goal z /\ parts (un1 o) = ([], z, o) /\ (is_head z \/ (o = TLeaf z /\ base z))).
        { pose proof (Hzex q z HNz Hz) as He. destruct (zex q); cbn [exs] in Eo.
          - pose proof (HN' q z HNz) as Oz.
            destruct (IHo Fo z Eo) as (P0 & _). destruct (P0 Oz) as (O1 & O2 & O3 & [[-> O4]|O4]); [|by destruct He].
            split; [done|]. split; [done|]. split; [done|]. by right.
          - destruct (IHo Fo _ Eo) as (_ & P0 & _). destruct (P0 z eq_refl) as (O1 & O2 & O3 & i & us & O4 & O5). split; [done|].
            rewrite O4 in *. split; [done|]. split; [done|]. by left. }
        destruct Ho as (O1 & O2 & O3 & O4).
        destruct (plug_ok (un2 s) x z (un1 o) [] z o S2 O1 O2 O3 Hz) as (U1 & U2 & U3). rewrite app_nil_r in U3.
        assert (Hh : is_head x).
        { destruct (un2 s) as [|f F] eqn:EF; [|by eapply path_head]. cbn in S2. subst x. destruct O4 as [O4|[-> Hb]]; [done|].
          by destruct (Hendo' p z Hp HNx). }
        assert (Hspot : is_head z \/ (at_pos z /\ base z)).
        { destruct O4 as [O4|[-> Hb]]; [by left|]. destruct (un2 s) as [|f F] eqn:EF; [cbn in S2; subst x; by left|]. right. split; [|done]. by eapply path_at_pos. }
        destruct (Hnd x (or_introl Hh)) as [_ Ux]. destruct (Hnd z Hspot) as [_ Uz]. pose proof (Ux p HNx). pose proof (Uz q HNz). subst p q.
        assert (Eu : un1 (WNode k x [o; s]) = plugf (un2 s) (un1 o)).
        { unfold un1 at 1. cbn [un]. rewrite Ek. done. }
        apply back_r; [done|]. rewrite Eu. split; [done|]. split; [done|].
        assert (Hn : exists i us, plugf (un2 s) (un1 o) = WNode i x us).
        { destruct (un2 s) as [|[[[[i y'] b] A] Q] F] eqn:EF.
          - cbn in S2. subst x. cbn. destruct (un1 o) as [|z'|i z' us] eqn:Eo1; [done| |].
            + cbn in O2. injection O2 as ->. inversion O1 as [|? Hb|]; subst. by destruct (Hendo' _ z Hp HNx).
            + cbn in O2. injection O2 as ->. by eexists _, _.
          - cbn [path] in S2. destruct S2 as (-> & _). cbn [plugf foldr]. by eexists _, _. }
        destruct Hn as (i & us & En). rewrite En in *. rewrite (im_node i x us _ z o U3), Hz, S3, Hk. done.
  Qed.

  Theorem spine_meaning : same_meaning_if W (wderives False rs base)
    (fun t => wderives False L base' t /\ forall x, wroot t = Goal x -> old x).
  Proof.
    exists im, un1. split.
    - intros t Ht. destruct (tr_correct t Ht) as (H1 & H2 & H3 & H4 & _). split; [|done]. split; [done|]. rewrite H2. intros x Hx.
      destruct t as [v|y|i y ts]; [done| |]; cbn [wroot] in Hx; injection Hx as ->.
      + inversion Ht; subst. by apply Hbase.
      + apply d_node in Ht as (r & Hr & Hin & _). exact (proj1 (Hold i r x _ Hr Hin)).
    - intros t [Ht Ho]. destruct (wroot t) as [v|x] eqn:E.
      + destruct t; [|done..]. split; [constructor|done].
      + destruct (back_correct t Ht x E) as (P & _). destruct (P (Ho x eq_refl)) as (P1 & _ & P3 & _). done.
  Qed.
End abstract.
