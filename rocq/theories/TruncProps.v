(** C37: truncation over-approximates. *)
From Coq Require Import List Lia.
From stdpp Require Import gmap.
From Coq Require String Ascii.
From Verif Require Import PyBase TermModel TermSpec TermProofs SetsProofs PruneProofs FuelProofs ChartProofs TruncModel.
Import String.StringSyntax Ascii.AsciiSyntax.

(** * Specification *)
(** The depth of a term: a variable stands for anything and counts 0. *)
Fixpoint depth (t : term) : nat :=
  match t with
  | Var _ => 0
  | Cst _ => 1
  | Fn [] => 1
  | Fn (_ :: args) => S (fold_right (fun a m => Nat.max (depth a) m) 0 args)
  end.
(** The number of levels: here a variable is one level. *)
Fixpoint levels (t : term) : nat :=
  match t with
  | Fn (_ :: args) => S (fold_right (fun a m => Nat.max (levels a) m) 0 args)
  | _ => 1
  end.
(** Terms whose functors are constants. *)
Fixpoint plain (t : term) : bool :=
  match t with
  | Var _ | Cst _ => true
  | Fn (Cst _ :: args) => forallb plain args
  | Fn _ => false
  end.

(** * Proofs *)
Section trunc.
Context (st : store) (θ : nat -> term) (Hac : acyclic st) (Hθ : resolution st θ).

Lemma args_max (f : term -> nat) (l : list term) D : fold_right (fun a m => Nat.max (f a) m) 0 l <= D <-> Forall (fun a => f a <= D) l.
Proof.
  induction l as [|a l IH]; simpl; [split; [constructor|lia]|]. split.
  - intros H. constructor; [lia|]. apply IH. lia.
  - intros H. apply Forall_cons in H as [H1 H2]. apply IH in H2. lia.
Qed.

(** [c0] bounds the variables of the original terms. *)
Context (c0 : nat).
Definition good (D : nat) (x t : term) (c c' : nat) : Prop :=
  c <= c' /\ (forall v, In v (vars t) -> v < c0 \/ c <= v < c') /\ depth t <= D /\ (levels (sub θ x) <= D -> t = sub θ x) /\
  exists σ, (forall v, v < c0 -> σ v = Var v) /\ sub σ t = sub θ x.
Definition old (x : term) : Prop := plain (sub θ x) = true /\ forall v, In v (vars (sub θ x)) -> v < c0.

Lemma trunc_args D n (IH : forall x c t c', old x -> c0 <= c -> truncate_term D n st x c = Ok (t, c') -> good D x t c c') : forall args c ts c',
  Forall old args -> c0 <= c -> mapSM (truncate_term D n st) args c = Ok (ts, c') ->
  c <= c' /\ (forall t, t ∈ ts -> forall v, In v (vars t) -> v < c0 \/ c <= v < c') /\ Forall (fun t => depth t <= D) ts /\
  (Forall (fun x => levels (sub θ x) <= D) args -> ts = map (sub θ) args) /\
  exists σ, (forall v, v < c0 -> σ v = Var v) /\ map (sub σ) ts = map (sub θ) args.
Proof.
  induction args as [|x args IHa]; intros c ts c' Ho Hc E; cbn [mapSM] in E.
  { injection E as <- <-. split; [done|]. split; [intros t Ht; by apply elem_of_nil in Ht|]. split; [constructor|]. split; [done|]. by exists Var. }
  apply Forall_cons in Ho as [Ho1 Ho2].
  destruct (truncate_term D n st x c) as [[t c1]| |] eqn:E1; try done. cbn [bind] in E.
  destruct (mapSM (truncate_term D n st) args c1) as [[ts1 c2]| |] eqn:E2; try done. cbn [bind] in E. injection E as <- <-.
  destruct (IH x c t c1 Ho1 Hc E1) as (H1 & H2 & H3 & H4 & σ1 & Hσ1 & Ht1).
  destruct (IHa c1 ts1 c2 Ho2) as (G1 & G2 & G3 & G4 & σ2 & Hσ2 & Ht2); [lia|done|].
  split; [lia|]. split; [|split; [by constructor|split]].
  - intros u Hu v Hv. apply elem_of_cons in Hu as [->|Hu]; [specialize (H2 v Hv); lia|]. specialize (G2 u Hu v Hv). lia.
  - intros Hd. apply Forall_cons in Hd as [Hd1 Hd2]. simpl. f_equal; auto.
  - exists (fun v => if decide (v < c1) then σ1 v else σ2 v). split.
    + intros v Hv. rewrite decide_True by lia. by apply Hσ1.
    + cbn [map]. f_equal.
      * rewrite <- Ht1. apply sub_ext. intros v Hv. specialize (H2 v Hv). rewrite decide_True; [done|]. lia.
      * rewrite <- Ht2. apply map_ext_in. intros u Hu. apply sub_ext. intros v Hv. apply elem_of_list_In in Hu.
        destruct (G2 u Hu v Hv) as [Hlt|Hge].
        -- rewrite decide_True by lia. by rewrite Hσ1, Hσ2.
        -- rewrite decide_False; [done|lia].
Qed.

Lemma trunc_ok D n : forall x c t c', old x -> c0 <= c -> truncate_term D n st x c = Ok (t, c') -> good D x t c c'.
Proof.
  induction D as [|D IH]; intros x c t c' [Hp Hv] Hc E; cbn [truncate_term] in E; destruct (snap n st x) as [x'| |] eqn:Ex; try done; cbn [bind] in E;
    destruct (snap_ok st θ Hac Hθ n x x' Ex) as (Hx & Hx1 & _); unfold good; rewrite <- Hx in *; clear Ex Hx x.
  - injection E as <- <-. split; [lia|]. split; [intros v [<-|[]]; lia|]. split; [done|]. split.
    + intros Hd. exfalso. destruct (sub θ x') as [v|k|[|f args]]; simpl in Hd; lia.
    + exists (fun v => if decide (v = c) then sub θ x' else Var v). split; [intros v Hlt; rewrite decide_False by lia; done|].
      simpl. by rewrite decide_True.
  - destruct x' as [v|k|[|f args]]; try done.
    + injection E as <- <-. specialize (Hx1 v eq_refl). assert (Hs : sub θ (Var v) = Var v) by (simpl; by apply Hθ). rewrite Hs in *.
      split; [lia|]. split; [intros w Hw; left; by apply Hv|]. split; [simpl; lia|]. split; [done|]. by exists Var.
    + injection E as <- <-. split; [lia|]. split; [done|]. split; [simpl; lia|]. split; [done|]. by exists Var.
    + destruct (snap n st f) as [f'| |] eqn:Ef; try done. cbn [bind] in E. destruct (snap_ok st θ Hac Hθ n f f' Ef) as (Hf & Hf1 & _).
      destruct (mapSM (truncate_term D n st) args c) as [[ts c1]| |] eqn:E2; try done. cbn [bind] in E. injection E as <- <-.
      cbn [sub map] in *. rewrite <- Hf in *.
      assert (Hk : exists k, f' = Cst k /\ forallb plain (map (sub θ) args) = true).
      { cbn [plain] in Hp. destruct f' as [v|k|l]; [|by exists k|done]. cbn [sub] in Hp. rewrite (proj2 Hθ v (Hf1 v eq_refl)) in Hp. done. }
      destruct Hk as (k & -> & Hpl). rewrite forallb_forall in Hpl.
      destruct (trunc_args D n IH args c ts c1) as (H1 & H2 & H3 & H4 & σ & Hσ & Hts).
      { apply Forall_forall. intros a Ha. split.
        - apply Hpl. apply in_map. by apply elem_of_list_In.
        - intros v Hva. apply Hv. simpl. apply in_flat_map. exists (sub θ a). split; [apply in_map; by apply elem_of_list_In|done]. }
      { done. }
      { done. }
      split; [done|]. split; [|split; [|split]].
      * intros v Hva. simpl in Hva. apply in_flat_map in Hva as (u & Hu & Hva). apply elem_of_list_In in Hu. by apply (H2 u).
      * cbn [depth]. apply le_n_S. by apply args_max.
      * intros Hl. cbn [levels] in Hl. apply le_S_n in Hl. rewrite args_max in Hl. rewrite H4; [done|]. apply Forall_map in Hl. done.
      * exists σ. split; [done|]. cbn [sub map]. by rewrite Hts.
Qed.

Lemma trunc_settles D : forall x c, plain (sub θ x) = true -> exists t c', settles (fun n => truncate_term D n st x c) (t, c').
Proof.
  induction D as [|D IH]; intros x c Hp; destruct (snap_settles st θ Hac Hθ x) as (x' & Hx & Hs & Hx1 & _); rewrite <- Hs in Hp.
  - exists (Var c), (S c). cbn [truncate_term]. eapply (settles_bind (fun n => snap n st x)); [exact Hx|]. apply settles_ret.
  - destruct x' as [v|k|[|f args]]; try done.
    + exists (Var v), c. cbn [truncate_term]. eapply (settles_bind (fun n => snap n st x)); [exact Hx|]. apply settles_ret.
    + exists (Cst k), c. cbn [truncate_term]. eapply (settles_bind (fun n => snap n st x)); [exact Hx|]. apply settles_ret.
    + destruct (snap_settles st θ Hac Hθ f) as (f' & Hf & Hfs & Hf1 & _).
      assert (Hpl : forallb plain (map (sub θ) args) = true).
      { cbn [sub map plain] in Hp. rewrite <- Hfs in Hp. destruct f' as [v|k|l]; [|done|done]. cbn [sub] in Hp. rewrite (proj2 Hθ v (Hf1 v eq_refl)) in Hp. done. }
      rewrite forallb_forall in Hpl.
      destruct (settles_mapSM (fun n => truncate_term D n st) (fun _ _ => True) args) with c as (ts & c' & Hts & _).
      { intros a Ha c1. destruct (IH a c1) as (t & c2 & Ht); [apply Hpl; by apply in_map|]. eauto. }
      exists (Fn (f' :: ts)), c'. cbn [truncate_term]. eapply (settles_bind (fun n => snap n st x)); [exact Hx|]. cbv beta iota.
      eapply (settles_bind (fun n => snap n st f)); [exact Hf|].
      eapply (settles_bind (fun n => mapSM (truncate_term D n st) args c) (fun n (p : list term * nat) => let '(args, c) := p in Ok (Fn (f' :: args), c))); [exact Hts|].
      apply settles_ret.
Qed.
End trunc.

(** C37.  [truncate_term] always returns; the result has depth at most D, and the
    term is obtained from it by replacing only variables that are new.  A term
    with at most D levels is returned unchanged. *)
Theorem C37_truncate st θ D x c :
  acyclic st -> resolution st θ -> plain (sub θ x) = true -> (forall v, In v (vars (sub θ x)) -> v < c) ->
  exists t c', (exists n0, forall n, n0 <= n -> truncate_term D n st x c = Ok (t, c')) /\
    depth t <= D /\
    (exists σ, (forall v, v < c -> σ v = Var v) /\ sub σ t = sub θ x) /\
    (levels (sub θ x) <= D -> t = sub θ x).
Proof.
  intros Hac Hθ Hp Hv. destruct (trunc_settles st θ Hac Hθ D x c Hp) as (t & c' & [n0 Hs]). exists t, c'. split; [by exists n0|].
  destruct (trunc_ok st θ Hac Hθ c D n0 x c t c' (conj Hp Hv) (le_n _) (Hs n0 (le_n _))) as (_ & _ & H1 & H2 & H3). done.
Qed.

(** * Witness *)
Section witness.
  Notation F f args := (Fn (Cst (CStr f) :: args)).
  Let st : store := {[0 := F "s" [Var 1]]}.
  Let θ v := if decide (v = 0) then F "s" [Var 1] else Var v.
  (** f(s(s(X)), X) cut at depths 2, 3 and 4 *)
  Lemma C37_witness :
    acyclic st /\ resolution st θ /\ plain (sub θ (F "f" [F "s" [Var 0]; Var 1])) = true /\
    truncate_term 2 10 st (F "f" [F "s" [Var 0]; Var 1]) 5 = Ok (F "f" [F "s" [Var 5]; Var 1], 6) /\
    truncate_term 1 10 st (F "f" [F "s" [Var 0]; Var 1]) 5 = Ok (F "f" [Var 5; Var 6], 7) /\
    truncate_term 4 10 st (F "f" [F "s" [Var 0]; Var 1]) 5 = Ok (F "f" [F "s" [F "s" [Var 1]]; Var 1], 5) /\
    levels (F "f" [F "s" [F "s" [Var 1]]; Var 1]) = 4.
  Proof.
    split; [|split; [|split; [done|]]].
    - exists (fun v => if decide (v = 0) then 1 else 0). intros v t E w Hw. unfold st in E. apply lookup_singleton_Some in E as [<- <-].
      destruct Hw as [<-|[]]. simpl. lia.
    - split.
      + intros v t E. unfold st in E. apply lookup_singleton_Some in E as [<- <-]. done.
      + intros v E. unfold st in E. apply lookup_singleton_None in E. unfold θ. by rewrite decide_False.
    - split; [vm_compute; reflexivity|]. split; [vm_compute; reflexivity|]. split; vm_compute; reflexivity.
  Qed.
End witness.
Print Assumptions C37_truncate.
