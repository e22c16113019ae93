(** C22: pruning keeps every derivation of every output. *)
From stdpp Require Import gmap.
From Coq Require Import Lia Sorted ZArith.
From Coq Require String Ascii.
From Verif Require Import PyBase Semiring TermModel TermSpec TermProofs TermProps SetsModel SetsSpec SetsProofs
  GraphModel PruneModel ProgSpec PruneSpec ProgProofs PruneProofs.
Import String.StringSyntax Ascii.AsciiSyntax.

(** [P'] is [P] with some rules left out. *)
Definition some_rules_of (P P' : list rule) : Prop :=
  exists ks, StronglySorted lt ks /\ Forall2 (fun k r => nth_error P k = Some r) ks P'.

Lemma sel_some_rules (bs : list bool) P : length bs = length P -> some_rules_of P (sel bs P).
Proof. intros Hl. destruct (sel_positions bs P Hl) as (ks & _ & Hs & Hf & _). by exists ks. Qed.

(** ** C22: prune_very_fast.  Leaves are builtins, constants and instances of the
    declared inputs. *)
Theorem C22_prune_very_fast :
  forall (pick : nat -> gset term -> term) (n : nat) (inputs outputs : list term) (P : list rule) (base : term -> Prop),
    (forall k A, A <> ∅ -> pick k A ∈ A) ->
    length inputs + length P + length outputs < n ->
    wf_program P -> wf_decls inputs -> wf_decls outputs ->
    (forall x, base x -> exo x = true \/ exists q, In q inputs /\ instance_of q x) ->
    exists P', prune_very_fast pick n inputs outputs P = Ok P' /\ some_rules_of P P' /\
      same_derivations (output_derivation outputs base P) (output_derivation outputs base P').
Proof.
  intros pick n inputs outputs P base Hpick Hn Hwf Hi Ho Hbase.
  destruct (vf_spec pick n inputs outputs P base Hpick Hn Hwf Hi Ho Hbase) as (bs & Hl & E & Hu).
  exists (sel bs P). split; [done|]. split; [by apply sel_some_rules|]. by apply pruned_same.
Qed.

(** ** C22: prune_fast, for enough fuel. *)
Theorem C22_prune_fast :
  forall (al cv : nat -> nat) (pick : nat -> gset nat -> nat) (c : nat) (inputs outputs : list term) (P : list rule)
    (base : term -> Prop),
    (forall i j, al i = al j -> i = j) -> (forall i j, cv i = cv j -> i = j) -> (forall i j, al i <> cv j) ->
    (forall k A, A <> ∅ -> pick k A ∈ A) ->
    wf_program P -> wf_decls inputs -> wf_decls outputs ->
    (forall x, base x -> exo x = true \/ exists q, In q inputs /\ instance_of q x) ->
    exists P', eventually (fun n => prune_fast al cv pick n c inputs outputs P = Ok P') /\ some_rules_of P P' /\
      same_derivations (output_derivation outputs base P) (output_derivation outputs base P').
Proof.
  intros al cv pick c inputs outputs P base Hal Hcv Halcv Hpick Hwf Hi Ho Hbase.
  destruct (fast_spec al cv pick c inputs outputs P base Hal Hcv Halcv Hpick Hwf Hi Ho Hbase) as (bs & Hl & E & Hu).
  exists (sel bs P). split; [exact E|]. split; [by apply sel_some_rules|]. by apply pruned_same.
Qed.

(** ** Witness: a program with a useless rule, a rule without premises to run on,
    and a rule about a constant that no output asks for. *)
Local Open Scope string_scope.
Definition w_t (f : String.string) (xs : list term) : term := Fn (Cst (CStr f) :: xs).
Definition w_n (z : Z) : term := Cst (CInt z).
Definition w_prog : list rule :=
  [ Rule (w_t "goal" []) [w_t "f" [w_n 1]; w_t "<" [Var 0; w_n 5]; Var 0; w_t "inp" [Var 0]];
    Rule (w_t "f" [w_n 1]) [w_t "inp" [w_n 1]; w_n 7];
    Rule (w_t "f" [w_n 2]) [w_t "inp" [w_n 2]];
    Rule (w_t "goal" []) [w_t "nothing" [Var 3]];
    Rule (w_t "useless" [Var 1]) [w_t "inp" [Var 1]] ]%list.
Definition w_in : list term := [w_t "inp" [Var 2]]%list.
Definition w_out : list term := [w_t "goal" []]%list.
Definition w_base (x : term) : Prop := exo x = true \/ exists q, In q w_in /\ instance_of q x.
Definition w_tree : deriv :=
  Node 0 (w_t "goal" []) [Node 1 (w_t "f" [w_n 1]) [Leaf (w_t "inp" [w_n 1]); Leaf (w_n 7)];
                          Leaf (w_t "<" [w_n 3; w_n 5]); Leaf (w_n 3); Leaf (w_t "inp" [w_n 3])]%list.
#[global] Arguments w_t _%string_scope _.
Local Close Scope string_scope.

Example C22_witness_wf : wf_program w_prog /\ wf_decls w_in /\ wf_decls w_out.
Proof.
  split; [|split].
  - intros r Hr. simpl in Hr. repeat destruct Hr as [<-|Hr]; try done;
      (split; [reflexivity|split; [simpl; naive_solver|]]); intros b Hb; simpl in Hb;
      repeat destruct Hb as [<-|Hb]; try done; simpl; naive_solver.
  - intros d [<-|[]]. split; [reflexivity|simpl; naive_solver].
  - intros d [<-|[]]. split; [reflexivity|simpl; naive_solver].
Qed.

Example C22_witness_tree : output_derivation w_out w_base w_prog w_tree.
Proof.
  split; [|split].
  - eapply D_node; [reflexivity| |].
    + exists (fun _ => w_n 3). split; [done|]. split; reflexivity.
    + assert (Hinp : forall z, derives w_prog w_base (Leaf (w_t "inp" [w_n z]))).
      { intros z. constructor. right. exists (w_t "inp" [Var 2]). split; [by left|]. by exists (fun _ => w_n z). }
      constructor; [|constructor; [constructor; by left|constructor; [constructor; by left|constructor; [apply Hinp|constructor]]]].
      eapply D_node; [reflexivity| |].
      * exists (fun _ => w_n 3). split; [done|]. split; reflexivity.
      * constructor; [apply Hinp|]. constructor; [|constructor]. constructor. by left.
  - eapply VO_node; [reflexivity| |].
    + repeat constructor; intros [v ?]; try done; by eexists.
    + constructor; [|repeat constructor]. eapply VO_node; [reflexivity| |repeat constructor].
      repeat constructor; intros [v ?]; done.
  - exists (w_t "goal" []). split; [by left|]. by exists Var.
Qed.

Definition w_pick {A} `{Countable A} (d : A) (_ : nat) (X : gset A) : A := default d (head (elements X)).

Example C22_witness_very_fast :
  prune_very_fast (w_pick (w_n 0)) 20 w_in w_out w_prog =
  Ok [nth 0 w_prog (Rule (w_n 0) []); nth 1 w_prog (Rule (w_n 0) []); nth 2 w_prog (Rule (w_n 0) [])].
Proof. vm_compute. reflexivity. Qed.

Example C22_witness_fast :
  eventually (fun n => prune_fast (fun i => 10 + 2 * i) (fun i => 11 + 2 * i) (w_pick 0) n 0 w_in w_out w_prog =
    Ok [nth 0 w_prog (Rule (w_n 0) []); nth 1 w_prog (Rule (w_n 0) [])]).
Proof. exists 40. intros n Hn. replace n with (40 + (n - 40)) by lia. generalize (n - 40). intros m. vm_compute. reflexivity. Qed.

Print Assumptions C22_prune_very_fast.
Print Assumptions C22_prune_fast.
