(** Semirings (specification).  The Python code takes semirings from the
    external package [semirings]; the operations used are zero, one, +, *,
    and star.  Multiplication is NOT assumed commutative unless a theorem says
    so. *)
From Coq Require Import List Arith Lia Bool Permutation.
Import ListNotations.

Record semiring := SR {
  car :> Type;
  szero : car;
  sone : car;
  sadd : car -> car -> car;
  smul : car -> car -> car;
  sadd_assoc : forall x y z, sadd x (sadd y z) = sadd (sadd x y) z;
  sadd_comm : forall x y, sadd x y = sadd y x;
  sadd_0_l : forall x, sadd szero x = x;
  smul_assoc : forall x y z, smul x (smul y z) = smul (smul x y) z;
  smul_1_l : forall x, smul sone x = x;
  smul_1_r : forall x, smul x sone = x;
  smul_0_l : forall x, smul szero x = szero;
  smul_0_r : forall x, smul x szero = szero;
  smul_add_l : forall x y z, smul (sadd x y) z = sadd (smul x z) (smul y z);
  smul_add_r : forall x y z, smul x (sadd y z) = sadd (smul x y) (smul x z);
}.

Arguments szero {_}.
Arguments sone {_}.
Arguments sadd {_} _ _.
Arguments smul {_} _ _.

Declare Scope sr_scope.
Delimit Scope sr_scope with sr.
Notation "x + y" := (sadd x y) : sr_scope.
Notation "x * y" := (smul x y) : sr_scope.
Notation "0" := szero : sr_scope.
Notation "1" := sone : sr_scope.

(** Sum of [f 0 .. f (n-1)]. *)
Fixpoint sumn {S : semiring} (n : nat) (f : nat -> S) : S :=
  match n with
  | O => szero
  | Datatypes.S m => sadd (sumn m f) (f m)
  end.

(** Sum over a list, left-to-right product of a list. *)
Definition suml {S : semiring} {A} (l : list A) (f : A -> S) : S :=
  fold_right (fun a acc => sadd (f a) acc) szero l.

Definition prodl {S : semiring} (l : list S) : S :=
  fold_right smul sone l.

#[global] Arguments suml : simpl never.

(** Concrete instances used in examples. *)
Definition bool_sr : semiring.
Proof.
  refine (SR bool false true orb andb _ _ _ _ _ _ _ _ _ _);
    repeat intros []; reflexivity.
Defined.

Definition nat_sr : semiring.
Proof.
  refine (SR nat 0 1 Nat.add Nat.mul _ _ _ _ _ _ _ _ _ _); intros; nia.
Defined.

Section Lemmas.
Context {S : semiring}.
Local Open Scope sr_scope.
Implicit Types (x y z : S).

Lemma sadd_0_r x : x + 0 = x.
Proof. rewrite sadd_comm. apply sadd_0_l. Qed.

Lemma sadd_swap x y z : x + (y + z) = y + (x + z).
Proof. rewrite !sadd_assoc, (sadd_comm _ x y). reflexivity. Qed.

Lemma sadd_4 a b c d : (a + b) + (c + d) = (a + c) + (b + d) :> S.
Proof. rewrite <- !sadd_assoc. f_equal. apply sadd_swap. Qed.

Lemma sumn_ext n f g : (forall i, i < n -> f i = g i) -> @sumn S n f = sumn n g.
Proof.
  induction n as [|n IH]; intros H; simpl; [reflexivity|].
  rewrite IH, H by auto. reflexivity.
Qed.

Lemma sumn_add n f g : @sumn S n (fun i => f i + g i) = sumn n f + sumn n g.
Proof.
  induction n as [|n IH]; simpl; [rewrite sadd_0_l; reflexivity|].
  rewrite IH. apply sadd_4.
Qed.

Lemma sumn_zero n : @sumn S n (fun _ => 0) = 0.
Proof. induction n as [|n IH]; simpl; [reflexivity|]. rewrite IH. apply sadd_0_l. Qed.

Lemma sumn_mul_l n c f : c * @sumn S n f = sumn n (fun i => c * f i).
Proof.
  induction n as [|n IH]; simpl; [apply smul_0_r|].
  rewrite smul_add_r, IH. reflexivity.
Qed.

Lemma sumn_mul_r n c f : @sumn S n f * c = sumn n (fun i => f i * c).
Proof.
  induction n as [|n IH]; simpl; [apply smul_0_l|].
  rewrite smul_add_l, IH. reflexivity.
Qed.

Lemma sumn_swap n m (f : nat -> nat -> S) :
  sumn n (fun i => sumn m (fun j => f i j)) = sumn m (fun j => sumn n (fun i => f i j)).
Proof.
  induction n as [|n IH]; simpl.
  - rewrite sumn_zero. reflexivity.
  - rewrite IH, <- sumn_add. reflexivity.
Qed.

Lemma sumn_delta n i f : i < n ->
  @sumn S n (fun j => (if Nat.eqb i j then 1 else 0) * f j) = f i.
Proof.
  induction n as [|n IH]; intros H; [lia|]. simpl.
  destruct (Nat.eq_dec i n) as [->|Hne].
  - rewrite Nat.eqb_refl, smul_1_l.
    rewrite (sumn_ext n _ (fun _ => 0)).
    + rewrite sumn_zero, sadd_0_l. reflexivity.
    + intros j Hj. destruct (Nat.eqb_spec n j); [lia|]. apply smul_0_l.
  - rewrite IH by lia. destruct (Nat.eqb_spec i n); [lia|].
    rewrite smul_0_l, sadd_0_r. reflexivity.
Qed.

Lemma suml_nil {A} (f : A -> S) : suml [] f = 0.
Proof. reflexivity. Qed.

Lemma suml_cons {A} a l (f : A -> S) : suml (a :: l) f = f a + suml l f.
Proof. reflexivity. Qed.

Lemma suml_app {A} l1 l2 (f : A -> S) : suml (l1 ++ l2) f = suml l1 f + suml l2 f.
Proof.
  induction l1 as [|a l1 IH]; simpl; [rewrite suml_nil, sadd_0_l; reflexivity|].
  rewrite !suml_cons, IH, sadd_assoc. reflexivity.
Qed.

Lemma suml_ext {A} l (f g : A -> S) : (forall a, In a l -> f a = g a) -> suml l f = suml l g.
Proof.
  induction l as [|a l IH]; intros H; [reflexivity|].
  rewrite !suml_cons, H, IH; [reflexivity| |left; reflexivity]. intros b Hb. apply H. right. exact Hb.
Qed.

Lemma suml_add {A} l (f g : A -> S) : suml l (fun a => f a + g a) = suml l f + suml l g.
Proof.
  induction l as [|a l IH]; [symmetry; apply sadd_0_l|].
  rewrite !suml_cons, IH. apply sadd_4.
Qed.

Lemma suml_zero {A} (l : list A) : suml l (fun _ => 0) = (0 : S).
Proof. induction l as [|a l IH]; [reflexivity|]. rewrite suml_cons, IH. apply sadd_0_l. Qed.

Lemma suml_mul_l {A} c l (f : A -> S) : c * suml l f = suml l (fun a => c * f a).
Proof.
  induction l as [|a l IH]; [apply smul_0_r|].
  rewrite !suml_cons, smul_add_r, IH. reflexivity.
Qed.

Lemma suml_mul_r {A} c l (f : A -> S) : suml l f * c = suml l (fun a => f a * c).
Proof.
  induction l as [|a l IH]; [apply smul_0_l|].
  rewrite !suml_cons, smul_add_l, IH. reflexivity.
Qed.

Lemma suml_map {A B} (h : A -> B) l (f : B -> S) : suml (map h l) f = suml l (fun a => f (h a)).
Proof. induction l as [|a l IH]; [reflexivity|]. simpl. rewrite !suml_cons, IH. reflexivity. Qed.

Lemma suml_perm {A} l1 l2 (f : A -> S) : Permutation l1 l2 -> suml l1 f = suml l2 f.
Proof.
  induction 1; rewrite ?suml_cons; auto.
  - rewrite IHPermutation. reflexivity.
  - apply sadd_swap.
  - congruence.
Qed.

Lemma suml_concat {A} (ll : list (list A)) (f : A -> S) :
  suml (concat ll) f = suml ll (fun l => suml l f).
Proof.
  induction ll as [|l ll IH]; [reflexivity|]. simpl.
  rewrite suml_app, suml_cons, IH. reflexivity.
Qed.

Lemma suml_flat_map {A B} (h : A -> list B) l (f : B -> S) :
  suml (flat_map h l) f = suml l (fun a => suml (h a) f).
Proof.
  induction l as [|a l IH]; [reflexivity|]. simpl.
  rewrite suml_app, suml_cons, IH. reflexivity.
Qed.

Lemma suml_swap {A B} (la : list A) (lb : list B) (f : A -> B -> S) :
  suml la (fun a => suml lb (f a)) = suml lb (fun b => suml la (fun a => f a b)).
Proof.
  induction la as [|a la IH]; simpl.
  - symmetry. apply suml_zero.
  - rewrite suml_cons, IH, <- suml_add. reflexivity.
Qed.

Lemma suml_filter {A} (p : A -> bool) l (f : A -> S) :
  suml (filter p l) f = suml l (fun a => if p a then f a else 0).
Proof.
  induction l as [|a l IH]; [reflexivity|]. simpl. rewrite suml_cons.
  destruct (p a); [rewrite suml_cons, IH; reflexivity|rewrite IH, sadd_0_l; reflexivity].
Qed.

Lemma prodl_app l1 l2 : @prodl S (l1 ++ l2) = prodl l1 * prodl l2.
Proof.
  induction l1 as [|a l1 IH]; simpl; [symmetry; apply smul_1_l|].
  rewrite IH, smul_assoc. reflexivity.
Qed.

End Lemmas.
