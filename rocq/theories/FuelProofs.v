(** More fuel does not change a result. *)
From stdpp Require Import gmap.
From Coq Require Import Lia.
From Verif Require Import PyBase TermModel TermSpec TermProofs UnifyProofs SetsProofs.

(** [b] is [a], unless [a] ran out of fuel. *)
Definition fle {A} (a b : res A) : Prop := match a with OutOfFuel => True | _ => b = a end.

Lemma fle_refl {A} (a : res A) : fle a a.
Proof. by destruct a. Qed.

Lemma fle_trans {A} (a b c : res A) : fle a b -> fle b c -> fle a c.
Proof. destruct a; simpl; intros H1 H2; try done; rewrite H1 in H2; done. Qed.

Lemma fle_bind {A B} (m m' : res A) (k k' : A -> res B) :
  fle m m' -> (forall a, fle (k a) (k' a)) -> fle (bind m k) (bind m' k').
Proof. destruct m; simpl; intros H Hk; [rewrite H; apply Hk|by rewrite H|done]. Qed.

Definition mono {A} (f : nat -> res A) : Prop := forall n, fle (f n) (f (S n)).

Lemma mono_le {A} (f : nat -> res A) n m : mono f -> n <= m -> fle (f n) (f m).
Proof. intros Hm. induction 1 as [|m _ IH]; [apply fle_refl|]. eapply fle_trans; [done|apply Hm]. Qed.

Lemma mono_ok {A} (f : nat -> res A) n m a : mono f -> n <= m -> f n = Ok a -> f m = Ok a.
Proof. intros Hm Hle E. pose proof (mono_le f n m Hm Hle) as H. rewrite E in H. exact H. Qed.

(** A result at some fuel is the final result. *)
Lemma mono_settles {A} (f : nat -> res A) n a b : mono f -> f n = Ok a -> settles f b -> a = b.
Proof.
  intros Hm E [n0 H]. pose proof (mono_ok f n (n + n0) a Hm ltac:(lia) E) as E1. rewrite H in E1 by lia. congruence.
Qed.

Lemma fle_mapM {A B} (f g : A -> res B) l : (forall a, fle (f a) (g a)) -> fle (mapM f l) (mapM g l).
Proof.
  intros H. induction l as [|a l IH]; [done|]. simpl. apply fle_bind; [done|]. intros b. apply fle_bind; [done|].
  intros bs. apply fle_refl.
Qed.

Lemma fle_existsM {A} (f g : A -> res bool) l : (forall a, fle (f a) (g a)) -> fle (existsM f l) (existsM g l).
Proof. intros H. induction l as [|a l IH]; [done|]. simpl. apply fle_bind; [done|]. by intros []. Qed.

Lemma fle_forallM {A} (f g : A -> res bool) l : (forall a, fle (f a) (g a)) -> fle (forallM f l) (forallM g l).
Proof. intros H. induction l as [|a l IH]; [done|]. simpl. apply fle_bind; [done|]. by intros []. Qed.

Lemma mono_snap st x : mono (fun n => snap n st x).
Proof.
  intros n. revert x. induction n as [|n IH]; intros x; [done|].
  change (fle (snap (S n) st x) (match x with Var v => match st !! v with Some t => snap (S n) st t | None => Ok x end | _ => Ok x end)).
  simpl. destruct x; try done. destruct (st !! v); [apply IH|done].
Qed.

Lemma mono_deref st x : mono (fun n => deref n st x).
Proof.
  intros n. revert x. induction n as [|n IH]; intros x; [done|].
  change (fle (deref (S n) st x) (match x with Var v => match st !! v with Some t => deref (S n) st t | None => Ok x end
    | Fn xs => let* ys := mapM (deref (S n) st) xs in Ok (Fn ys) | Cst _ => Ok x end)).
  simpl. destruct x; try done.
  - destruct (st !! v); [apply IH|done].
  - apply fle_bind; [by apply fle_mapM|]. intros; apply fle_refl.
Qed.

Lemma mono_is_ground st x : mono (fun n => is_ground n st x).
Proof.
  intros n. revert x. induction n as [|n IH]; intros x; [done|].
  change (fle (is_ground (S n) st x) (match x with Var v => match st !! v with Some t => is_ground (S n) st t | None => Ok false end
    | Fn xs => forallM (is_ground (S n) st) xs | Cst _ => Ok true end)).
  simpl. destruct x; try done.
  - destruct (st !! v); [apply IH|done].
  - by apply fle_forallM.
Qed.

Lemma mono_occurs_check st v x : mono (fun n => occurs_check n st v x).
Proof.
  intros n. revert x. induction n as [|n IH]; intros x; [done|].
  change (fle (occurs_check (S n) st v x) (match x with Var w => if Nat.eqb v w then Ok true else match st !! w with Some t => occurs_check (S n) st v t | None => Ok false end
    | Fn xs => existsM (occurs_check (S n) st v) xs | Cst _ => Ok false end)).
  cbn -[Nat.eqb]. destruct x; try done.
  - destruct (Nat.eqb v v0); [done|]. destruct (st !! v0); [apply IH|done].
  - by apply fle_existsM.
Qed.

Lemma mono_py_eq st x y : mono (fun n => py_eq n st x y).
Proof.
  intros n. revert x y. induction n as [|n IH]; intros x y; [done|].
  cbn -[snap].
  match goal with |- fle _ (bind _ ?k) => set (k' := k) end.
  apply fle_bind; [apply mono_snap|]. intros a. subst k'. cbn -[snap py_eq].
  apply fle_bind; [apply mono_snap|]. intros b.
  destruct a as [?|?|xs], b as [?|?|ys]; try done; try apply fle_refl.
  revert ys. induction xs as [|a xs IHxs]; intros [|b ys]; try apply fle_refl.
  change (fle (let* b0 := py_eq n st a b in if b0 then
      (fix go (xs ys : list term) : res bool := match xs with [] => match ys with [] => Ok true | _ :: _ => Ok false end
         | x :: xs => match ys with [] => Ok false | y :: ys => let* b1 := py_eq n st x y in if b1 then go xs ys else Ok false end end) xs ys else Ok false)
    (let* b0 := py_eq (S n) st a b in if b0 then
      (fix go (xs ys : list term) : res bool := match xs with [] => match ys with [] => Ok true | _ :: _ => Ok false end
         | x :: xs => match ys with [] => Ok false | y :: ys => let* b1 := py_eq (S n) st x y in if b1 then go xs ys else Ok false end end) xs ys else Ok false)).
  apply fle_bind; [apply IH|]. intros []; [apply IHxs|apply fle_refl].
Qed.

Lemma mono_ugen eqf ocf st x y :
  (forall st x y, mono (fun n => eqf n st x y)) -> (forall st v x, mono (fun n => ocf n st v x)) ->
  mono (fun n => ugen eqf ocf n st x y).
Proof.
  intros He Ho n. revert st x y. induction n as [|n IH]; intros st x y; [done|].
  assert (Hbind : forall v y,
    fle (let* o := ocf n st v y in if o then Ok (st, false) else Ok (<[v:=y]> st, true))
        (let* o := ocf (S n) st v y in if o then Ok (st, false) else Ok (<[v:=y]> st, true))).
  { intros v y'. apply fle_bind; [apply Ho|]. intros; apply fle_refl. }
  remember (S n) as m eqn:Em. cbn -[Nat.eqb]. subst m. cbn -[Nat.eqb ugen]. 
  change (fle (ugen eqf ocf (S n) st x y) (ugen eqf ocf (S (S n)) st x y)).
  remember (S n) as m eqn:Em. rewrite Em at 1. cbn -[Nat.eqb].
  apply fle_bind; [subst m; apply He|]. intros []; [apply fle_refl|].
  assert (Hrec : forall st x y, fle (ugen eqf ocf n st x y) (ugen eqf ocf m st x y)) by (subst m; apply IH).
  destruct x as [v|c|xs].
  - destruct (st !! v); [apply Hrec|]. destruct y as [u|d|ys]; [destruct (st !! u); [apply Hrec|]|..]; subst m; apply Hbind.
  - destruct y; [apply Hrec|apply fle_refl..].
  - destruct y as [u|d|ys]; [apply Hrec|apply fle_refl|].
    destruct (Nat.eqb (length xs) (length ys)); [|apply fle_refl].
    clear - Hrec. revert st ys. induction xs as [|x xs IHxs]; intros st [|y ys]; try apply fle_refl.
    apply fle_bind; [apply Hrec|]. intros [st' []]; [apply IHxs|apply fle_refl].
Qed.

Lemma mono_unify_f st x y : mono (fun n => unify_f n st x y).
Proof. apply mono_ugen; [apply mono_py_eq|apply mono_occurs_check]. Qed.
