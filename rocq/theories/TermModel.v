(** Model of the term language and unification of dyna/term.py. *)
From stdpp Require Import gmap.
From Coq Require Import ZArith.
From Coq Require String.
From Verif Require Import PyBase.

(** Python constants occurring inside terms.  Simplification: integers and
    strings only (no floats, booleans or None). *)
Inductive const : Set := CInt (z : Z) | CStr (s : String.string).

#[global] Arguments CStr s%string_scope.

#[global] Instance const_eq_dec : EqDecision const.
Proof. solve_decision. Defined.

(** term.py 100-177 (Var: an object with an identity, here a number), 302-371
    (Term: a tuple [fargs] whose first entry is the functor).  Simplification:
    bare tuples/lists occur only as argument lists, never inside a term. *)
Inductive term : Set :=
| Var (v : nat)
| Cst (c : const)
| Fn (fargs : list term).

(** The heap of variable bindings: [st !! v] is [v.value], [None] is the
    unbound marker [null_ptr] (term.py 13, 125, 157-158). *)
Notation store := (gmap nat term).

(** Structural equality of terms (term.py 366-368 and Python's [==] on tuples
    and constants, when no variable involved is bound). *)
Fixpoint term_eqb (x y : term) {struct x} : bool :=
  match x, y with
  | Var a, Var b => Nat.eqb a b
  | Cst a, Cst b => bool_decide (a = b)
  | Fn xs, Fn ys =>
      (fix go (xs ys : list term) : bool :=
         match xs, ys with
         | [], [] => true
         | x :: xs, y :: ys => term_eqb x y && go xs ys
         | _, _ => false
         end) xs ys
  | _, _ => false
  end.

(** term.py 733-739 *)
Fixpoint snap (n : nat) (st : store) (x : term) : res term :=
  match n with
  | O => OutOfFuel
  | S n => match x with
           | Var v => match st !! v with Some t => snap n st t | None => Ok x end
           | _ => Ok x
           end
  end.

(** term.py 166-174 (Var.__eq__) and 366-368 (Term.__eq__): both sides are
    snapped first; two variables are equal iff identical; a variable never
    equals a value; values compare structurally (tuples elementwise). *)
Fixpoint py_eq (n : nat) (st : store) (x y : term) : res bool :=
  match n with
  | O => OutOfFuel
  | S n =>
      let* x := snap n st x in
      let* y := snap n st y in
      match x, y with
      | Var a, Var b => Ok (Nat.eqb a b)
      | Cst a, Cst b => Ok (bool_decide (a = b))
      | Fn xs, Fn ys =>
          (fix go (xs ys : list term) : res bool :=
             match xs, ys with
             | [], [] => Ok true
             | x :: xs, y :: ys =>
                 let* b := py_eq n st x y in if b then go xs ys else Ok false
             | _, _ => Ok false
             end) xs ys
      | _, _ => Ok false
      end
  end.

(** term.py 136-152 (OCCURS_CHECK_ENABLED is True, line 9). *)
Fixpoint occurs_check (n : nat) (st : store) (v : nat) (x : term) : res bool :=
  match n with
  | O => OutOfFuel
  | S n =>
      match x with
      | Var w => if Nat.eqb v w then Ok true
                 else match st !! w with
                      | Some t => occurs_check n st v t
                      | None => Ok false
                      end
      | Fn xs => existsM (occurs_check n st v) xs
      | Cst _ => Ok false
      end
  end.

(** How a [for] loop over a generator can end. *)
Inductive outcome : Set :=
| Done                (* the loop ran to its end *)
| Exc (e : exn)       (* the body raised *)
| Broke               (* the body executed [break]/[return] *)
| Fuel.               (* model artefact: fuel ran out *)

(** A loop body: it may read and write the heap and other client state [T]. *)
Definition body (T : Type) := store * T -> (store * T) * outcome.

(** [x.value = was] *)
Definition restore (st : store) (v : nat) (was : option term) : store :=
  match was with Some t => <[v := t]> st | None => delete v st end.

(** term.py 377-409 and 412-421.  [unify n x y k] is the statement
    [for _ in unify(x, y): k].  The generator yields at most once; the code after
    the [yield] (the [finally] clause, line 402-403) runs however [k] ends: on
    exceptions and breaks the generator is closed when its last reference goes
    away (CPython reference counting), innermost first. *)
Fixpoint unify {T} (n : nat) (x y : term) (k : body T) (s : store * T)
  : (store * T) * outcome :=
  match n with
  | O => (s, Fuel)
  | S n =>
      let st := fst s in
      let bind_var (v : nat) (y : term) :=
        match occurs_check n st v y with
        | Ok true => (s, Done)
        | Ok false =>
            let was := st !! v in
            let '((st', t'), o) := k (<[v := y]> st, snd s) in
            ((restore st' v was, t'), o)
        | Raise e => (s, Exc e)
        | OutOfFuel => (s, Fuel)
        end in
      match py_eq n st x y with
      | OutOfFuel => (s, Fuel)
      | Raise e => (s, Exc e)
      | Ok true => k s
      | Ok false =>
          match x with
          | Var v =>
              match st !! v with
              | Some t => unify n t y k s
              | None =>
                  match y with
                  | Var w => match st !! w with
                             | Some t => unify n x t k s
                             | None => bind_var v y
                             end
                  | _ => bind_var v y
                  end
              end
          | _ =>
              match y with
              | Var _ => unify n y x k s
              | Fn ys =>
                  match x with
                  | Fn xs =>
                      if Nat.eqb (length xs) (length ys) then
                        (fix unifyN (xs ys : list term) (k : body T) (s : store * T) {struct xs} :=
                           match xs, ys with
                           | [], [] => k s
                           | x :: xs, y :: ys => unify n x y (fun s => unifyN xs ys k s) s
                           | _, _ => (s, Exc AssertionError)
                           end) xs ys k s
                      else (s, Done)
                  | _ => (s, Done)
                  end
              | _ => (s, Done)
              end
          end
      end
  end.

(** term.py 824-829: the body sets a flag. *)
Definition unifies (n : nat) (st : store) (x y : term) : res bool :=
  match unify n x y (fun s => ((fst s, true), Done)) (st, false) with
  | ((_, b), Done) => Ok b
  | (_, Exc e) => Raise e
  | (_, Broke) => Raise OtherError
  | (_, Fuel) => OutOfFuel
  end.

(** term.py 866-875 *)
Fixpoint deref (n : nat) (st : store) (x : term) : res term :=
  match n with
  | O => OutOfFuel
  | S n => match x with
           | Var v => match st !! v with Some t => deref n st t | None => Ok x end
           | Fn xs => let* ys := mapM (deref n st) xs in Ok (Fn ys)
           | Cst _ => Ok x
           end
  end.

(** term.py 723-730 *)
Fixpoint is_ground (n : nat) (st : store) (x : term) : res bool :=
  match n with
  | O => OutOfFuel
  | S n => match x with
           | Var v => match st !! v with Some t => is_ground n st t | None => Ok false end
           | Fn xs => forallM (is_ground n st) xs
           | Cst _ => Ok true
           end
  end.

(** OrderedSet.add: insertion order, no duplicates. *)
Definition oset_add (v : nat) (vs : list nat) : list nat :=
  if existsb (Nat.eqb v) vs then vs else vs ++ [v].

(** term.py 795-813 (without the [Stream] case) *)
Fixpoint term_vars (n : nat) (st : store) (x : term) (vs : list nat) : res (list nat) :=
  match n with
  | O => OutOfFuel
  | S n => match x with
           | Var v => match st !! v with
                      | None => Ok (oset_add v vs)
                      | Some t => term_vars n st t vs
                      end
           | Fn xs => foldM (term_vars n st) xs vs
           | Cst _ => Ok vs
           end
  end.

(** term.py 566-599: [m] is the memo table from old to new variables, [al j] the
    identity of the j-th variable object still to be allocated, [c] the number of
    those already used ([Var(...)] allocates a new object). *)
Fixpoint fresh_go (al : nat -> nat) (n : nat) (st : store) (x : term) (s : gmap nat nat * nat)
  : res (term * (gmap nat nat * nat)) :=
  match n with
  | O => OutOfFuel
  | S n =>
      match x with
      | Var v =>
          match st !! v with
          | Some t => fresh_go al n st t s
          | None =>
              let '(m, c) := s in
              match m !! v with
              | Some w => Ok (Var w, (m, c))
              | None => Ok (Var (al c), (<[v := al c]> m, S c))
              end
          end
      | Fn xs => let* (ys, s') := mapSM (fresh_go al n st) xs s in Ok (Fn ys, s')
      | Cst _ => Ok (x, s)
      end
  end.

Definition fresh (al : nat -> nat) (n : nat) (st : store) (c : nat) (x : term) : res (term * nat) :=
  let* (y, s) := fresh_go al n st x (∅, c) in Ok (y, snd s).

(** term.py 745-788: [vs] memoizes variable identity -> canonical index; [cv i]
    is the interned canonical variable number i ([_cvars[i]]). *)
Fixpoint canon_go (cv : nat -> nat) (n : nat) (st : store) (x : term) (vs : list nat)
  : res (term * list nat) :=
  match n with
  | O => OutOfFuel
  | S n =>
      let* x := snap n st x in
      match x with
      | Var v =>
          match list_find (eq v) vs with
          | Some (i, _) => Ok (Var (cv i), vs)
          | None => Ok (Var (cv (length vs)), vs ++ [v])
          end
      | Fn xs => let* (ys, vs') := mapSM (canon_go cv n st) xs vs in Ok (Fn ys, vs')
      | Cst _ => Ok (x, vs)
      end
  end.

Definition canonicalize (cv : nat -> nat) (n : nat) (st : store) (x : term) : res term :=
  let* (y, _) := canon_go cv n st x [] in Ok y.

(** ------------------------------------------------------------------------
    Explicit substitutions (term.py 432-547).  In this part variables are
    assumed to carry no heap binding (the terms have been [deref]ed), so [==] is
    structural equality. *)

Notation subst := (gmap nat term).

(** term.py 446-457 *)
Fixpoint sapply (n : nat) (s : subst) (x : term) : res term :=
  match n with
  | O => OutOfFuel
  | S n => match x with
           | Var v => match s !! v with Some t => sapply n s t | None => Ok x end
           | Fn xs => let* ys := mapM (sapply n s) xs in Ok (Fn ys)
           | Cst _ => Ok x
           end
  end.

(** term.py 472-480 *)
Definition is_non_specializing (s : subst) : bool :=
  let vals := map snd (map_to_list s) in
  forallb (fun t => match t with Var _ => true | _ => false end) vals &&
  Nat.eqb (size s) (length (nodup (fun a b => decide (a = b))
                              (omap (fun t => match t with Var v => Some v | _ => None end) vals))).

(** term.py 482-493 *)
Fixpoint occur_check (n : nat) (s : subst) (v : nat) (x : term) : res bool :=
  match n with
  | O => OutOfFuel
  | S n =>
      if term_eqb (Var v) x then Ok true
      else match x with
           | Var w => match s !! w with Some t => occur_check n s v t | None => Ok false end
           | Fn xs => existsM (occur_check n s v) xs
           | Cst _ => Ok false
           end
  end.

(** term.py 495-519.  The receiver is updated in place, so the result is the
    final dictionary together with whether the call returned it (true) or FAIL
    (false).  [mgu_tuple] is the tuple case, lines 512-517. *)
Fixpoint mgu (n : nat) (s : subst) (x y : term) : res (subst * bool) :=
  match n with
  | O => OutOfFuel
  | S n =>
      let extend v y :=
        let* o := occur_check n s v y in
        if o then Ok (s, false) else Ok (<[v := y]> s, true) in
      if term_eqb x y then Ok (s, true)
      else match x with
           | Var v =>
               match s !! v with
               | Some t => mgu n s t y
               | None =>
                   match y with
                   | Var w => match s !! w with
                              | Some t => mgu n s x t
                              | None => extend v y
                              end
                   | _ => extend v y
                   end
               end
           | _ =>
               match y with
               | Var _ => mgu n s y x
               | Fn ys =>
                   match x with
                   | Fn xs =>
                       if Nat.eqb (length xs) (length ys) then
                         (fix mgu_tuple (s : subst) (xs ys : list term) {struct xs} :=
                            match xs, ys with
                            | x :: xs, y :: ys =>
                                let* (s', ok) := mgu n s x y in
                                if ok then mgu_tuple s' xs ys else Ok (s', false)
                            | _, _ => Ok (s, true)
                            end) s xs ys
                       else Ok (s, false)
                   | _ => Ok (s, false)
                   end
               | _ => Ok (s, false)
               end
           end
  end.

(** term.py 521-541.  Updated in place; [false] is FAIL.  The recursion is
    structural on the pattern [x]; [n] is the fuel of the occurs check. *)
Fixpoint cover (n : nat) (s : subst) (x y : term) {struct x} : res (subst * bool) :=
  if term_eqb x y then Ok (s, true)
  else match x with
       | Var v =>
           match s !! v with
           | Some t => Ok (s, term_eqb t y)
           | None => let* o := occur_check n s v y in
                     if o then Ok (s, false) else Ok (<[v := y]> s, true)
           end
       | Fn xs =>
           match y with
           | Fn ys =>
               if Nat.eqb (length xs) (length ys) then
                 (fix cover_args (s : subst) (xs ys : list term) {struct xs} :=
                    match xs, ys with
                    | x :: xs, y :: ys =>
                        let* (s', ok) := cover n s x y in
                        if ok then cover_args s' xs ys else Ok (s', false)
                    | _, _ => Ok (s, true)
                    end) s xs ys
               else Ok (s, false)
           | _ => Ok (s, false)
           end
       | Cst _ => Ok (s, false)
       end.

(** term.py 556-561 *)
Definition covers (n : nat) (x y : term) : res bool :=
  let* (_, ok) := cover n ∅ x y in Ok ok.

(** term.py 832-836 *)
Definition same (n : nat) (x y : term) : res bool :=
  let* a := covers n x y in if a then covers n y x else Ok false.

(** term.py 847-861 (heap-free) *)
Fixpoint replace_in_expr (expr target replacement : term) {struct expr} : term :=
  if term_eqb expr target then replacement
  else match expr with
       | Fn xs => Fn (map (fun x => replace_in_expr x target replacement) xs)
       | _ => expr
       end.

(** term.py 90-97 (heap-free): the functor test is on [fargs[0]]. *)
Fixpoint flatten_op (op : const) (x : term) {struct x} : list term :=
  match x with
  | Fn (Cst f :: args) =>
      if bool_decide (f = op)
      then (fix go (l : list term) : list term :=
              match l with [] => [] | a :: l => flatten_op op a ++ go l end) args
      else [x]
  | _ => [x]
  end.
