(** Model of the solver for items with variables: dyna/execute/solver2.py and the
    parts of dyna/execute/base.py it uses. *)
From stdpp Require Import gmap.
From Coq Require Import List.
From Coq Require String Ascii.
From Verif Require Import PyBase Semiring TermModel TermProofs UnifyProofs SetsModel PruneModel.
Import String.StringSyntax Ascii.AsciiSyntax.
Import ListNotations.

(** ------------------------------------------------------------------------
    Python dictionaries keyed by items, in the order of insertion.  The keys are
    canonical terms, whose variables are not bound, so [==] is structural. *)
Section dict.
Context {A : Type}.
Fixpoint dget (k : term) (d : list (term * A)) : option A :=
  match d with
  | [] => None
  | (k', v) :: d => if decide (k = k') then Some v else dget k d
  end.
Fixpoint dset (k : term) (v : A) (d : list (term * A)) : list (term * A) :=
  match d with
  | [] => [(k, v)]
  | (k', v') :: d => if decide (k = k') then (k', v) :: d else (k', v') :: dset k v d
  end.
Fixpoint ddel (k : term) (d : list (term * A)) : list (term * A) :=
  match d with
  | [] => []
  | (k', v') :: d => if decide (k = k') then d else (k', v') :: ddel k d
  end.
End dict.

Section solver2.
Context {R : semiring}.
(** The value of a constant of the program text as an element of the semiring. *)
Context (wt : const -> R).
(** base.py 64-74: [approx_equal]. *)
Context (approx : R -> R -> bool).
(** [Semiring.multiple(inf)], the value of an infinite sum of ones. *)
Context (minf : R).
(** builtin.py 58-63: the comparison predicates on ground terms. *)
Context (cmpf : String.string -> term -> term -> res bool).
(** builtin.py 141-150: [Builtins.__call__] on [x is y]: the heaps at each yield. *)
Context (is_run : nat -> store -> term -> term -> res (list store)).
(** identities of new and of canonical variables *)
Context (al cv : nat -> nat).

(** solver2.py 187-192: the chart is scanned from its first item to its last.
    Each result is the heap at the time of the [yield] and the value; [c] counts
    the variables allocated so far.  Simplification: the generator is run to its
    end before the consumer sees the results. *)
Fixpoint scan (n : nat) (st : store) (q : term) (c : nat) (d : list (term * R)) : res (list (store * R) * nat) :=
  match d with
  | [] => Ok ([], c)
  | (k, v) :: d =>
      let* (x, c) := fresh al n st c k in
      let* (st', u) := unify_f n st x q in
      let* (rest, c) := scan n st q c d in
      Ok (if u then (st', v) :: rest else rest, c)
  end.

Local Open Scope string_scope.

(** solver2.py 137-192.  Not modelled (errors): BuiltinConstraint objects,
    [$not_matches], and subgoals whose functor is unbound or not a constant. *)
Definition lookup2 (n : nat) (st : store) (q : term) (ch : list (term * R)) (c : nat)
  : res (list (store * R) * nat) :=
  let* q := snap n st q in
  match q with
  | Cst k => Ok ([(st, wt k)]%list, c)
  | Var _ => Raise InstFault
  | Fn [] => Raise IndexError
  | Fn (f :: args) =>
      let* f := snap n st f in
      match f with
      | Cst (CStr op) =>
          if decide (op ∈ ["$free"; "$bound"; "$not_matches"]%list) then Raise OtherError
          else if decide (op = "=") then
            match args with
            | [x; y] => let* (st', b) := unify_f n st x y in
                        Ok (if b then [(st', sone)]%list else [], c)
            | _ => Raise ValueError
            end
          else match args with
          | [x; y] =>
              if decide (op ∈ cmps) then
                let* gx := is_ground n st x in
                let* gy := (if gx then is_ground n st y else Ok false) in
                if gx && gy then
                  let* x := deref n st x in
                  let* y := deref n st y in
                  let* b := cmpf op x y in
                  Ok (if b then [(st, sone)]%list else [], c)
                else Raise InstFault
              else if decide (op = "is") then
                let* sts := is_run n st x y in Ok (map (fun st' => (st', sone)) sts, c)
              else scan n st q c ch
          | _ => if decide (op = "is") then Raise ValueError else scan n st q c ch
          end
      | Cst _ => scan n st q c ch
      | _ => Raise OtherError
      end
  end%list.

Local Close Scope string_scope.

(** base.py 100-111.  A subgoal that was replaced by a value is [inl]; looking up
    a value yields it (solver2.py 144-147). *)
Fixpoint join2 (n : nat) (st : store) (xs : list (R + term)) (value : R) (ch : list (term * R)) (c : nat)
  : res (list (store * R) * nat) :=
  match xs with
  | [] => Ok ([(st, value)], c)
  | x :: xs =>
      let* (rs, c) := (match x with inl v => Ok ([(st, v)], c) | inr b => lookup2 n st b ch c end) in
      let* (rss, c) := mapSM (fun sv c => join2 n (fst sv) xs (smul value (snd sv)) ch c) rs c in
      Ok (concat rss, c)
  end.

(** program.py 1202-1210.  [term_vars] lists the unbound variables. *)
Definition multiple (n : nat) (st : store) (r : rule) : res R :=
  let* vb := term_vars n st (Fn (rbody r)) [] in
  let* vh := term_vars n st (rhead r) [] in
  Ok (if existsb (fun v => negb (bool_decide (v ∈ vh))) vb then minf else sone).

(** solver2.py 23-39: the state of a solver.  Simplification: items are not
    interned as integers, and priorities only show as the order in which the agenda
    is popped and in the updates that they discard. *)
Record state2 := State2 {
  t_chart : list (term * R);
  t_change : list (term * R);
  t_agenda : gset term;
  t_init : gset nat       (* base.py 29: [self.initialized], by rule number *)
}.
Definition t_empty : state2 := State2 [] [] ∅ ∅.

(** solver2.py 79-84 for a canonical item.  [keep] says for which items the
    priority function does not return None (solver2.py 72-77). *)
Definition push2 (keep : term -> bool) (item : term) (Δ : R) (s : state2) : state2 :=
  if keep item then
    State2 (t_chart s)
      (dset item (match dget item (t_change s) with None => Δ | Some v => sadd v Δ end) (t_change s))
      ({[item]} ∪ t_agenda s) (t_init s)
  else s.

(** solver2.py 51-84 at the heap [st].  The variables made by [fresh] do not
    survive, so their count is dropped. *)
Definition update2 (keep : term -> bool) (n : nat) (st : store) (c : nat) (item : term) (Δ : R) (s : state2) : res state2 :=
  let* (x, _) := fresh al n st c item in
  let* x := canonicalize cv n st x in
  Ok (push2 keep x Δ s).

(** base.py 113-117 and solver2.py 130-135: the values of the rule instances found,
    each times the multiplicity, are added to the heads. *)
Definition emit (keep : term -> bool) (n : nat) (c : nat) (r : rule) (rs : list (store * R)) (s : state2) : res state2 :=
  foldM (fun sw s => let* m := multiple n (fst sw) r in
                     update2 keep n (fst sw) c (rhead r) (smul (snd sw) m) s) rs s.

(** base.py 113-133.  [i] is the number of the rule [r].  Simplification: the
    copy made by [fresh(r)] is not modelled, since no other term shares its
    variables. *)
Definition init_rule2 (keep : term -> bool) (n : nat) (i : nat) (r : rule) (s : state2) : res state2 :=
  if decide (i ∈ t_init s) then Ok s
  else
    let* (rs, c) := join2 n ∅ (map inr (rbody r)) sone (t_chart s) 0 in
    emit keep n c r rs (State2 (t_chart s) (t_change s) (t_agenda s) ({[i]} ∪ t_init s)).

(** solver2.py 130-135: the subgoal number [k], which is [b], is driven by [a].
    Simplification: the allocation of variables starts over, since no new variable
    survives from one driver to the next. *)
Definition drive2 (keep : term -> bool) (n : nat) (a : term) (Δ : R) (r : rule) (kb : nat * term) (s : state2) : res state2 :=
  let* (x, c) := fresh al n ∅ 0 a in
  let* (st, u) := unify_f n ∅ x (snd kb) in
  if u then
    let* (rs, c) := join2 n st (<[fst kb := inl Δ]> (map inr (rbody r))) sone (t_chart s) c in
    emit keep n c r rs s
  else Ok s.

(** solver2.py 124-135 *)
Definition drive_rule2 (keep : term -> bool) (n : nat) (a : term) (Δ : R) (r : rule) (s : state2) : res state2 :=
  foldM (drive2 keep n a Δ r) (zip (seq 0 (length (rbody r))) (rbody r)) s.

(** solver2.py 104-122; lines 86-100: the key is made canonical again.  [pick k A] is what the k-th [popitem] returns; [n] bounds
    the recursion on terms, [p] the number of pops. *)
Fixpoint loop2 (keep : term -> bool) (pick : nat -> gset term -> term) (P : list rule) (n p k : nat) (s : state2) : res state2 :=
  match p with
  | 0 => OutOfFuel
  | S p =>
      if decide (t_agenda s = ∅) then Ok s
      else
        let a := pick k (t_agenda s) in
        match dget a (t_change s) with
        | None => Raise KeyError
        | Some Δ =>
            let s := State2 (t_chart s) (ddel a (t_change s)) (t_agenda s ∖ {[a]}) (t_init s) in
            let old := default szero (dget a (t_chart s)) in
            let new := sadd old Δ in
            if approx new old then loop2 keep pick P n p (S k) s
            else
              let* a' := canonicalize cv n ∅ a in
              let s := State2 (dset a' new (t_chart s)) (t_change s) (t_agenda s) (t_init s) in
              let* s := foldM (drive_rule2 keep n a Δ) P s in
              loop2 keep pick P n p (S k) s
        end
  end.

(** solver2.py 103 *)
Fixpoint init_rules2 (keep : term -> bool) (n : nat) (i : nat) (P : list rule) (s : state2) : res state2 :=
  match P with
  | [] => Ok s
  | r :: P => let* s := init_rule2 keep n i r s in init_rules2 keep n (S i) P s
  end.

(** solver2.py 102-122.  Simplification: the program is already linearized
    (solver2.py 24). *)
Definition run2 (keep : term -> bool) (pick : nat -> gset term -> term) (P : list rule) (n p : nat) (s : state2) : res state2 :=
  let* s := init_rules2 keep n 0 P s in
  loop2 keep pick P n p 0 s.

(** base.py 137-155: another solver is run on the data, and its chart is added
    item by item.  The other solver has no priority function (line 148). *)
Definition load2 (keep : term -> bool) (pick : nat -> gset term -> term) (D : list rule) (n p : nat) (s : state2) : res state2 :=
  let* d := run2 (fun _ => true) pick D n p t_empty in
  foldM (fun kv s => update2 keep n ∅ 0 (fst kv) (snd kv) s) (t_chart d) s.

(** base.py 79-93: loading data and running, in any order.  Each operation comes
    with its own schedule and bounds. *)
Inductive op2 : Type :=
| Load2 (pick : nat -> gset term -> term) (n p : nat) (D : list rule)
| Run2 (pick : nat -> gset term -> term) (n p : nat).

Definition do_op2 (keep : term -> bool) (P : list rule) (o : op2) (s : state2) : res state2 :=
  match o with
  | Load2 pick n p D => load2 keep pick D n p s
  | Run2 pick n p => run2 keep pick P n p s
  end.

End solver2.
Arguments state2 R : clear implicits.
