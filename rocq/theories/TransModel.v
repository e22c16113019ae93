(** Model of the program transformations that work on single rules: unfold, define,
    fold with the reversibility check, hook, linearize, and linear rule
    elimination (dyna/transform/unfold.py, fold.py, rule_elimination.py,
    dyna/program.py). *)
From stdpp Require Import gmap.
From Coq Require Import List.
From Coq Require String Ascii.
Import String.StringSyntax Ascii.AsciiSyntax.
From Verif Require Import PyBase Semiring TermModel UnifyProofs SetsModel PruneModel NamesModel UpdateModel.
Import ListNotations.

Section trans.
Local Open Scope string_scope.
Local Open Scope list_scope.
Context {R : semiring}.
(** identities of new variables; iteration order of sets *)
Context (al : nat -> nat) (ord : list term -> list term).
(** [program.is_input] *)
Context (is_input : term -> bool).
(** [Semiring.multiple(inf)] and [m == Semiring.one] *)
Context (minf : R) (is_one : R -> bool).
(** [==] on rules (term.py 356-371): the same head and body, the same variables *)
Context (eqr : wrule R -> wrule R -> bool).

(** [list.remove(r)]: the first rule that is equal to [r]. *)
Fixpoint remove_rule (r : wrule R) (rs : list (wrule R)) : res (list (wrule R)) :=
  match rs with
  | [] => Raise ValueError
  | s :: rs => if eqr s r then Ok rs else let* rs := remove_rule r rs in Ok (s :: rs)
  end.

(** program.py 521-526.  The variables of the program are not bound, so [snap] in
    [is_const] (rule.py 18-19) does nothing. *)
Definition safe_inline (f : factor R) : bool :=
  match f with
  | Val _ => false
  | Goal (Cst _) => false
  | Goal b => negb (is_input b)
  end.

(** A rule as a term: Rule is a subclass of Term (rule.py 22-35). *)
Definition rterm (r : wrule R) : term := Fn (whead r :: goals (wbody r)).

(** The body of the loop at unfold.py 58-69: [s] is the renamed copy of rule [k],
    [st] the heap while the generator [lookup] is suspended.  Simplification:
    semiring values have no variables. *)
Definition inline (n : nat) (r : wrule R) (j : nat) (s : wrule R) (st : store) (c : nat) : res (wrule R * nat) :=
  let t := WRule (whead r) (take j (wbody r) ++ wbody s ++ drop (S j) (wbody r)) in
  let* vs := term_vars n st (rterm s) [] in
  let* vt := term_vars n st (rterm t) [] in
  let t := if forallb (fun v => existsb (Nat.eqb v) vt) vs then t
           else if is_one minf then t
           else WRule (whead t) (wbody t ++ [Val minf]) in
  fresh_rule al n st c t.

Fixpoint inline_all (n : nat) (r : wrule R) (j : nat) (os : list (nat * wrule R * store)) (c : nat)
  : res (list (nat * wrule R) * nat) :=
  match os with
  | [] => Ok ([], c)
  | (k, s, st) :: os =>
      let* (t, c) := inline n r j s st c in
      let* (us, c) := inline_all n r j os c in
      Ok ((k, t) :: us, c)
  end.

(** unfold.py 8-75: the subgoal is looked up in the rules [defs].  Results: the
    rules, the map [new2def] from the positions of the new rules to those of the
    rules that were inlined, and the number of variables allocated.
    Simplification: the new variables of the copies made by [lookup] are allocated
    before those of the new rules. *)
Definition unfold_by (n : nat) (i j : nat) (defs rs : list (wrule R)) (c : nat)
  : res (list (wrule R) * list (nat * nat) * nat) :=
  match rs !! i with
  | None => Raise IndexError
  | Some r =>
      let* new := remove_rule r rs in
      match wbody r !! j with
      | None => Raise IndexError
      | Some f =>
          if negb (safe_inline f) then Raise AssertionError else
          match f with
          | Val _ => Raise AssertionError
          | Goal b =>
              let* (os, P) := lookup al ord n ∅ b (p_new defs c) in
              let* (us, c) := inline_all n r j os (p_c P) in
              Ok (new ++ map snd us, combine (seq (length new) (length us)) (map fst us), c)
          end
      end
  end.
(** [defs = None] (unfold.py 20): the program itself. *)
Definition unfold (n : nat) (i j : nat) (rs : list (wrule R)) (c : nat)
  : res (list (wrule R) * list (nat * nat) * nat) := unfold_by n i j rs rs c.

(** ------------------------------------------------------------------------
    linearize (program.py 1831-1863). *)
(** program.py 1398-1409.  Simplification: only functors that are strings. *)
Definition wsyms (rs : list (wrule R)) : list String.string :=
  flat_map (fun r => fn_name (whead r) ++ flat_map fn_name (goals (wbody r))) rs.

(** program.py 1843-1846: the positions [k], [k+1], ... of the subgoals [fs] that
    unify with [x].  A semiring value does not unify with a Term. *)
Fixpoint overlaps1 (n : nat) (x : term) (fs : list (factor R)) (k : nat) : res (list nat) :=
  match fs with
  | [] => Ok []
  | f :: fs =>
      let* b := match f with Goal y => unifies n ∅ x y | Val _ => Ok false end in
      let* ks := overlaps1 n x fs (S k) in
      Ok (if b then k :: ks else ks)
  end.

(** program.py 1839-1846, for one rule.  A semiring value is constant, so the
    test against the driver does not matter for it. *)
Fixpoint overlaps (n : nat) (driver : option term) (fs : list (factor R)) (j : nat) : res (list nat) :=
  match fs with
  | [] => Ok []
  | f :: fs =>
      let* ks := match f with
                 | Val _ => Ok []
                 | Goal x =>
                     let* u := match driver with None => Ok true | Some d => unifies n ∅ x d end in
                     if negb u then Ok []
                     else if is_const x then Ok []
                     else if is_builtin x then Ok []
                     else overlaps1 n x fs (S j)
                 end in
      let* rest := overlaps n driver fs (S j) in
      Ok (ks ++ rest)
  end.

(** program.py 1837-1846: [tmps] is an OrderedSet.  The first occurrences are
    kept. *)
Fixpoint dedup {A} `{EqDecision A} (l seen : list A) : list A :=
  match l with
  | [] => []
  | a :: l => if decide (a ∈ seen) then dedup l seen else a :: dedup l (a :: seen)
  end.
Fixpoint find_tmps (n : nat) (driver : option term) (rs : list (wrule R)) (i : nat) : res (list (nat * nat)) :=
  match rs with
  | [] => Ok []
  | r :: rs =>
      let* ks := overlaps n driver (wbody r) 0 in
      let* rest := find_tmps n driver rs (S i) in
      Ok (map (pair i) ks ++ rest)
  end.

(** program.py 1851-1861.  [sy] is [self.syms], [g] the counter of [gen_functor].
    A variable has no [args]; every Term has a functor, so [Fn []] does not occur. *)
Fixpoint split_all (n : nat) (sy : list String.string) (tmps : list (nat * nat)) (rs : list (wrule R)) (g c : nat)
  : res (list (wrule R) * nat * nat) :=
  match tmps with
  | [] => Ok (rs, g, c)
  | (i, k) :: tmps =>
      match rs !! i with
      | None => Raise IndexError
      | Some r =>
          let* (name, g) := prog_gen_functor sy "$gen" g in
          match wbody r !! k with
          | Some (Goal (Fn (f :: args))) =>
              let h := Fn (Cst (CStr name) :: args) in
              let* (t, c) := fresh_rule al n ∅ c (WRule h [Goal (Fn (f :: args))]) in
              let* (r, c) := fresh_rule al n ∅ c (WRule (whead r) (<[k := Goal h]> (wbody r))) in
              split_all n sy tmps (<[i := r]> (rs ++ [t])) g c
          | Some _ => Raise AttributeError
          | None => Raise IndexError
          end
      end
  end.

Definition linearize (n : nat) (driver : option term) (rs : list (wrule R)) (g c : nat)
  : res (list (wrule R) * nat * nat) :=
  let* tmps := find_tmps n driver rs 0 in
  split_all n (wsyms rs) (dedup tmps []) rs g c.

(** ------------------------------------------------------------------------
    fold with the reversibility check, define, hook and binarize. *)
(** [==] on programs (program.py 543-550) *)
Context (eqp : list (wrule R) -> list (wrule R) -> bool).

(** program.py 1603-1606: the factors whose position, counted from
    [k], is not in [js]. *)
Fixpoint without {A} (js : list nat) (l : list A) (k : nat) : list A :=
  match l with
  | [] => []
  | a :: l => if decide (k ∈ js) then without js l (S k) else a :: without js l (S k)
  end.

(** [p - S] (program.py 389-393) for a set [S] of positions: [list.pop] raises
    IndexError if there is no such rule. *)
Definition minus (rs : list (wrule R)) (S : list nat) : res (list (wrule R)) :=
  if forallb (fun i => i <? length rs) S then Ok (without S rs 0) else Raise IndexError.

(** [manual_fold] (program.py 1572-1576), the rules of Fold (fold.py 22-28). *)
Definition fold (r : wrule R) (S : list nat) (rs : list (wrule R)) : res (list (wrule R)) :=
  let* rest := minus rs S in Ok (r :: rest).

(** [basic_fold] (program.py 1578-1585) with [safe_by_rev] and [rev] (fold.py
    36-38, 45-47). *)
Definition basic_fold (n : nat) (r : wrule R) (j : nat) (S : list nat) (rs : list (wrule R)) (c : nat)
  : res (list (wrule R) * nat) :=
  let* new := fold r S rs in
  let* (rev, _, c) := unfold n 0 j new c in
  if eqp rev rs then Ok (new, c) else Raise ValueError.

(** [[l[j] for j in js]] *)
Fixpoint pick {A} (l : list A) (js : list nat) : res (list A) :=
  match js with
  | [] => Ok []
  | j :: js => match l !! j with None => Raise IndexError | Some a => let* r := pick l js in Ok (a :: r) end
  end.

(** program.py 1616-1632.  Sets of variables are ordered (OrderedSet); semiring
    values have no variables. *)
Definition loop_absorption (n : nat) (r : wrule R) (js : list nat) (name : String.string) : res (wrule R) :=
  let rev_fs := without js (wbody r) 0 in
  let* tmp_fs := pick (wbody r) js in
  let* vb := term_vars n ∅ (Fn (goals (wbody r))) [] in
  let* vr := term_vars n ∅ (Fn (goals rev_fs)) [] in
  let* vh := term_vars n ∅ (whead r) [] in
  let* vt := term_vars n ∅ (Fn (goals tmp_fs)) [] in
  let elim := base.filter (fun v => v ∉ vr /\ v ∉ vh) vb in
  let out := base.filter (fun v => v ∉ elim) vt in
  Ok (WRule (Fn (Cst (CStr name) :: map Var out)) tmp_fs).

(** program.py 1595-1614; the rules of [define(defs)] are those of the program
    followed by [defs] (program.py 2235-2239). *)
Definition hook (n : nat) (i : nat) (js : list nat) (rs : list (wrule R)) (g c : nat)
  : res (list (wrule R) * nat * nat) :=
  match rs !! i with
  | None => Raise IndexError
  | Some r =>
      let* (name, g) := prog_gen_functor (wsyms rs) "$gen" g in
      let* tmp := loop_absorption n r js name in
      let* (new, c) := basic_fold n (WRule (whead r) (Goal (whead tmp) :: without js (wbody r) 0)) 0 [i] (rs ++ [tmp]) c in
      Ok (new, g, c)
  end.

(** program.py 2058-2070; [m] bounds the number of iterations of the loop. *)
Fixpoint binarize_from (m n i : nat) (rs : list (wrule R)) (g c : nat) : res (list (wrule R) * nat * nat) :=
  match m with
  | 0 => OutOfFuel
  | S m =>
      match rs !! i with
      | None => Ok (rs, g, c)
      | Some r =>
          let* (rs, g, c) := if 2 <? length (wbody r) then hook n i (seq 1 (length (wbody r) - 1)) rs g c else Ok (rs, g, c) in
          binarize_from m n (S i) rs g c
      end
  end.
Definition binarize (n : nat) (rs : list (wrule R)) (g c : nat) : res (list (wrule R) * nat * nat) := binarize_from n n 0 rs g c.
End trans.
