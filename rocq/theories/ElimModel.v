(** Model of linear rule elimination (dyna/transform/rule_elimination.py) and elim
    (dyna/program.py). *)
From stdpp Require Import gmap.
From Coq Require Import List.
From Verif Require Import PyBase Semiring TermModel UnifyProofs SetsModel PruneModel NamesModel UpdateModel TransModel.
Import ListNotations.

Section elim.
Context {R : semiring}.
(** the value of a constant, the tests for zero and one, identities of new and of
    canonical variables: see UpdateModel *)
Context (wt : const -> R) (negligible is_one : R -> bool) (al cv : nat -> nat).
(** [Semiring.multiple(inf)] *)
Context (minf : R).
(** [program.is_output] if [program.outputs] is not None *)
Context (is_output : option (term -> bool)).

(** [new_program[h] = Constant(left) * I(x, b, one) * Constant(mid) * Constant(right)]:
    __setitem__ (program.py 1246-1257), Join, I and Constant (term.py 1108-1121,
    1152-1174), and Product.__mul__ (term.py 186-188).  [st] is the heap; the stream
    unifies [x] with [b] (again) and yields at most once, and the variables seen
    before are looked up again.  Simplification: semiring values have no variables. *)
Definition put (n : nat) (st : store) (h : term) (left : list (factor R)) (x b : term) (mid right : list (factor R))
    (P : pstate R) : res (pstate R) :=
  let* was := term_vars n st (Fn (h :: goals left ++ x :: b :: goals mid ++ goals right)) [] in
  let* (st, u) := unify_f n st x b in
  if u then
    let t := WRule h (left ++ Val sone :: mid ++ right) in
    let* vs := term_vars n st (Fn (map Var was)) [] in
    let* vt := term_vars n st (rterm t) [] in
    let t := if forallb (fun v => existsb (Nat.eqb v) vt) vs then t else WRule h (wbody t ++ [Val minf]) in
    update wt negligible is_one al cv n st t P
  else Ok P.

(** rule_elimination.py 57-65: [fs] are the factors of [r] from number [j] on.  A
    semiring value does not unify with a Term. *)
Fixpoint elim_body (n : nat) (s r : wrule R) (fs : list (factor R)) (j count : nat) (P : pstate R)
  : res (nat * pstate R) :=
  match fs with
  | [] => Ok (count, P)
  | Val _ :: fs => elim_body n s r fs (S j) count P
  | Goal b :: fs =>
      let* (st, u) := unify_f n ∅ (whead s) b in
      let* P := if u then put n st (whead r) (take j (wbody r)) (whead s) b (wbody s) (drop (S j) (wbody r)) P else Ok P in
      elim_body n s r fs (S j) (if u then S count else count) P
  end.

(** rule_elimination.py 54-103.  Simplification: the rule objects at different
    positions are different, so [_r is s] compares positions. *)
Fixpoint elim_rules (n : nat) (i : nat) (s : wrule R) (rs : list (wrule R)) (k : nat) (P : pstate R) : res (pstate R) :=
  match rs with
  | [] => Ok P
  | r :: rs =>
      let* (r, P) := if decide (k = i)
                     then let* (r, c) := fresh_rule al n ∅ (p_c P) r in Ok (r, PState (p_rules P) (p_buckets P) (p_f2r P) c)
                     else Ok (r, P) in
      let* (count, P) := elim_body n s r (wbody r) 0 0 P in
      if 1 <? count then Raise AssertionError else
      let* P := if decide (k = i) then Ok P else update wt negligible is_one al cv n ∅ r P in
      elim_rules n i s rs (S k) P
  end.

(** rule_elimination.py 34-105; [spawn] (program.py 130-136) makes a program
    without rules. *)
Definition linear_rule_elimination (n : nat) (i : nat) (rs : list (wrule R)) (c : nat) : res (pstate R) :=
  match rs !! i with
  | None => Raise IndexError
  | Some s =>
      if match is_output with Some out => out (whead s) | None => false end then Raise AssertionError
      else elim_rules n i s rs 0 (p_new [] c)
  end.

(** program.py 1530-1532 *)
Definition elim (n : nat) (i : nat) (rs : list (wrule R)) (g c : nat) : res (pstate R) :=
  match rs !! i with
  | None => Raise IndexError
  | Some s =>
      let* (rs, _, c) := linearize al n (Some (whead s)) rs g c in
      linear_rule_elimination n i rs c
  end.
End elim.
