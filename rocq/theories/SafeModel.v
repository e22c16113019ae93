(** Model of fold/unfold sequences and of the check that they are safe:
    [unfold], [manual_fold] and [define] with any [defs] (dyna/transform/unfold.py,
    fold.py, dyna/program.py) and [Measure] (dyna/transform/measure.py). *)
From Coq Require Import List ZArith.
From stdpp Require Import gmap.
From Verif Require Import PyBase Semiring TermModel UnifyProofs SetsModel PruneModel UpdateModel TransModel IntervalModel.
Import ListNotations.

Section safe.
Context {R : semiring}.
Context (al : nat -> nat) (ord : list term -> list term) (is_input : term -> bool) (minf : R) (is_one : R -> bool).
(** [==] on rules and on programs *)
Context (eqr : wrule R -> wrule R -> bool) (eqp : list (wrule R) -> list (wrule R) -> bool).
(** [Rule._hash_cache] and [Rule.same], as used by [Program.align] *)
Context (hash : wrule R -> Z) (same : wrule R -> wrule R -> bool).
(** [P.folds_by(D)] (rule.py 106-165): the field [right] of every result, in the
    order in which the set is iterated.  The field [left] is always empty. *)
Context (folds_by : wrule R -> wrule R -> list (list (factor R))).

(** ------------------------------------------------------------------------
    Programs and their histories.  The programs of a session are numbered; a
    number stands for the object, so that [is] is equality of numbers.  Program 0
    is the root: [TransformedProgram.root] of all the others. *)
Inductive how : Set :=
| HRoot
| HDefine (a nd : nat)                                  (* Define: parent, number of new rules *)
| HUnfold (a i j d : nat) (new2def : list (nat * nat))  (* Unfold: parent, rule, subgoal, defs *)
| HFold (a j d : nat).                                  (* Fold: parent, subgoal of rule 0, defs *)
Record stage := Stage { s_rules : list (wrule R); s_how : how }.

Inductive action :=
| ADefine (a : nat) (ds : list (wrule R))
| AUnfold (a i j d : nat)
| AFold (a d j : nat) (r : wrule R) (vs : list nat).

(** [Define] (program.py 2233-2239), [Unfold] (unfold.py 8-75), [Fold] (fold.py
    8-28): the new program is added to the session. *)
Definition act (n : nat) (x : action) (se : list stage) (c : nat) : res (list stage * nat) :=
  match x with
  | ADefine a ds =>
      match se !! a with
      | None => Raise IndexError
      | Some p => Ok (se ++ [Stage (s_rules p ++ ds) (HDefine a (length ds))], c)
      end
  | AUnfold a i j d =>
      match se !! a, se !! d with
      | Some p, Some q =>
          let* (rs, ix, c) := unfold_by al ord is_input minf is_one eqr n i j (s_rules q) (s_rules p) c in
          Ok (se ++ [Stage rs (HUnfold a i j d ix)], c)
      | _, _ => Raise IndexError
      end
  | AFold a d j r vs =>
      match se !! a, se !! d with
      | Some p, Some q =>
          let* rs := fold r vs (s_rules p) in
          Ok (se ++ [Stage rs (HFold a j d)], c)
      | _, _ => Raise IndexError
      end
  end.

(** [lineage] (program.py 2044-2049); a parent is older than its child. *)
Definition parent (h : how) : option nat :=
  match h with HRoot => None | HDefine a _ => Some a | HUnfold a _ _ _ _ => Some a | HFold a _ _ => Some a end.
Fixpoint lineage_go (f : nat) (se : list stage) (k : nat) : list nat :=
  match f with
  | O => []
  | S f => k :: match se !! k with
                | Some s => match parent (s_how s) with Some a => lineage_go f se a | None => [] end
                | None => []
                end
  end.
Definition lineage (se : list stage) (k : nat) : list nat := lineage_go (S k) se k.

(** ------------------------------------------------------------------------
    Measures. *)
(** A safety condition: a bound that has to be positive, or [False]. *)
Inductive cond : Set := CPos (b : bound) | CFalse.

(** [measure_safety] (measure.py 15-20): the intervals and the conditions. *)
Definition msafe : Set := (list interval * list cond)%type.

(** [Measure] (measure.py 65-80): the cache, newest first, and [_var_id].  A key of
    the dictionary is the number of a program. *)
Record mstate := MState { ms_cache : list (nat * msafe); ms_var : nat }.

Context (symb : bool).
(** [k] calls of [new_var] (measure.py 82-88) *)
Fixpoint new_vars (k v : nat) : list bound * list cond * nat :=
  match k with
  | O => ([], [], v)
  | S k =>
      let '(b, cs, v) := if symb then (BVar v, [CPos (BVar v)], S v) else (BInt 1, [], v) in
      let '(bs, cs', v) := new_vars k v in
      (b :: bs, cs ++ cs', v)
  end.
Definition point (b : bound) : interval := Interval b b.

(** [make_smt_measure(root)] with [add_ref] (measure.py 384-387, 90-98) *)
Definition make_measure (rs : list (wrule R)) : mstate :=
  let '(bs, cs, v) := new_vars (length rs) 0 in MState [(0, (map point bs, cs))] v.

(** [zero_measure] (measure.py 141-143) *)
Definition zero_measure (rs : list (wrule R)) : msafe := (repeat izero (length rs), [CFalse]).

(** [l[i]] *)
Definition geti {A} (l : list A) (i : nat) : res A := match l !! i with Some a => Ok a | None => Raise IndexError end.
(** [l.index(r)] *)
Fixpoint index_of (r : wrule R) (l : list (wrule R)) : res nat :=
  match l with
  | [] => Raise ValueError
  | s :: l => if eqr s r then Ok 0 else let* i := index_of r l in Ok (S i)
  end.
Fixpoint mapM {A B} (f : A -> res B) (l : list A) : res (list B) :=
  match l with [] => Ok [] | a :: l => let* b := f a in let* bs := mapM f l in Ok (b :: bs) end.
Fixpoint imapM {A B} (f : nat -> A -> res B) (i : nat) (l : list A) : res (list B) :=
  match l with [] => Ok [] | a :: l => let* b := f i a in let* bs := imapM f (S i) l in Ok (b :: bs) end.

(** [dict(P.align(Q))[i]] (program.py 704-735; fold.py 87).  No match gives None,
    with which the list of measures cannot be indexed (TypeError). *)
Definition align_at (al : list (option nat * option nat)) (i : nat) : res nat :=
  match List.find (fun p => match fst p with Some i' => Nat.eqb i' i | None => false end) al with
  | Some (_, Some j) => Ok j
  | _ => Raise TypeError
  end.
(** [measure_safety.align] (measure.py 47-52).  Simplification: a rule without a match,
    whose measure would be None, is a TypeError already here; for equal programs there
    is none. *)
Definition align_measure (rs rs' : list (wrule R)) (m : msafe) : res msafe :=
  let a := align hash same rs rs' in
  let* ms := mapM (fun i => let* j := align_at a i in geti (fst m) j) (seq 0 (length rs)) in
  Ok (ms, snd m).

Context (se : list stage) (c : nat).
Definition rules_of (k : nat) : list (wrule R) := match se !! k with Some s => s_rules s | None => [] end.

(** the rules that the program number [k] defines: [stage.rules[idx]] for [idx] in [_new_ix] *)
Definition defined (k : nat) : list (wrule R) :=
  match se !! k with
  | Some (Stage rs (HDefine a _)) => drop (length (rules_of a)) rs
  | _ => []
  end.

(** [_freshness_violations] (measure.py 168-198), as a truth value. *)
Fixpoint heads_meet (n : nat) (h : term) (rs : list (wrule R)) : res bool :=
  match rs with
  | [] => Ok false
  | r :: rs =>
      let* (h1, c1) := fresh_rule (R := R) al n ∅ c (WRule h []) in
      let* (h2, _) := fresh_rule (R := R) al n ∅ c1 (WRule (whead r) []) in
      let* u := unifies n ∅ (whead h1) (whead h2) in
      if u then Ok true else heads_meet n h rs
  end.
Fixpoint any_meet (n : nat) (ds rs : list (wrule R)) : res bool :=
  match ds with
  | [] => Ok false
  | d :: ds => let* u := heads_meet n (whead d) rs in if u then Ok true else any_meet n ds rs
  end.
Definition violates (n a d : nat) : res bool :=
  let foreign := base.filter (fun k => k ∉ lineage se a) (lineage se d) in
  any_meet n (flat_map defined foreign) (rules_of a).

(** [measures.get(p)]: the newest entry whose key is [p] or equal to it *)
Definition cached (k : nat) (st : mstate) : option (nat * msafe) :=
  List.find (fun e => Nat.eqb (fst e) k || eqp (rules_of (fst e)) (rules_of k)) (ms_cache st).

(** [Measure.__call__] (measure.py 104-110) and [compute_measure] of Program
    (program.py 1773-1783), Define (2241-2254), Unfold (unfold.py 121-154) and Fold
    (fold.py 143-180).  The assertion that parent and defs have the same root always
    holds in a session.  [Fold.u] is computed with the variables that are new at the end
    of the session; nothing depends on their names. *)
Fixpoint measure (f n k : nat) (st : mstate) {struct f} : res (msafe * mstate) :=
  match f with
  | O => OutOfFuel
  | S f =>
      match se !! k with
      | None => Raise IndexError
      | Some s =>
          match cached k st with
          | Some (l, m) =>
              if Nat.eqb l k then Ok (m, st)
              else let* m := align_measure (s_rules s) (rules_of l) m in Ok (m, st)
          | None =>
              let* (m, st) :=
                match s_how s with
                | HRoot => Ok (zero_measure (s_rules s), st)
                | HDefine a nd =>
                    if negb (Nat.eqb (if Nat.eqb nd 0 then length (s_rules s) else nd) nd) then Raise AssertionError else
                    let* (mp, st) := measure f n a st in
                    let '(bs, cs, v) := new_vars nd (ms_var st) in
                    Ok ((fst mp ++ map point bs, snd mp ++ cs), MState (ms_cache st) v)
                | HUnfold a i j d ix =>
                    let* bad := violates n a d in
                    if bad then Ok (zero_measure (s_rules s), st) else
                    let* (mp, st) := measure f n a st in
                    let* (md, st) := measure f n d st in
                    let* r := geti (rules_of a) i in
                    let* ms := imapM (fun N s => match List.find (fun p => Nat.eqb (fst p) N) ix with
                        | Some (_, D) => let* x := geti (fst mp) i in let* y := geti (fst md) D in Ok (unfold_measure x y)
                        | None => let* P := index_of s (rules_of a) in geti (fst mp) P
                        end) 0 (s_rules s) in
                    let* cs := mapM (fun p => let* x := geti (fst mp) i in let* y := geti (fst md) (snd p) in
                        Ok (CPos (unfold_condition x y (goals (take j (wbody r))) (goals (drop (S j) (wbody r)))))) ix in
                    Ok ((ms, snd mp ++ snd md ++ cs), st)
                | HFold a j d =>
                    let* (u, ix, _) := unfold_by al ord is_input minf is_one eqr n 0 j (rules_of d) (s_rules s) c in
                    if negb (eqp (rules_of a) u) then Raise AssertionError else
                    let* bad := violates n a d in
                    if bad then Ok (zero_measure (s_rules s), st) else
                    let* (mp, st) := measure f n a st in
                    let* (md, st) := measure f n d st in
                    let rev2par := align hash same u (rules_of a) in
                    (* measure of P, measure of D, the rest of the subgoals of P *)
                    let* prs := mapM (fun p =>
                        let* P := align_at rev2par (fst p) in
                        let* rP := geti (rules_of a) P in
                        let* rD := geti (rules_of d) (snd p) in
                        let* x := geti (fst mp) P in
                        let* y := geti (fst md) (snd p) in
                        match last (folds_by rP rD) with
                        | None => Raise KeyError
                        | Some rest => Ok (x, y, rest)
                        end) ix in
                    let* mr := fold_measure (map fst prs) in
                    let* ms := imapM (fun N s => match N with
                        | 0 => Ok mr
                        | _ => let* P := index_of s (rules_of a) in geti (fst mp) P
                        end) 0 (s_rules s) in
                    Ok ((ms, snd mp ++ snd md ++ map (fun p => CPos (fold_condition (fst (fst p)) (snd (fst p)) [] (goals (snd p)))) prs), st)
                end in
              Ok (m, MState ((k, m) :: ms_cache st) (ms_var st))
          end
      end
  end.

(** [measure_safety.is_safe] (measure.py 22-28): [sat] is [z3.Solver().check() == sat]. *)
Context (sat : list cond -> bool).
Definition concrete (x : cond) : option bool :=
  match x with CFalse => Some false | CPos (BInt z) => Some (Z.ltb 0 z) | CPos _ => None end.
Definition is_safe (m : msafe) : bool :=
  if forallb (fun x => match concrete x with Some _ => true | None => false end) (snd m)
  then forallb (fun x => match concrete x with Some true => true | _ => false end) (snd m)
  else sat (snd m).

(** [M.safe(p)] (measure.py 120-121) for several programs in turn *)
Fixpoint asks (f n : nat) (ks : list nat) (st : mstate) : res (list bool * mstate) :=
  match ks with
  | [] => Ok ([], st)
  | k :: ks =>
      let* (m, st) := measure f n k st in
      let* (bs, st) := asks f n ks st in
      Ok (is_safe m :: bs, st)
  end.
End safe.
