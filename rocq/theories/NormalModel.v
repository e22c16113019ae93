(** Model of [normalize_unification2] and [snap_unifications] (dyna/program.py,
    dyna/term.py): nested terms to equations and back. *)
From stdpp Require Import gmap.
From Coq Require Import List.
From Coq Require String Ascii.
Import String.StringSyntax Ascii.AsciiSyntax.
From Verif Require Import PyBase Semiring TermModel SetsModel UnifyProofs PruneModel UpdateModel.
Import ListNotations.

Local Open Scope string_scope.
Definition eq_name : const := CStr "=".
Definition t_eq (x y : term) : term := Fn [Cst eq_name; x; y]%list.
Local Close Scope string_scope.

Section normal.
Context {R : semiring}.
(** identities of new variables *)
Context (al : nat -> nat).

(** program.py 1902-1916: [f(x)], with the equations it appends to [result].  [c]
    counts the variables made so far.  Heap: no variable of a program is bound. *)
Fixpoint flat (x : term) (c : nat) : res (list term * term * nat) :=
  match x with
  | Var v => Ok ([], Var v, c)
  | Cst k => Ok ([t_eq (Var (al c)) (Cst k)], Var (al c), S c)
  | Fn [] => Raise IndexError
  | Fn (f :: args) =>
      let z := Var (al c) in
      let* (es, xs, c) := (fix flats (args : list term) (c : nat) : res (list term * list term * nat) :=
        match args with
        | [] => Ok ([], [], c)
        | y :: ys =>
            let* (e, x, c) := flat y c in
            let* (es, xs, c) := flats ys c in
            Ok (e ++ es, x :: xs, c)
        end) args (S c) in
      Ok (es ++ [t_eq z (Fn (f :: xs))], z, c)
  end.

(** program.py 1899-1919 with the pattern [[*tmps, [_, _, h]]] of 1940 and 1946:
    the equations but the last, and the right-hand side of the last. *)
Definition normalize_term (x : term) (c : nat) : res (list term * term * nat) :=
  let* (es, _, c) := flat x c in
  match rev es with
  | Fn [_; _; h] :: _ => Ok (removelast es, h, c)
  | _ => Raise ValueError
  end.

(** program.py 1921-1936 *)
Definition is_var (x : term) : bool := match x with Var _ => true | _ => false end.
Definition is_normal_form (y : term) : bool :=
  match y with
  | Fn [f; v; rhs] =>
      if decide (f = Cst eq_name) then
        is_var v && match rhs with
                    | Var _ => true
                    | Fn (_ :: fargs) => forallb is_var fargs
                    | Fn [] => false
                    | Cst _ => true
                    end
      else forallb is_var [v; rhs]
  | Fn (_ :: args) => forallb is_var args
  | _ => false
  end.

(** program.py 1942-1948.  A semiring value is neither a Var nor a Term: it comes
    back as the right-hand side of the only equation. *)
Fixpoint normalize_body (fs : list (factor R)) (c : nat) : res (list (factor R) * nat) :=
  match fs with
  | [] => Ok ([], c)
  | Val v :: fs =>
      let* (rest, c) := normalize_body fs (S c) in
      Ok (Val v :: rest, c)
  | Goal y :: fs =>
      if is_normal_form y then
        let* (rest, c) := normalize_body fs c in
        Ok (Goal y :: rest, c)
      else
        let* (tmps, yy, c) := normalize_term y c in
        let* (rest, c) := normalize_body fs c in
        Ok (map Goal tmps ++ Goal yy :: rest, c)
  end.

(** program.py 1938-1952 *)
Definition normalize_rule (r : wrule R) (c : nat) : res (wrule R * nat) :=
  let* (tmps, h, c) := normalize_term (whead r) c in
  let* (ys, c) := normalize_body (wbody r) c in
  Ok (WRule h (map Goal tmps ++ ys), c).
Definition normalize_unification (rs : list (wrule R)) (c : nat) : res (list (wrule R) * nat) :=
  mapSM normalize_rule rs c.

Context (wt : const -> R) (negligible is_one : R -> bool) (cv : nat -> nat).

(** term.py 204-216.  [unify] yields at most once: the result is the heap at the
    only [yield] and the subgoals that are left. *)
Fixpoint snap_body (n : nat) (st : store) (fs : list (factor R)) : res (option (store * list (factor R))) :=
  match fs with
  | [] => Ok (Some (st, []))
  | f0 :: fs =>
      let rest :=
        let* o := snap_body n st fs in
        Ok (match o with Some (st', ys) => Some (st', f0 :: ys) | None => None end) in
      match f0 with
      | Goal (Fn (f :: args)) =>
          let* f := snap n st f in
          if decide (f = Cst eq_name) then
            match args with
            | [a; b] =>
                let* (st', u) := unify_f n st a b in
                if u then snap_body n st' fs else Ok None
            | _ => Raise ValueError
            end
          else rest
      | Goal (Fn []) => Raise IndexError
      | _ => rest
      end
  end.

(** program.py 1472-1476: the rules are put into a new program with [append] while
    the equations hold. *)
Definition snap_rule (n : nat) (r : wrule R) (P : pstate R) : res (pstate R) :=
  let* o := snap_body n ∅ (wbody r) in
  match o with
  | None => Ok P
  | Some (st, ys) => update wt negligible is_one al cv n st (WRule (whead r) ys) P
  end.
Definition snap_unifications (n : nat) (rs : list (wrule R)) (c : nat) : res (pstate R) :=
  foldM (snap_rule n) rs (p_new [] c).
End normal.
