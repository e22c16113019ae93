(** Model of [Rule.folds_by] (dyna/rule.py). *)
From Coq Require Import List.
From Coq Require String Ascii.
From stdpp Require Import gmap.
From Verif Require Import PyBase Semiring TermModel TermSpec SetsModel UpdateModel TransModel.
Import String.StringSyntax Ascii.AsciiSyntax.
Import ListNotations.
Local Open Scope string_scope.
Local Open Scope list_scope.

Section folds.
Context {R : semiring}.
(** A value that occurs as a factor is matched like a constant. *)
Context (enc : R -> term).
Definition enc_f (f : factor R) : term := match f with Val v => enc v | Goal b => b end.

(** [FoldedRule] (rule.py 170-192).  The field [left] is always empty. *)
Record folded := Folded {
  f_head : term; f_subgoal : term; f_right : list (factor R);
  f_subst : subst; f_align : list (nat * nat); f_remaining : list nat }.
Definition folded_rule (t : folded) : wrule R := WRule (f_head t) (Goal (f_subgoal t) :: f_right t).

Definition diff (a b : list nat) : list nat := base.filter (fun v => v ∉ b) a.
Definition body_vars (fs : list (factor R)) : list nat := flat_map vars (goals fs).
Definition junk : term := Cst (CStr "junk").

(** One iteration of the loop (rule.py 110-163): the term given by the substitution
    [s], the positions [rem] of [P] that are left over.  Simplification:
    the variables of a term are those of [vars]
    (no variable is bound). *)
Definition fold_by_match (n : nat) (P D : wrule R) (m : subst * list (nat * nat) * list nat) : res (option folded) :=
  let '(s, a, rem) := m in
  let* h := sapply n s (whead D) in
  let* bs := mapM (sapply n s) (goals (wbody D)) in
  let* rest := pick (wbody P) rem in
  let annoying := diff (diff (vars h) (flat_map vars bs)) (body_vars rest) in
  let h := sub (fun v => if decide (v ∈ annoying) then junk else Var v) h in
  let inside := diff (flat_map vars bs) (vars h) in
  let outside := vars (whead P) ++ body_vars rest in
  Ok (if forallb (fun v => negb (bool_decide (v ∈ outside))) inside
      then Some (Folded (whead P) h rest s a rem) else None).

(** rule.py 106-165: [P.folds_by(D)], in the order in which the matches are
    enumerated; the set has the same elements. *)
Definition folds_by (n : nat) (P D : wrule R) : res (list folded) :=
  let* ms := pcovers n (map enc_f (wbody D)) (map enc_f (wbody P)) in
  let* ts := mapM (fold_by_match n P D) ms in
  Ok (omap id ts).
End folds.
