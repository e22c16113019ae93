(** Model of the degrees of rules and programs (dyna/rule.py, dyna/program.py). *)
From Coq Require Import List.
From stdpp Require Import gmap.
From Verif Require Import PyBase Semiring TermModel SetsModel UpdateModel TransModel.
Import ListNotations.

Section degree.
Context {R : semiring}.

(** [self.degree], [self.local_vars], [self.can_elim] *)
Record analysis := Analysis { a_degree : nat; a_local : list nat; a_elim : list nat }.

Definition mem (v : nat) (l : list nat) : bool := existsb (Nat.eqb v) l.
Definition subset (l l' : list nat) : bool := forallb (fun v => mem v l') l.

(** The variables of a factor; semiring values have none. *)
Definition factor_vars (n : nat) (f : factor R) : res (list nat) :=
  match f with Val _ => Ok [] | Goal b => term_vars n ∅ b [] end.
Fixpoint body_vars (n : nat) (fs : list (factor R)) : res (list (list nat)) :=
  match fs with
  | [] => Ok []
  | f :: fs => let* vs := factor_vars n f in let* vss := body_vars n fs in Ok (vs :: vss)
  end.

(** rule.py 225-263.  The variables of the rule are not bound.  [v2f] and
    [fs_with_vars] are computed from the list of the variables of the factors. *)
Definition analyze (n : nat) (r : wrule R) : res analysis :=
  let* out := term_vars n ∅ (whead r) [] in
  let* vs := term_vars n ∅ (rterm r) [] in
  let* fv := body_vars n (wbody r) in
  let v2f v := List.filter (fun i => mem v (nth i fv [])) (seq 0 (length fv)) in
  let with_vars := List.filter (fun i => negb (Nat.eqb (length (nth i fv [])) 0)) (seq 0 (length fv)) in
  let loc := List.filter (fun v => negb (mem v out)) vs in
  Ok (Analysis (length vs) loc (List.filter (fun v => subset (v2f v) with_vars && negb (subset with_vars (v2f v))) loc)).

(** reversed(sorted(xs)) *)
Fixpoint insert_down (x : nat) (l : list nat) : list nat :=
  match l with [] => [x] | y :: l => if Nat.leb y x then x :: y :: l else y :: insert_down x l end.
Fixpoint sort_down (l : list nat) : list nat := match l with [] => [] | x :: l => insert_down x (sort_down l) end.

(** program.py 331-337 *)
Fixpoint rule_degrees (n : nat) (rs : list (wrule R)) : res (list nat) :=
  match rs with
  | [] => Ok []
  | r :: rs => let* a := analyze n r in let* ds := rule_degrees n rs in Ok (a_degree a :: ds)
  end.
Definition degrees (n : nat) (rs : list (wrule R)) : res (list nat) :=
  let* ds := rule_degrees n rs in Ok (sort_down ds).
(** program.py 30-32: the product of two costs *)
Definition cost_mul (a b : list nat) : list nat := sort_down (a ++ b).
End degree.
