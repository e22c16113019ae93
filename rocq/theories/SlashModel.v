(** Model of the rules built by the slash transformation (dyna/transform/slash.py)
    and by the left-corner transformation (dyna/transform/lct.py). *)
From stdpp Require Import gmap.
From Coq Require Import List.
From Coq Require String Ascii.
From Verif Require Import PyBase Semiring TermModel UnifyProofs SetsModel PruneModel NamesModel UpdateModel TransModel.
Import String.StringSyntax Ascii.AsciiSyntax.
Import ListNotations.

Section slash.
Context {R : semiring}.
(** identities of new and of canonical variables *)
Context (al cv : nat -> nat).
(** the heads of [program.inputs] *)
Context (inputs : list term).
(** [positions.get].  Simplification: positions are not negative. *)
Context (positions : nat -> option nat).
(** LCT (lct.py) or Slash (slash.py); the two differ in the base rule and in the
    rules [ss]. *)
Context (lc : bool).

(** [any(unifies(y, x) for y in ys)] *)
Fixpoint any_unifies (n : nat) (st : store) (ys : list term) (x : term) : res bool :=
  match ys with
  | [] => Ok false
  | y :: ys => let* u := unifies n st y x in if u then Ok true else any_unifies n st ys x
  end.

(** program.py 513-515 and 528-530 *)
Definition is_exogenous (n : nat) (st : store) (x : term) : res bool :=
  let* y := snap n st x in
  if is_const y || is_builtin y then Ok true else any_unifies n st inputs x.

(** coarse_graph.py 15-23: the terms added to [nodes], in order. *)
Definition node_terms (rs : list (wrule R)) : list term :=
  inputs ++ flat_map (fun r => whead r :: List.filter (fun y => negb (is_const y || is_builtin y)) (goals (wbody r))) rs.

(** coarse_graph.py 26-46: [nodes.root] is called on all of these terms, and raises
    KeyError unless exactly one node overlaps with the term. *)
Fixpoint all_roots (n : nat) (nodes : list term * nat) (ts : list term) : res unit :=
  match ts with
  | [] => Ok tt
  | t :: ts => let* _ := de_find al n nodes t in all_roots n nodes ts
  end.

(** CoarseGraph.__init__ (coarse_graph.py 10-47), the attribute [nodes]. *)
Definition coarse_nodes (n : nat) (rs : list (wrule R)) (c : nat) : res (list term * nat) :=
  let* nodes := de_adds al cv n ([], c) (node_terms rs) in
  let* _ := all_roots n nodes (node_terms rs) in
  Ok nodes.

(** slash.py 49-59, lct.py 47-57: [useful_other] after [self.x], and the nodes.  Simplification:
    a position does not select a semiring value. *)
Fixpoint find_useful (n : nat) (rs : list (wrule R)) (i : nat) (nodes : list term * nat) : res (list term * (list term * nat)) :=
  match rs with
  | [] => Ok ([], nodes)
  | r :: rs =>
      match positions i with
      | None => find_useful n rs (S i) nodes
      | Some j =>
          match wbody r !! j with
          | None => Raise IndexError
          | Some (Val _) => Raise OtherError
          | Some (Goal y) =>
              if is_const y || is_builtin y then
                let* nodes := de_add al cv n nodes y in find_useful n rs (S i) nodes
              else
                let* (useful, nodes) := find_useful n rs (S i) nodes in Ok (y :: useful, nodes)
          end
      end
  end.

Section names.
Context (slash_fn other_fn : String.string).
(** [self.x] and [self._useful_other] *)
Context (x : term) (useful : list term).

(** slash.py 120-122, lct.py 120-122 *)
Definition mk_slash (y z : term) : term := Fn [Cst (CStr slash_fn); y; z].

(** slash.py 138-139 *)
Fixpoint is_useful_in (n : nat) (st : store) (z : term) (ys : list term) : res bool :=
  match ys with
  | [] => Ok false
  | y :: ys => let* u := unifies n st z y in if u then Ok true else is_useful_in n st z ys
  end.
Definition is_useful (n : nat) (st : store) (z : term) : res bool := is_useful_in n st z useful.

(** slash.py 124-136 *)
Definition mk_other (n : nat) (st : store) (z : term) : res term :=
  let* e := is_exogenous n st z in
  if e then Ok z else
  let* u := is_useful n st z in
  Ok (if u then Fn [Cst (CStr other_fn); z] else z).

(** slash.py 42-45: [add_rule] is [fresh_rule] of UpdateModel. *)
Notation add_rule n st c h b := (fresh_rule al n st c (WRule h b)).

(** slash.py 66-90; lct.py 65-92.  [tmp] is the variable of lct.py line 62; Slash
    does not use it. *)
Fixpoint rule_loop (n : nat) (tmp : term) (rs : list (wrule R)) (i : nat) (c : nat) : res (list (wrule R) * nat) :=
  match rs with
  | [] => Ok ([], c)
  | r :: rs =>
      let h := whead r in let b := wbody r in
      match positions i with
      | None =>
          let* u := is_useful n ∅ h in
          let* h' := if u then mk_other n ∅ h else Ok h in
          let* (o, c) := add_rule n ∅ c h' b in
          let* (L, c) := rule_loop n tmp rs (S i) c in
          Ok (o :: L, c)
      | Some j =>
          match b !! j with
          | None => Raise IndexError
          | Some (Val _) => Raise OtherError
          | Some (Goal bj) =>
              let* u := unifies n ∅ x bj in
              let* ok := if u then covers n x bj else Ok true in
              if negb ok then Raise AssertionError else
              let* (ss, c) := (if lc
                               then add_rule n ∅ c (mk_slash tmp bj) (take j b ++ drop (S j) b ++ [Goal (mk_slash tmp h)])
                               else add_rule n ∅ c (mk_slash h x) (take j b ++ Goal (mk_slash bj x) :: drop (S j) b)) in
              let* (oo, c) := (if u then Ok ([], c) else
                                 let* h' := mk_other n ∅ h in
                                 let* b' := mk_other n ∅ bj in
                                 let* (oo, c) := add_rule n ∅ c h' (take j b ++ Goal b' :: drop (S j) b) in
                                 Ok ([oo], c)) in
              let* (L, c) := rule_loop n tmp rs (S i) c in
              Ok (ss :: oo ++ L, c)
          end
      end
  end.

(** builtin.py 106-110: [not_matches3].  Simplification: [x] is the same for all
    constraints of a transformed program, so a constant stands for [lam(x)], whose
    variables are not seen by anything. *)
Definition not_matches (y : term) : term := Fn [Cst (CStr "$not_matches"); Cst (CStr "lam"); y].
Definition not_matches3 (n : nat) (a y : term) : res (list (list term)) :=
  match a with
  | Var _ => Ok []
  | _ => let* u := unifies n ∅ a y in Ok (if u then [[not_matches y]] else [[]])
  end.

(** slash.py 106-107: one rule for each of the alternatives [cs]. *)
Fixpoint add_ro (n : nat) (y o : term) (cs : list (list term)) (c : nat) : res (list (wrule R) * nat) :=
  match cs with
  | [] => Ok ([], c)
  | k :: cs => let* (r, c) := add_rule n ∅ c y (Goal o :: map Goal k) in
               let* (L, c) := add_ro n y o cs c in Ok (r :: L, c)
  end.

(** slash.py 109-112 *)
Fixpoint rso_loop (n : nat) (y : term) (nodes : list term) (c : nat) : res (list (wrule R) * nat) :=
  match nodes with
  | [] => Ok ([], c)
  | z :: nodes =>
      let* (z, c) := fresh al n ∅ c z in
      let* (st, u) := unify_f n ∅ x z in
      let* (L1, c) := (if u then let* o := mk_other n st z in
                                 let* (r, c) := add_rule n st c y [Goal o; Goal (mk_slash y z)] in Ok ([r], c)
                       else Ok ([], c)) in
      let* (L, c) := rso_loop n y nodes c in
      Ok (L1 ++ L, c)
  end.

(** slash.py 98-112 *)
Fixpoint node_loop (n : nat) (all nodes : list term) (c : nat) : res (list (wrule R) * nat) :=
  match nodes with
  | [] => Ok ([], c)
  | y :: nodes =>
      let* e := is_exogenous n ∅ y in
      if e then node_loop n all nodes c else
      let* (y, c) := fresh al n ∅ c y in
      let* u := is_useful n ∅ y in
      let* (L1, c) := (if u then let* (a, c) := fresh al n ∅ c x in
                                 let* cs := not_matches3 n a y in
                                 let* o := match cs with [] => Ok y | _ => mk_other n ∅ y end in
                                 add_ro n y o cs c
                       else Ok ([], c)) in
      let* (L2, c) := rso_loop n y all c in
      let* (L, c) := node_loop n all nodes c in
      Ok (L1 ++ L2 ++ L, c)
  end.
End names.

(** Slash.__init__ (slash.py 10-118) and LCT.__init__ (lct.py 8-118): the rules, and
    the names of the new items.  Simplification: the variable [tmp] is allocated for
    Slash too. *)
Definition slash (n : nat) (slash_fn other_fn : String.string) (x : term) (rs : list (wrule R)) (c : nat)
  : res (list (wrule R) * String.string * String.string * nat) :=
  let* slash_fn := local_gen_functor n (wsyms rs) slash_fn in
  let* other_fn := local_gen_functor n (wsyms rs) other_fn in
  let* (x, c) := fresh al n ∅ c x in
  let* (nodes, c) := coarse_nodes n rs c in
  let* (useful, nodes) := find_useful n rs 0 (nodes, c) in
  let useful := x :: useful in
  let '(nodes, c) := nodes in
  let tmp := Var (al c) in
  let c := S c in
  let* (b, c) := (if lc then fresh_rule al n ∅ c (WRule (mk_slash slash_fn tmp tmp) [])
                  else fresh_rule al n ∅ c (WRule (mk_slash slash_fn x x) [])) in
  let* (L1, c) := rule_loop slash_fn other_fn x useful n tmp rs 0 c in
  let* (L2, c) := node_loop slash_fn other_fn x useful n nodes nodes c in
  Ok (b :: L1 ++ L2, slash_fn, other_fn, c).
End slash.
