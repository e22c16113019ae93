(** Model of dyna/analyze/dead.py: pruning of rules that cannot contribute to
    the outputs. *)
From stdpp Require Import gmap.
From Coq Require Import ZArith.
From Coq Require String Ascii.
From Verif Require Import PyBase TermModel TermProofs SetsModel GraphModel.
Import String.StringSyntax Ascii.AsciiSyntax.

(** Functors and node names are hashable. *)
#[global] Instance const_countable : Countable const.
Proof.
  refine (inj_countable' (fun c => match c with CInt z => inl z | CStr s => inr s end)
            (fun x => match x with inl z => CInt z | inr s => CStr s end) _).
  by intros [].
Defined.

Fixpoint term_enc (t : term) : gen_tree (nat + const) :=
  match t with
  | Var v => GenLeaf (inl v)
  | Cst c => GenLeaf (inr c)
  | Fn xs => GenNode 0 (map term_enc xs)
  end.
Fixpoint term_dec (t : gen_tree (nat + const)) : term :=
  match t with
  | GenLeaf (inl v) => Var v
  | GenLeaf (inr c) => Cst c
  | GenNode _ xs => Fn (map term_dec xs)
  end.
Lemma term_dec_enc t : term_dec (term_enc t) = t.
Proof.
  revert t. fix IH 1. intros [v|c|xs]; [done|done|]. simpl. f_equal.
  induction xs as [|x xs IHxs]; simpl; [done|]. by rewrite IH, IHxs.
Qed.
#[global] Instance term_countable : Countable term := inj_countable' term_enc term_dec term_dec_enc.

(** rule.py 18-19 *)
Definition is_const (x : term) : bool := match x with Cst _ => true | _ => false end.

Local Open Scope string_scope.
(** builtin.py 58-63 and 77-82: functor and arity of the builtins *)
Definition cmps : list String.string :=
  ["<"; ">"; "!="; "=="; "<="; ">="]%list.
Definition builtin_sigs : list (String.string * nat) :=
  [("is", 2); ("=", 2); ("$free", 1); ("$bound", 1); ("$not_matches", 2)]%list ++ map (fun o => (o, 2)) cmps.

Local Close Scope string_scope.

(** builtin.py 85-90.  Simplification: no BuiltinConstraint objects. *)
Definition is_builtin (x : term) : bool :=
  match x with
  | Var _ => true
  | Fn (Cst (CStr f) :: args) => bool_decide ((f, length args) ∈ builtin_sigs)
  | _ => false
  end.

Definition exo (x : term) : bool := is_const x || is_builtin x.

(** [x.fn]: only a Term has it (term.py 302-320) *)
Definition fn_of (x : term) : res term :=
  match x with
  | Fn (f :: _) => Ok f
  | Fn [] => Raise IndexError
  | _ => Raise AttributeError
  end.

(** dead.py 82: one hyperedge *)
Definition vf_edge (r : rule) : res (hedge (V:=term)) :=
  let* h := fn_of (rhead r) in
  let* bs := mapM fn_of (List.filter (fun b => negb (is_const b) && negb (is_builtin b)) (rbody r)) in
  Ok (h, bs).

(** dead.py 74-99.  [inputs] and [outputs] are the heads of the input and output
    declarations; [pick] is the order in which sets are popped. *)
Definition prune_very_fast (pick : nat -> gset term -> term) (n : nat) (inputs outputs : list term)
  (P : list rule) : res (list rule) :=
  let* ins := mapM fn_of inputs in
  let* outs := mapM fn_of outputs in
  let* E := mapM vf_edge P in
  let* T := reachability pick E n (list_to_set ins) (list_to_set outs) in
  let active := map snd (List.filter (fun er : hedge * rule =>
                  bool_decide (hhead (fst er) ∈ T) && forallb (fun b => bool_decide (b ∈ T)) (hbody (fst er)))
                  (zip E P)) in
  Ok (if Nat.eqb (length P) (length active) then P else active).

Section fast.
Context (al cv : nat -> nat).

(** term.py 1032-1039 (find_all), with the allocation of the fresh variables. *)
Definition find_all (n : nat) (xs : list term) (x : term) (c : nat) : res (list nat * nat) :=
  let* (x, c) := fresh al n ∅ c x in
  let* index := de_find_all n x 0 xs in
  Ok (index, c).

(** dead.py 108-116: the terms added to [nodes], in order *)
Definition coarse_terms (inputs : list term) (P : list rule) : list term :=
  inputs ++ flat_map (fun r => rhead r :: List.filter (fun y => negb (is_const y || is_builtin y)) (rbody r)) P.

(** dead.py 138-144 *)
Definition coarse_f1 (n : nat) (xs : list term) (x : term) (c : nat) : res (list (list nat) * nat) :=
  if is_const x || is_builtin x then Ok ([[]], c)
  else let* (index, c) := find_all n xs x c in Ok (map (fun v => [v]) index, c).

(** dead.py 146-152.  Simplification: the generator is run to its end, and the
    inner generator, which only depends on the remaining arguments, is run once
    instead of once per [v]. *)
Fixpoint coarse_f (n : nat) (xs : list term) (ys : list term) (c : nat) : res (list (list nat) * nat) :=
  match ys with
  | [] => Ok ([[]], c)
  | y :: ys =>
      let* (vs, c) := coarse_f1 n xs y c in
      let* (rest, c) := coarse_f n xs ys c in
      Ok (flat_map (fun v => map (fun r => v ++ r) rest) vs, c)
  end.

(** [for [i] in self.f(x)]: every element must have length one *)
Definition the_one (v : list nat) : res nat :=
  match v with [i] => Ok i | _ => Raise ValueError end.

Definition coarse_one (n : nat) (xs : list term) (x : term) (c : nat) : res (list nat * nat) :=
  let* (vs, c) := coarse_f n xs [x] c in
  let* is := mapM the_one vs in Ok (is, c).

(** dead.py 119-126 *)
Definition coarse_rule (n : nat) (xs : list term) (r : rule) (c : nat) : res (list (hedge (V:=nat)) * nat) :=
  let* (hs, c) := coarse_one n xs (rhead r) c in
  let* (bs, c) := coarse_f n xs (rbody r) c in
  Ok (flat_map (fun h => map (fun b => (h, b)) bs) hs, c).

(** dead.py 133-136 and 165-166: some tuple of node numbers is all useful *)
Definition good (n : nat) (xs : list term) (useful : gset nat) (x : term) (c : nat) : res (bool * nat) :=
  let* (vs, c) := coarse_f1 n xs x c in
  Ok (existsb (fun v => forallb (fun i => bool_decide (i ∈ useful)) v) vs, c).

(** [all(good(b) for b in bs)], short-circuiting *)
Fixpoint all_good (n : nat) (xs : list term) (useful : gset nat) (bs : list term) (c : nat) : res (bool * nat) :=
  match bs with
  | [] => Ok (true, c)
  | b :: bs => let* (g, c) := good n xs useful b c in
               if g then all_good n xs useful bs c else Ok (false, c)
  end.

(** dead.py 168: the test for one rule, then the list comprehension *)
Definition keep_rule (n : nat) (xs : list term) (useful : gset nat) (r : rule) (c : nat) : res (bool * nat) :=
  let* (g, c) := good n xs useful (rhead r) c in
  if g then all_good n xs useful (rbody r) c else Ok (false, c).

Fixpoint keep_rules (n : nat) (xs : list term) (useful : gset nat) (P : list rule) (c : nat)
  : res (list rule * nat) :=
  match P with
  | [] => Ok ([], c)
  | r :: P => let* (g, c) := keep_rule n xs useful r c in
              let* (rs, c) := keep_rules n xs useful P c in
              Ok (if g then r :: rs else rs, c)
  end.

(** dead.py 103-131 and 158-173 *)
Definition prune_fast (pick : nat -> gset nat -> nat) (n c : nat) (inputs outputs : list term)
  (P : list rule) : res (list rule) :=
  let* (xs, c) := de_adds al cv n ([], c) (coarse_terms inputs P) in
  let* (ins, c) := mapSM (coarse_one n xs) inputs c in
  let* (es, c) := mapSM (coarse_rule n xs) P c in
  let* (ins', c) := mapSM (coarse_one n xs) inputs c in
  let* (outs, c) := mapSM (coarse_one n xs) outputs c in
  let E := map (fun i => (i, [])) (concat ins) ++ concat es in
  let* useful := reachability pick E n (list_to_set (concat ins')) (list_to_set (concat outs)) in
  let* (active, c) := keep_rules n xs useful P c in
  Ok (if Nat.eqb (length P) (length active) then P else active).
End fast.
