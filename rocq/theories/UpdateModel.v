(** Model of a Program as a mutable list of weighted rules: incremental update
    with constant folding, removal, the functor index, rule lookup, and
    constant_folding() (dyna/program.py). *)
From stdpp Require Import gmap.
From Coq Require Import List.
From Coq Require String Ascii.
Import String.StringSyntax Ascii.AsciiSyntax.
From Verif Require Import PyBase Semiring TermModel SetsModel UnifyProofs PruneModel.
Import ListNotations.

(** A factor of a rule body: a semiring value, or anything else (a constant of
    the program text, a variable, a subgoal). *)
Inductive factor (R : Type) : Type :=
| Val (v : R)
| Goal (b : term).
Arguments Val {R} v.
Arguments Goal {R} b.

Record wrule (R : Type) := WRule { whead : term; wbody : list (factor R) }.
Arguments WRule {R} whead wbody.
Arguments whead {R} _.
Arguments wbody {R} _.

(** The parts of a Program object that change (program.py 94-116): the rules, the
    index from canonical heads to positions, the index from functors to positions,
    and [p_c], the number of variables allocated so far.  The caches dropped by
    [_invalidate_caches] are recomputed on demand and are not part of the state. *)
Record pstate (R : Type) := PState {
  p_rules : list (wrule R);
  p_buckets : option (gmap term nat);
  p_f2r : option (gmap term (list nat));
  p_c : nat }.
Arguments PState {R} _ _ _ _.
Arguments p_rules {R} _.
Arguments p_buckets {R} _.
Arguments p_f2r {R} _.
Arguments p_c {R} _.

Section update.
Context {R : semiring}.
(** the value of a constant of the program text *)
Context (wt : const -> R).
(** [Semiring.metric(C, zero) <= 1e-7] and [C == Semiring.one] *)
Context (negligible is_one : R -> bool).
(** the identities of new variables and of the canonical variables *)
Context (al cv : nat -> nat).

(** [Program([...])] *)
Definition p_new (rs : list (wrule R)) (c : nat) : pstate R := PState rs None None c.

(** rule.py 18-19: [is_const] of a factor, with its value ([deref]). *)
Definition factor_const (n : nat) (st : store) (f : factor R) : res (option R) :=
  match f with
  | Val v => Ok (Some v)
  | Goal b => let* b := snap n st b in
              Ok (match b with Cst k => Some (wt k) | _ => None end)
  end.

(** program.py 1440-1454 *)
Fixpoint split_body (n : nat) (st : store) (fs : list (factor R)) (C : R) (xs : list (factor R))
  : res (R * list (factor R)) :=
  match fs with
  | [] => Ok (C, xs)
  | f :: fs =>
      let* o := factor_const n st f in
      match o with
      | Some v => split_body n st fs (smul C v) xs
      | None => split_body n st fs C (xs ++ [f])
      end
  end.

Definition constant_folding_rhs (n : nat) (st : store) (r : wrule R) : res (option (wrule R)) :=
  let* (C, xs) := split_body n st (wbody r) sone [] in
  if negligible C then Ok None
  else if is_one C && negb (match xs with [] => true | _ => false end) then Ok (Some (WRule (whead r) xs))
  else Ok (Some (WRule (whead r) (Val C :: xs))).

(** program.py 1456-1463 *)
Definition get_const_rhs (n : nat) (st : store) (r : wrule R) : res (option R) :=
  match wbody r with
  | [] => Ok (Some sone)
  | [x] => factor_const n st x
  | _ => Ok None
  end.

(** [fresh(r)] for a rule (term.py 566-599): the head and the subgoals are
    renamed together; semiring values have no variables. *)
Definition goals (fs : list (factor R)) : list term :=
  omap (fun f => match f with Goal b => Some b | Val _ => None end) fs.

Fixpoint refill (fs : list (factor R)) (gs : list term) : list (factor R) :=
  match fs, gs with
  | Val v :: fs, _ => Val v :: refill fs gs
  | Goal _ :: fs, g :: gs => Goal g :: refill fs gs
  | _, _ => []
  end.

Definition fresh_rule (n : nat) (st : store) (c : nat) (r : wrule R) : res (wrule R * nat) :=
  let* (t, c) := fresh al n st c (Fn (whead r :: goals (wbody r))) in
  match t with
  | Fn (h :: gs) => Ok (WRule h (refill (wbody r) gs), c)
  | _ => Raise OtherError
  end.

(** The functor of a head; a variable has none (term.py 100-177, 342-343). *)
Definition head_fn (n : nat) (st : store) (h : term) : res term :=
  match h with
  | Fn (f :: _) => snap n st f
  | Fn [] => Raise IndexError
  | _ => Raise AttributeError
  end.

(** program.py 463-469.  Heap: the rule has been renamed, so no variable of it
    is bound. *)
Definition add_rule (n : nat) (st : store) (r : wrule R) (P : pstate R) : res (pstate R * nat) :=
  let i := length (p_rules P) in
  match p_f2r P with
  | None => Ok (PState (p_rules P ++ [r]) (p_buckets P) None (p_c P), i)
  | Some ix =>
      let* f := head_fn n st (whead r) in
      Ok (PState (p_rules P ++ [r]) (p_buckets P) (Some (<[f := default [] (ix !! f) ++ [i]]> ix)) (p_c P), i)
  end.

(** program.py 420-428 *)
Fixpoint make_buckets (n : nat) (st : store) (i : nat) (rs : list (wrule R)) (bk : gmap term nat)
  : res (gmap term nat) :=
  match rs with
  | [] => Ok bk
  | r :: rs =>
      let* o := get_const_rhs n st r in
      match o with
      | None => make_buckets n st (S i) rs bk
      | Some _ =>
          let* h := canonicalize cv n st (whead r) in
          make_buckets n st (S i) rs (match bk !! h with None => <[h := i]> bk | Some _ => bk end)
      end
  end.

(** program.py 395-415.  [C] is the value [get_const_rhs] returned. *)
Definition merge_at (n : nat) (st : store) (i : nat) (C : R) (P : pstate R) : res (pstate R) :=
  match p_rules P !! i with
  | None => Raise IndexError
  | Some s =>
      match wbody s with
      | [f] =>
          let* o := factor_const n st f in
          match o with
          | Some v => Ok (PState (<[i := WRule (whead s) [Val (sadd v C)]]> (p_rules P)) (p_buckets P) (p_f2r P) (p_c P))
          | None => Raise TypeError
          end
      | _ => Raise ValueError
      end
  end.

Definition update_bucket (n : nat) (st : store) (r : wrule R) (P : pstate R) : res (pstate R * option nat) :=
  let* o := get_const_rhs n st r in
  match o with
  | None => Ok (P, None)
  | Some C =>
      let* h := canonicalize cv n st (whead r) in
      match p_buckets P with
      | None => Raise AssertionError
      | Some bk =>
          match bk !! h with
          | None =>
              let* (r, c) := fresh_rule n st (p_c P) r in
              let* (P, i) := add_rule n st r (PState (p_rules P) (p_buckets P) (p_f2r P) c) in
              Ok (PState (p_rules P) (Some (<[h := i]> bk)) (p_f2r P) (p_c P), Some i)
          | Some i =>
              let* P := merge_at n st i C P in Ok (P, Some i)
          end
      end
  end.

(** program.py 431-440: [update] and [append].  [st] is the heap of bindings in
    force; the rule may mention bound variables. *)
Definition update (n : nat) (st : store) (r : wrule R) (P : pstate R) : res (pstate R) :=
  let* o := constant_folding_rhs n st r in
  match o with
  | None => Ok P
  | Some r =>
      let* P := (match p_buckets P with
                 | Some _ => Ok P
                 | None => let* bk := make_buckets n st 0 (p_rules P) ∅ in
                           Ok (PState (p_rules P) (Some bk) (p_f2r P) (p_c P))
                 end) in
      let* (P, o) := update_bucket n st r P in
      match o with
      | Some _ => Ok P
      | None =>
          let* (r, c) := fresh_rule n st (p_c P) r in
          let* (P, _) := add_rule n st r (PState (p_rules P) (p_buckets P) (p_f2r P) c) in
          Ok P
      end
  end.

(** program.py 471-502.  Simplification: positions counted from the front only. *)
Definition pop (i : nat) (P : pstate R) : res (pstate R * wrule R) :=
  match p_rules P !! i with
  | None => Raise IndexError
  | Some r => Ok (PState (take i (p_rules P) ++ drop (S i) (p_rules P)) None None (p_c P), r)
  end.

(** program.py 1398-1409; [ord] is the order in which Python iterates the set. *)
Fixpoint syms_of (n : nat) (st : store) (ts : list term) : res (list term) :=
  match ts with
  | [] => Ok []
  | t :: ts =>
      let* rest := syms_of n st ts in
      match t with
      | Fn _ => let* f := head_fn n st t in Ok (f :: rest)
      | _ => Ok rest
      end
  end.
Definition syms (n : nat) (st : store) (rs : list (wrule R)) : res (list term) :=
  let* l := syms_of n st (concat (map (fun r => whead r :: goals (wbody r)) rs)) in
  Ok (remove_dups l).

(** program.py 1379-1392.  The loop [for f in syms] reuses the name of the
    parameter [f]: the second component of the result is its last value. *)
Context (ord : list term -> list term).
Fixpoint build_f2r (n : nat) (st : store) (sy : list term) (i : nat) (rs : list (wrule R))
    (ix : gmap term (list nat)) (f : term) : res (gmap term (list nat) * term) :=
  match rs with
  | [] => Ok (ix, f)
  | r :: rs =>
      match whead r with
      | Fn _ =>
          let* g := head_fn n st (whead r) in
          build_f2r n st sy (S i) rs (<[g := default [] (ix !! g) ++ [i]]> ix) f
      | Var _ =>
          build_f2r n st sy (S i) rs
            (fold_left (fun ix g => <[g := default [] (ix !! g) ++ [i]]> ix) sy ix)
            (List.last sy f)
      | Cst _ => Raise AssertionError
      end
  end.

Definition f2r (n : nat) (st : store) (f : term) (P : pstate R) : res (list nat * pstate R) :=
  match p_f2r P with
  | Some ix => Ok (default [] (ix !! f), P)
  | None =>
      let* sy := syms n st (p_rules P) in
      let* (ix, f) := build_f2r n st (ord sy) 0 (p_rules P) ∅ f in
      Ok (default [] (ix !! f), PState (p_rules P) (p_buckets P) (Some ix) (p_c P))
  end.

(** program.py 1366-1371 and 1290-1295: the results are the position of the rule,
    its renamed copy, and the heap at the [yield].  Simplification: the copy is
    always a new one (FreshCache, term.py 878-901, hands out either a new copy or
    an old one that nobody uses at the moment). *)
Fixpoint match_rules (n : nat) (st : store) (q : term) (rs : list (wrule R)) (is : list nat) (c : nat)
  : res (list (nat * wrule R * store) * nat) :=
  match is with
  | [] => Ok ([], c)
  | i :: is =>
      match rs !! i with
      | None => Raise IndexError
      | Some r =>
          let* (r, c) := fresh_rule n st c r in
          let* (st', b) := unify_f n st (whead r) q in
          let* (rest, c) := match_rules n st q rs is c in
          Ok (if b then (i, r, st') :: rest else rest, c)
      end
  end.

(** program.py 1273-1371 for a subgoal that is a variable or an ordinary item
    (no constant, input, builtin or [$lift]). *)
Definition lookup (n : nat) (st : store) (q : term) (P : pstate R)
  : res (list (nat * wrule R * store) * pstate R) :=
  let* q := snap n st q in
  match q with
  | Cst _ => Raise OtherError
  | Var _ =>
      let* (rs, c) := match_rules n st q (p_rules P) (seq 0 (length (p_rules P))) (p_c P) in
      Ok (rs, PState (p_rules P) (p_buckets P) (p_f2r P) c)
  | Fn _ =>
      let* f := head_fn n st q in
      let* (ix, P) := f2r n st f P in
      let* (rs, c) := match_rules n st q (p_rules P) ix (p_c P) in
      Ok (rs, PState (p_rules P) (p_buckets P) (p_f2r P) c)
  end.

(** ------------------------------------------------------------------------
    ConstantFolded (program.py 2258-2353).  [sort] is [sorted(xs,
    key=_subgoal_sort_key)]. *)
Context (sort : list term -> list term).

Definition split_const_and_symbolic (n : nat) (st : store) (r : wrule R) : res (R * list (factor R)) :=
  match wbody r with
  | f :: fs => let* o := factor_const n st f in
               match o with Some v => Ok (v, fs) | None => Ok (sone, f :: fs) end
  | [] => Ok (sone, [])
  end.

(** Insertion-ordered dictionary. *)
Fixpoint merge_skel (key : term) (h : term) (xs : list (factor R)) (C : R)
    (d : list (term * (term * list (factor R) * R))) : list (term * (term * list (factor R) * R)) :=
  match d with
  | [] => [(key, (h, xs, C))]
  | (k, (h', xs', v)) :: d =>
      if decide (k = key) then (k, (h', xs', sadd v C)) :: d else (k, (h', xs', v)) :: merge_skel key h xs C d
  end.

Fixpoint cf_fold (n : nat) (st : store) (rs : list (wrule R)) : res (list (wrule R)) :=
  match rs with
  | [] => Ok []
  | r :: rs =>
      let* o := constant_folding_rhs n st r in
      let* rest := cf_fold n st rs in
      Ok (match o with Some r => r :: rest | None => rest end)
  end.

Local Open Scope string_scope.
Fixpoint cf_merge (n : nat) (st : store) (rs : list (wrule R))
    (d : list (term * (term * list (factor R) * R))) : res (list (term * (term * list (factor R) * R))) :=
  match rs with
  | [] => Ok d
  | r :: rs =>
      let* (C, xs) := split_const_and_symbolic n st r in
      let* key := canonicalize cv n st (Fn (Cst (CStr "$skel") :: whead r :: sort (goals xs))) in
      cf_merge n st rs (merge_skel key (whead r) xs C d)
  end.
Local Close Scope string_scope.

(** [chart[canonicalize(head)] += total] in an insertion-ordered dictionary that
    defaults to zero. *)
Fixpoint chart_add (h : term) (v : R) (ch : list (term * R)) : list (term * R) :=
  match ch with
  | [] => [(h, sadd szero v)]
  | (k, w) :: ch => if decide (k = h) then (k, sadd w v) :: ch else (k, w) :: chart_add h v ch
  end.

Fixpoint cf_emit (n : nat) (st : store) (d : list (term * (term * list (factor R) * R)))
    (ch : list (term * R)) (sy : list (wrule R)) : res (list (term * R) * list (wrule R)) :=
  match d with
  | [] => Ok (ch, sy)
  | (_, (h, xs, v)) :: d =>
      match xs with
      | [] => let* k := canonicalize cv n st h in cf_emit n st d (chart_add k v ch) sy
      | _ => cf_emit n st d ch (sy ++ [WRule h (if is_one v then xs else Val v :: xs)])
      end
  end.

Definition constant_folding (n : nat) (st : store) (rs : list (wrule R)) : res (list (wrule R)) :=
  let* rs := cf_fold n st rs in
  let* d := cf_merge n st rs [] in
  let* (ch, sy) := cf_emit n st d [] [] in
  Ok (sy ++ map (fun kv => WRule (fst kv) [Val (snd kv)]) ch).
End update.
