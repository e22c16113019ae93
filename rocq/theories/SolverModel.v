(** Model of the forward-chaining solver: dyna/execute/solver.py (Solver and
    Chart) and the parts of dyna/execute/base.py it uses. *)
From stdpp Require Import gmap.
From Coq Require Import ZArith.
From Coq Require String Ascii.
From Verif Require Import PyBase Semiring TermModel TermProofs UnifyProofs SetsModel PruneModel.
Import String.StringSyntax Ascii.AsciiSyntax.

(** ------------------------------------------------------------------------
    Chart (solver.py 171-241).  The values are of any type [A].  Items are ground
    terms, so the dictionary is keyed by terms without heap bindings. *)

(** A hash index for one binding pattern: from the values at the bound positions
    to the set of items (a Python set, listed in some order). *)
Definition hindex : Type := gmap (list term) (list term).

(** solver.py 171-176: [self.chart] and [self.index], a dictionary from (functor,
    arity) to a dictionary from binding patterns to indexes. *)
Record chart (A : Type) := Chart {
  c_dict : gmap term A;
  c_index : gmap (term * nat) (gmap (list nat) hindex)
}.
Arguments Chart {A} _ _.
Arguments c_dict {A} _.
Arguments c_index {A} _.

Definition chart_empty {A} : chart A := Chart ∅ ∅.

(** [(x.fn, x.arity)] and [x.args] of an item (term.py 339-349) *)
Definition fn_args (x : term) : res (term * list term) :=
  match x with
  | Fn (f :: args) => Ok (f, args)
  | Fn [] => Raise IndexError
  | _ => Raise AttributeError
  end.

(** [tuple(args[i] for i in m)].  The positions come from [query_mode] for the
    same arity, so none is out of range. *)
Definition args_at (m : list nat) (args : list term) : list term := omap (fun i => args !! i) m.

(** [ix[k].add(x)] with an empty set as the default *)
Definition ix_add (k : list term) (x : term) (ix : hindex) : hindex :=
  <[k := x :: default [] (ix !! k)]> ix.

(** solver.py 222-234 *)
Definition update_index {A} (item : term) (ch : chart A) : res (chart A) :=
  if decide (item ∈ dom (c_dict ch)) then Ok ch
  else
    let* (f, args) := fn_args item in
    let fa := (f, length args) in
    match c_index ch !! fa with
    | None => Ok ch
    | Some avail =>
        Ok (Chart (c_dict ch)
              (<[fa := map_imap (fun m ix => Some (ix_add (args_at m args) item ix)) avail]> (c_index ch)))
    end.

(** solver.py 181-183 *)
Definition chart_set {A} (item : term) (v : A) (ch : chart A) : res (chart A) :=
  let* ch := update_index item ch in
  Ok (Chart (<[item := v]> (c_dict ch)) (c_index ch)).

(** solver.py 205-211.  The test in the loop is [x.fn == f and x.arity == a]. *)
Definition build_index {A} (fa : term * nat) (m : list nat) (d : gmap term A) : hindex :=
  fold_right (fun x ix =>
    match x with
    | Fn (f :: args) => if decide ((f, length args) = fa) then ix_add (args_at m args) x ix else ix
    | _ => ix
    end) ∅ (map fst (map_to_list d)).

(** The positions [i] with [is_ground(x)], starting to count at [i]. *)
Fixpoint bound_at (n : nat) (st : store) (i : nat) (args : list term) : res (list nat) :=
  match args with
  | [] => Ok []
  | x :: args => let* b := is_ground n st x in
                 let* m := bound_at n st (S i) args in
                 Ok (if b then i :: m else m)
  end.

(** solver.py 237-241; [q.fn] snaps the functor (term.py 339-341) *)
Definition query_mode (n : nat) (st : store) (q : term) : res (term * nat * list nat) :=
  let* (f, args) := fn_args q in
  let* f := snap n st f in
  let* m := bound_at n st 0 args in
  Ok ((f, length args), m).

(** solver.py 201-203: [for x in xs: for _ in unify(x, q): yield self.chart[q]].
    Each result is the heap at the time of the [yield] and the value yielded;
    [unify_f] is the first-order form of [unify] (UnifyProofs.unify_cps).
    Simplification: the generator is run to its end before the consumer sees the
    results. *)
Fixpoint match_items {A} (n : nat) (st : store) (d : gmap term A) (q : term) (xs : list term)
  : res (list (store * A)) :=
  match xs with
  | [] => Ok []
  | x :: xs =>
      let* (st', b) := unify_f n st x q in
      let* here := (if b then let* y := deref n st' q in
                             match d !! y with Some v => Ok [(st', v)] | None => Raise KeyError end
                    else Ok []) in
      let* rest := match_items n st d q xs in
      Ok (here ++ rest)
  end.

(** solver.py 189-203.  [ord] is the order in which the set is iterated. *)
Definition chart_get {A} (ord : list term -> list term) (n : nat) (st : store) (q : term) (ch : chart A)
  : res (list (store * A) * chart A) :=
  let* (fa, m) := query_mode n st q in
  let avail := default ∅ (c_index ch !! fa) in
  let ix := match avail !! m with Some ix => ix | None => build_index fa m (c_dict ch) end in
  let ch' := Chart (c_dict ch) (<[fa := <[m := ix]> avail]> (c_index ch)) in
  let* (_, args) := fn_args q in
  let* k := mapM (deref n st) (args_at m args) in
  let xs := ord (default [] (ix !! k)) in
  let* rs := match_items n st (c_dict ch) q xs in
  Ok (rs, ch').

(** ------------------------------------------------------------------------
    Solver *)
Section solver.
Context {R : semiring}.
(** The value of a constant of the program text as an element of the semiring. *)
Context (wt : const -> R).
(** base.py 64-74: [approx_equal]. *)
Context (approx : R -> R -> bool).
Context (ord : list term -> list term).
(** builtin.py 58-63: the comparison predicates on ground terms. *)
Context (cmpf : String.string -> term -> term -> res bool).
(** builtin.py 141-150: [Builtins.__call__] on [x is y]: the heaps at each
    yield. *)
Context (is_run : nat -> store -> term -> term -> res (list store)).

Local Open Scope string_scope.

(** solver.py 124-169.  Not modelled: BuiltinConstraint objects and
    [$not_matches] (an error). *)
Definition lookup_vals (n : nat) (st : store) (q : term) (ch : chart R)
  : res (list (store * R) * chart R) :=
  let* q := snap n st q in
  match q with
  | Cst c => Ok ([(st, wt c)]%list, ch)
  | Var _ => Raise InstFault
  | Fn [] => Raise IndexError
  | Fn (f :: args) =>
      let* f := snap n st f in
      if decide (f = Cst (CStr "$not_matches")) then Raise OtherError
      else if decide (f = Cst (CStr "=")) then
        match args with
        | [x; y] => let* (st', b) := unify_f n st x y in
                    Ok (if b then [(st', sone)]%list else [], ch)
        | _ => Raise ValueError
        end
      else match f, args with
      | Cst (CStr op), [x; y] =>
          if decide (op ∈ cmps) then
            let* gx := is_ground n st x in
            let* gy := (if gx then is_ground n st y else Ok false) in
            if gx && gy then
              let* x := deref n st x in
              let* y := deref n st y in
              let* b := cmpf op x y in
              Ok (if b then [(st, sone)]%list else [], ch)
            else Raise InstFault
          else if decide (op = "is") then
            let* sts := is_run n st x y in Ok (map (fun st' => (st', sone)) sts, ch)
          else chart_get ord n st q ch
      | Cst (CStr op), _ => if decide (op = "is") then Raise ValueError else chart_get ord n st q ch
      | _, _ => chart_get ord n st q ch
      end
  end%list.

Local Close Scope string_scope.

(** base.py 100-111.  Each result is the heap and the list of the values of the
    subgoals (Python multiplies them onto a product from left to right). *)
Fixpoint join (n : nat) (st : store) (xs : list term) (ch : chart R)
  : res (list (store * list R) * chart R) :=
  match xs with
  | [] => Ok ([(st, [])], ch)
  | x :: xs =>
      let* (rs, ch) := lookup_vals n st x ch in
      let* (rss, ch) := mapSM (fun sv ch =>
        let* (r, ch) := join n (fst sv) xs ch in
        Ok (map (fun sw => (fst sw, snd sv :: snd sw)) r, ch)) rs ch in
      Ok (concat rss, ch)
  end.

(** solver.py 26-50: the state of a solver.  Simplification: items are not
    interned, and priorities only show as the order in which the agenda is
    popped and in the updates that they discard (see [update]). *)
Record sstate := SState {
  s_chart : chart R;
  s_change : gmap term R;
  s_agenda : gset term;
  s_init : gset nat       (* base.py 29: [self.initialized], by rule number *)
}.

Definition s_empty : sstate := SState chart_empty ∅ ∅ ∅.

Definition set_chart (s : sstate) (ch : chart R) : sstate :=
  SState ch (s_change s) (s_agenda s) (s_init s).

(** solver.py 69-79: record the change and put the item on the agenda *)
Definition push (item : term) (Δ : R) (s : sstate) : sstate :=
  SState (s_chart s)
    (<[item := match s_change s !! item with None => Δ | Some v => sadd v Δ end]> (s_change s))
    ({[item]} ∪ s_agenda s) (s_init s).

(** solver.py 53-79 for a ground item.  [keep] says for which items the priority
    function does not return None (solver.py 63-68); without a priority function
    it is true of all items. *)
Definition update (keep : term -> bool) (item : term) (Δ : R) (s : sstate) : sstate :=
  if keep item then push item Δ s else s.
Definition all_kept (_ : term) : bool := true.

(** One call of [update(r.head, c)] after a join that ended with the heap [st]
    (solver.py 53-55).  Simplification: a rule instance with an unbound variable
    in its body but not in its head is not modelled (an error).  On such an
    instance base.py 113-117 multiplies by an infinite multiplicity, but
    solver.py 102-110 does not. *)
Definition update_head (keep : term -> bool) (n : nat) (st : store) (r : rule) (c : R) (s : sstate) : res sstate :=
  let* h := deref n st (rhead r) in
  let* g := is_ground n st h in
  if g then
    let* gb := forallM (is_ground n st) (rbody r) in
    if gb then Ok (update keep h c s) else Raise OtherError
  else Raise SolverLimitation.

(** base.py 113-133.  [i] is the number of the rule [r].  Simplification: the
    copy made by [fresh(r)] is not modelled, since no other term shares its
    variables. *)
Definition init_rule (keep : term -> bool) (n : nat) (i : nat) (r : rule) (s : sstate) : res sstate :=
  if decide (i ∈ s_init s) then Ok s
  else
    let* (rs, ch) := join n ∅ (rbody r) (s_chart s) in
    let s := SState ch (s_change s) (s_agenda s) ({[i]} ∪ s_init s) in
    foldM (fun sw s => update_head keep n (fst sw) r (smul (fold_left smul (snd sw) sone) sone) s) rs s.

(** solver.py 45-49: rule and subgoal numbers for a functor and arity. *)
Definition driver_at (fa : term * nat) (b : term) : bool :=
  match b with
  | Fn (f :: args) => negb (is_builtin b) && bool_decide ((f, length args) = fa)
  | _ => false
  end.

Fixpoint drivers (i : nat) (P : list rule) (fa : term * nat) : list (nat * nat) :=
  match P with
  | [] => []
  | r :: P => omap (fun kb => if driver_at fa (snd kb) then Some (i, fst kb) else None)
                (zip (seq 0 (length (rbody r))) (rbody r)) ++ drivers (S i) P fa
  end.

(** solver.py 103-109: [vs] are the values of the subgoals [zs] *)
Fixpoint delta (n : nat) (st : store) (a : term) (old Δ : R) (i j : nat) (zs : list term) (vs : list R) (c : R)
  : res R :=
  match zs, vs with
  | z :: zs, v :: vs =>
      let* e := (if Nat.ltb j i then py_eq n st z a else Ok false) in
      delta n st a old Δ i (S j) zs vs (smul c (if e then old else if Nat.eqb i j then Δ else v))
  | _, _ => Ok c
  end.

(** solver.py 101-122: one driver *)
Definition drive (keep : term -> bool) (P : list rule) (n : nat) (a : term) (old Δ : R) (ik : nat * nat) (s : sstate) : res sstate :=
  let '(i, k) := ik in
  match nth_error P i with
  | None => Raise IndexError
  | Some r =>
  match nth_error (rbody r) k with
  | None => Raise IndexError
  | Some b =>
      let* (st, u) := unify_f n ∅ a b in
      if u then
        let* (rs, ch) := join n st (rbody r) (s_chart s) in
        foldM (fun sw s => let* c := delta n (fst sw) a old Δ k 0 (rbody r) (snd sw) sone in
                           update_head keep n (fst sw) r c s) rs (set_chart s ch)
      else Ok s
  end
  end.

(** solver.py 84-110.  [pick k A] is what the k-th [popitem] returns; [n] bounds
    the recursion on terms, [p] the number of pops. *)
Fixpoint fc_loop (keep : term -> bool) (pick : nat -> gset term -> term) (P : list rule) (n p k : nat) (s : sstate) : res sstate :=
  match p with
  | 0 => OutOfFuel
  | S p =>
      if decide (s_agenda s = ∅) then Ok s
      else
        let a := pick k (s_agenda s) in
        match s_change s !! a with
        | None => Raise KeyError
        | Some Δ =>
            let s := SState (s_chart s) (delete a (s_change s)) (s_agenda s ∖ {[a]}) (s_init s) in
            let old := default szero (c_dict (s_chart s) !! a) in
            let new := sadd old Δ in
            if approx new old then fc_loop keep pick P n p (S k) s
            else
              let* ch := chart_set a new (s_chart s) in
              let* (f, args) := fn_args a in
              let* s := foldM (drive keep P n a old Δ) (drivers 0 P (f, length args)) (set_chart s ch) in
              fc_loop keep pick P n p (S k) s
        end
  end.

(** [for r in self.program: self.init_rule(r)], solver.py 82 *)
Fixpoint init_rules (keep : term -> bool) (n : nat) (i : nat) (P : list rule) (s : sstate) : res sstate :=
  match P with
  | [] => Ok s
  | r :: P => let* s := init_rule keep n i r s in init_rules keep n (S i) P s
  end.

(** solver.py 81-110 *)
Definition forward_chaining (keep : term -> bool) (pick : nat -> gset term -> term) (P : list rule) (n p : nat) (s : sstate) : res sstate :=
  let* s := init_rules keep n 0 P s in
  fc_loop keep pick P n p 0 s.

(** base.py 137-155: another solver is run on the data, and its chart is added.  The
    other solver has no priority function (line 148). *)
Definition load_data (keep : term -> bool) (pick : nat -> gset term -> term) (D : list rule) (n p : nat) (s : sstate) : res sstate :=
  let* d := forward_chaining all_kept pick D n p s_empty in
  Ok (fold_left (fun s kv => update keep (fst kv) (snd kv) s) (map_to_list (c_dict (s_chart d))) s).

(** base.py 79-93: loading data and running, in any order.  Each operation comes
    with its own schedule and bounds. *)
Inductive op : Type :=
| OpLoad (pick : nat -> gset term -> term) (n p : nat) (D : list rule)
| OpRun (pick : nat -> gset term -> term) (n p : nat).

Definition do_op (keep : term -> bool) (P : list rule) (o : op) (s : sstate) : res sstate :=
  match o with
  | OpLoad pick n p D => load_data keep pick D n p s
  | OpRun pick n p => forward_chaining keep pick P n p s
  end.

End solver.
Arguments sstate R : clear implicits.
