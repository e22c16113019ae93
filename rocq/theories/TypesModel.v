(** Model of the type analysis (dyna/analyze/types.py): abstract forward chaining
    over simple types. *)
From stdpp Require Import gmap.
From Coq Require Import List.
From Coq Require String Ascii.
From Verif Require Import PyBase TermModel SetsModel UnifyProofs PruneModel TruncModel PropagateModel SlashModel.
Import String.StringSyntax Ascii.AsciiSyntax.
Import ListNotations.

(** A rule as a term, as MostGeneralSet and [fresh] see it (rule.py 22-35: Rule is
    a subclass of Term). *)
Definition enc (r : rule) : term := Fn (rhead r :: rbody r).
Definition dec (t : term) : rule := match t with Fn (h :: b) => Rule h b | _ => Rule t [] end.

Section types.
Context (ord : list term -> list term) (pick : list term -> nat).
Context (chk : term -> res checked) (ready : term -> bool).
Context (rules : list rule) (fv : nat).
(** the heads of [self.inputs] (types.py 86-89) *)
Context (inputs : list term).
Context (max_depth : nat) (use_insts : bool).

(** [rewrites.covers] as MostGeneralSet calls it *)
Definition cov (n : nat) (x y : term) : res bool := rw_covers ord pick chk ready rules fv n (dec x) (dec y).

(** [fresh] of a rule; variables are numbered by the order of their creation. *)
Definition fresh_r (n : nat) (c : nat) (r : rule) : res (rule * nat) :=
  let* (t, c) := fresh (fun j => j) n ∅ c (enc r) in Ok (dec t, c).

(** types.py 34-37 and 39-41 *)
Definition add_free_constraints (n : nat) (r : rule) : res rule :=
  let* hv := term_vars n ∅ (rhead r) [] in
  let* bv := foldM (term_vars n ∅) (rbody r) [] in
  Ok (Rule (rhead r) (rbody r ++ map (fun v => t_free (Var v)) (List.filter (fun v => negb (existsb (Nat.eqb v) bv)) hv))).
Definition remove_constants (r : rule) : rule :=
  Rule (rhead r) (List.filter (fun b => negb (is_const b)) (rbody r)).

(** types.py 43-50 *)
Definition to_type_program (n : nat) (P : list rule) : res (list rule) :=
  mapM (fun r => let* r := add_free_constraints n r in Ok (remove_constants r)) P.

(** types.py 203-220: [_relax] *)
Definition relax (n : nat) (r : rule) (c : nat) : res (option rule * nat) :=
  let* o := rw_call ord pick chk ready rules fv n r false use_insts true in
  match o with
  | None => Ok (None, c)
  | Some r =>
      let* (h, c) := truncate_term max_depth n ∅ (rhead r) c in
      let* hv := term_vars n ∅ h [] in
      let keep x := let* vs := term_vars n ∅ x [] in
                    Ok (x, forallb (fun v => existsb (Nat.eqb v) hv) vs && negb (match vs with [] => true | _ => false end)) in
      let* l := mapM keep (rbody r) in
      Ok (Some (Rule h (ord (remove_dups (map fst (List.filter snd l))))), c)
  end.

(** program.py 1273-1371 on a chart of types: an input is delayed; otherwise every
    type whose head unifies.  Simplifications: all types are tried (C35: the index
    leaves out types that do not unify); each is a new copy; builtins that are not
    declared as inputs are not modelled. *)
Fixpoint match_types (n : nat) (st : store) (q : term) (chart : list term) (c : nat)
  : res (list (list term * store) * nat) :=
  match chart with
  | [] => Ok ([], c)
  | t :: chart =>
      let* (r, c) := fresh_r n c (dec t) in
      let* (st', b) := unify_f n st (rhead r) q in
      let* (rest, c) := match_types n st q chart c in
      Ok (if b then (rbody r, st') :: rest else rest, c)
  end.
Definition lookup_types (n : nat) (st : store) (q : term) (chart : list term) (c : nat)
  : res (list (list term * store) * nat) :=
  let* q := snap n st q in
  match q with
  | Cst _ => Ok ([([], st)], c)
  | Var _ => match_types n st q chart c
  | Fn _ =>
      let* i := any_unifies n st inputs q in
      if i then Ok ([([q], st)], c)
      else if is_builtin q then Raise OtherError
      else match_types n st q chart c
  end.

(** term.py 44-56 (join_f) on a chart.  Semiring constants in the products are left
    out: the rewrites look at terms only (rewrites.py 75). *)
Fixpoint join_types (n : nat) (qs : list term) (chart : list term) (st : store) (c : nat)
  : res (list (list term * store) * nat) :=
  match qs with
  | [] => Ok ([([], st)], c)
  | q :: qs =>
      let* (l, c) := lookup_types n st q chart c in
      let* (ls, c) := mapSM (fun bs c =>
        let* (m, c) := join_types n qs chart (snd bs) c in
        Ok (map (fun bs' => (fst bs ++ fst bs', snd bs')) m, c)) l c in
      Ok (concat ls, c)
  end.

(** [R = deref(Rule(head, *body))] (rewrites.py 67) *)
Definition deref_rule (n : nat) (st : store) (h : term) (bs : list term) : res rule :=
  let* h := deref n st h in
  let* bs := mapM (deref n st) bs in Ok (Rule h bs).

(** types.py 196-201 on the empty chart: [relax(program.step(chart))].
    Simplification: [append] does not merge facts that are variants of each other
    ([dedup], which comes next, drops them). *)
Definition first_types (n : nat) (P : list rule) (c : nat) : res (list rule * nat) :=
  let* (ts, c) := mapSM (fun r c =>
    let* (js, c) := join_types n (rbody r) [] ∅ c in
    mapSM (fun bs c => let* R := deref_rule n (snd bs) (rhead r) (fst bs) in relax n R c) js c) P c in
  Ok (omap (fun o => o) (concat ts), c).

(** The state of [_run_basic]: [_chart.xs], the agenda, and the number of variables
    created. *)
Record tstate := TS { ts_chart : list term; ts_agenda : list rule; ts_c : nat }.

(** types.py 161-167 *)
Definition add_type (n : nat) (r : rule) (s : tstate) : res tstate :=
  let* (x, c) := fresh_r n (ts_c s) r in
  let* (xs, c, dup) := mgs_add (fun j => j) (cov n) n (ts_chart s, c) (enc x) in
  Ok (TS xs (if dup then ts_agenda s else ts_agenda s ++ [x]) c).

(** types.py 157-167: one rule and one position *)
Definition drive_type (n : nat) (d r : rule) (k : nat) (s : tstate) : res tstate :=
  match rbody r !! k with
  | None => Raise IndexError
  | Some b =>
      let* (st, u) := unify_f n ∅ b (rhead d) in
      if u then
        let* (js, c) := join_types n (take k (rbody r) ++ drop (S k) (rbody r)) (ts_chart s) st (ts_c s) in
        foldM (fun bs s =>
          let* R := deref_rule n (snd bs) (rhead r) (fst bs ++ rbody d) in
          let* (o, c) := relax n R (ts_c s) in
          let s := TS (ts_chart s) (ts_agenda s) c in
          match o with None => Ok s | Some t => add_type n t s end) js (TS (ts_chart s) (ts_agenda s) c)
      else Ok s
  end.

(** types.py 149-167.  [k] bounds the number of pops. *)
Fixpoint types_loop (n : nat) (P : list rule) (k : nat) (s : tstate) : res (list term) :=
  match k with
  | 0 => OutOfFuel
  | S k =>
      match ts_agenda s with
      | [] => Ok (ts_chart s)
      | a :: ag =>
          let* (d, c) := fresh_r n (ts_c s) a in
          let* s := foldM (fun r s => foldM (fun j s => drive_type n d r j s) (seq 0 (length (rbody r))) s)
                      P (TS (ts_chart s) ag c) in
          types_loop n P k s
      end
  end.

(** types.py 143-168 (_run_basic) for the program and the input types together
    (types.py 84-92), from the variable number [c]: the types in the chart. *)
Definition run_basic (n : nat) (PI : list rule) (c : nat) : res (list rule) :=
  let* P := to_type_program n PI in
  let* (ts, c) := first_types n P c in
  let* (ag, c) := adds (mgs_add (fun j => j) (cov n) n) ([], c) (map enc ts) in
  let* (ch, c) := adds (mgs_add (fun j => j) (cov n) n) ([], c) ag in
  let* xs := types_loop n P n (TS ch (map dec ag) c) in
  Ok (map dec xs).
End types.
