(** Model of constraint propagation (dyna/propagate.py) and of the simple types
    built on it (dyna/analyze/rewrites.py).  Variables carry no heap bindings here
    ([Rewrites.__call__] starts with [deref]). *)
From stdpp Require Import gmap.
From Coq Require Import List.
From Coq Require String Ascii.
From Verif Require Import PyBase TermModel SetsModel PruneModel.
Import String.StringSyntax Ascii.AsciiSyntax.
Import ListNotations.
Local Open Scope string_scope.
Local Open Scope list_scope.
Local Open Scope nat_scope.

(** propagate.py 11 *)
Definition t_fail : term := Fn [Cst (CStr "$fail")].
Definition t_eq (x y : term) : term := Fn [Cst (CStr "="); x; y].
Definition t_free (x : term) : term := Fn [Cst (CStr "$free"); x].
Definition t_bound (x : term) : term := Fn [Cst (CStr "$bound"); x].

(** [isinstance(x, Term)] and [isinstance(x, Term) and x.fn == f] *)
Definition is_Term (x : term) : bool := match x with Fn _ => true | _ => false end.
Definition is_Var (x : term) : bool := match x with Var _ => true | _ => false end.
Definition has_fn (f : String.string) (x : term) : bool :=
  match x with Fn (Cst (CStr g) :: _) => String.eqb f g | _ => false end.
(** [x in xs] *)
Definition mem (x : term) (xs : list term) : bool := existsb (term_eqb x) xs.

(** What [check] yields (propagate.py 88-156): [Ellipsis], [None], or the items of
    a substitution. *)
Inductive checked := NotReady | Failed | Passed (l : list (term * term)).

(** The attributes [chart], [agenda], [bindings] and [checked] of
    ConstraintPropagation (propagate.py 65-72).  Sets are lists without duplicates. *)
Record cpstate := CP {
  cp_chart : list term;
  cp_agenda : list term;
  cp_bindings : list (term * term);
  cp_checked : list term }.

Section propagate.
(** the order in which a set is iterated, and the position of the element that
    [agenda.pop()] takes *)
Context (ord : list term -> list term) (pick : list term -> nat).
(** evaluation of a comparison or of an [is] constraint (propagate.py 136-153; the
    builtins themselves are C38), and [builtins.is_ready] *)
Context (chk : term -> res checked) (ready : term -> bool).

(** propagate.py 88-156.  A constraint named [ks] or [ws] is looked up in the chart
    first (line 117); [check] is only called on drivers, and those are in the chart,
    so that the answer is one empty substitution. *)
Definition check (q : term) : res checked :=
  if has_fn "ks" q || has_fn "ws" q then Ok (Passed [])
  else if has_fn "<" q || has_fn ">" q || has_fn "<=" q || has_fn ">=" q || has_fn "is" q then chk q
  else Ok NotReady.

(** propagate.py 158-166 *)
Definition cp_update (x : term) (s : cpstate) : cpstate :=
  if mem x (cp_chart s) then s
  else CP (cp_chart s ++ [x]) (cp_agenda s ++ [x]) (cp_bindings s) (cp_checked s).

Definition set_add (x : term) (l : list term) : list term := if mem x l then l else l ++ [x].

(** A loop whose body may [return] out of [__call__] ([None]: the constraints are
    contradictory). *)
Fixpoint each {A} (f : A -> cpstate -> res (option cpstate)) (l : list A) (s : cpstate) : res (option cpstate) :=
  match l with
  | [] => Ok (Some s)
  | a :: l => let* o := f a s in match o with None => Ok None | Some s => each f l s end
  end.

(** propagate.py 31-49: [for subst in chart.join(xs, subst): k]; the chart is read
    at the start of each lookup, the body of the loop may change it. *)
Fixpoint cp_join (n : nat) (xs : list term) (σ : subst) (k : subst -> cpstate -> res (option cpstate)) (s : cpstate)
  : res (option cpstate) :=
  match xs with
  | [] => k σ s
  | x :: xs =>
      each (fun y s => let* (σ', b) := cover n σ x y in if b then cp_join n xs σ' k s else Ok (Some s))
           (ord (cp_chart s)) s
  end.

(** propagate.py 185-188 and 244-247 *)
Definition fire (n : nat) (head : term) (σ : subst) (s : cpstate) : res (option cpstate) :=
  let* h := sapply n σ head in
  if term_eqb h t_fail then Ok None else Ok (Some (cp_update h s)).

(** propagate.py 183-188 *)
Definition cp_init (n : nat) (rules : list rule) (s : cpstate) : res (option cpstate) :=
  each (fun r s => cp_join n (rbody r) ∅ (fire n (rhead r)) s) rules s.

(** propagate.py 202-207 *)
Definition check_driver (d : term) (s : cpstate) : res (option cpstate) :=
  let* c := check d in
  match c with
  | NotReady => Ok (Some s)
  | Failed => Ok None
  | Passed l =>
      Ok (Some (fold_left (fun s kv => cp_update (t_eq (fst kv) (snd kv)) s) l
                  (CP (cp_chart s) (cp_agenda s) (cp_bindings s) (set_add d (cp_checked s)))))
  end.

(** propagate.py 221-225 *)
Definition replace_all (X Y : term) (s : cpstate) : cpstate :=
  fold_left (fun s x => cp_update (replace_in_expr x Y X) (cp_update (replace_in_expr x X Y) s))
    (List.filter (fun x => is_Term x && negb (has_fn "=" x)) (ord (cp_chart s))) s.

(** propagate.py 209-237 *)
Definition equate (d : term) (s : cpstate) : res (option cpstate) :=
  if has_fn "=" d then
    match d with
    | Fn [_; X; Y] =>
        if negb (is_Var X) && negb (is_Var Y) && negb (term_eqb X Y) then Ok None
        else
          let s := CP (cp_chart s) (cp_agenda s) (cp_bindings s) (set_add d (cp_checked s)) in
          let s := if term_eqb X Y then s else replace_all X Y s in
          Ok (Some (CP (cp_chart s)
                       (fold_left (fun ag x => if has_fn "is" x && ready x then set_add x ag else ag) (cp_chart s) (cp_agenda s))
                       (cp_bindings s ++ [(X, Y)]) (cp_checked s)))
    | _ => Raise ValueError
    end
  else Ok (Some s).

(** propagate.py 239-247 *)
Definition drive (n : nat) (rules : list rule) (d : term) (s : cpstate) : res (option cpstate) :=
  each (fun r s =>
    each (fun k s =>
      match rbody r !! k with
      | None => Raise IndexError
      | Some b =>
          let* (σ, ok) := cover n ∅ b d in
          if ok then cp_join n (take k (rbody r) ++ drop (S k) (rbody r)) σ (fire n (rhead r)) s else Ok (Some s)
      end) (seq 0 (length (rbody r))) s) rules s.

(** rewrites.py 46-60: [rec_bound] and the hook *)
Fixpoint rec_bound (x : term) (s : cpstate) {struct x} : cpstate :=
  match x with
  | Fn fargs =>
      let s := if has_fn "$bound" x then s else cp_update (t_bound x) s in
      match fargs with
      | [] => s
      | _ :: args => (fix go (l : list term) (s : cpstate) : cpstate :=
                        match l with [] => s | y :: l => go l (rec_bound y s) end) args s
      end
  | _ => s
  end.
Definition hook_bound (d : term) (s : cpstate) : cpstate := if has_fn "$bound" d then rec_bound d s else s.

(** propagate.py 190-250.  [k] bounds the number of iterations. *)
Fixpoint cp_loop (n : nat) (rules : list rule) (k : nat) (s : cpstate) : res (option cpstate) :=
  match k with
  | 0 => OutOfFuel
  | S k =>
      match cp_agenda s with
      | [] => Ok (Some s)
      | a :: ag =>
          let i := pick (a :: ag) mod length (a :: ag) in
          let d := nth i (a :: ag) a in
          let s := CP (cp_chart s) (take i (a :: ag) ++ drop (S i) (a :: ag)) (cp_bindings s) (cp_checked s) in
          let* o := check_driver d s in
          match o with None => Ok None | Some s =>
          let* o := equate d s in
          match o with None => Ok None | Some s =>
          let* o := drive n rules d s in
          match o with None => Ok None | Some s => cp_loop n rules k (hook_bound d s) end end end
      end
  end.

(** propagate.py 168-250: [self(D)]; [None] is the contradiction, otherwise the
    final state. *)
Definition propagate (n : nat) (rules : list rule) (D : list term) : res (option cpstate) :=
  let s := fold_left (fun s x => cp_update x s) D (CP [] [] [] []) in
  let* o := cp_init n rules s in
  match o with None => Ok None | Some s => cp_loop n rules n s end.

(** ------------------------------------------------------------------------
    rewrites.py.  [rules] are the user's rules, [fv] the variable of the rule added
    in lines 38-44. *)
Context (rules : list rule) (fv : nat).
Definition no_free_merge : list rule := rules ++ [Rule t_fail [t_free (Var fv); t_bound (Var fv)]].

(** [Subst({x: y for _,x,y in cp.bindings})] (line 73).  Simplification: keys that
    are not variables (equalities whose left side is not a variable) are not
    modelled. *)
Fixpoint rw_subst (bs : list (term * term)) (σ : subst) : res subst :=
  match bs with
  | [] => Ok σ
  | (Var v, y) :: bs => rw_subst bs (<[v := y]> σ)
  | _ => Raise OtherError
  end.

(** [x.args[0]] for the elements with functor [f] *)
Fixpoint insts_of (f : String.string) (xs : list term) : res (list term) :=
  match xs with
  | [] => Ok []
  | x :: xs =>
      let* l := insts_of f xs in
      if has_fn f x then match x with Fn (_ :: y :: _) => Ok (y :: l) | _ => Raise IndexError end else Ok l
  end.

(** [any(y.fn != '$free' and X in term_vars(y) for y in chart)] *)
Definition used_elsewhere (n : nat) (chart : list term) (X : term) : res bool :=
  existsM (fun y => if has_fn "$free" y then Ok false
                    else let* vs := term_vars n ∅ y [] in
                         Ok (match X with Var v => existsb (Nat.eqb v) vs | _ => false end)) chart.

(** [sum((X == A or X == B) for [_,A,B] in cp.bindings) > 1] *)
Definition bound_twice (bs : list (term * term)) (X : term) : bool :=
  Nat.ltb 1 (length (List.filter (fun ab => term_eqb X (fst ab) || term_eqb X (snd ab)) bs)).

(** rewrites.py 65-123.  [afm] is ALLOW_FREE_MERGE.  The result's body is a set. *)
Definition rw_call (n : nat) (R : rule) (drop_checked use_insts afm : bool) : res (option rule) :=
  let* o := propagate n (if afm then rules else no_free_merge) (rbody R) in
  match o with
  | None => Ok None
  | Some s =>
      let* σ := rw_subst (cp_bindings s) ∅ in
      let* chart := mapM (sapply n σ) (List.filter (fun x => is_Term x && negb (has_fn "=" x)) (ord (cp_chart s))) in
      let chart := remove_dups chart in
      let drop0 := if drop_checked then cp_checked s else [] in
      let* head := sapply n σ (rhead R) in
      let finish dr := Ok (Some (Rule head (ord (List.filter (fun x => negb (mem x dr)) chart)))) in
      if use_insts then
        let* bv := insts_of "$bound" chart in
        let* fvs := insts_of "$free" chart in
        let drop1 := drop0 ++ map t_bound (List.filter (fun X => negb (is_Var X)) bv) in
        if afm then
          let* used := mapM (fun X => let* u := used_elsewhere n chart X in Ok (X, u)) fvs in
          finish (drop1 ++ map t_free (List.filter (fun X => negb (is_Var X)) fvs)
                        ++ map t_free (map fst (List.filter snd used)))
        else if existsb (fun X => negb (is_Var X)) fvs then Ok None
        else if existsb (bound_twice (cp_bindings s)) fvs then Ok None
        else
          let* u := existsM (used_elsewhere n chart) fvs in
          if u then Ok None else finish drop1
      else finish drop0
  end.

(** propagate.py 14-15 *)
Definition scons (σ : subst) : list term := map (fun kv => t_eq (Var (fst kv)) (snd kv)) (map_to_list σ).

(** rewrites.py 125-132 *)
Definition rw_intersect (n : nat) (c : nat) (r s : rule) (afm : bool) : res (option rule) :=
  let* (t, c) := fresh (fun j => j) n ∅ c (Fn (rhead s :: rbody s)) in
  match t with
  | Fn (sh :: sb) =>
      let* (σ, ok) := mgu n ∅ (rhead r) sh in
      if ok then rw_call n (Rule (rhead r) (rbody r ++ sb ++ scons σ)) false true afm else Ok None
  | _ => Raise OtherError
  end.

(** [set(xs) >= set(ys)] *)
Definition superset (xs ys : list term) : bool := forallb (fun y => mem y xs) ys.

(** rewrites.py 134-176 *)
Definition rw_covers (n : nat) (r s : rule) : res bool :=
  let* (σ, ok) := mgu n ∅ (rhead r) (rhead s) in
  if negb ok then Ok false
  else
    let sc := scons σ in
    let* Ro := rw_call n (Rule (rhead r) (rbody r ++ sc)) true true true in
    let* So := rw_call n s true true true in
    let* To := rw_call n (Rule (rhead r) (rbody s ++ rbody r ++ sc)) true true false in
    match So, Ro, To with
    | None, _, _ => Ok true
    | _, None, _ => Ok false
    | _, _, None => Ok false
    | Some s', _, Some t => Ok (term_eqb (rhead s') (rhead t) && superset (rbody s') (rbody t))
    end.
End propagate.
