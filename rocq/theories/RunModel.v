(** Model of [run_builtins] (dyna/program.py): the builtins in the bodies of rules
    are run, those that are not ready are left. *)
From stdpp Require Import gmap.
From Coq Require Import List.
From Coq Require String Ascii.
Import String.StringSyntax Ascii.AsciiSyntax.
From Verif Require Import PyBase Semiring TermModel SetsModel UnifyProofs PruneModel UpdateModel.
Import ListNotations.

Section run.
Context {R : semiring}.
(** comparisons; [x is y]; identities of new variables *)
Context (cmpf : String.string -> term -> term -> res bool)
  (is_run : nat -> store -> term -> term -> res (list store)) (al : nat -> nat).
Context (wt : const -> R) (negligible is_one : R -> bool) (cv : nat -> nat).

Local Open Scope string_scope.
(** program.py 1495-1508, with lookup_vals (1259-1266), the builtins of lookup
    (1317-1350) and is_builtin (builtin.py 85-90).  The result is the heap at the only
    [yield] and the new body.  Simplifications: no rule has a comparison as its head
    (1328-1330 falls through to the rules), builtins are no input relations, the
    program has builtins; [$free], [$bound], [$not_matches], a variable as a subgoal
    and an [is] with several answers are OtherError. *)
Fixpoint builtins_body (n : nat) (st : store) (fs : list (factor R)) : res (option (store * list (factor R))) :=
  match fs with
  | [] => Ok (Some (st, []))
  | f0 :: fs =>
      let go (st : store) (y : factor R) :=
        let* o := builtins_body n st fs in
        Ok (match o with Some (st', ys) => Some (st', (y :: ys)%list) | None => None end) in
      match f0 with
      | Val _ => go st f0
      | Goal b =>
          let* q := snap n st b in
          match q with
          | Var _ => Raise OtherError
          | Cst _ => go st f0
          | Fn [] => Raise IndexError
          | Fn (f :: args) =>
              let* f := snap n st f in
              match f, args with
              | Cst (CStr op), [x; y] =>
                  if decide (op ∈ cmps) then
                    let* gx := is_ground n st x in
                    let* gy := (if gx then is_ground n st y else Ok false) in
                    if gx && gy then
                      let* x := deref n st x in
                      let* y := deref n st y in
                      let* b := cmpf op x y in
                      if b then go st (Val sone) else Ok None
                    else go st (Goal q)
                  else if decide (op = "=") then
                    let* (st', u) := unify_f n st x y in
                    if u then go st' (Val sone) else Ok None
                  else if decide (op = "is") then
                    match is_run n st x y with
                    | Ok [] => Ok None
                    | Ok [st'] => go st' (Val sone)
                    | Ok _ => Raise OtherError
                    | Raise InstFault => go st (Goal q)
                    | Raise e => Raise e
                    | OutOfFuel => OutOfFuel
                    end
                  else if decide (op = "$not_matches") then Raise OtherError
                  else go st f0
              | Cst (CStr op), [_] => if decide (op ∈ ["$free"; "$bound"]%list) then Raise OtherError else go st f0
              | _, _ => go st f0
              end
          end
      end
  end%list.
Local Close Scope string_scope.

(** program.py 1486-1489, for one rule of [old] *)
Definition builtins_rule (n : nat) (r : wrule R) (P : pstate R) : res (pstate R) :=
  let* o := builtins_body n ∅ (wbody r) in
  match o with
  | None => Ok P
  | Some (st, ys) => update wt negligible is_one al cv n st (WRule (whead r) ys) P
  end.
(** program.py 1486-1489: one round, with the counter of new variables *)
Definition builtins_round (n : nat) (rs : list (wrule R)) (c : nat) : res (pstate R) :=
  foldM (builtins_rule n) rs (p_new [] c).

(** equality of programs, [old == new] in 1490 *)
Context (same : list (wrule R) -> list (wrule R) -> bool).
(** program.py 1484-1491: at most [k] rounds *)
Fixpoint run_rounds (k n : nat) (old : list (wrule R)) (c : nat) : res (list (wrule R) * nat) :=
  match k with
  | 0 => OutOfFuel
  | S k =>
      let* P := builtins_round n old c in
      if same old (p_rules P) then Ok (old, p_c P) else run_rounds k n (p_rules P) (p_c P)
  end.
(** program.py 1478-1493 *)
Definition run_builtins (k n : nat) (rs : list (wrule R)) (c : nat) : res (list (wrule R)) :=
  let* (rss, _) := mapSM (fun r0 c => run_rounds k n [r0] c) rs c in Ok (concat rss).
End run.
