(** Model of the interval arithmetic behind the fold/unfold safety check
    (dyna/transform/measure.py; Unfold.compute_measure and Fold.compute_measure). *)
From Coq Require Import List ZArith.
From Verif Require Import PyBase TermModel SetsModel PruneModel ProgSpec.
Import ListNotations.
Local Open Scope Z_scope.

(** A bound is a Python int or a z3 integer expression ([z3.ArithRef]): a
    variable [V0, V1, ...] ([Measure.new_var], measure.py 85-91), a sum, a
    difference, or [z3.If(v < m, v, m)] / [z3.If(v > m, v, m)].  An int inside a
    z3 expression is lifted by z3 to a numeral. *)
Inductive bound : Set :=
| BInt (z : Z)
| BVar (n : nat)
| BAdd (a b : bound)
| BSub (a b : bound)
| BIfLt (a b x y : bound)
| BIfGt (a b x y : bound).

(** [isinstance(v, z3.ArithRef)] *)
Definition symbolic (b : bound) : bool := match b with BInt _ => false | _ => true end.

(** [+] and [-]: Python's on two ints, z3's otherwise. *)
Definition badd (a b : bound) : bound :=
  match a, b with BInt x, BInt y => BInt (x + y) | _, _ => BAdd a b end.
Definition bsub (a b : bound) : bound :=
  match a, b with BInt x, BInt y => BInt (x - y) | _, _ => BSub a b end.

(** Python's builtin [min]/[max] on ints; reached only when no value is symbolic. *)
Definition bz (b : bound) : Z := match b with BInt z => z | _ => 0 end.

(** [Min] (measure.py 271-277) *)
Definition Min (vs : list bound) : res bound :=
  if negb (existsb symbolic vs) then
    match vs with
    | [] => Raise ValueError
    | v :: vs => Ok (BInt (fold_left (fun m v => if bz v <? m then bz v else m) vs (bz v)))
    end
  else
    match vs with
    | [] => Raise IndexError
    | v :: vs => Ok (fold_left (fun m v => BIfLt v m v m) vs v)
    end.

(** [Max] (measure.py 280-286) *)
Definition Max (vs : list bound) : res bound :=
  if negb (existsb symbolic vs) then
    match vs with
    | [] => Raise ValueError
    | v :: vs => Ok (BInt (fold_left (fun m v => if m <? bz v then bz v else m) vs (bz v)))
    end
  else
    match vs with
    | [] => Raise IndexError
    | v :: vs => Ok (fold_left (fun m v => BIfGt v m v m) vs v)
    end.

(** [Interval] (measure.py 297-330) *)
Record interval := Interval { lo : bound; hi : bound }.

(** [__add__] 314-315, [__sub__] 317-318, [zero] 332, [sum] 323-328 *)
Definition iadd (a b : interval) : interval := Interval (badd (lo a) (lo b)) (badd (hi a) (hi b)).
Definition isub (a b : interval) : interval := Interval (bsub (lo a) (hi b)) (bsub (hi a) (lo b)).
Definition izero : interval := Interval (BInt 0) (BInt 0).
Definition isum (xs : list interval) : interval := fold_left iadd xs izero.

(** [measure_safety.derivation_measure] (measure.py 54-62): [m] gives the
    interval of each rule; an index out of range is an [IndexError].  The
    assertion [d.p == self.p] is left out: derivations here belong to no program. *)
Fixpoint derivation_measure (m : list interval) (d : deriv) : res interval :=
  match d with
  | Leaf _ => Ok izero
  | Node i _ ds =>
      let fix sum (ds : list deriv) (y : interval) : res interval :=
        match ds with
        | [] => Ok y
        | d :: ds => let* x := derivation_measure m d in sum ds (iadd y x)
        end in
      let* b := sum ds izero in
      match nth_error m i with
      | Some x => Ok (iadd x b)
      | None => Raise IndexError
      end
  end.

(** [Measure.min_size] (measure.py 112-118) for a list of subgoals. *)
Definition min_size (xs : list term) : Z :=
  fold_left (fun n x => n + (if exo x then 0 else 1)) xs 0.

(** The measure of a rule made by an unfold: [m_parent.m[i] + m_defs.m[D]]
    (transform/unfold.py 139). *)
Definition unfold_measure (mP mD : interval) : interval := iadd mP mD.

(** The measure of the rule made by a fold (transform/fold.py 166-167), from the
    pairs of a replaced rule and its defining rule. *)
Definition fold_measure (ps : list (interval * interval)) : res interval :=
  let diffs := map (fun p => isub (fst p) (snd p)) ps in
  let* l := Min (map lo diffs) in
  let* h := Max (map hi diffs) in
  Ok (Interval l h).

(** The safety conditions, as the bound that must be positive: unfold.py 149-153
    and fold.py 175-179. *)
Definition unfold_condition (mP mD : interval) (left right : list term) : bound :=
  badd (lo (iadd mP mD)) (BInt (min_size left + min_size right)).
Definition fold_condition (mP mD : interval) (left right : list term) : bound :=
  badd (lo (isub mP mD)) (BInt (min_size left + min_size right)).
