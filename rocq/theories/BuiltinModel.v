(** Model of the [is] builtin and the comparison builtins (dyna/builtin.py).

    Simplifications.  Constants are integers and strings (of 8-bit characters);
    Python's [True] and [False] are represented by two ground terms without
    arguments (in Python they are also numbers; here they are not).
    A division whose result is not an integer that a double represents exactly
    is outside the model (it reports [OtherError]).  [_indirect_is] (a user
    predicate on the right-hand side), the endless enumeration of
    [true is int(X)], and comparisons of anything but integers are outside the
    model (also [OtherError]). *)
From stdpp Require Import gmap.
From Coq Require Import ZArith List.
From Coq Require String Ascii.
From Verif Require Import PyBase TermModel TermProofs UnifyProofs PruneModel.
Import ListNotations.
Import String.StringSyntax Ascii.AsciiSyntax.

Local Open Scope string_scope.
Definition true_name : String.string := "$True".
Definition false_name : String.string := "$False".
Notation s_neg := ("-"). Notation s_add := ("+"). Notation s_mul := ("*"). Notation s_div := ("/").
Notation s_abs := ("abs"). Notation s_str := ("str"). Notation s_int := ("int"). Notation s_not := ("!").
Notation s_gt := (">"). Notation s_lt := ("<"). Notation s_ge := (">="). Notation s_le := ("<=").
Notation s_eqq := ("=="). Notation s_ne := ("!="). Notation s_min := ("min"). Notation s_max := ("max").
Notation s_range := ("range"). Notation s_none := ("").
Local Close Scope string_scope.

Definition py_bool (b : bool) : term := Fn [Cst (CStr (if b then true_name else false_name))].

(** builtin.py 16-20: isbool, isnum (isint), isstr, isvar. *)
Definition asbool (t : term) : option bool :=
  if decide (t = py_bool true) then Some true else if decide (t = py_bool false) then Some false else None.
Definition asnum (t : term) : option Z := match t with Cst (CInt z) => Some z | _ => None end.
Definition asstr (t : term) : option String.string := match t with Cst (CStr s) => Some s | _ => None end.
Definition isvar (t : term) : bool := match t with Var _ => true | _ => false end.

(** Python's [x / y] on integers. *)
Definition truediv (x y : Z) : res term :=
  if decide (y = 0)%Z then Raise ZeroDivisionError
  else if decide (x mod y = 0 /\ Z.abs (x / y) <= 2 ^ 53)%Z then Ok (Cst (CInt (x / y)))
  else Raise OtherError.

(** Python's [s * k] on a string and an integer. *)
Fixpoint repeat_str (s : String.string) (k : nat) : String.string :=
  match k with 0 => s_none | S k => String.append s (repeat_str s k) end.

(** [[(X[:k], X[k:]) for k in range(len(X)+1)]] *)
Fixpoint splits (s : String.string) : list (String.string * String.string) :=
  match s with
  | String.EmptyString => [(s_none, s_none)]
  | String.String c s' => (s_none, s) :: map (fun p => (String.String c (fst p), snd p)) (splits s')
  end.

(** One alternative: the pairs that are unified, in order, before the yield. *)
Definition alt : Type := list (term * term).

(** builtin.py 201-284: operators with one argument. *)
Definition plan1 (X : term) (f : String.string) (Y : term) : res (list alt) :=
  if decide (f = s_neg) then
    match asnum Y, asnum X with
    | Some y, _ => Ok [[(X, Cst (CInt (- y)))]]
    | None, Some x => Ok [[(Y, Cst (CInt (- x)))]]
    | None, None => Raise InstFault
    end
  else if decide (f = s_add) then
    match asnum Y, asnum X with
    | Some y, _ => Ok [[(X, Cst (CInt y))]]
    | None, Some x => Ok [[(Y, Cst (CInt x))]]
    | None, None => Raise InstFault
    end
  else if decide (f = s_abs) then
    match asnum Y, asnum X with
    | Some y, _ => Ok [[(X, Cst (CInt (Z.abs y)))]]
    | None, Some x => (* {+X, -X} *)
        Ok (if decide (x = 0)%Z then [[(Y, Cst (CInt x))]] else [[(Y, Cst (CInt x))]; [(Y, Cst (CInt (- x)))]])
    | None, None => Raise InstFault
    end
  else if decide (f = s_str) then
    if isvar Y then Raise InstFault else Ok [[(X, py_bool (match asstr Y with Some _ => true | None => false end))]]
  else if decide (f = s_int) then
    if isvar Y then
      match asbool X with Some true => Raise OtherError | _ => Raise InstFault end
    else Ok [[(X, py_bool (match asnum Y with Some _ => true | None => false end))]]
  else if decide (f = s_not) then
    if isvar Y then
      if isvar X then Raise InstFault
      else match asbool X with Some b => Ok [[(Y, py_bool (negb b))]] | None => Raise InstFault end
    else match asbool Y with Some b => Ok [[(X, py_bool (negb b))]] | None => Raise InstFault end
  else Raise OtherError.

(** builtin.py 295-321 *)
Definition plan_mul (X Y Z : term) : res (list alt) :=
  match asstr Y with
  | Some s => match asnum Z with
              | Some z => Ok [[(X, Cst (CStr (repeat_str s (Z.to_nat z))))]]
              | None => Raise TypeError
              end
  | None =>
      match asnum X, asnum Y, asnum Z with
      | _, Some y, Some z => Ok [[(X, Cst (CInt (y * z)))]]
      | Some x, Some y, None => let* q := truediv x y in Ok [[(Z, q)]]
      | Some x, None, Some z => let* q := truediv x z in Ok [[(Y, q)]]
      | None, Some y, None => if decide (y = 1)%Z then Ok [[(X, Z)]] else Raise InstFault
      | None, None, Some z => if decide (z = 1)%Z then Ok [[(X, Y)]] else Raise InstFault
      | _, None, None => Raise InstFault
      end
  end.

(** builtin.py 323-351 *)
Definition plan_add (X Y Z : term) : res (list alt) :=
  match asstr X, asstr Y, asstr Z with
  | _, Some s, Some t => Ok [[(X, Cst (CStr (String.append s t)))]]
  | Some x, _, _ => Ok (map (fun p => [(Y, Cst (CStr (fst p))); (Z, Cst (CStr (snd p)))]) (splits x))
  | None, _, _ =>
      match asnum X, asnum Y, asnum Z with
      | _, Some y, Some z => Ok [[(X, Cst (CInt (y + z)))]]
      | Some x, Some y, None => Ok [[(Z, Cst (CInt (x - y)))]]
      | Some x, None, Some z => Ok [[(Y, Cst (CInt (x - z)))]]
      | None, Some y, None => if decide (y = 0)%Z then Ok [[(X, Z)]] else Raise InstFault
      | None, None, Some z => if decide (z = 0)%Z then Ok [[(X, Y)]] else Raise InstFault
      | _, None, None => Raise InstFault
      end
  end.

(** builtin.py 58-63 on integers *)
Definition cmp_int (f : String.string) (y z : Z) : option bool :=
  if decide (f = s_gt) then Some (z <? y)%Z
  else if decide (f = s_lt) then Some (y <? z)%Z
  else if decide (f = s_ge) then Some (z <=? y)%Z
  else if decide (f = s_le) then Some (y <=? z)%Z
  else if decide (f = s_eqq) then Some (y =? z)%Z
  else if decide (f = s_ne) then Some (negb (y =? z)%Z)
  else None.

Definition cmpf (f : String.string) (x y : term) : res bool :=
  match asnum x, asnum y with
  | Some a, Some b => match cmp_int f a b with Some r => Ok r | None => Raise OtherError end
  | _, _ => Raise OtherError
  end.

(** builtin.py 286-401: operators with two arguments. *)
Definition plan2 (X : term) (f : String.string) (Y Z : term) : res (list alt) :=
  if decide (f = s_mul) then plan_mul X Y Z
  else if decide (f = s_add) then plan_add X Y Z
  else if decide (f = s_div) then plan_mul Y X Z
  else if decide (f = s_neg) then plan_add Y X Z
  else if isvar Y || isvar Z then
    if decide (f ∈ cmps \/ f = s_min \/ f = s_max) then Raise InstFault else Raise OtherError
  else match asnum Y, asnum Z with
    | Some y, Some z =>
        match cmp_int f y z with
        | Some b => Ok [[(X, py_bool b)]]
        | None => if decide (f = s_min) then Ok [[(X, Cst (CInt (Z.min y z)))]]
                  else if decide (f = s_max) then Ok [[(X, Cst (CInt (Z.max y z)))]]
                  else Raise OtherError
        end
    | _, _ => Raise OtherError
    end.

(** builtin.py 403-414: [true is range(X, A, B)]. *)
Definition plan3 (v : term) (f : String.string) (X A B : term) : res (list alt) :=
  if decide (f = s_range) then
    match asbool v, asnum A, asnum B with
    | Some true, Some a, Some b => Ok (map (fun x => [(X, Cst (CInt x))]) (seqZ a (b - a)))
    | _, _, _ => Raise InstFault
    end
  else Raise OtherError.

(** builtin.py 187-424: [_dispatch] on [X is k], both already dereferenced. *)
Definition plan (X k : term) : res (list alt) :=
  match k with
  | Fn [Cst (CStr f); Y] => plan1 X f Y
  | Fn [Cst (CStr f); Y; Z] => plan2 X f Y Z
  | Fn [Cst (CStr f); A; B; C] => plan3 X f A B C
  | Fn _ => Raise OtherError
  | _ => Raise InstFault
  end.

(** [yield from unify(...)], nested. *)
Fixpoint run_alt (n : nat) (st : store) (a : alt) : res (option store) :=
  match a with
  | [] => Ok (Some st)
  | (x, y) :: a => let* (st', b) := unify_f n st x y in if b then run_alt n st' a else Ok None
  end.

Fixpoint run_alts (n : nat) (st : store) (p : list alt) : res (list store) :=
  match p with
  | [] => Ok []
  | a :: p => let* o := run_alt n st a in
              let* sts := run_alts n st p in
              Ok (match o with Some st' => st' :: sts | None => sts end)
  end.

(** builtin.py 141-150 and 176-424 on [x is y]: the heaps at each yield. *)
Definition is_run (n : nat) (st : store) (x y : term) : res (list store) :=
  let* X := deref n st x in
  let* k := deref n st y in
  let* p := plan X k in
  run_alts n st p.
