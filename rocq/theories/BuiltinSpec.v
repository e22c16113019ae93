(** What [x is e] means for ground terms. *)
From stdpp Require Import gmap.
From Coq Require Import ZArith List.
From Coq Require String Ascii.
From Verif Require Import PyBase TermModel PruneModel BuiltinModel.
Import ListNotations.

(** numbers add; strings concatenate *)
Definition sum_is (x y z : term) : bool :=
  match y, z with
  | Cst (CInt a), Cst (CInt b) => bool_decide (x = Cst (CInt (a + b)))
  | Cst (CStr s), Cst (CStr t) => bool_decide (x = Cst (CStr (String.append s t)))
  | _, _ => false
  end.

(** numbers multiply; a string times a number repeats it; 1 is neutral *)
Definition product_is (x y z : term) : bool :=
  match y, z with
  | Cst (CInt a), Cst (CInt b) => bool_decide (x = Cst (CInt (a * b)))
  | Cst (CStr s), Cst (CInt b) => bool_decide (x = Cst (CStr (repeat_str s (Z.to_nat b))))
  | Cst (CStr _), _ => false
  | _, _ => if decide (y = Cst (CInt 1)) then bool_decide (x = z)
            else if decide (z = Cst (CInt 1)) then bool_decide (x = y) else false
  end.

Definition is_true (x e : term) : bool :=
  match e with
  | Fn [Cst (CStr f); y] =>
      if decide (f = s_neg) then match asnum y with Some a => bool_decide (x = Cst (CInt (- a))) | None => false end
      else if decide (f = s_add) then match asnum y with Some a => bool_decide (x = Cst (CInt a)) | None => false end
      else if decide (f = s_abs) then match asnum y with Some a => bool_decide (x = Cst (CInt (Z.abs a))) | None => false end
      else if decide (f = s_str) then bool_decide (x = py_bool (bool_decide (asstr y <> None)))
      else if decide (f = s_int) then bool_decide (x = py_bool (bool_decide (asnum y <> None)))
      else if decide (f = s_not) then match asbool y with Some b => bool_decide (x = py_bool (negb b)) | None => false end
      else false
  | Fn [Cst (CStr f); y; z] =>
      if decide (f = s_mul) then product_is x y z
      else if decide (f = s_add) then sum_is x y z
      else if decide (f = s_div) then product_is y x z
      else if decide (f = s_neg) then sum_is y x z
      else match asnum y, asnum z with
        | Some a, Some b =>
            if decide (f = s_gt) then bool_decide (x = py_bool (bool_decide (a > b)%Z))
            else if decide (f = s_lt) then bool_decide (x = py_bool (bool_decide (a < b)%Z))
            else if decide (f = s_ge) then bool_decide (x = py_bool (bool_decide (a >= b)%Z))
            else if decide (f = s_le) then bool_decide (x = py_bool (bool_decide (a <= b)%Z))
            else if decide (f = s_eqq) then bool_decide (x = py_bool (bool_decide (a = b)))
            else if decide (f = s_ne) then bool_decide (x = py_bool (bool_decide (a <> b)))
            else if decide (f = s_min) then bool_decide (x = Cst (CInt (Z.min a b)))
            else if decide (f = s_max) then bool_decide (x = Cst (CInt (Z.max a b)))
            else false
        | _, _ => false
        end
  | Fn [Cst (CStr f); y; a; b] =>
      if decide (f = s_range) then
        match asnum y, asnum a, asnum b with
        | Some y, Some a, Some b => bool_decide (x = py_bool true /\ (a <= y < b)%Z)
        | _, _, _ => false
        end
      else false
  | _ => false
  end.

(** The two modes in which the code is not exact: [abs] is inverted at a
    negative number, and 0 is treated as neutral for addition when the other
    summand is not known to be a number. *)
Definition adding_zero (X Y Z : term) : bool :=
  match asstr X, asnum X, asnum Y, asnum Z with
  | None, None, Some _, None | None, None, None, Some _ => true
  | _, _, _, _ => false
  end.
Definition inexact_mode (X k : term) : bool :=
  match k with
  | Fn [Cst (CStr f); Y] =>
      if decide (f = s_abs) then match asnum Y, asnum X with None, Some x => (x <? 0)%Z | _, _ => false end else false
  | Fn [Cst (CStr f); Y; Z] =>
      if decide (f = s_add) then adding_zero X Y Z
      else if decide (f = s_neg) then adding_zero Y X Z else false
  | _ => false
  end.
