(** Model of the term collections of dyna/term.py (NoDupsSet, MostGeneralSet,
    DisjointEstimate, generalizer) and of rule and program comparison
    (dyna/rule.py, dyna/program.py).  Terms carry no heap bindings here. *)
From stdpp Require Import gmap.
From Coq Require Import ZArith.
From Coq Require String Ascii.
Import String.StringSyntax Ascii.AsciiSyntax.
From Verif Require Import PyBase TermModel.

(** A collection is its list of elements together with the allocator position:
    [al j] is the identity of the j-th variable object still to be allocated. *)

Section allocator.
Variable al : nat -> nat.

(** term.py 926-929: linear scan with [self.same(r, s)]. *)
Fixpoint find_same (sm : term -> term -> res bool) (r : term) (xs : list term) : res bool :=
  match xs with
  | [] => Ok false
  | s :: xs => let* b := sm r s in if b then Ok true else find_same sm r xs
  end.

(** term.py 918-931.  The boolean is the method's return value. *)
Definition nds_add (sm : term -> term -> res bool) (n : nat) (st : list term * nat) (r : term)
  : res (list term * nat * bool) :=
  let '(xs, c) := st in
  let* (r, c') := fresh al n ∅ c r in
  let* b := find_same sm r xs in
  if b then Ok (xs, c', true) else Ok (xs ++ [r], c', false).

(** term.py 971-978: the scan of MostGeneralSet.add; [None] means that a stored
    element covers [r] (early return), otherwise the flags of the elements to
    delete. *)
Fixpoint mgs_scan (cov : term -> term -> res bool) (r : term) (xs : list term)
  : res (option (list bool)) :=
  match xs with
  | [] => Ok (Some [])
  | s :: xs =>
      let* b := cov s r in
      if b then Ok None
      else let* d := cov r s in
           let* rest := mgs_scan cov r xs in
           Ok (option_map (cons d) rest)
  end.

(** term.py 979-980: [del self.xs[i]] for the marked positions. *)
Fixpoint delete_marked (xs : list term) (rm : list bool) : list term :=
  match xs, rm with
  | x :: xs, d :: rm => if d then delete_marked xs rm else x :: delete_marked xs rm
  | _, _ => xs
  end.

(** term.py 962-982 *)
Definition mgs_add (cov : term -> term -> res bool) (n : nat) (st : list term * nat) (r : term)
  : res (list term * nat * bool) :=
  let '(xs, c) := st in
  let* (r, c') := fresh al n ∅ c r in
  let* o := mgs_scan cov r xs in
  match o with
  | None => Ok (xs, c', true)
  | Some rm => Ok (delete_marked xs rm ++ [r], c', false)
  end.

(** term.py 983-990 *)
Fixpoint mgs_find_go (cov : term -> term -> res bool) (x : term) (i : nat) (xs : list term)
  : res nat :=
  match xs with
  | [] => Raise KeyError
  | s :: xs => let* b := cov s x in if b then Ok i else mgs_find_go cov x (S i) xs
  end.

Definition mgs_find (cov : term -> term -> res bool) (n : nat) (st : list term * nat) (x : term)
  : res nat :=
  let '(xs, c) := st in
  let* (x, _) := fresh al n ∅ c x in
  mgs_find_go cov x 0 xs.

(** term.py 932-938: NoDupsSet.find; the same loop as MostGeneralSet.find with
    [self.same(s, x)] as the test. *)
Definition nds_find (sm : term -> term -> res bool) (n : nat) (st : list term * nat) (x : term)
  : res nat :=
  let '(xs, c) := st in
  let* (x, _) := fresh al n ∅ c x in
  mgs_find_go sm x 0 xs.

(** A history of [add] calls. *)
Fixpoint adds (add : list term * nat -> term -> res (list term * nat * bool))
  (st : list term * nat) (l : list term) : res (list term * nat) :=
  match l with
  | [] => Ok st
  | r :: l => let* (st', _) := add st r in adds add st' l
  end.

(** ------------------------------------------------------------------------
    term.py 605-659: anti-unification.  [s1], [s2] are dictionaries. *)
Definition dict := list (term * term).

Fixpoint dget (d : dict) (k : term) : option term :=
  match d with
  | [] => None
  | (k', v) :: d => if term_eqb k k' then Some v else dget d k
  end.

Definition dset (d : dict) (k v : term) : dict := (k, v) :: d.

Record gstate := GState { g1 : dict; g2 : dict; gc : nat }.

(** [z = Var()] *)
Definition new_var (s : gstate) : term * gstate := (Var (al (gc s)), GState (g1 s) (g2 s) (S (gc s))).

(** Lines 618-629: [x] is a variable, [y] a different term. *)
Definition gen_var1 (n : nat) (x : nat) (y : term) (s : gstate) : res (term * gstate) :=
  let* o := occurs_check n ∅ x y in
  if o then
    match dget (g1 s) (Var x) with
    | Some z => Ok (z, s)
    | None => let (z, s) := new_var s in Ok (z, GState (dset (g1 s) (Var x) z) (g2 s) (gc s))
    end
  else
    match dget (g1 s) (Var x) with
    | Some t => if term_eqb t y then Ok (Var x, s)
                else let (z, s) := new_var s in
                     Ok (z, GState (dset (g1 s) (Var x) z) (g2 s) (gc s))
    | None => Ok (Var x, GState (dset (g1 s) (Var x) y) (g2 s) (gc s))
    end.

(** Lines 633-643: [y] is a variable, [x] is not. *)
Definition gen_var2 (n : nat) (x : term) (y : nat) (s : gstate) : res (term * gstate) :=
  let* o := occurs_check n ∅ y x in
  if o then
    match dget (g2 s) (Var y) with
    | Some z => Ok (z, s)
    | None => let (z, s) := new_var s in Ok (z, GState (g1 s) (dset (g2 s) (Var y) z) (gc s))
    end
  else
    match dget (g2 s) (Var y) with
    | Some t => if term_eqb t x then Ok (Var y, s)
                else let (z, s) := new_var s in
                     Ok (z, GState (g1 s) (dset (g2 s) (Var y) z) (gc s))
    | None => Ok (Var y, GState (g1 s) (dset (g2 s) (Var y) x) (gc s))
    end.

(** Lines 649-657: the two sides clash. *)
Definition gen_clash (x y : term) (s : gstate) : term * gstate :=
  match dget (g1 s) x with
  | Some z => (z, s)
  | None =>
      match dget (g2 s) y with
      | Some z => (z, s)
      | None => let (z, s) := new_var s in
                (z, GState (dset (g1 s) x z) (dset (g2 s) y z) (gc s))
      end
  end.

(** Lines 611-657.  [x.fn == y.fn] compares the first entries. *)
Fixpoint gen_traverse (n : nat) (x y : term) (s : gstate) {struct x} : res (term * gstate) :=
  if term_eqb x y then Ok (x, s)
  else
    match x with
    | Var v => gen_var1 n v y s
    | Fn xs =>
        match y with
        | Var w => gen_var2 n x w s
        | Fn ys =>
            if Nat.eqb (length xs) (length ys) &&
               (match xs, ys with f :: _, g :: _ => term_eqb f g | _, _ => false end)
            then
              let* (zs, s') :=
                (fix go (xs ys : list term) (s : gstate) : res (list term * gstate) :=
                   match xs, ys with
                   | x :: xs, y :: ys =>
                       let* (z, s1) := gen_traverse n x y s in
                       let* (zs, s2) := go xs ys s1 in
                       Ok (z :: zs, s2)
                   | _, _ => Ok ([], s)
                   end) xs ys s in
              Ok (Fn zs, s')
            else Ok (gen_clash x y s)
        | Cst _ => Ok (gen_clash x y s)
        end
    | Cst _ =>
        match y with
        | Var w => gen_var2 n x w s
        | _ => Ok (gen_clash x y s)
        end
    end.

Definition generalizer (n c : nat) (x y : term) : res (term * nat) :=
  let* (z, s) := gen_traverse n x y (GState [] [] c) in Ok (z, gc s).

(** term.py 1026-1031.  The loop runs over the positions from the last to the
    first; [kept] are the later positions that stayed. *)
Fixpoint de_scan (n : nat) (r : term) (c : nat) (rev_xs kept : list term)
  : res (term * nat * list term) :=
  match rev_xs with
  | [] => Ok (r, c, kept)
  | x :: rest =>
      let* u := unifies n ∅ r x in
      if u then
        let* (g, c1) := generalizer n c r x in
        let* (r', c2) := fresh al n ∅ c1 g in
        de_scan n r' c2 rest kept
      else de_scan n r c rest (x :: kept)
  end.

Definition de_add (cv : nat -> nat) (n : nat) (st : list term * nat) (r : term)
  : res (list term * nat) :=
  let '(xs, c) := st in
  let* (r, c1) := fresh al n ∅ c r in
  let* (rc, kept) := de_scan n r c1 (rev xs) [] in
  let '(r', c2) := rc in
  let* z := canonicalize cv n ∅ r' in
  Ok (kept ++ [z], c2).

Fixpoint de_adds (cv : nat -> nat) (n : nat) (st : list term * nat) (l : list term)
  : res (list term * nat) :=
  match l with
  | [] => Ok st
  | r :: l => let* st' := de_add cv n st r in de_adds cv n st' l
  end.

(** term.py 1032-1047 *)
Fixpoint de_find_all (n : nat) (x : term) (i : nat) (xs : list term) : res (list nat) :=
  match xs with
  | [] => Ok []
  | s :: xs => let* u := unifies n ∅ x s in
               let* rest := de_find_all n x (S i) xs in
               Ok (if u then i :: rest else rest)
  end.

Definition de_find (n : nat) (st : list term * nat) (x : term) : res nat :=
  let '(xs, c) := st in
  let* (x, _) := fresh al n ∅ c x in
  let* index := de_find_all n x 0 xs in
  match index with
  | [i] => Ok i
  | _ => Raise KeyError
  end.
End allocator.

(** ------------------------------------------------------------------------
    Rules *)

(** rule.py 22-35 *)
Record rule := Rule { rhead : term; rbody : list term }.

(** term.py 233-262.  [xs] is [self[i:]], [js] the available positions of [ys];
    the result lists (substitution, alignment as pairs (j, i), remaining
    positions) in the order they are yielded.  Simplification: the Python set
    [js] is iterated in ascending order. *)
Fixpoint pcovers_go (n : nat) (ys : list term) (i : nat) (xs : list term) (js : list nat) (s : subst)
  : res (list (subst * list (nat * nat) * list nat)) :=
  match xs with
  | [] => Ok [(s, [], js)]
  | x :: xs' =>
      if Nat.ltb (length js) (length xs) then Ok []
      else
        let* rs := mapM (fun j =>
          match nth_error ys j with
          | None => Raise IndexError
          | Some y =>
              let* (s', ok) := cover n s x y in
              if ok then
                let* sub := pcovers_go n ys (S i) xs' (List.filter (fun k => negb (Nat.eqb k j)) js) s' in
                Ok (map (fun r => (fst (fst r), (j, i) :: snd (fst r), snd r)) sub)
              else Ok []
          end) js in
        Ok (concat rs)
  end.

(** term.py 218-231 *)
Definition pcovers (n : nat) (xs ys : list term) : res (list (subst * list (nat * nat) * list nat)) :=
  pcovers_go n ys 0 xs (seq 0 (length ys)) ∅.

(** term.py 272-284 *)
Fixpoint match_comm_go (n : nat) (ys : list term) (xs : list term) (js : list nat) (s : subst)
  : res (list subst) :=
  match xs with
  | [] => Ok [s]
  | x :: xs' =>
      if negb (Nat.eqb (length xs) (length js)) then Ok []
      else
        let* rs := mapM (fun j =>
          match nth_error ys j with
          | None => Raise IndexError
          | Some y =>
              let* (s', ok) := cover n s x y in
              if ok then match_comm_go n ys xs' (List.filter (fun k => negb (Nat.eqb k j)) js) s'
              else Ok []
          end) js in
        Ok (concat rs)
  end.

(** rule.py 13-15 *)
Definition term_signature (cv : nat -> nat) (n : nat) (x : term) : res term :=
  match x with
  | Fn _ => canonicalize cv n ∅ x
  | _ => Ok (Fn [Cst (CStr "$const"); x])
  end.

(** rule.py 60-63; a bag is a list up to permutation. *)
Definition rule_signature (cv : nat -> nat) (n : nat) (r : rule) : res (term * list term) :=
  let* h := term_signature cv n (rhead r) in
  let* b := mapM (term_signature cv n) (rbody r) in
  Ok (h, b).

(** A rule is a term: its variables and its fresh copies are those of the tuple
    (head, *body) (rule.py 30-35, term.py 321-324). *)
Definition rule_term (r : rule) : term := Fn (rhead r :: rbody r).

Definition rule_of_term (t : term) : rule :=
  match t with
  | Fn (h :: b) => Rule h b
  | _ => Rule t []
  end.

(** rule.py 73-87.  [hash] is the hash of a signature (any function that does
    not depend on the order within the bag); [is_same_object] is [self is other]. *)
Definition rule_same (al cv : nat -> nat) (hash : term * list term -> Z) (n c : nat)
  (is_same_object : bool) (r s : rule) : res bool :=
  if is_same_object then Ok true
  else
    let* hr := rule_signature cv n r in
    let* hs := rule_signature cv n s in
    if negb (Z.eqb (hash hr) (hash hs)) then Ok false
    else
      let* vr := term_vars n ∅ (rule_term r) [] in
      let* vs := term_vars n ∅ (rule_term s) [] in
      let* s := (if existsb (fun v => existsb (Nat.eqb v) vs) vr
                 then let* (t, _) := fresh al n ∅ c (rule_term s) in Ok (rule_of_term t)
                 else Ok s) in
      let* (s0, ok) := cover n ∅ (rhead r) (rhead s) in
      if negb ok then Ok false
      else
        let* ms := match_comm_go n (rbody s) (rbody r) (seq 0 (length (rbody s))) s0 in
        existsM (fun s1 =>
          if is_non_specializing s1
          then let* h := sapply n s1 (rhead r) in Ok (term_eqb h (rhead s))
          else Ok false) ms.

(** program.py 638-652: greedy alignment of two buckets, for any comparison. *)
Fixpoint take_match {A} (sm : A -> A -> bool) (r : A) (Sb : list A) : option (list A) :=
  match Sb with
  | [] => None
  | s :: Sb => if sm r s then Some Sb
               else option_map (cons s) (take_match sm r Sb)
  end.

Fixpoint check_bucket {A} (sm : A -> A -> bool) (Rb Sb : list A) : bool :=
  match Rb with
  | [] => true
  | r :: Rb => match take_match sm r Sb with
               | Some Sb' => check_bucket sm Rb Sb'
               | None => false
               end
  end.

(** program.py 622-635: buckets by hash; [R.keys() == S.keys()] and every bucket
    aligns. *)
Definition bucket_equal {A} (h : A -> Z) (sm : A -> A -> bool) (R S : list A) : bool :=
  let keys l := map h l in
  forallb (fun k => existsb (Z.eqb k) (keys S)) (keys R) &&
  forallb (fun k => existsb (Z.eqb k) (keys R)) (keys S) &&
  forallb (fun k => check_bucket sm (List.filter (fun r => Z.eqb (h r) k) R)
                                    (List.filter (fun r => Z.eqb (h r) k) S)) (keys R).

(** util.py 103-105: FrozenBag = frozenset(Counter(elements).items()); two bags are
    equal when every element occurs equally often in both. *)
Definition bag_count {A} (eqb : A -> A -> bool) (x : A) (l : list A) : nat :=
  length (List.filter (eqb x) l).
Definition bag_eqb {A} (eqb : A -> A -> bool) (l l' : list A) : bool :=
  forallb (fun x => Nat.eqb (bag_count eqb x l) (bag_count eqb x l')) (l ++ l').

(** Equality of rule signatures (rule.py 60-63): a pair of a term and a bag. *)
Definition sig_eqb (a b : term * list term) : bool :=
  term_eqb (fst a) (fst b) && bag_eqb term_eqb (snd a) (snd b).

(** program.py 543-550, with program.py 147-154 (the signature of a program is
    the bag of the signatures of its rules).  [sig] gives the signature of a
    rule, [h] its hash and [sm] is Rule.same.  The comparison of the hashes of
    the program signatures is implied by the comparison of the signatures. *)
Definition prog_eq {A} (sig : A -> term * list term) (h : A -> Z) (sm : A -> A -> bool)
  (P Q : list A) : bool :=
  Nat.eqb (length P) (length Q) && bag_eqb sig_eqb (map sig P) (map sig Q) && bucket_equal h sm P Q.

(** program.py 614-620 *)
Definition symbolic_equal {A} (h : A -> Z) (sm : A -> A -> bool) (P Q : list A) : bool :=
  Nat.eqb (length P) (length Q) && bucket_equal h sm P Q.

(** program.py 704-734: the alignment as pairs of optional positions.  [Sb] are
    the positions still available. *)
Fixpoint align_find {A} (h : A -> Z) (sm : A -> A -> bool) (S : list A) (r : A) (avail : list nat)
  : option nat :=
  match avail with
  | [] => None
  | j :: avail =>
      match nth_error S j with
      | Some s => if Z.eqb (h s) (h r) && sm r s then Some j else align_find h sm S r avail
      | None => align_find h sm S r avail
      end
  end.

Fixpoint align_go {A} (h : A -> Z) (sm : A -> A -> bool) (S : list A) (i : nat) (R : list A)
  (avail : list nat) : list (option nat * option nat) :=
  match R with
  | [] => map (fun j => (None, Some j)) avail
  | r :: R =>
      match align_find h sm S r avail with
      | Some j => (Some i, Some j) :: align_go h sm S (1 + i) R (List.filter (fun k => negb (Nat.eqb k j)) avail)
      | None => (Some i, None) :: align_go h sm S (1 + i) R avail
      end
  end.

Definition align {A} (h : A -> Z) (sm : A -> A -> bool) (R S : list A) : list (option nat * option nat) :=
  align_go h sm S 0 R (seq 0 (length S)).
