(** Model of [solve_linear] and [newton] on ground programs (dyna/program.py,
    dyna/execute/linear.py). *)
From Coq Require Import List.
From stdpp Require Import gmap.
From Coq Require String Ascii.
Import String.StringSyntax Ascii.AsciiSyntax.
From Verif Require Import PyBase Semiring TermModel SetsModel PruneModel UpdateModel EvalModel KleeneModel.
Import ListNotations.

(** [d[k] += v] for a chart: an insertion-ordered dictionary that defaults to zero. *)
Fixpoint dict_add {R : semiring} {K : Type} `{EqDecision K} (k : K) (v : R) (d : list (K * R)) : list (K * R) :=
  match d with
  | [] => [(k, sadd szero v)]
  | (k', w) :: d => if decide (k' = k) then (k', sadd w v) :: d else (k', w) :: dict_add k v d
  end.

(** Integerizer (external): the keys in insertion order, and the position of a key. *)
Definition ix_add (x : term) (ix : list term) : list term := if decide (x ∈ ix) then ix else ix ++ [x].
Fixpoint ix_of (x : term) (ix : list term) : option nat :=
  match ix with
  | [] => None
  | y :: ix => if decide (x = y) then Some 0 else option_map S (ix_of x ix)
  end.

Section newton.
Context {R : semiring}.
(** as in EvalModel.v *)
Context (wt : const -> R) (negligible is_one : R -> bool) (al cv : nat -> nat) (sort : list term -> list term).
Context (test : term -> option bool) (same : list (wrule R) -> list (wrule R) -> bool).
(** [Semiring.star] *)
Context (star : R -> R).

(** rule.py 18-19 for a ground factor: the subgoal, if the factor is no constant. *)
Definition subgoal (f : factor R) : option term :=
  match f with
  | Val _ => None
  | Goal (Cst _) => None
  | Goal b => Some b
  end.
Definition subgoals (fs : list (factor R)) : list term := omap subgoal fs.

(** program.py 357-364 with types.py 39-41 *)
Definition booleanize (P : list (wrule R)) : list (wrule bool_sr) :=
  map (fun r => WRule (whead r) (map Goal (subgoals (wbody r)))) P.

(** linear.py 38-39.  In the Boolean semiring [metric] is 0 for equal values, so the
    tests are exact.  [t] bounds the rounds of the agenda (fuel). *)
Definition bool_support (n t : nat) (P : list (wrule R)) : res (list (wrule bool_sr)) :=
  let* (oc, new) := agenda (R := bool_sr) (fun _ => true) negb (fun b => b) al cv sort test Bool.eqb n t (booleanize P) in
  match p_rules (snd oc) with
  | [] => Ok (p_rules new)
  | _ => OutOfFuel
  end.

(** linear.py 53: [for _ in bsol[r.body]].  The values are not used; a constant
    gives one result whatever its value is. *)
Definition to_bool (f : factor R) : factor bool_sr :=
  match f with Val _ => Val true | Goal b => Goal b end.
Definition instances (bsol : list (wrule bool_sr)) (fs : list (factor R)) : nat :=
  length (lookup_body test true bsol (map to_bool fs)).

(** linear.py 56-62 *)
Fixpoint extract (fs : list (factor R)) (coeff : R) (vs : list term) : R * list term :=
  match fs with
  | [] => (coeff, vs)
  | Val v :: fs => extract fs (smul coeff v) vs
  | Goal (Cst k) :: fs => extract fs (smul coeff (wt k)) vs
  | Goal b :: fs => extract fs coeff (vs ++ [b])
  end.

(** The charts [M] and [V] of linear.py 47-48. *)
Definition system : Type := list ((term * term) * R) * list (term * R).

Local Open Scope string_scope.
(** linear.py 55-79, one pass of the inner loop.  The rules are ground, so there is
    no dropped variable (73-77). *)
Definition add_instance (n : nat) (r : wrule R) (MV : system) : res system :=
  let (M, V) := MV in
  let (coeff, vs) := extract (wbody r) sone [] in
  match vs with
  | [] => let* h := canonicalize cv n ∅ (whead r) in Ok (M, dict_add h coeff V)
  | [var] =>
      let* hv := canonicalize cv n ∅ (Fn [Cst (CStr "tmp"); whead r; var]) in
      match hv with
      | Fn [_; h; v] => Ok (dict_add (h, v) coeff M, V)
      | _ => Raise ValueError
      end
  | _ => Raise AssertionError
  end.
Local Close Scope string_scope.

Fixpoint add_instances (n k : nat) (r : wrule R) (MV : system) : res system :=
  match k with
  | O => Ok MV
  | S k => let* MV := add_instance n r MV in add_instances n k r MV
  end.
(** linear.py 52-79 *)
Fixpoint build_system (n : nat) (bsol : list (wrule bool_sr)) (P : list (wrule R)) (MV : system) : res system :=
  match P with
  | [] => Ok MV
  | r :: P => let* MV := add_instances n (instances bsol (wbody r)) r MV in build_system n bsol P MV
  end.

(** linear.py 97-116: the alphabet and the arrays.  An item outside the alphabet
    does not occur. *)
Definition alphabet (MV : system) : list term :=
  fold_left (fun ix kv => ix_add (fst kv) ix) (snd MV)
    (fold_left (fun ix kv => ix_add (snd (fst kv)) (ix_add (fst (fst kv)) ix)) (fst MV) []).
Definition pack_M (ix : list term) (M : list ((term * term) * R)) : matrix R :=
  fold_left (fun MM kv => match ix_of (fst (fst kv)) ix, ix_of (snd (fst kv)) ix with
                          | Some i, Some j => mset MM i j (snd kv)
                          | _, _ => MM
                          end) M (fun _ _ => szero).
Definition pack_V (ix : list term) (V : list (term * R)) : nat -> R :=
  fold_left (fun VV kv => match ix_of (fst kv) ix with
                          | Some i => fun a => if Nat.eqb a i then snd kv else VV a
                          | None => VV
                          end) V (fun _ => szero).

(** program.py 842-845 and linear.py 31-89 *)
Definition solve_linear (n t : nat) (P : list (wrule R)) : res (list (wrule R)) :=
  let* bsol := bool_support n t P in
  let* MV := build_system n bsol P ([], []) in
  let ix := alphabet MV in
  let sol := linsolve star (length ix) (pack_M ix (fst MV)) (pack_V ix (snd MV)) in
  Ok (imap (fun i x => WRule x [Val (sol i)]) ix).

(** program.py 1118 with rule.py 47-53 *)
Definition linear_rules (P : list (wrule R)) : list (wrule R) :=
  filter (fun r => length (subgoals (wbody r)) <= 1) P.

(** program.py 1131-1133 *)
Fixpoint recursive_case (n : nat) (next : list (wrule R)) (r : wrule R) (ks : list nat) (q : pstate R) : res (pstate R) :=
  match ks with
  | [] => Ok q
  | k :: ks =>
      let* q := (match wbody r !! k with
                 | None => Raise IndexError
                 | Some f =>
                     match subgoal f with
                     | None => Ok q
                     | Some _ => set_item wt negligible is_one al cv n (whead r)
                                   (join2 (join2 (lookup_body test true next (take k (wbody r))) [[f]])
                                          (lookup_body test true next (drop (S k) (wbody r)))) q
                     end
                 end) in
      recursive_case n next r ks q
  end.

(** [combinations(range(K), 2)] *)
Definition pairs (K : nat) : list (nat * nat) :=
  flat_map (fun i => map (fun j => (i, j)) (seq (S i) (K - S i))) (seq 0 K).

(** program.py 1135-1138; [change] has no builtins (linear.py 90 with 2202). *)
Fixpoint base_case (n : nat) (next change chart : list (wrule R)) (r : wrule R) (ps : list (nat * nat)) (q : pstate R)
  : res (pstate R) :=
  match ps with
  | [] => Ok q
  | (i, j) :: ps =>
      let* q := (match wbody r !! i, wbody r !! j with
                 | Some fi, Some fj =>
                     match subgoal fi, subgoal fj with
                     | Some _, Some _ =>
                         set_item wt negligible is_one al cv n (whead r)
                           (join2 (join2 (join2 (join2
                              (lookup_body test true next (take i (wbody r)))
                              (lookup_vals test false change fi))
                              (lookup_body test true chart (take (j - S i) (drop (S i) (wbody r)))))
                              (lookup_vals test false change fj))
                              (lookup_body test true chart (drop (S j) (wbody r)))) q
                     | _, _ => Ok q
                     end
                 | _, _ => Raise IndexError
                 end) in
      base_case n next change chart r ps q
  end.

(** program.py 1127-1138 *)
Fixpoint linearized (n : nat) (next change chart : list (wrule R)) (P : list (wrule R)) (q : pstate R) : res (pstate R) :=
  match P with
  | [] => Ok q
  | r :: P =>
      let K := length (wbody r) in
      let* q := recursive_case n next r (seq 0 K) q in
      let* q := base_case n next change chart r (pairs K) q in
      linearized n next change chart P q
  end.

(** program.py 1095-1140.  [i] rounds are done ([t = i] on entry); [k] is fuel for
    the rounds and [t] for the agenda in [solve_linear]. *)
Fixpoint newton_loop (n t k : nat) (T : option nat) (P : list (wrule R)) (i : nat) (chart change_p : list (wrule R))
  : res (list (wrule R)) :=
  match k with
  | O => OutOfFuel
  | S k =>
      let* change := solve_linear n t change_p in
      let* next := constant_folding wt negligible is_one cv sort n ∅ (chart ++ change) in
      if same chart next then Ok next
      else if bool_decide (T = Some (S i)) then Ok next
      else
        let* q := linearized n next change chart P (p_new [] 0) in
        newton_loop n t k T P (S i) next (p_rules q)
  end.
Definition newton (n t k : nat) (T : option nat) (P : list (wrule R)) : res (list (wrule R)) :=
  newton_loop n t k T P 0 [] (linear_rules P).
End newton.
