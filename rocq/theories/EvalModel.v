(** Model of bottom-up evaluation of ground programs (dyna/program.py) and of the
    enumeration of derivations (dyna/derivations.py).  Charts are Program objects:
    values are added by [update] of UpdateModel.v. *)
From Coq Require Import List.
From stdpp Require Import gmap.
From Verif Require Import PyBase Semiring TermModel SetsModel PruneModel UpdateModel.
Import ListNotations.

Section eval.
Context {R : semiring}.
(** as in UpdateModel.v *)
Context (wt : const -> R) (negligible is_one : R -> bool) (al cv : nat -> nat) (sort : list term -> list term).
(** builtins on ground subgoals: [Some b] if the subgoal is a builtin and succeeds
    ([b = true]) or fails; [None] for an ordinary item (program.py 1313-1357) *)
Context (test : term -> option bool).
(** [new == old] (program.py 543-550) and [Semiring.metric(a, b) <= tol] *)
Context (same : list (wrule R) -> list (wrule R) -> bool) (close : R -> R -> bool).

(** program.py 1259-1266 with lookup 1273-1371, for a ground subgoal [f] and a
    chart [ch] with ground heads; [hb] is [has_builtins].  A ground head unifies
    with a ground subgoal when they are equal; that the functor index finds
    exactly those rules, in program order, is C35. *)
Definition lookup_vals (hb : bool) (ch : list (wrule R)) (f : factor R) : list (list (factor R)) :=
  match f with
  | Val v => if hb then [[Val v]] else []
  | Goal (Cst k) => if hb then [[Goal (Cst k)]] else []
  | Goal b =>
      match (if hb then test b else None) with
      | Some true => [[Val sone]]
      | Some false => []
      | None => map wbody (filter (fun r => whead r = b) ch)
      end
  end.

(** term.py 1115-1130: [Join] *)
Definition join2 (xs ys : list (list (factor R))) : list (list (factor R)) :=
  flat_map (fun x => map (fun y => x ++ y) ys) xs.

(** program.py 1230-1239 *)
Fixpoint lookup_body (hb : bool) (ch : list (wrule R)) (fs : list (factor R)) : list (list (factor R)) :=
  match fs with
  | [] => [[Val sone]]
  | f :: fs' => match fs' with
                | [] => lookup_vals hb ch f
                | _ => join2 (lookup_vals hb ch f) (lookup_body hb ch fs')
                end
  end.

(** program.py 1246-1257.  The heads and bodies are ground, so no variable can be
    dropped. *)
Fixpoint set_item (n : nat) (x : term) (ys : list (list (factor R))) (q : pstate R) : res (pstate R) :=
  match ys with
  | [] => Ok q
  | y :: ys => let* q := update wt negligible is_one al cv n ∅ (WRule x y) q in set_item n x ys q
  end.

(** program.py 1167-1176 *)
Fixpoint step_rules (n : nat) (P ch : list (wrule R)) (q : pstate R) : res (pstate R) :=
  match P with
  | [] => Ok q
  | r :: P => let* q := set_item n (whead r) (lookup_body true ch (wbody r)) q in step_rules n P ch q
  end.
Definition step (n : nat) (P : list (wrule R)) (ch : pstate R) : res (pstate R) :=
  step_rules n P (p_rules ch) (p_new [] 0).

(** program.py 883-891, [max_iter = k]; [last] is the variable [new], unbound
    before the first round. *)
Fixpoint fc_loop (n k : nat) (P : list (wrule R)) (old : pstate R) (last : option (pstate R)) : res (pstate R) :=
  match k with
  | O => match last with Some new => Ok new | None => Raise OtherError end
  | S k => let* new := step n P old in
           if same (p_rules new) (p_rules old) then Ok new else fc_loop n k P new (Some new)
  end.
Definition fc (n k : nat) (P : list (wrule R)) : res (pstate R) := fc_loop n k P (p_new [] 0) None.

(** program.py 883-891, [max_iter = None]: [k] rounds are fuel. *)
Fixpoint fc_run (n k : nat) (P : list (wrule R)) (old : pstate R) : res (pstate R) :=
  match k with
  | O => OutOfFuel
  | S k => let* new := step n P old in
           if same (p_rules new) (p_rules old) then Ok new else fc_run n k P new
  end.

(** program.py 1080-1093 *)
Fixpoint set_items (n : nat) (x : term) (lefts : list (list (factor R))) (vs : list (list (factor R)))
    (rights : list (list (factor R))) (q : pstate R) : res (pstate R) :=
  match vs with
  | [] => Ok q
  | v :: vs => let* q := set_item n x (join2 (join2 lefts [v]) rights) q in set_items n x lefts vs rights q
  end.
Fixpoint delta_rule (n : nat) (new old d : list (wrule R)) (r : wrule R) (ks : list nat) (q : pstate R) : res (pstate R) :=
  match ks with
  | [] => Ok q
  | k :: ks =>
      let* q := (match wbody r !! k with
                 | None => Raise IndexError
                 | Some f => set_items n (whead r) (lookup_body true new (take k (wbody r))) (lookup_vals false d f)
                               (lookup_body true old (drop (S k) (wbody r))) q
                 end) in
      delta_rule n new old d r ks q
  end.
Fixpoint delta_rules (n : nat) (new old d : list (wrule R)) (P : list (wrule R)) (q : pstate R) : res (pstate R) :=
  match P with
  | [] => Ok q
  | r :: P => let* q := delta_rule n new old d r (seq 0 (length (wbody r))) q in delta_rules n new old d P q
  end.
Definition seminaive_update (n : nat) (P : list (wrule R)) (old d : pstate R) : res (pstate R * pstate R) :=
  let* new := constant_folding wt negligible is_one cv sort n ∅ (p_rules old ++ p_rules d) in
  let* q := delta_rules n new (p_rules old) (p_rules d) P (p_new [] 0) in
  let* q := constant_folding wt negligible is_one cv sort n ∅ (p_rules q) in
  Ok (p_new new 0, p_new q 0).

(** program.py 1066-1078, [T = k] *)
Fixpoint seminaive_loop (n k : nat) (P : list (wrule R)) (m d : pstate R) : res (pstate R) :=
  match k with
  | O => Ok m
  | S k =>
      let* (m', d') := seminaive_update n P m d in
      if match p_rules d' with [] => true | _ => same (p_rules m) (p_rules m') end then Ok m'
      else seminaive_loop n k P m' d'
  end.
Definition seminaive (n k : nat) (P : list (wrule R)) : res (pstate R) :=
  let* d := step n P (p_new [] 0) in seminaive_loop n k P (p_new [] 0) d.

(** the same with [T = None]: [k] rounds are fuel *)
Fixpoint seminaive_run (n k : nat) (P : list (wrule R)) (m d : pstate R) : res (pstate R) :=
  match k with
  | O => OutOfFuel
  | S k =>
      let* (m', d') := seminaive_update n P m d in
      if match p_rules d' with [] => true | _ => same (p_rules m) (p_rules m') end then Ok m'
      else seminaive_run n k P m' d'
  end.

(** program.py 1212-1219 for an item *)
Definition user_lookup (n : nat) (ch : pstate R) (x : term) : res (list (wrule R)) :=
  constant_folding wt negligible is_one cv sort n ∅ (filter (fun r => whead r = x) (p_rules ch)).

(** program.py 567-611: [a.metric(b) <= tol] for programs that consist of constant
    rules.  After [constant_folding] each head occurs once. *)
Definition chart_value (ch : list (wrule R)) (x : term) : option R :=
  match filter (fun r => whead r = x) ch with
  | r :: _ => match wbody r with [Val v] => Some v | _ => None end
  | [] => None
  end.
Definition metric_le (n : nat) (a b : list (wrule R)) : res bool :=
  let* a := constant_folding wt negligible is_one cv sort n ∅ a in
  let* b := constant_folding wt negligible is_one cv sort n ∅ b in
  let ka := map whead a in let kb := map whead b in
  if forallb (fun x => bool_decide (x ∈ kb)) ka && forallb (fun x => bool_decide (x ∈ ka)) kb then
    Ok (forallb (fun x => match chart_value a x, chart_value b x with Some v, Some w => close v w | _, _ => false end) ka)
  else Ok false.

(** program.py 1033-1064 *)
Fixpoint agenda_rule (n : nat) (new old : list (wrule R)) (u r : wrule R) (ks : list nat) (change : pstate R) : res (pstate R) :=
  match ks with
  | [] => Ok change
  | k :: ks =>
      let* change := (match wbody r !! k with
                      | Some (Goal b) =>
                          if decide (whead u = b) then
                            set_item n (whead r)
                              (join2 (join2 (lookup_body true new (take k (wbody r))) [wbody u])
                                     (lookup_body true old (drop (S k) (wbody r)))) change
                          else Ok change
                      | Some (Val _) => Ok change
                      | None => Raise IndexError
                      end) in
      agenda_rule n new old u r ks change
  end.
Fixpoint agenda_rules (n : nat) (new old : list (wrule R)) (u : wrule R) (P : list (wrule R)) (change : pstate R) : res (pstate R) :=
  match P with
  | [] => Ok change
  | r :: P => let* change := agenda_rule n new old u r (seq 0 (length (wbody r))) change in
              agenda_rules n new old u P change
  end.
(** [t] is [max_iter]. *)
Fixpoint agenda_loop (n t : nat) (P : list (wrule R)) (old change new : pstate R) : res (pstate R * pstate R * pstate R) :=
  match t with
  | O => Ok (old, change, new)
  | S t =>
      match p_rules change with
      | [] => Ok (old, change, new)
      | _ =>
          let* (change, u) := pop 0 change in
          let* was := user_lookup n new (whead u) in
          let* new := update wt negligible is_one al cv n ∅ u new in
          let* now := user_lookup n new (whead u) in
          let* b := metric_le n was now in
          if b then agenda_loop n t P old change new
          else
            let* change := agenda_rules n (p_rules new) (p_rules old) u P change in
            let* old := update wt negligible is_one al cv n ∅ u old in
            agenda_loop n t P old change new
      end
  end.
Definition agenda (n t : nat) (P : list (wrule R)) : res (pstate R * pstate R * pstate R) :=
  let* change := step n P (p_new [] 0) in
  agenda_loop n t P (p_new [] 0) change (p_new [] 0).
End eval.

(** * Derivations (derivations.py) *)

(** A derivation: a value (a constant, or a builtin that holds), or rule number [i]
    with a derivation for each subgoal (derivations.py 16-41). *)
Inductive dtree (R : Type) : Type :=
| DLeaf (v : R)
| DNode (i : nat) (ds : list (dtree R)).
Arguments DLeaf {R} v.
Arguments DNode {R} i ds.

Section derivations.
Context {R : semiring} (wt : const -> R) (test : term -> option bool).

(** A chart of derivations: rules [item += derivation]. *)
Local Notation dchart := (list (term * dtree R)).

Definition dlookup (hb : bool) (ch : dchart) (f : factor R) : list (dtree R) :=
  match f with
  | Val v => if hb then [DLeaf v] else []
  | Goal (Cst k) => if hb then [DLeaf (wt k)] else []
  | Goal b =>
      match (if hb then test b else None) with
      | Some true => [DLeaf sone]
      | Some false => []
      | None => map snd (filter (fun e => fst e = b) ch)
      end
  end.

(** term.py 44-56: [join_f] *)
Fixpoint djoin (ch : dchart) (fs : list (factor R)) : list (list (dtree R)) :=
  match fs with
  | [] => [[]]
  | f :: fs => flat_map (fun d => map (cons d) (djoin ch fs)) (dlookup true ch f)
  end.

(** derivations.py 319-341; [i] counts the rules. *)
Fixpoint dstep (i : nat) (P : list (wrule R)) (ch : dchart) : dchart :=
  match P with
  | [] => []
  | r :: P => map (fun ds => (whead r, DNode i ds)) (djoin ch (wbody r)) ++ dstep (S i) P ch
  end.

(** derivations.py 306-316, [T = k] *)
Fixpoint dnaive (k : nat) (P : list (wrule R)) (x : dchart) : dchart :=
  match k with
  | O => x
  | S k => let x1 := dstep 0 P x in
           if bool_decide (length x1 = length x) then x else dnaive k P x1
  end.

(** derivations.py 359-377 *)
Definition dextend (new old d : dchart) (i : nat) (r : wrule R) (k : nat) : dchart :=
  match wbody r !! k with
  | None => []
  | Some f =>
      flat_map (fun vk =>
        flat_map (fun left => map (fun right => (whead r, DNode i (left ++ [vk] ++ right))) (djoin old (drop (S k) (wbody r))))
          (djoin new (take k (wbody r))))
        (dlookup false d f)
  end.
Fixpoint ddelta (i : nat) (P : list (wrule R)) (new old d : dchart) : dchart :=
  match P with
  | [] => []
  | r :: P => flat_map (dextend new old d i r) (seq 0 (length (wbody r))) ++ ddelta (S i) P new old d
  end.

(** derivations.py 344-357, [T = k] *)
Fixpoint dseminaive_loop (k : nat) (P : list (wrule R)) (m d : dchart) : dchart :=
  match k with
  | O => m
  | S k => let new := m ++ d in
           let d' := ddelta 0 P new m d in
           match d' with [] => new | _ => dseminaive_loop k P new d' end
  end.
Definition dseminaive (k : nat) (P : list (wrule R)) : dchart := dseminaive_loop k P [] (dstep 0 P []).

(** derivations.py 380-408: the derivations yielded in the first [t] rounds, and the
    state after them. *)
Definition dagenda_extend (new old : dchart) (u : term * dtree R) (i : nat) (r : wrule R) (k : nat) : dchart :=
  match wbody r !! k with
  | Some (Goal b) =>
      if decide (fst u = b) then
        flat_map (fun left => map (fun right => (whead r, DNode i (left ++ [snd u] ++ right))) (djoin old (drop (S k) (wbody r))))
          (djoin new (take k (wbody r)))
      else []
  | _ => []
  end.
Fixpoint dagenda_rules (i : nat) (P : list (wrule R)) (new old : dchart) (u : term * dtree R) : dchart :=
  match P with
  | [] => []
  | r :: P => flat_map (dagenda_extend new old u i r) (seq 0 (length (wbody r))) ++ dagenda_rules (S i) P new old u
  end.
Fixpoint dagenda_loop (t : nat) (P : list (wrule R)) (old change : dchart) : dchart * dchart :=
  match t, change with
  | O, _ => (old, change)
  | S _, [] => (old, [])
  | S t, u :: change =>
      let new := old ++ [u] in
      dagenda_loop t P new (change ++ dagenda_rules 0 P new old u)
  end.
Definition dagenda (t : nat) (P : list (wrule R)) : dchart * dchart := dagenda_loop t P [] (dstep 0 P []).
End derivations.
