(** Independent vocabulary for terms: substitutions as total functions on
    variables, instances, variants, solutions of a set of bindings. *)
From stdpp Require Import gmap.
From Verif Require Import PyBase TermModel.

(** Apply a substitution simultaneously. *)
Fixpoint sub (σ : nat -> term) (t : term) : term :=
  match t with
  | Var v => σ v
  | Cst c => Cst c
  | Fn xs => Fn (map (sub σ) xs)
  end.

(** Variables of a term, in order of occurrence, with repetitions. *)
Fixpoint vars (t : term) : list nat :=
  match t with
  | Var v => [v]
  | Cst _ => []
  | Fn xs => flat_map vars xs
  end.

Definition ground (t : term) : Prop := vars t = [].

Definition disjoint_vars (x y : term) : Prop := forall v, In v (vars x) -> ~ In v (vars y).

(** [y] is an instance of [x]. *)
Definition instance_of (x y : term) : Prop := exists σ, sub σ x = y.

(** [ρ] renames the variables of [x] one-to-one. *)
Definition renames (ρ : nat -> nat) (x : term) : Prop :=
  forall v w, In v (vars x) -> In w (vars x) -> ρ v = ρ w -> v = w.

Definition rename (ρ : nat -> nat) (x : term) : term := sub (fun v => Var (ρ v)) x.

(** Equal up to a one-to-one renaming of variables. *)
Definition variant (x y : term) : Prop := exists ρ, renames ρ x /\ y = rename ρ x.

(** A substitution solves a set of bindings v = t when it makes every binding
    true. *)
Definition solves (σ : nat -> term) (st : store) : Prop :=
  forall v t, st !! v = Some t -> σ v = sub σ t.

(** Bindings without cycles: variables can be ranked so that a binding only
    mentions variables of smaller rank. *)
Definition acyclic (st : store) : Prop :=
  exists rank : nat -> nat,
    forall v t, st !! v = Some t -> forall w, In w (vars t) -> rank w < rank v.

(** What the bindings denote: the solution that leaves unbound variables
    alone. *)
Definition resolution (st : store) (θ : nat -> term) : Prop :=
  solves θ st /\ forall v, st !! v = None -> θ v = Var v.
