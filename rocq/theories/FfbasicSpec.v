(** What there is to count. *)
From Coq Require Import List ZArith Bool Reals.
From Verif Require Import Rule Ffset Ffbasic.
Import ListNotations.
Local Open Scope nat_scope.

(** the number of words of a sentence in a set *)
Definition among (vocab : list Z) (s : list Z) : nat := length (filter (fun w => existsb (Z.eqb w) vocab) s).
(** the number of rules used with so many variables, and of all *)
Fixpoint rules_of_arity (n : nat) (d : deriv) : nat :=
  match d with Node _ _ kids => (if length kids =? n then 1 else 0) + list_sum (map (rules_of_arity n) kids) end.
Fixpoint rule_count (d : deriv) : nat := match d with Node _ _ kids => S (list_sum (map rule_count kids)) end.
(** no rule comes with a value for the feature *)
Inductive free_of (x : nat) : dtree rule -> Prop :=
| fo r f kids : f x = 0%R -> Forall (free_of x) kids -> free_of x (DT rule r f kids).
