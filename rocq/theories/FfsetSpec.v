(** What it means that feature functions do not get in each other's way. *)
From Coq Require Import List Reals.
From Verif Require Import Ffset.
Import ListNotations.
Local Open Scope nat_scope.

Section S.
Context {E : Type}.
Notation ffun := (ffun E).
(** It fills its part of the state, and looks at and changes only the features [P]. *)
Record keeps_to (m : ffun) (P : nat -> bool) : Prop := {
  k_size : forall e a f, length (fst (Traversal E m e a f)) = StateSize E m;
  k_state : forall e a f g, (forall x, P x = true -> f x = g x) -> fst (Traversal E m e a f) = fst (Traversal E m e a g);
  k_own : forall e a f g x, (forall y, P y = true -> f y = g y) -> P x = true -> snd (Traversal E m e a f) x = snd (Traversal E m e a g) x;
  k_other : forall e a f x, P x = false -> snd (Traversal E m e a f) x = f x;
  k_final : forall s f g x, (forall y, P y = true -> f y = g y) -> P x = true -> FinalTraversal E m s f x = FinalTraversal E m s g x;
  k_final_other : forall s f x, P x = false -> FinalTraversal E m s f x = f x }.
(** Feature functions with the features of each: no two of them have a feature in common. *)
Definition apart (l : list (ffun * (nat -> bool))) : Prop :=
  (forall m P, In (m, P) l -> keeps_to m P) /\
  forall a m P b m' P' x, l = a ++ (m, P) :: b -> In (m', P') (a ++ b) -> P x = true -> P' x = false.
(** The sum of a feature over the rules. *)
Fixpoint rule_sum (x : nat) (d : dtree E) : R :=
  match d with DT _ _ f kids => fold_left Rplus (map (rule_sum x) kids) (f x) end.
(** The bytes of the model after [before] which count when states are compared. *)
Definition counted (before : list ffun) (m : ffun) (s : list nat) : list nat :=
  firstn (StateSize E m - IgnoredStateSize E m) (skipn (list_sum (map (StateSize E) before)) s).
(** The whole part of that model. *)
Definition part_of (before : list ffun) (m : ffun) (s : list nat) : list nat :=
  firstn (StateSize E m) (skipn (list_sum (map (StateSize E) before)) s).
End S.
