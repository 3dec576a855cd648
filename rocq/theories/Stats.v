(** Model of class SufficientStats, mteval/ns.h 14-79.  A float is a rational:
    rounding is not modelled.  Characters of the id are opaque. *)
From Coq Require Import List Arith QArith Bool.
Import ListNotations.
Open Scope Q_scope.

Record stats := { sid : list nat; fields : list Q }.
(** 16 *)
Definition no_stats : stats := {| sid := []; fields := [] |}.
(** 22, 30 *)
Definition pick_id (a b : list nat) : list nat := match a with [] => b | _ => a end.
(** 23-26, 31-34: resize to the longer, then combine the fields of delta *)
Fixpoint combine_fields (op : Q -> Q -> Q) (a b : list Q) : list Q :=
  match b with
  | [] => a
  | y :: b' => match a with [] => op 0 y :: combine_fields op [] b' | x :: a' => op x y :: combine_fields op a' b' end
  end.
(** 21-28, 71-74 *)
Definition ss_plus (a d : stats) : stats := {| sid := pick_id (sid a) (sid d); fields := combine_fields Qplus (fields a) (fields d) |}.
(** 29-36, 76-79 *)
Definition ss_minus (a d : stats) : stats := {| sid := pick_id (sid a) (sid d); fields := combine_fields Qminus (fields a) (fields d) |}.
(** 37-41, 42-46 *)
Definition ss_mul (a : stats) (c : Q) : stats := {| sid := sid a; fields := map (fun x => x * c) (fields a) |}.
Definition ss_div (a : stats) (c : Q) : stats := {| sid := sid a; fields := map (fun x => x / c) (fields a) |}.
(** 50-54 *)
Definition ss_zero (a : stats) : bool := forallb (fun x => Qeq_bool x 0) (fields a).
(** 56-59 *)
Definition ss_at (a : stats) (i : nat) : Q := nth i (fields a) 0.
(** 47-49: vectors of floats compared elementwise *)
Fixpoint fields_eq (a b : list Q) : bool :=
  match a, b with [], [] => true | x :: a', y :: b' => Qeq_bool x y && fields_eq a' b' | _, _ => false end.
Definition ss_eq (a b : stats) : bool := fields_eq (fields b) (fields a).
