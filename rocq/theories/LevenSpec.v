(** Edit distance, independently of any algorithm: the least number of single-symbol
    insertions, deletions and replacements that turn one string into the other. *)
From Coq Require Import List ZArith.
Import ListNotations.

Inductive one_edit : list Z -> list Z -> Prop :=
| oe_insert u v x : one_edit (u ++ v) (u ++ x :: v)
| oe_delete u v x : one_edit (u ++ x :: v) (u ++ v)
| oe_replace u v x y : one_edit (u ++ x :: v) (u ++ y :: v).

Inductive edits : nat -> list Z -> list Z -> Prop :=
| ed_none u : edits 0 u u
| ed_more n u v w : one_edit u v -> edits n v w -> edits (S n) u w.

Definition is_distance (u v : list Z) (d : nat) : Prop :=
  edits d u v /\ forall n, edits n u v -> d <= n.

(** Statistics of a hypothesis: its distance to a nearest reference, the first such
    one, and the length of that reference. *)
Definition nearest (hyp : list Z) (refs : list (list Z)) (d len : nat) : Prop :=
  exists before r after,
    refs = before ++ r :: after /\ len = length r /\ is_distance hyp r d /\
    (forall r' d', In r' before -> is_distance hyp r' d' -> d < d') /\
    (forall r' d', In r' after -> is_distance hyp r' d' -> d <= d').
