(** Walks in a lattice, by their number of arcs. *)
From Coq Require Import List ZArith.
Import ListNotations.
Open Scope Z_scope.

Definition arc (lat : list (list Z)) (i j : Z) : Prop :=
  exists k alts d, nth_error lat k = Some alts /\ In d alts /\ i = Z.of_nat k /\ j = i + d.
Inductive walk (lat : list (list Z)) (i : Z) : Z -> Z -> Prop :=
| walk_arc j : arc lat i j -> walk lat i j 1
| walk_step l j m : walk lat i l m -> arc lat l j -> walk lat i j (m + 1).
Definition shortest (lat : list (list Z)) (i j m : Z) : Prop :=
  walk lat i j m /\ forall m', walk lat i j m' -> m <= m'.
(** Every arc leads forward, to a position of the lattice or to its end. *)
Definition forward (lat : list (list Z)) : Prop :=
  forall i j, arc lat i j -> i < j <= Z.of_nat (length lat).
Definition reachable (lat : list (list Z)) (i j : Z) : Prop := exists m, walk lat i j m.
(** [v] is the least number of arcs from i to the first reachable position at or after j *)
Definition distance_of (lat : list (list Z)) (i j v : Z) : Prop :=
  (exists j', j <= j' /\ shortest lat i j' v /\ forall l, j <= l < j' -> ~ reachable lat i l) \/
  ((forall l, j <= l -> ~ reachable lat i l) /\ v = 99999999).
