(** Specification vocabulary for sampling from a distribution with two uniform random numbers. *)
From Coq Require Import List QArith.
Import ListNotations.
Open Scope Q_scope.

(** A rectangle of the unit square. *)
Record box := { x0 : Q; x1 : Q; y0 : Q; y1 : Q }.
Definition in_square (b : box) : Prop := 0 <= x0 b /\ x0 b <= x1 b /\ x1 b <= 1 /\ 0 <= y0 b /\ y0 b <= y1 b /\ y1 b <= 1.
Definition inside (u v : Q) (b : box) : Prop := x0 b <= u /\ u < x1 b /\ y0 b < v /\ v <= y1 b.
Definition area (b : box) : Q := (x1 b - x0 b) * (y1 b - y0 b).
Definition disjoint (b c : box) : Prop := forall u v, inside u v b -> inside u v c -> False.
Definition total (l : list Q) : Q := fold_right Qplus 0 l.
(** [S] is a finite union of disjoint rectangles of total area [a]: the
    probability of [S] for two independent uniform random numbers. *)
Definition has_probability (S : Q -> Q -> Prop) (a : Q) : Prop :=
  exists bs, Forall in_square bs /\ ForallOrdPairs disjoint bs /\ total (map area bs) == a /\
    forall u v, 0 <= u -> u < 1 -> 0 < v -> v <= 1 -> (S u v <-> Exists (inside u v) bs).
Definition distribution (p : list Q) : Prop := Forall (fun x => 0 <= x) p /\ total p == 1.
