(** Specification vocabulary for the alignment error rate. *)
From Coq Require Import List Arith ZArith QArith.
From Verif Require Import Align AlignProofs.
Import ListNotations.
Local Open Scope nat_scope.

Definition point_dec (p q : nat * nat) : {p = q} + {p <> q}.
Proof. decide equality; apply Nat.eq_dec. Defined.
(** The number of different links, and of the links of both alignments. *)
Definition links (a : list (nat * nat)) : nat := length (nodup point_dec a).
Definition common (a b : list (nat * nat)) : nat := length (nodup point_dec (filter (fun p => if in_dec point_dec p b then true else false) a)).
(** 1 minus twice the common links over all links; 1 if there are none. *)
Definition error_rate (m p r : nat) : Q :=
  if p + r =? 0 then 1%Q else (1 - 2 * inject_Z (Z.of_nat m) / inject_Z (Z.of_nat (p + r)))%Q.
(** [t] is the text of the alignment [a], whose grid fits the machine. *)
Definition written (W IM : nat) (a : list (nat * nat)) (t : list nat) : Prop :=
  points_text a t /\ rows_of a < IM /\ cols_of a < IM /\ rows_of a * cols_of a < W.
