(** What is to be shown of weights files and of the escaping of names. *)
From Coq Require Import List Arith Bool.
Import ListNotations.

Section Spec.
Variable V : Type.
Variable zero : V.

(** v is the weight of the feature called name: the names are numbered from 1, features
    without an entry weigh nothing. *)
Definition weighs (d : list (list nat)) (w : list V) (name : list nat) (v : V) : Prop :=
  (exists i, nth_error d i = Some name /\ v = nth (S i) w zero) \/ (~ In name d /\ v = zero).
End Spec.

(** A name which a weights file can hold: not empty, no space, tab, '=', newline, and not
    beginning with '#'. *)
Definition clean (s : list nat) : Prop :=
  s <> [] /\ (forall c, In c s -> c <> 32 /\ c <> 9 /\ c <> 61 /\ c <> 10) /\ (forall t, s <> 35 :: t).

(** What escaping cannot tell apart: a space and '+'. *)
Definition blur (c : nat) : nat := if Nat.eq_dec c 43 then 32 else c.

(** A file the reader accepts as text: at least five characters, and not "_PHWf". *)
Definition readable (file : list nat) : Prop := 5 <= length file /\ firstn 5 file <> [95; 80; 72; 87; 102].
