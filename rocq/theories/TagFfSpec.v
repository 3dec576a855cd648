(** Specification vocabulary for the features of tag sequences. *)
From Coq Require Import String Ascii List ZArith.
Import ListNotations.
Local Open Scope Z_scope.

(** The pairs of neighbours. *)
Fixpoint neighbours {A} (l : list A) : list (A * A) :=
  match l with x :: ((y :: _) as r) => (x, y) :: neighbours r | _ => [] end.
(** A text which may be part of a name. *)
Fixpoint plain_text (s : string) : Prop :=
  match s with EmptyString => True | String c s' => c <> "_"%char /\ c <> "="%char /\ c <> ";"%char /\ plain_text s' end.
(** Tags which can be told apart in names. *)
Definition readable (text : Z -> string) (tagset : list Z) : Prop :=
  (forall a, In a tagset -> plain_text (text a) /\ text a <> "BOS"%string /\ text a <> "EOS"%string) /\
  (forall a b, In a tagset -> In b tagset -> text a = text b -> a = b).
(** How often [p] is in a list. *)
Definition pair_dec : forall p q : Z * Z, {p = q} + {p <> q}.
Proof. decide equality; apply Z.eq_dec. Defined.
Definition times_in (p : Z * Z) (l : list (Z * Z)) : Z := Z.of_nat (count_occ pair_dec l p).
Definition times_named (x : string) (l : list string) : Z := Z.of_nat (count_occ string_dec l x).
(** No character with a meaning in files of weights and of features. *)
Definition safe_name (s : string) : Prop := forall i c, String.get i s = Some c -> c <> "="%char /\ c <> ";"%char.
