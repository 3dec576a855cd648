(** Occurrences of phrases in a corpus whose sentences end with the symbol 1. *)
From Coq Require Import List ZArith.
From Verif Require Import SuffixSpec.
Import ListNotations.
Open Scope Z_scope.

(** The phrase w occurs at exactly n positions. *)
Definition occurs (data w : list Z) (n : Z) : Prop :=
  exists ps, NoDup ps /\ Z.of_nat (length ps) = n /\ forall p, In p ps <-> 0 <= p <= Z.of_nat (length data) /\ starts w (suffix data p).
(** Some suffix that comes after those starting with w does not start with w. *)
Definition not_last (data w : list Z) : Prop :=
  exists p, 0 <= p <= Z.of_nat (length data) /\ ~ starts w (suffix data p) /\ lex w (suffix data p).
(** Every non-empty prefix of w is in F. *)
Definition prefixes_in (F : list (list Z)) (w : list Z) : Prop :=
  forall v, v <> [] -> starts v w -> In v F.
Definition at_pos (data w : list Z) (p : Z) : Prop := 0 <= p /\ starts w (suffix data p).
Definition same_sentence (data : list Z) (p q : Z) : Prop :=
  forall k, p <= k < q -> nth_error data (Z.to_nat k) <> Some 1.
(** The corpus of a list of sentences. *)
Definition text (sents : list (list Z)) : list Z := flat_map (fun s => s ++ [1]) sents.
(** w is one of the first n patterns of F. *)
Definition among_first (F : list (list Z)) (n : Z) (w : list Z) : Prop :=
  exists k, nth_error F k = Some w /\ Z.of_nat k < n.
