(** Sentences of a corpus by number. *)
From Coq Require Import List ZArith Sorted.
From Verif Require Import Opt PrecompSpec Intersect IntersectSpec.
Import ListNotations.
Open Scope Z_scope.
(** Position p of the text is in sentence number k, its end marker included. *)
Definition sentence_of (lines : list (list Z)) (p : Z) (k : nat) : Prop :=
  size (text (firstn k lines)) <= p < size (text (firstn (S k) lines)).
(** The occurrence does not start in a blacklisted sentence. *)
Definition allowed (lines : list (list Z)) (blacklisted : Z -> bool) (occ : list Z) : Prop :=
  forall k, sentence_of lines (hd 0 occ) k -> blacklisted (Z.of_nat k) = false.
(** The location stands for the occurrences with the numbers in [idx]: in order, none twice,
    none blacklisted, at most M. *)
Definition sample_result (lines : list (list Z)) (sa : list Z) (blacklisted : Z -> bool) (M : Z) (occs : list (list Z)) (r : location) (idx : list nat) : Prop :=
  denotes sa r (map (fun n => nth n occs []) idx) /\ StronglySorted lt idx /\
  Forall (fun n => (n < length occs)%nat /\ allowed lines blacklisted (nth n occs [])) idx /\ Z.of_nat (length idx) <= M.
