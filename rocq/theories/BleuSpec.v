(** Specification vocabulary for BLEU. *)
From Coq Require Import List Arith ZArith QArith Qabs Reals Qreals.
From Verif Require Import Stats Bleu.
Import ListNotations.
Open Scope nat_scope.

(** The n-grams of a sentence, one per position. *)
Definition grams (n : nat) (s : list word) : list gram := map (fun j => firstn n (skipn j s)) (seq 0 (length s + 1 - n)).
Definition count (k : gram) (l : list gram) : nat := count_occ (list_eq_dec Z.eq_dec) l k.
(** The largest number of occurrences in one reference. *)
Definition ref_count (n : nat) (refs : list (list word)) (k : gram) : nat := list_max (map (fun r => count k (grams n r)) refs).
(** Each distinct n-gram of the hypothesis counts as often as it occurs, but not
    more often than in a reference. *)
Definition clipped (n : nat) (refs : list (list word)) (hyp : list word) : nat :=
  list_sum (map (fun k => min (count k (grams n hyp)) (ref_count n refs k)) (nodup (list_eq_dec Z.eq_dec) (grams n hyp))).
Definition of_nat (n : nat) : Q := inject_Z (Z.of_nat n).
(** [l] is the length, among [ls], closest to [hl]; the first such. *)
Definition is_closest (ls : list Q) (hl l : Q) : Prop :=
  exists i, nth_error ls i = Some l /\ (forall l', In l' ls -> Qabs (l - hl) <= Qabs (l' - hl))%Q /\
    forall j l', j < i -> nth_error ls j = Some l' -> (Qabs (l - hl) < Qabs (l' - hl))%Q.
(** The reference length reported. *)
Definition reported (bt : btype) (refs : list (list word)) (hyp : list word) (l : Q) : Prop :=
  match bt with
  | IBM | QCRI => is_closest (map len refs) (len hyp) l
  | Koehn => (l * of_nat (length refs) == of_nat (list_sum (map (@length word) refs)))%Q
  | NIST => In l (map len refs) /\ forall r, In r refs -> (l <= len r)%Q
  end.
