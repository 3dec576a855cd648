(** What the sentence-level scores of dtrain are meant to be. *)
From Coq Require Import Reals List Arith.
Import ListNotations.
Local Open Scope R_scope.

(** The n-grams of a sentence, one for each place. *)
Definition windows (n : nat) (s : list nat) : list (list nat) :=
  map (fun i => firstn n (skipn i s)) (seq 0 (length s + 1 - n)).

(** Matches of order n: each n-gram of the hypothesis counts at most as often as the
    reference has it. *)
Definition occ (n : nat) (s : list nat) (g : list nat) : nat := count_occ (list_eq_dec Nat.eq_dec) (windows n s) g.
Definition matches (n : nat) (hyp ref : list nat) : nat :=
  list_sum (map (fun g => Nat.min (occ n hyp g) (occ n ref g)) (nodup (list_eq_dec Nat.eq_dec) (windows n hyp))).

(** Precision of order n (0 if the hypothesis has no such n-gram). *)
Definition precision (n : nat) (hyp ref : list nat) : R := INR (matches n hyp ref) / INR (length hyp + 1 - n).

(** Penalty for hypotheses shorter than the reference. *)
Definition bp (hyp_len ref_len : nat) : R := if (ref_len <? hyp_len)%nat then 1 else exp (1 - INR ref_len / INR hyp_len).

Definition product (l : list R) : R := fold_right Rmult 1 l.
