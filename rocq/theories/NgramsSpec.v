(** What n-gram features are expected to count. *)
From Coq Require Import List ZArith Bool.
Import ListNotations.
Open Scope Z_scope.

(** The stretches of at most [n] words that end where the text ends. *)
Definition ending (n : nat) (l : list Z) : list (list Z) :=
  map (fun k => skipn (length l - k) l) (seq 1 (min n (length l))).

(** The stretches of at most [n] words of [pre ++ l] that end inside [l]. *)
Definition windows (n : nat) (pre l : list Z) : list (list Z) :=
  flat_map (fun i => ending n (pre ++ firstn i l)) (seq 1 (length l)).

(** How many of them have the name [f]. *)
Definition count_named (name : list Z -> Z) (f : Z) (gs : list (list Z)) : Z :=
  Z.of_nat (length (filter (fun g => name g =? f) gs)).

(** How many of them are [g]. *)
Definition count_gram (g : list Z) (gs : list (list Z)) : Z :=
  Z.of_nat (count_occ (list_eq_dec Z.eq_dec) gs g).
