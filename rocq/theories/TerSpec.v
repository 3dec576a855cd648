(** Translation edits: block moves, and word insertions, deletions, substitutions. *)
From Coq Require Import List ZArith.
From Verif Require Import LevenSpec.
Import ListNotations.

(** Two adjacent blocks change places: a block of words moves elsewhere. *)
Definition block_move (u v : list Z) : Prop :=
  exists p q r s, u = p ++ q ++ r ++ s /\ v = p ++ r ++ q ++ s.
Inductive block_moves : nat -> list Z -> list Z -> Prop :=
| bm_none u : block_moves 0 u u
| bm_more n u v w : block_move u v -> block_moves n v w -> block_moves (S n) u w.

(** An alignment of hypothesis and reference with that many substituted words,
    words only in the hypothesis (insertions), words only in the reference (deletions). *)
Inductive aligned : nat -> nat -> nat -> list Z -> list Z -> Prop :=
| ag_nil : aligned 0 0 0 [] []
| ag_match s i d x u v : aligned s i d u v -> aligned s i d (x :: u) (x :: v)
| ag_sub s i d x y u v : x <> y -> aligned s i d u v -> aligned (S s) i d (x :: u) (y :: v)
| ag_ins s i d x u v : aligned s i d u v -> aligned s (S i) d (x :: u) v
| ag_del s i d y u v : aligned s i d u v -> aligned s i (S d) u (y :: v).

(** What the reported numbers mean: [shifts] block moves turn the hypothesis into some
    [mid], an alignment of [mid] with the reference has those counts, and it is one
    with fewest errors. *)
Definition ter_meaning (hyp ref : list Z) (subs ins dels shifts : nat) : Prop :=
  exists mid, block_moves shifts hyp mid /\ aligned subs ins dels mid ref /\ is_distance mid ref (subs + ins + dels).

(** What a computation given [n] rounds returns, once the loop has had rounds enough: for every
    larger number it is the same. *)
Definition result_of {A : Type} (f : nat -> option A) (a : A) : Prop := exists n0, forall n, n0 <= n -> f n = Some a.
