(** What the pairs sampled by dtrain are meant to be. *)
From Coq Require Import QArith.

(** A pair to learn from: the first hypothesis is better by at least the threshold and,
    if only misranked pairs are asked for, not preferred by the model. *)
Definition wanted {H} (score model : H -> Q) (threshold : Q) (misranked_only : bool) (x y : H) : Prop :=
  (score y < score x)%Q /\ (threshold <= score x - score y)%Q /\ (misranked_only = true -> (model x <= model y)%Q).
