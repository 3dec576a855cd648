(** Specification vocabulary for sampling derivations. *)
From Coq Require Import List Arith QArith Qcanon Permutation.
From Verif Require Import HG Deriv HgSample ViterbiProofs.
Import ListNotations.
Open Scope Qc_scope.

(** A random number is in the interval [b]: above its lower end, unless that is 0. *)
Definition hit (u : Qc) (b : Qc * Qc) : Prop := u <= snd b /\ (fst b < u \/ fst b = 0).
(** The next random numbers are in the intervals. *)
Definition drawn (us : list Qc) (box : list (Qc * Qc)) : Prop := exists us1 us2, us = us1 ++ us2 /\ Forall2 hit us1 box.
(** The probability of that, for independent uniform random numbers. *)
Definition volume (box : list (Qc * Qc)) : Qc := fold_right (fun b v => (snd b - fst b) * v) 1 box.
(** Within [0,1], one interval per number. *)
Definition is_box (box : list (Qc * Qc)) : Prop := Forall (fun b => 0 <= fst b /\ fst b < snd b /\ snd b <= 1) box.
(** A derivation which expands a node in the same way wherever it occurs. *)
Definition consistent {P} (g : hg P) (t : tree) : Prop := forall e e' ed ed', In e (tree_edges t) -> In e' (tree_edges t) ->
  nth_error (edges g) e = Some ed -> nth_error (edges g) e' = Some ed' -> head ed = head ed' -> e = e'.
(** What is reported of the derivation [t]. *)
Definition reports {P X T} (weight : edge P -> Qc) (feats : edge P -> X) (dflt : T) traverse (g : hg P) (h : hyp (X := X) (T := T)) (t : tree) : Prop :=
  (exists eds, map Some eds = map (nth_error (edges g)) (tree_edges t) /\ Permutation (h_feats h) (map feats eds)) /\
  h_score h = tree_weight Qcmult (edge_weight 0 weight g) t /\
  (consistent g t -> h_words h = tree_eval g dflt traverse t).
