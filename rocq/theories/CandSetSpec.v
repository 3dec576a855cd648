(** What the repository keeps. *)
From Coq Require Import List Arith NArith.
From Verif Require Import CandSet.
Import ListNotations.

(** A nonempty text without separators. *)
Definition is_word (w : text) : Prop := w <> [] /\ forall c, In c w -> c <> 32 /\ c <> 9.

(** Candidates which can be stored: proper words, at least one feature, no space in the names. *)
Definition storable (V F : Type) (c : candidate V F) : Prop :=
  Forall is_word (ewords V F c) /\ fmap V F c <> [] /\ (forall p, In p (fmap V F c) -> ~ In SPACE (fst p)) /\ is_word (id_ F (eval_feats V F c)).

(** The candidate with its numbers as they are after printing and reading. *)
Definition rounded (V F : Type) (rnd : V -> V) (rnd_f : F -> F) (c : candidate V F) : candidate V F :=
  Candidate V F (ewords V F c) (map (fun p => (fst p, rnd (snd p))) (fmap V F c)) (Stats F (id_ F (eval_feats V F c)) (map rnd_f (fields F (eval_feats V F c)))).

(** The same words, and the same features with the same rounded values. *)
Definition approx (a b : cand) : Prop :=
  words a = words b /\ map (fun p => (fst p, round (snd p))) (feats a) = map (fun p => (fst p, round (snd p))) (feats b).
