(** What the aligner computes, said without its code. *)
From Coq Require Import Reals List Arith ZArith.
Import ListNotations.
Local Open Scope R_scope.

Definition Rsum (l : list R) : R := fold_right Rplus 0 l.
Definition Rprod (l : list R) : R := fold_right Rmult 1 l.

(** ** The diagonal: target position i of m, source position j of n *)
Definition offdiag (i j m n : nat) : R := Rabs (INR j / INR n - INR i / INR m).
Definition diag_weight (alpha : R) (i j m n : nat) : R := exp (- alpha * offdiag i j m n).
Definition diag_total (alpha : R) (i m n : nat) : R := Rsum (map (fun j => diag_weight alpha i j m n) (seq 1 n)).
(** The probability of position j, given one does not align to the null word. *)
Definition diag_prob (alpha : R) (i j m n : nat) : R := diag_weight alpha i j m n / diag_total alpha i m n.

(** ** Alignments *)
(** An alignment gives every target word a source position; position 0 is the null word.
    All alignments of [m] target words to positions in [ps]: *)
Fixpoint alignments (ps : list nat) (m : nat) : list (list nat) :=
  match m with O => [[]] | S k => flat_map (fun i => map (cons i) (alignments ps k)) ps end.

Section Model.
(** [pos j i]: the probability that target word number [j] (from 0) aligns to source
    position [i]; [tr e f]: the probability that [e] becomes [f]; [null]: the null word. *)
Variable pos : nat -> nat -> R.
Variable tr : nat -> nat -> R.
Variable null : nat.
Definition word_at (src : list nat) (i : nat) : nat := match i with O => null | S k => nth k src 0%nat end.
(** Probability of the target words [trg], the first being number [j], together with the
    alignment [al]. *)
Fixpoint joint (src : list nat) (j : nat) (trg al : list nat) : R :=
  match trg, al with
  | f :: trg', i :: al' => tr (word_at src i) f * pos j i * joint src (S j) trg' al'
  | _, _ => 1
  end.
End Model.

(** Where target word number [j] (from 0) of [m] goes, if there are [n] source words:
    0 is the null word, which there is only if [null_word]. *)
Definition positions (null_word : bool) (n : nat) : list nat := (if null_word then [0%nat] else []) ++ seq 1 n.
Definition position_prob (null_word diagonal : bool) (p0 alpha : R) (m n j i : nat) : R :=
  if diagonal then match i with O => p0 | _ => (1 - p0) * diag_prob alpha (j + 1) i m n end
  else 1 / INR (length (positions null_word n)).

Section Likelihood.
Variable null_word diagonal : bool.
Variable null : nat.
Variable p0 alpha : R.
Variable tr : nat -> nat -> R.
(** Probability of a pair of sentences with an alignment, and of the pair with whatever
    alignment. *)
Definition aligned_prob (p : list nat * list nat) (al : list nat) : R :=
  joint (position_prob null_word diagonal p0 alpha (length (snd p)) (length (fst p))) tr null (fst p) 0 (snd p) al.
Definition pair_alignments (p : list nat * list nat) : list (list nat) := alignments (positions null_word (length (fst p))) (length (snd p)).
Definition pair_prob (p : list nat * list nat) : R := Rsum (map (aligned_prob p) (pair_alignments p)).
Definition log_likelihood (corpus : list (list nat * list nat)) : R := Rsum (map (fun p => ln (pair_prob p)) corpus).
End Likelihood.

(** The links of an alignment, without those to the null word: (source, target), from 0. *)
Fixpoint links_from (j : nat) (al : list nat) : list (nat * nat) :=
  match al with
  | [] => []
  | O :: al' => links_from (S j) al'
  | S i :: al' => (i, j) :: links_from (S j) al'
  end.

(** ** Inputs for which all this is well defined *)
Definition usable_prior (null_word diagonal : bool) (p0 tension : R) : Prop :=
  diagonal = true -> tension <> 0 /\ p0 < 1 /\ (null_word = true -> 0 < p0).
Definition usable_pair (p : list nat * list nat) : Prop := fst p <> [] /\ snd p <> [] /\ (Z.of_nat (length (fst p)) < 2 ^ 32)%Z.
(** [e] and [f] are in a pair together; the null word is in every source sentence. *)
Definition together (null_word : bool) (null : nat) (corpus : list (list nat * list nat)) (e f : nat) : Prop :=
  exists p, In p corpus /\ In f (snd p) /\ (In e (fst p) \/ (null_word = true /\ e = null)).
