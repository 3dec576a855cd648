(** decoder/hg_sampler.cc and utils/sampler.h: sampling derivations from a forest.
    Weights are exact rationals (prob_t in the program), random numbers are given as a list of rationals,
    what U(0,1) returns one after the other.  The feature vector of a sample is the list of
    the vectors it is the sum of.  sampled_edges as weights 0 and 1 (18) are natural numbers.
    [None]: an access out of bounds, a failed assertion, no random numbers left, or the
    bound [fuel] on the number of steps reached. *)
From Coq Require Import List Arith QArith Qcanon.
From Verif Require Import Opt HG Deriv Inside Viterbi.
Import ListNotations.
Open Scope opt_scope.
Open Scope Qc_scope.

Definition qltb (a b : Qc) : bool := if Qclt_le_dec a b then true else false.
(** sampler.h 154-163, from position [pos + 1] on *)
Fixpoint scan (rest : list Qc) (sum random : Qc) (pos : nat) : nat :=
  match rest with
  | [] => pos
  | s :: r => if qltb sum random then scan r (sum + s) random (S pos) else pos
  end.
(** sampler.h 128-169 without annealing, for two scores or more *)
Definition SelectSample (scores : list Qc) (u : Qc) : option nat :=
  match scores with
  | [] => None
  | x :: r => Some (scan r x (u * fold_left Qcplus scores 0) 0)
  end.

Section S.
Context {P X T : Type}.
Variable weight : edge P -> Qc.
Variable feats : edge P -> X.
Variable dflt : T.
Variable traverse : edge P -> list T -> T -> T.
Variable g : hg P.

(** 53-60 *)
Fixpoint scores (sc : list Qc) (es : list nat) : option (list Qc) :=
  match es with
  | [] => Some []
  | e :: r =>
      ed <- nth_error (edges g) e ;;
      p <- mul_tails Qcmult sc (tails ed) (weight ed) ;;
      ps <- scores sc r ;; Some (p :: ps)
  end.
(** 42-71: queue, random numbers, sampled_edges, features, model score *)
Fixpoint pop (sc : list Qc) (fuel : nat) (q : list nat) (us : list Qc) (sampled : list bool) (fs : list X) (score : Qc) : option (list bool * list X * Qc * list Qc) :=
  match q with
  | [] => Some (sampled, fs, score, us)
  | n :: r =>
      match fuel with
      | O => None
      | S f =>
          nd <- nth_error (nodes g) n ;;
          ' (e, us') <- match in_edges nd with
                        | [] => None
                        | [e] => Some (e, us)
                        | es => ps <- scores sc es ;;
                                match us with
                                | [] => None
                                | u :: us' => k <- SelectSample ps u ;; e <- nth_error es k ;; Some (e, us')
                                end
                        end ;;
          ed <- nth_error (edges g) e ;;
          sampled' <- upd sampled e (fun _ => true) ;;
          pop sc f (r ++ tails ed) us' sampled' (fs ++ [feats ed]) (score * weight ed)
      end
  end.
Record hyp := { h_feats : list X; h_score : Qc; h_words : T }.
(** 11-18 *)
Definition sampled_weight (sampled : list bool) (ed : edge P) : nat := if nth (eid ed) sampled false then 1%nat else 0%nat.
(** 33-72 *)
Definition sample_one (sc : list Qc) (fuel : nat) (us : list Qc) : option (hyp * list Qc) :=
  ' (sampled, fs, score, us') <- pop sc fuel [length (nodes g) - 1]%nat us (repeat false (length (edges g))) [] 1 ;;
  ' (_, r) <- Viterbi 0%nat 1%nat Nat.mul Nat.ltb (sampled_weight sampled) dflt traverse g ;;
  w <- r ;;
  Some ({| h_feats := fs; h_score := score; h_words := w |}, us').
Fixpoint sample_all (sc : list Qc) (fuel n : nat) (us : list Qc) : option (list hyp * list Qc) :=
  match n with
  | O => Some ([], us)
  | S m => ' (h, us1) <- sample_one sc fuel us ;; ' (hs, us2) <- sample_all sc fuel m us1 ;; Some (h :: hs, us2)
  end.
(** 20-73 *)
Definition sample_hypotheses (fuel n : nat) (us : list Qc) : option (list hyp * list Qc) :=
  sc <- Inside 0 Qcplus Qcmult weight g ;; sample_all sc fuel n us.
End S.
