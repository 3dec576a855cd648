(** Model of the samplers of the extractor (extractor/backoff_sampler.cc 15-65,
    matchings_sampler.cc 15-42, suffix_array_sampler.cc 15-43, phrase_location_sampler.cc
    17-32).  Simplification: the doubles step, i, j and k are exact rationals; they are all
    multiples of 1/max_samples and stand here multiplied by max_samples ([stepM], [iM]).
    [stray]: the values read past the end of the array of sentence numbers; if it is not
    given such a read is an error.  [None]: an access outside an array. *)
From Coq Require Import List ZArith Bool.
From Verif Require Import Opt Precomp Intersect.
Import ListNotations.
Open Scope Z_scope.
Open Scope opt_scope.

(** round(a / m): to the nearest integer, halves away from zero *)
Definition round_div (a m : Z) : Z := if 0 <=? a then (2 * a + m) / (2 * m) else - ((- (2 * a) + m) / (2 * m)).

Section Backoff.
Variable stray : option (Z -> Z).
Variable d : darray.
Variable blacklisted : Z -> bool.
Variable max_samples : Z.
(** the virtual functions of BackoffSampler: GetPosition, AppendMatching *)
Variable position : Z -> option Z.
Variable matching : Z -> option (list Z).
Variables low high : Z.
(** 21: max(1.0, (high - low) / max_samples) *)
Definition stepM : Z := Z.max max_samples (high - low).
Definition sentence (p : Z) : option Z := match get (da_id d) p with Some s => Some s | None => option_map (fun f => f p) stray end.
(** GetPosition and GetSentenceId (26-27, 35-36, 46-47) *)
Definition black (sample : Z) : option bool :=
  p <- position sample ;; s <- sentence p ;; Some (blacklisted s).
(** 31-53: the sample found, if any *)
Fixpoint backoff (fuel : nat) (iM last backoff_step : Z) : option (option Z) :=
  if backoff_step * max_samples <? stepM then
    match fuel with
    | O => None
    | S f =>
        let left := round_div (iM - backoff_step * max_samples) max_samples in
        okl <- (if 0 <=? left then b <- black left ;; Some (andb (last <? left) (negb b)) else Some false) ;;
        if okl then Some (Some left)
        else
          let right := round_div (iM + backoff_step * max_samples) max_samples in
          okr <- (if right <? high then b <- black right ;; Some (negb b) else Some false) ;;
          if okr then Some (Some right) else backoff f iM last (backoff_step + 1)
    end
  else Some None.
(** 22-62: the samples; [left]: max_samples - num_samples *)
Fixpoint points (left : nat) (iM last : Z) : option (list Z) :=
  match left with
  | O => Some []
  | S n =>
      if iM <? high * max_samples then
        let sample := round_div iM max_samples in
        b <- black sample ;;
        found <- (if orb (sample <=? last) b then backoff (Z.to_nat stepM) iM last 1 else Some (Some sample)) ;;
        match found with
        | Some s => r <- points n (iM + stepM) s ;; Some (s :: r)
        | None => points n (iM + stepM) last
        end
      else Some []
  end.
Fixpoint append_all (l : list Z) : option (list Z) :=
  match l with [] => Some [] | s :: r => m <- matching s ;; ms <- append_all r ;; Some (m ++ ms) end.
(** 15-65, without the number of subpatterns *)
Definition backoff_sample : option (list Z) :=
  samples <- points (Z.to_nat max_samples) (low * max_samples) (low - 1) ;; append_all samples.
End Backoff.

(** PhraseLocationSampler::Sample with the two samplers *)
Definition Sample (stray : option (Z -> Z)) (d : darray) (sa : list Z) (blacklisted : Z -> bool) (max_samples : Z) (l : location) : option location :=
  match matchings l with
  | None =>
      ms <- backoff_sample stray d blacklisted max_samples (get sa) (fun i => p <- get sa i ;; Some [p]) (sa_low l) (sa_high l) ;;
      Some (match_loc ms 1)
  | Some m =>
      let k := num_subpatterns l in
      if k =? 0 then None
      else
        ms <- backoff_sample stray d blacklisted max_samples (fun i => get m (i * k)) (fun i => slice m (i * k) k) 0 (Z.quot (size m) k) ;;
        Some (match_loc ms k)
  end.
