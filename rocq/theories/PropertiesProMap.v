(** C87: the training pairs sampled for PRO. *)
From Coq Require Import Reals List Arith Lra Lia Sorting.
From Verif Require Import Mira ProMap ProMapSpec ProMapProofs.
Import ListNotations.
Local Open Scope R_scope.

(** C87. Every line written for a sentence is right, whatever was drawn: its features are the
    difference of two different candidates with different scores, and its label is 1
    exactly if the first one is better under the metric, be it an error metric or not. *)
Theorem C87_lines : forall J error d n gamma xi draws u out, (forall a c, J a = Some c -> length (fmap c) = d) ->
  Sample J error n gamma xi draws u out ->
  forall label v, In (label, v) (written out) -> exists a b, says (features_of J) (score_of J) error a b label v.
Proof. exact written_says. Qed.
Print Assumptions C87_lines.

(** C87. At most xi pairs, and no more than gamma, in falling order of the difference of their
    scores; the features of no pair are all equal, and the lengths of the two candidates
    differ by at most two deviations. *)
Theorem C87_pairs : forall J error n gamma xi draws u out, Sample J error n gamma xi draws u out ->
  (length out <= xi)%nat /\ (length out <= gamma)%nat /\ StronglySorted (fun a b => gdiff b <= gdiff a) out /\
  exists sd, 2 <= sd /\ Forall (inst_ok J error sd) out.
Proof. exact sample_ok. Qed.
Print Assumptions C87_pairs.

(** C87. Which of the pairs drawn are written: those whose random number is below the
    probability that grows with the difference of the scores; of these, if there are more
    than xi, the ones with the largest differences. *)
Theorem C87_kept : forall J error n gamma xi draws u out, Sample J error n gamma xi draws u out ->
  exists drawn avg sd, Forall (inst_ok J error sd) drawn /\
    (forall i, In i out -> exists k, nth_error drawn k = Some i /\ u k < 1 / (1 + exp (- avg - gdiff i))) /\
    (forall k i, nth_error drawn k = Some i -> u k < 1 / (1 + exp (- avg - gdiff i)) ->
      In i out \/ (length out = xi /\ forall j, In j out -> gdiff i <= gdiff j)).
Proof. exact sample_kept. Qed.
Print Assumptions C87_kept.

(** C87. The limit on the difference of lengths never rejects all pairs: the loop can go on. *)
Theorem C87_progress : forall J n draws sd draws', (0 < n)%nat -> LengthDifferenceStdDev J n draws = Some (sd, draws') ->
  exists a b ca cb, a <> b /\ J a = Some ca /\ J b = Some cb /\ z_score sd ca cb <= z_score_threshold.
Proof. exact progress. Qed.
Print Assumptions C87_progress.

(** Finding: for a sentence with one candidate only (mr_pro_map.cc:94-96, 115-117) every draw
    gives the same candidate twice and the loop draws again: no number of draws is
    enough, the mapper never ends. *)
Theorem C87_single_refuted : forall J error n gamma xi draws u out, (0 < n)%nat ->
  Forall (fun p => (fst p <= 1 - 1)%nat /\ (snd p <= 1 - 1)%nat) draws -> ~ Sample J error n gamma xi draws u out.
Proof. exact single_refuted. Qed.
Print Assumptions C87_single_refuted.

(** A pair under an error metric: the first candidate has more errors. *)
Example C87_ex : exists out, Sample exJ true 1 1 10 [(0, 0); (0, 1); (1, 1); (0, 1)]%nat (fun _ => 0) out /\
  written out = [(false, [1 - 0; 0 - 1]); (true, [-1 * (1 - 0); -1 * (0 - 1)])].
Proof. exact ex_sample. Qed.
Print Assumptions C87_ex.
