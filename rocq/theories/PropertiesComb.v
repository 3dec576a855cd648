(** C93: combinations of metrics. *)
From Coq Require Import Reals List Lra.
From Verif Require Import Comb CombSpec CombProofs.
Import ListNotations.
Local Open Scope R_scope.

(** C93. The statistics of a combined metric can be added up over the segments of a corpus: the
    score of the sum is the weighted sum of the corpus scores of the metrics combined. *)
Theorem C93_score : forall (H : Type) (ms : list (metric H)) hs, (forall m h, In m ms -> length (evaluate H m h) = size H m) -> hs <> [] ->
  exists sts, Forall2 (fun h s => Evaluate H ms h = Some s) hs sts /\
    ComputeScore H ms (fold_left plus_equals sts []) =
    weighted (map (coeff H) ms) (map (fun m => compute H m (fold_left plus_equals (map (evaluate H m) hs) [])) ms).
Proof. exact comb_score. Qed.
Print Assumptions C93_score.

(** C93. Adding statistics adds every field, also for different numbers of fields. *)
Theorem C93_plus : forall a b k, nth k (plus_equals a b) 0 = nth k a 0 + nth k b 0.
Proof. exact plus_field. Qed.
Print Assumptions C93_plus.

(** C93. A combined score written as a string is read back as its two parts. *)
Theorem C93_codec : forall bs ts, (length bs < 128)%nat -> Decode2 (Encode2 bs ts) = Some (bs, ts).
Proof. exact codec. Qed.
Print Assumptions C93_codec.

(** Finding: the length of the first part is one signed char (comb_scorer.cc:57, 92): for 128
    characters or more the reader throws. *)
Theorem C93_codec_refuted : forall bs ts, (128 <= length bs < 255)%nat -> Decode2 (Encode2 bs ts) = None.
Proof. exact codec_refuted. Qed.
Print Assumptions C93_codec_refuted.

(** Errors by length (weight -1/2) and a count (weight 1/2), hypotheses with 1 and 2 errors of 4
    and 5. *)
Definition ex_ms : list (metric nat) :=
  [Metric nat (- / 2) 2 (fun h => [INR h; INR h + 3]) (fun s => field s 0 / field s 1); Metric nat (/ 2) 1 (fun h => [1]) (fun s => field s 0)].
Example C93_ex : (forall m h, In m ex_ms -> length (evaluate nat m h) = size nat m) /\ Evaluate nat ex_ms 2%nat = Some [2; 2 + 3; 1] /\
  ComputeScore nat ex_ms [3; 9; 2] = 5 / 6.
Proof.
  split; [intros m h [<- |[<- |[]]]; reflexivity|]. split.
  - unfold Evaluate. cbn. f_equal.
  - unfold ComputeScore, ex_ms, total_size. cbn [fold_left size offsets Nat.add score_from coeff compute Nat.sub seq map field nth]. lra.
Qed.
Print Assumptions C93_ex.
