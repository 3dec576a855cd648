(** C85: k-best MIRA. *)
From Coq Require Import Reals List Arith Lra Lia.
From Verif Require Import Mira MiraSpec MiraProofs.
Import ListNotations.
Local Open Scope R_scope.

(** C85. An iteration inside a pass compares the best hypothesis seen so far for its
    sentence with the worst one of its list. If the decoder's choice is as good as the
    best, the weights stay; otherwise they become the one minimum of the change plus C
    times the failure to keep the margin. *)
Theorem C85_step : forall C scale invert corpus n s id l s', 0 <= C -> length (lambdas s) = n ->
  (forall h, In h l -> length (fst h) = n) -> (forall g, goods s id = Some g -> length (fst g) = n) ->
  cur_sent s <> corpus -> iterate C scale invert corpus s (id, l) = Some s' ->
  exists best good bad,
    hd_error (signed_list invert l) = Some best /\
    goods s' id = Some good /\
    (In good (signed_list invert l) \/ goods s id = Some good) /\
    (forall h, In h (signed_list invert l) \/ goods s id = Some h -> snd h <= snd good) /\
    In bad (signed_list invert l) /\ (forall h, In h (signed_list invert l) -> snd bad <= snd h) /\
    (ApproxEqual (snd best) (snd good) = true -> lambdas s' = lambdas s) /\
    (ApproxEqual (snd best) (snd good) = false ->
     let f := objective C (scale * (snd good - snd bad)) (lambdas s) (fst good) (fst bad) in
     length (lambdas s') = n /\ forall v, length v = n -> f (lambdas s') + dist2 v (lambdas s') / 2 <= f v).
Proof. exact iteration_ok. Qed.
Print Assumptions C85_step.

(** C85. A step keeps the margin, unless it is the largest allowed. *)
Theorem C85_margin : forall n C scale w best good bad, 0 <= C -> length w = n -> length (fst good) = n -> length (fst bad) = n ->
  ApproxEqual (snd best) (snd good) = false ->
  let w' := update C scale w w best good bad in
  scale * (snd good - snd bad) <= inner (fst good) w' - inner (fst bad) w' \/
  forall k, nth k w' 0 = nth k w 0 + C * (nth k (fst good) 0 - nth k (fst bad) 0).
Proof. exact margin_ok. Qed.
Print Assumptions C85_margin.

(** C85. The averaged weights are the average of the initial weights and the weights after
    each iteration. *)
Theorem C85_average : forall C scale invert corpus n w es s', length w = n ->
  (forall id l h, In (id, l) es -> In h l -> length (fst h) = n) ->
  run C scale invert corpus (start w) es = Some s' ->
  exists ws, trace C scale invert corpus (start w) es = Some ws /\ length ws = length es /\
    forall k, nth k (final_avg s') 0 = mean (w :: ws) k.
Proof. exact average. Qed.
Print Assumptions C85_average.

(** Finding: the file of the final weights does not hold them. The loop runs one iteration
    more than asked for (lcount <= max_iteration), which begins another pass, and the
    average written to dense_weights at that moment (kbest_mira.cc:267) is what line 314
    writes as weights.mira-final.gz. *)
Theorem C85_final_refuted : forall C scale invert corpus passes w es e s', (0 < corpus)%nat -> (0 < passes)%nat ->
  length (es ++ [e]) = iterations passes corpus ->
  run C scale invert corpus (start w) (es ++ [e]) = Some s' ->
  exists s, run C scale invert corpus (start w) es = Some s /\ final s' = final_avg s.
Proof. exact final_is_average. Qed.
Print Assumptions C85_final_refuted.

(** Finding: for the same reason the first sentence of every pass but the first is decoded
    with the averaged weights, and its loss computed with them, while the step changes
    the current ones. Here the weights already keep the margin and are changed. *)
Theorem C85_pass_start_refuted : exists s1 s2,
  run 10 1 false 1 (start [0]) [(0%nat, [([0], 0); ([1], 1)])] = Some s1 /\
  iterate 10 1 false 1 s1 (0%nat, [([0], 0); ([1], 1)]) = Some s2 /\
  objective 10 1 (lambdas s1) [1] [0] (lambdas s1) < objective 10 1 (lambdas s1) [1] [0] (lambdas s2).
Proof. exact pass_start. Qed.
Print Assumptions C85_pass_start_refuted.

(** Finding: with samples instead of a k-best list and an error metric the score of the
    decoder's choice keeps its sign (kbest_mira.cc:130) and is compared with a score of
    the other sign: it is never as good as the best, even if it is the best itself. *)
Theorem C85_samples_refuted : forall (f : list R) m, 0 < m ->
  let r := update_samples true (f, m) [(f, m)] None in
  match fst r, fst (snd r) with
  | Some best, Some good => fst best = fst good /\ ApproxEqual (snd best) (snd good) = false
  | _, _ => False
  end.
Proof. exact sample_sign. Qed.
Print Assumptions C85_samples_refuted.

(** One iteration: the margin of 1 is reached with the smallest change. *)
Example C85_ex : exists s1, iterate 10 1 false 1 (start [0]) (0%nat, [([0], 0); ([1], 1)]) = Some s1 /\ lambdas s1 = [1] /\ cur_sent (start [0]) <> 1%nat.
Proof. destruct ex_first as (s1 & E & L & _). exists s1. split; [exact E|]. split; [exact L|]. discriminate. Qed.
Print Assumptions C85_ex.
