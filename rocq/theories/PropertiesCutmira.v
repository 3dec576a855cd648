(** C86: the optimisation of cutting-plane and passive-aggressive MIRA. *)
From Coq Require Import Reals List Arith Lra Lia.
From Verif Require Import Mira MiraSpec Cutmira CutmiraSpec CutmiraProofs.
Import ListNotations.
Local Open Scope R_scope.

(** C86. One step for a pair of constraints: the multipliers stay nonnegative with sum 1,
    the weights stay those of the multipliers, and no other step allowed for this pair
    gives a larger dual objective. *)
Theorem C86_step : forall n C k w0 o f l, 0 < C -> length w0 = n -> length o = n -> (forall i, (i < k)%nat -> length (f i) = n) ->
  forall cs, length cs = k ->
  (forall i c, nth_error cs i = Some c -> features c = f i /\ oracle_loss c = l i /\ oracleN c = Some o) ->
  forall alpha w p q, (p < k)%nat -> (q < k)%nat -> p <> q -> simplex k alpha -> weights_of C k w0 o f alpha w ->
  exists delta w', smo_step C cs (alpha, w) p q = Some (delta, (move alpha p q delta, w')) /\
    simplex k (move alpha p q delta) /\ weights_of C k w0 o f (move alpha p q delta) w' /\
    - alpha p <= delta <= alpha q /\
    lagrangian C k w0 o f l alpha w <= lagrangian C k w0 o f l (move alpha p q delta) w' /\
    (f p <> f q -> forall t w'', - alpha p <= t <= alpha q -> weights_of C k w0 o f (move alpha p q t) w'' ->
       lagrangian C k w0 o f l (move alpha p q t) w'' <= lagrangian C k w0 o f l (move alpha p q delta) w').
Proof. exact step_ok. Qed.
Print Assumptions C86_step.

(** C86. A round, with or without the selection heuristic and whatever the stored
    violations: never a null pointer, the same invariants, and a dual objective at least
    that of the beginning. *)
Theorem C86_round : forall n C w o cs ns fear, 0 < C -> length w = n -> length o = n -> (2 <= length cs)%nat ->
  (forall c, In c cs -> length (features c) = n /\ oracleN c = Some o) -> option_map features (nth_error cs 0) = Some o ->
  let f i := match nth_error cs i with Some c => features c | None => [] end in
  let l i := match nth_error cs i with Some c => oracle_loss c | None => 0 end in
  exists alpha w', round ns C cs fear w = Some (alpha, w') /\ simplex (length cs) alpha /\ weights_of C (length cs) w o f alpha w' /\
    lagrangian C (length cs) w o f l alpha0 w <= lagrangian C (length cs) w o f l alpha w'.
Proof. exact round_ok. Qed.
Print Assumptions C86_round.

(** C86. The dual objective is a lower bound of the objective of all weights. *)
Theorem C86_bound : forall n C k w0 o f l, 0 < C -> length w0 = n -> length o = n -> (forall i, (i < k)%nat -> length (f i) = n) ->
  forall alpha w v, (0 < k)%nat -> simplex k alpha -> weights_of C k w0 o f alpha w -> length v = n ->
  lagrangian C k w0 o f l alpha w + dist2 v w / 2 <= primal C k w0 o f l v.
Proof. exact weak_duality. Qed.
Print Assumptions C86_bound.

(** C86. If the selection heuristic finds no pair for the violations of the weights, no
    weights are better by more than C * SMO_EPSILON. *)
Theorem C86_stop : forall n C k w0 o f l, 0 < C -> length w0 = n -> length o = n -> (forall i, (i < k)%nat -> length (f i) = n) ->
  forall alpha w v, (2 <= k)%nat -> simplex k alpha -> weights_of C k w0 o f alpha w -> length v = n ->
  SelectPair false k alpha (violation o f l w) = None ->
  primal C k w0 o f l w <= primal C k w0 o f l v + C * SMO_EPSILON.
Proof. exact stop_ok. Qed.
Print Assumptions C86_stop.

(** C86. The passive-aggressive update: a margin kept up to SMO_EPSILON changes nothing,
    otherwise the weights become the minimum of the change plus C times the failure. *)
Theorem C86_passive_aggressive : forall n C w good bad, 0 < C -> length w = n -> length (fst good) = n -> length (fst bad) = n ->
  let m := snd good - snd bad in
  let f := objective C m w (fst good) (fst bad) in
  exists w', pa_update 1 C w good bad = Some w' /\ length w' = n /\
    (m - (inner (fst good) w - inner (fst bad) w) <= SMO_EPSILON -> w' = w) /\
    (SMO_EPSILON < m - (inner (fst good) w - inner (fst bad) w) -> forall v, length v = n -> f w' + dist2 v w' / 2 <= f v).
Proof. exact pa_ok. Qed.
Print Assumptions C86_passive_aggressive.

(** Finding: every round of the cutting-plane loop sets the multipliers back to (1, 0, ...)
    but keeps the weights of the rounds before (kbest_cut_mira.cc:898-902), so from the
    second round on the weights are not those of the multipliers and the bound C on the
    total step is lost. Here two rounds end, with no pair left, at weight 3, which is
    worse than weight 2, the largest weight which any multipliers allow. *)
Theorem C86_rounds_refuted : exists a1 a2,
  round false 1 [wc 0; wc 1] fear1 [0] = Some (a1, [1]) /\
  round false 1 [wc 0; wc 1; wc 2] fear2 [1] = Some (a2, [3]) /\
  primal 1 3 [0] [0] wf wl [2] + 1 * SMO_EPSILON < primal 1 3 [0] [0] wf wl [3].
Proof. exact rounds_refuted. Qed.
Print Assumptions C86_rounds_refuted.

(** Finding: the violations are computed for --fear 1 only (kbest_cut_mira.cc:523-540), for
    the other choices the passive-aggressive update compares 0 with 0 and never
    changes the weights. *)
Theorem C86_fear_refuted : forall fs C w good bad, fs <> 1%nat -> pa_update fs C w good bad = Some w.
Proof. exact fear_refuted. Qed.
Print Assumptions C86_fear_refuted.

(** Finding: with --no_reweight the hope hypothesis is looked for in the list of the bad
    ones (kbest_cut_mira.cc:188-208). With the default list size of 1 it is the bad
    hypothesis itself, its violation becomes 0, which is that of the oracle, and the
    constraint is never added. *)
Theorem C86_no_reweight_refuted : forall w bad set, In 0 set -> cut_no_reweight w [bad] set = None.
Proof. exact no_reweight_refuted. Qed.
Print Assumptions C86_no_reweight_refuted.

(** Finding: --optimizer 5 puts the hypotheses of the decoder in the constraint set, which
    have no oracle (kbest_cut_mira.cc:470): ComputeDelta reads a null pointer whenever
    there are good and best hypotheses. *)
Theorem C86_nbest_refuted : forall fs C w oracle goods bests bads, goods <> [] -> bests <> [] ->
  sweep C (nbest_constraints fs w oracle goods bests bads) w = None.
Proof. exact nbest_refuted. Qed.
Print Assumptions C86_nbest_refuted.

(** A round of one step, after which no pair is left. *)
Example C86_ex : exists a, round false 1 [wc 0; wc 1] fear1 [0] = Some (a, [1]).
Proof. exact round_one. Qed.
Print Assumptions C86_ex.
Example C86_ex_stop : exists a, simplex 2 a /\ weights_of 1 2 [0] [0] wf a [1] /\ SelectPair false 2 a (violation [0] wf wl [1]) = None.
Proof. exact ex_stop. Qed.
Print Assumptions C86_ex_stop.
