(** C23, C41, C42: BLEU.  Vocabulary: BleuSpec. *)
From Coq Require Import List Arith ZArith QArith Qabs Reals Qreals Permutation.
From Verif Require Import Stats Bleu BleuSpec BleuProofs BleuScoreProofs.
Import ListNotations.
Open Scope nat_scope.

(** Whatever an evaluator has been asked before, the statistics it returns are the
    clipped n-gram counts, the n-gram counts, the length and the reference length. *)
Theorem C23_stats : forall N bt refs hs hyp, refs <> [] -> exists ev0 ss ev1 s ev2,
  mk_evaluator N bt refs = Some ev0 /\ Evaluate_all N bt ev0 hs = Some (ss, ev1) /\ Evaluate N bt ev1 hyp = Some (s, ev2) /\
  length (fields s) = 2 * N + 2 /\
  (forall n, n < N -> ss_at s n = of_nat (clipped (S n) refs hyp)) /\
  (forall n, n < N -> ss_at s (N + n) = of_nat (length (grams (S n) hyp))) /\
  ss_at s (2 * N) = len hyp /\
  ((exists r, In r refs /\ (len r < inject_Z 2000000)%Q) -> (len hyp < inject_Z 2000000)%Q -> reported bt refs hyp (ss_at s (2 * N + 1))).
Proof. exact bleu_stats. Qed.
Print Assumptions C23_stats.
(** "the the cat" against "the cat sat" and "the dog": after evaluating the
    reference itself, two unigrams and one bigram match. *)
Example C23_case : exists s,
  match mk_evaluator 2 IBM [[1; 2; 3]; [1; 4]]%Z with
  | Some ev0 => match Evaluate_all 2 IBM ev0 [[1; 2; 3]]%Z with
    | Some (_, ev1) => match Evaluate 2 IBM ev1 [1; 1; 2]%Z with Some (s', _) => s = map Qred (fields s') | None => False end
    | None => False end
  | None => False end /\ s = [2; 1; 3; 2; 3; 3]%Q.
Proof. eexists. split; vm_compute; reflexivity. Qed.

(** The corpus score is a number in (0,1], except when every output is empty; it is
    1 if every output is one of its references. *)
Theorem C41_score : forall N bt (segs : list (list (list word) * list word)), 1 <= N -> Forall (fun g => fst g <> []) segs -> exists evs s,
  Forall2 (fun g ev => mk_evaluator N bt (fst g) = Some ev) segs evs /\ total N bt evs (map snd segs) no_stats = Some s /\
  (ComputeScore N bt (fields s) = None <-> Forall (fun g => snd g = []) segs) /\
  (forall r, ComputeScore N bt (fields s) = Some r -> (0 < r <= 1)%R) /\
  (bt = IBM -> Forall (fun g => In (snd g) (fst g) /\ (len (snd g) < inject_Z 2000000)%Q) segs -> forall r, ComputeScore N bt (fields s) = Some r -> r = 1%R).
Proof. exact bleu_score. Qed.
Print Assumptions C41_score.
Example C41_case : let segs := [([[1; 2; 3]; [1; 4]], [1; 1; 2]); ([[5]], [])]%Z in
  1 <= 2 /\ Forall (fun g => fst g <> []) segs /\ ~ Forall (fun g => snd g = []) segs.
Proof. cbn zeta. split; [auto|]. split; [repeat constructor; discriminate|]. intros H. inversion H. discriminate. Qed.
Example C41_case_perfect : let segs := [([[1; 2; 3]; [1; 4]], [1; 4]); ([[5]], [5])]%Z in
  Forall (fun g => In (snd g) (fst g) /\ (len (snd g) < inject_Z 2000000)%Q) segs /\ ~ Forall (fun g => snd g = []) segs.
Proof.
  cbn zeta. split; [|intros H; inversion H; discriminate].
  apply Forall_cons; [split; [right; left; reflexivity|reflexivity]|]. apply Forall_cons; [split; [left; reflexivity|reflexivity]|]. constructor.
Qed.

(** An output file with more lines than there are references reads past the
    evaluators before the number of lines is checked. *)
Theorem C41_extra_line_refuted : exists evs hyps, length evs < length hyps /\ total 4 IBM evs hyps no_stats = None.
Proof. exists [], [[]]. split; [apply le_n|reflexivity]. Qed.
Print Assumptions C41_extra_line_refuted.

(** Statistics behave as vectors indexed from 0 which are 0 beyond their size. *)
Theorem C42_arith : forall a b c i,
  (ss_at (ss_plus a b) i == ss_at a i + ss_at b i /\ ss_at (ss_minus a b) i == ss_at a i - ss_at b i /\
   ss_at (ss_mul a c) i == ss_at a i * c /\ ss_at (ss_div a c) i == ss_at a i / c)%Q /\
  length (fields (ss_plus a b)) = max (length (fields a)) (length (fields b)) /\ length (fields (ss_minus a b)) = max (length (fields a)) (length (fields b)).
Proof. exact stats_arith. Qed.
Print Assumptions C42_arith.
Theorem C42_identity : forall a, ss_zero a = true <-> forall i, (ss_at a i == 0)%Q.
Proof. exact stats_zero. Qed.
Print Assumptions C42_identity.
(** Corpus totals do not depend on the order of the segments. *)
Theorem C42_order : forall ss ss' a i, Permutation ss ss' -> (ss_at (fold_left ss_plus ss a) i == ss_at (fold_left ss_plus ss' a) i)%Q.
Proof. exact stats_sum. Qed.
Print Assumptions C42_order.
Theorem C42_equality : forall a b, ss_eq a b = true <-> length (fields a) = length (fields b) /\ forall i, (ss_at a i == ss_at b i)%Q.
Proof. exact stats_eq. Qed.
Print Assumptions C42_equality.
(** So == tells apart two statistics which agree at every index. *)
Theorem C42_equality_refuted : exists a b, (forall i, (ss_at a i == ss_at b i)%Q) /\ ss_eq a b = false.
Proof. exists no_stats, {| sid := []; fields := [0%Q] |}. split; [|reflexivity]. intros [|[|i]]; reflexivity. Qed.
Print Assumptions C42_equality_refuted.
Example C42_case : map Qred (fields (ss_minus (ss_plus {| sid := []; fields := [1; 2]%Q |} {| sid := [0]; fields := [3; 4; 5]%Q |}) {| sid := []; fields := [3; 4; 5]%Q |})) = [1; 2; 0]%Q.
Proof. reflexivity. Qed.
