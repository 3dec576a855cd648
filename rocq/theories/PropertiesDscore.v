(** C84: the sentence-level scores of dtrain. *)
From Coq Require Import Reals List Arith Lra Lia.
From Verif Require Import Dscore DscoreSpec DscoreProofs DscoreScoreProofs.
Import ListNotations.
Local Open Scope R_scope.

(** C84. The counts of each order are the clipped matches and the number of n-grams of
    the hypothesis. *)
Theorem C84_counts : forall hyp ref N n, (1 <= n <= N)%nat ->
  length (make_ngram_counts hyp ref N) = N /\
  nth (n - 1) (make_ngram_counts hyp ref N) (0, 0) = (INR (matches n hyp ref), INR (length hyp + 1 - n)).
Proof. exact counts_ok. Qed.
Print Assumptions C84_counts.

(** C84. With the default weights BLEU is the geometric mean of the precisions times the
    brevity penalty, of the orders which the reference has. *)
Theorem C84_bleu : forall N hyp ref, (0 < N)%nat -> hyp <> [] -> ref <> [] ->
  let M := Nat.min N (length ref) in
  bleu_score N (default_weights N) hyp ref ^ M =
  bp (length hyp) (length ref) ^ M * product (map (fun n => precision n hyp ref) (seq 1 M)).
Proof. exact bleu_geometric. Qed.
Print Assumptions C84_bleu.

(** C84. With any weights, none of them negative, BLEU is between 0 and 1, and 1 for the
    reference itself. *)
Theorem C84_bleu_range : forall N w hyp ref, (0 < N)%nat -> Forall (fun x => 0 <= x) w ->
  0 <= bleu_score N w hyp ref <= 1 /\ (ref <> [] -> bleu_score N w ref ref = 1).
Proof. intros N w hyp ref HN W. split; [apply bleu_range; assumption|apply bleu_same; assumption]. Qed.
Print Assumptions C84_bleu_range.

(** C84. The smoothed scores are between 0 and 1, and 0 exactly if there is no common
    word; the first is 1 for the reference itself. *)
Theorem C84_stupid : forall N w extra hyp ref, (0 < N)%nat -> Forall (fun x => 0 <= x) w -> hyp <> [] -> ref <> [] ->
  0 <= stupid_score N w extra hyp ref <= 1 /\
  (stupid_score N w extra hyp ref = 0 <-> forall x, In x hyp -> ~ In x ref) /\
  stupid_score N w 0 ref ref = 1.
Proof.
  intros N w extra hyp ref HN W Nh Nr. destruct (stupid_ok N w HN W extra hyp ref Nh Nr) as [A B].
  split; [exact A|]. split; [exact B|]. apply stupid_same; assumption.
Qed.
Print Assumptions C84_stupid.

(** C84. The scores which add the orders up, halving the weight with each order left
    over, are between 0 and 1 - 2^-N, and the reference itself reaches this if it has all
    orders. *)
Theorem C84_smooth : forall N hyp ref,
  0 <= smooth_score N hyp ref <= 1 - / 2 ^ N /\
  ((N <= length ref)%nat -> ref <> [] -> smooth_score N ref ref = 1 - / 2 ^ N).
Proof.
  intros N hyp ref. split; [apply smooth_range|]. intros L Nr. rewrite smooth_same by exact Nr.
  rewrite Nat.min_l by exact L. rewrite Nat.sub_diag. cbn [pow]. lra.
Qed.
Print Assumptions C84_smooth.
Theorem C84_sum : forall N hyp ref,
  0 <= sum_score N hyp ref <= 1 - / 2 ^ N /\
  ((N <= length ref)%nat -> ref <> [] -> sum_score N ref ref = 1 - / 2 ^ N).
Proof.
  intros N hyp ref. split; [apply sum_range|]. intros L Nr. rewrite sum_same by exact Nr.
  rewrite Nat.min_l by exact L. rewrite Nat.sub_diag. cbn [pow]. lra.
Qed.
Print Assumptions C84_sum.

(** C84. The approximate corpus score: after any calls every score is between 0 and 1. *)
Theorem C84_approx : forall N w d calls, (0 < N)%nat -> Forall (fun x => 0 <= x) w -> 0 <= d ->
  exists vs, approx_run N w d (zero N) calls = Some vs /\ length vs = length calls /\ Forall (fun v => 0 <= v <= 1) vs.
Proof. intros N w d calls HN W. apply approx_ok; assumption. Qed.
Print Assumptions C84_approx.

(** Finding: the linear corpus score compares the numbers of all n-grams of the
    hypothesis (score.cc:270 reads sum_, not clipped_), so that it does not look at the
    words of the reference: every reference of the same length gives the same score. *)
Theorem C84_linear_reference_refuted : forall N st hyp ref ref' rank v s v' s', length ref = length ref' ->
  linear_score N st hyp ref rank = Some (v, s) -> linear_score N st hyp ref' rank = Some (v', s') -> v = v'.
Proof. exact linear_lengths_only. Qed.
Print Assumptions C84_linear_reference_refuted.

(** Finding: the first call of the linear score with a reference shorter than N reads
    counts which do not exist (score.h:23-24 dereferences the end of a map), if the
    hypothesis is the first of its list. *)
Theorem C84_linear_short_refuted : forall N hyp ref, ref <> [] -> (length ref < N)%nat ->
  linear_score N (1%nat, one N) hyp ref 0 = None.
Proof. exact linear_short. Qed.
Print Assumptions C84_linear_short_refuted.

(** A hypothesis which repeats a word more often than the reference. *)
Example C84_ex : matches 1 [1; 1; 2; 3]%nat [1; 2; 3; 4]%nat = 3%nat /\ matches 2 [1; 1; 2; 3]%nat [1; 2; 3; 4]%nat = 2%nat /\
  bleu_score 2 (default_weights 2) [1; 1; 2; 3]%nat [1; 2; 3; 4]%nat ^ 2 = 1 / 2.
Proof.
  split; [reflexivity|]. split; [reflexivity|]. pose proof (C84_bleu 2 [1; 1; 2; 3]%nat [1; 2; 3; 4]%nat ltac:(lia) ltac:(discriminate) ltac:(discriminate)) as E.
  change (Nat.min 2 (length [1; 2; 3; 4]%nat)) with 2%nat in E. cbv zeta in E. rewrite E. clear E.
  unfold bp, precision, product. cbn [length Nat.min seq map fold_right Nat.ltb Nat.leb].
  change (matches 1 [1; 1; 2; 3]%nat [1; 2; 3; 4]%nat) with 3%nat. change (matches 2 [1; 1; 2; 3]%nat [1; 2; 3; 4]%nat) with 2%nat.
  cbn [Nat.sub Nat.add]. replace (1 - INR 4 / INR 4) with 0 by (cbn [INR]; field). rewrite exp_0. cbn [INR]. field.
Qed.
Print Assumptions C84_ex.
(** The reference itself is worth no more than a sentence without any of its words. *)
Example C84_ex_linear : exists v, linear_score 1 (1%nat, one 1) [1; 2]%nat [1; 2]%nat 1 = Some (v, (1%nat, one 1)) /\
  linear_score 1 (1%nat, one 1) [1; 2]%nat [3; 4]%nat 1 = Some (v, (1%nat, one 1)).
Proof.
  eexists. split; [reflexivity|].
  assert (E : exists v', linear_score 1 (1%nat, one 1) [1; 2]%nat [3; 4]%nat 1 = Some (v', (1%nat, one 1))) by (eexists; reflexivity).
  destruct E as [v' E]. rewrite E.
  rewrite (C84_linear_reference_refuted 1 (1%nat, one 1) [1; 2]%nat [3; 4]%nat [1; 2]%nat 1 _ _ _ _ eq_refl E eq_refl). reflexivity.
Qed.
Print Assumptions C84_ex_linear.
