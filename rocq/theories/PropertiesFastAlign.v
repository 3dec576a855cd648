(** C55-C58: the word aligner. *)
From Coq Require Import Reals List Arith ZArith Lia Lra Bool.
Import ListNotations.
From Verif Require Import FastAlign FastAlignSpec FastAlignDiagProofs FastAlignEMProofs FastAlignProofs FastAlignTrainProofs FastAlignWitness.
Local Open Scope R_scope.

(** * C55 *)
(** The closed form of the normaliser is the sum over the source positions. *)
Theorem C55_normaliser : forall i m n alpha, (i <= m)%nat -> (1 <= m)%nat -> (1 <= n)%nat -> (Z.of_nat n < 2 ^ 32)%Z -> alpha <> 0 ->
  ComputeZ i m n alpha = Rsum (map (fun j => exp (- alpha * Rabs (INR j / INR n - INR i / INR m))) (seq 1 n)).
Proof. exact normaliser. Qed.
Print Assumptions C55_normaliser.
Example C55_normaliser_ex : ComputeZ 1 1 2 4 = exp (-2) + 1.
Proof. rewrite normaliser by (lia || lra). rewrite weight_112. do 2 f_equal. lra. Qed.

(** The probabilities of all choices for a target word add up to one: with the
    diagonal prior and a null word, and with the uniform prior. *)
Theorem C55_diagonal : forall c alpha j m n, favor_diagonal c = true -> use_null c = true -> (j < m)%nat -> (1 <= n)%nat -> (Z.of_nat n < 2 ^ 32)%Z -> alpha <> 0 -> prob_align_null c <> 1 ->
  Rsum (map (prior c alpha j m n) (positions (use_null c) n)) = 1.
Proof. exact prior_positions. Qed.
Print Assumptions C55_diagonal.
Theorem C55_uniform : forall c alpha j m n, favor_diagonal c = false -> (1 <= n)%nat -> Rsum (map (prior c alpha j m n) (positions (use_null c) n)) = 1.
Proof. exact uniform_positions. Qed.
Print Assumptions C55_uniform.
Example C55_sums_ex : Rsum (map (prior (defaults true true false) 4 2 7 5) [0; 1; 2; 3; 4; 5]%nat) = 1 /\ Rsum (map (prior (defaults false false false) 4 2 7 5) [1; 2; 3; 4; 5]%nat) = 1.
Proof.
  split.
  - apply (prior_positions (defaults true true false)); cbn; try reflexivity; try lia; lra.
  - apply (uniform_positions (defaults false false false)); cbn; try reflexivity; lia.
Qed.

(** Each has the probability the distance from the diagonal gives it: the closer the
    likelier. *)
Theorem C55_value : forall c alpha j m n i, favor_diagonal c = true -> (j < m)%nat -> (1 <= n)%nat -> (Z.of_nat n < 2 ^ 32)%Z -> alpha <> 0 -> prob_align_null c <> 1 -> (1 <= i)%nat ->
  prior c alpha j m n i = (1 - prob_align_null c) * diag_prob alpha (j + 1) i m n.
Proof. intros c alpha j m n i. exact (prior_diag c alpha j m n i). Qed.
Print Assumptions C55_value.
Theorem C55_closer : forall c alpha j m n i k, favor_diagonal c = true -> (j < m)%nat -> (1 <= n)%nat -> (Z.of_nat n < 2 ^ 32)%Z -> 0 < alpha -> prob_align_null c < 1 -> (1 <= i)%nat -> (1 <= k)%nat ->
  offdiag (j + 1) i m n < offdiag (j + 1) k m n -> prior c alpha j m n k < prior c alpha j m n i.
Proof. exact prior_closer. Qed.
Print Assumptions C55_closer.
Example C55_closer_ex : prior (defaults true true false) 4 0 2 2 2 < prior (defaults true true false) 4 0 2 2 1.
Proof.
  apply C55_closer; cbn [defaults favor_diagonal prob_align_null]; try reflexivity; try lia; try lra.
  unfold offdiag. cbn [Nat.add INR]. replace (1 / (1 + 1) - 1 / (1 + 1)) with 0 by field. replace ((1 + 1) / (1 + 1) - 1 / (1 + 1)) with (1 / 2) by field. rewrite Rabs_R0, Rabs_right; lra.
Qed.

(** Finding: with --favor_diagonal and --no_null_word the probability kept for the null
    word is lost: the choices sum up to 0.92 by default (fast_align.cc 160), so the
    likelihoods reported are too low. *)
Theorem C55_no_null_refuted : exists c alpha j m n, favor_diagonal c = true /\ (j < m)%nat /\ (1 <= n)%nat /\ (Z.of_nat n < 2 ^ 32)%Z /\ alpha <> 0 /\ prob_align_null c <> 1 /\
  Rsum (map (prior c alpha j m n) (positions (use_null c) n)) <> 1.
Proof.
  exists (defaults false true false), 4, 0%nat, 1%nat, 1%nat. cbn [defaults favor_diagonal prob_align_null use_null]. repeat split; try lia; try lra. change (Rsum (map (prior (defaults false true false) 4 0 1 1) (positions false 1)) <> 1). rewrite no_null_sum. lra.
Qed.
Print Assumptions C55_no_null_refuted.

(** * C56 *)
(** The full statement: ComputeDLogZ is the derivative, by the tension, of the logarithm of
    the normaliser, for every target position in a sentence pair.  What holds is that for
    positions not beyond the length of the source it is so but for a factor, which is 1 if
    the sentences are of equal length. *)
Theorem C56_gradient_partial : forall i m n alpha, (i <= m)%nat -> (i <= n)%nat -> (1 <= i)%nat -> (Z.of_nat m < 2 ^ 32)%Z -> (Z.of_nat n < 2 ^ 32)%Z -> alpha <> 0 ->
  derivable_pt_lim (fun a => ln (diag_total a i m n)) alpha (ComputeDLogZ i m n alpha * (diag_total alpha i n m / diag_total alpha i m n)).
Proof. exact gradient_factor. Qed.
Print Assumptions C56_gradient_partial.
Theorem C56_square_partial : forall i m alpha, (i <= m)%nat -> (1 <= m)%nat -> (Z.of_nat m < 2 ^ 32)%Z -> alpha <> 0 ->
  derivable_pt_lim (fun a => ln (diag_total a i m m)) alpha (ComputeDLogZ i m m alpha).
Proof. exact gradient_square. Qed.
Print Assumptions C56_square_partial.
Example C56_gradient_ex : derivable_pt_lim (fun a => ln (diag_total a 2 3 3)) 4 (ComputeDLogZ 2 3 3 4).
Proof. apply C56_square_partial; (lia || lra). Qed.

(** Finding: line 44 of da.h calls ComputeZ with source and target length swapped, so the
    gradient that --optimize_tension follows is wrong unless the lengths are equal. *)
Theorem C56_gradient_refuted : exists i m n alpha, (1 <= i <= m)%nat /\ (1 <= n)%nat /\ 0 < alpha /\ ~ derivable_pt_lim (fun a => ln (diag_total a i m n)) alpha (ComputeDLogZ i m n alpha).
Proof. exists 1%nat, 1%nat, 2%nat, 4. split; [lia|]. split; [lia|]. split; [lra|]. exact gradient_112. Qed.
Print Assumptions C56_gradient_refuted.

(** Finding: the feature of the alignments counted uses target positions from 0, the model
    positions from 1 (fast_align.cc 205, 163).  In a corpus with one word on each side
    and no null word the only alignment is on the diagonal, but counts as one off it. *)
Theorem C56_feature_refuted : exists c corpus tension, emp_feat (count_corpus c tension [] corpus) = -1 /\
  (forall p, In p corpus -> forall al, In al (pair_alignments (use_null c) p) -> forall j i, nth_error al j = Some i -> offdiag (j + 1) i (length (snd p)) (length (fst p)) = 0).
Proof.
  exists (defaults false true true), [([2%nat], [3%nat])], 4. split; [exact emp_feat_11|]. intros p [<-|[]] al [<-|[]] [|[|j]] i H; try discriminate. injection H as <-. unfold offdiag. cbn. replace (1 / 1 - 1 / 1) with 0 by field. apply Rabs_R0.
Qed.
Print Assumptions C56_feature_refuted.

(** Whatever the gradient, a tension that training changes stays between 0.1 and 14. *)
Theorem C56_range : forall c corpus tension iters ls t tension' fin, (1 <= iters)%nat -> train c iters corpus tension = Some (ls, t, tension', fin) ->
  tension' = tension \/ 1 / 10 <= tension' <= 14.
Proof. exact train_range. Qed.
Print Assumptions C56_range.
Example C56_range_ex : exists ls t tension' fin, train (defaults true true true) 5 small_corpus 20 = Some (ls, t, tension', fin) /\ (tension' = 20 \/ 1 / 10 <= tension' <= 14).
Proof. destruct (small_runs (defaults true true true) 5 20) as ([[[ls t] x] fin] & E). exists ls, t, x, fin. split; [exact E|]. exact (C56_range _ _ _ 5 _ _ _ _ ltac:(lia) E). Qed.

(** * C57 *)
(** Training fails exactly on an empty sentence.  Otherwise, the last likelihood is that of
    the corpus under the parameters found, summed over all alignments, and those before it
    are the ones shorter training would end with. *)
Theorem C57_fails : forall c corpus tension iters, train c iters corpus tension = None <-> exists p, In p corpus /\ (fst p = [] \/ snd p = []).
Proof. exact train_none. Qed.
Print Assumptions C57_fails.
Theorem C57_likelihood : forall c corpus tension, usable_prior (use_null c) (favor_diagonal c) (prob_align_null c) tension -> (forall p, In p corpus -> (Z.of_nat (length (fst p)) < 2 ^ 32)%Z) ->
  forall iters ls t tension' fin, (1 <= iters)%nat -> train c iters corpus tension = Some (ls, t, tension', fin) ->
  length ls = iters /\
  nth_error ls (iters - 1) = Some (log_likelihood (use_null c) (favor_diagonal c) (kNULL c) (prob_align_null c) tension' (tprob t) corpus) /\
  (forall k, (1 <= k <= iters)%nat -> exists t1 tension1 fin1, train c k corpus tension = Some (firstn k ls, t1, tension1, fin1)).
Proof.
  intros c corpus tension U Sm iters ls t tension' fin Hi T. destruct (train_likelihood c corpus tension U Sm iters ls t tension' fin Hi T) as (L & N). split; [exact L|]. split; [exact N|]. intros k Hk. exact (train_prefix c corpus tension Sm iters ls t tension' fin T k Hk).
Qed.
Print Assumptions C57_likelihood.
(** Without tension tuning no iteration makes the likelihood worse, if there are no more
    than a billion target words. *)
Theorem C57_rises : forall c corpus tension, usable_prior (use_null c) (favor_diagonal c) (prob_align_null c) tension -> (forall p, In p corpus -> (Z.of_nat (length (fst p)) < 2 ^ 32)%Z) ->
  forall iters ls t tension' fin (V : list nat), train c iters corpus tension = Some (ls, t, tension', fin) -> favor_diagonal c && optimize_tension c = false -> (forall p f, In p corpus -> In f (snd p) -> In f V) -> INR (length V) <= 10 ^ 9 ->
  forall n a b, nth_error ls n = Some a -> nth_error ls (S n) = Some b -> a <= b.
Proof. intros c corpus tension U Sm iters ls t tension' fin V T. exact (train_rises c corpus tension U Sm iters ls t tension' fin T V). Qed.
Print Assumptions C57_rises.
(** From two iterations on, the table has for every source word of the corpus, and the null
    word, a distribution over exactly the target words seen with it. *)
Theorem C57_table : forall c corpus tension, usable_prior (use_null c) (favor_diagonal c) (prob_align_null c) tension -> (forall p, In p corpus -> (Z.of_nat (length (fst p)) < 2 ^ 32)%Z) ->
  forall iters ls t tension' fin e, train c iters corpus tension = Some (ls, t, tension', fin) -> (2 <= iters)%nat -> (exists f, together (use_null c) (kNULL c) corpus e f) ->
  exists ws, NoDup ws /\ (forall f, In f ws <-> together (use_null c) (kNULL c) corpus e f) /\ (forall f, In f ws -> 0 < tprob t e f) /\ Rsum (map (tprob t e) ws) = 1.
Proof. intros c corpus tension U Sm iters ls t tension' fin e T H2. exact (train_table c corpus tension U Sm iters ls t tension' fin (Nat.le_trans _ _ _ (le_S _ _ (le_n 1)) H2) T e H2). Qed.
Print Assumptions C57_table.
Example C57_ex : exists ls t tension' fin, train (defaults true true false) 5 small_corpus 4 = Some (ls, t, tension', fin) /\
  length ls = 5%nat /\ (forall n a b, nth_error ls n = Some a -> nth_error ls (S n) = Some b -> a <= b) /\
  exists ws, NoDup ws /\ In 7%nat ws /\ Rsum (map (tprob t 4) ws) = 1.
Proof.
  destruct (small_runs (defaults true true false) 5 4) as ([[[ls t] x] fin] & E). exists ls, t, x, fin. split; [exact E|].
  pose proof (usable_defaults true true false) as U. split; [exact (proj1 (C57_likelihood (defaults true true false) _ 4 U small_lengths 5 _ _ _ _ ltac:(lia) E))|]. split.
  - apply (C57_rises (defaults true true false) _ 4 U small_lengths 5 _ _ _ _ [5; 6; 7]%nat E eq_refl); [|change (INR 3 <= 10 ^ 9); cbn [INR pow]; lra]. intros p f [<-|[<-|[<-|[]]]] Hf; cbn in Hf |- *; tauto.
  - assert (K : together true 1 small_corpus 4 7) by (exists ([3; 4; 2], [6; 7; 5])%nat; cbn; auto 6).
    destruct (C57_table (defaults true true false) _ 4 U small_lengths 5 _ _ _ _ 4%nat E ltac:(lia) (ex_intro _ 7%nat K)) as (ws & N & I & _ & S). exists ws. split; [exact N|]. split; [apply I, K|exact S].
Qed.

(** * C58 *)
(** The links printed for each pair are those of a most probable alignment; of several it
    is the one in which every word takes the first place possible, the null word first. *)
Theorem C58_best : forall c corpus tension, usable_prior (use_null c) (favor_diagonal c) (prob_align_null c) tension -> (forall p, In p corpus -> (Z.of_nat (length (fst p)) < 2 ^ 32)%Z) ->
  forall iters ls t tension' fin, (1 <= iters)%nat -> train c iters corpus tension = Some (ls, t, tension', fin) ->
  let P := aligned_prob (use_null c) (favor_diagonal c) (kNULL c) (prob_align_null c) tension' (tprob t) in
  Forall2 (fun p ls => exists al, In al (pair_alignments (use_null c) p) /\ ls = links_from 0 al /\
    forall al', In al' (pair_alignments (use_null c) p) -> P p al' <= P p al /\ (P p al' = P p al -> Forall2 le al al')) corpus (links fin).
Proof. exact train_best. Qed.
Print Assumptions C58_best.
(** Aligning the training corpus as a test set gives the same links. *)
Theorem C58_test : forall c corpus tension, usable_prior (use_null c) (favor_diagonal c) (prob_align_null c) tension -> (forall p, In p corpus -> (Z.of_nat (length (fst p)) < 2 ^ 32)%Z) ->
  forall iters ls t tension' fin, (1 <= iters)%nat -> train c iters corpus tension = Some (ls, t, tension', fin) ->
  map (test_sentence c tension' t) corpus = links fin.
Proof. exact train_test. Qed.
Print Assumptions C58_test.
(** If parameters are written, then probabilities of pairs seen together, and among them
    all those that are linked. *)
Theorem C58_written : forall c corpus tension, usable_prior (use_null c) (favor_diagonal c) (prob_align_null c) tension -> (forall p, In p corpus -> (Z.of_nat (length (fst p)) < 2 ^ 32)%Z) ->
  forall iters ls t tension' fin, (1 <= iters)%nat -> train c iters corpus tension = Some (ls, t, tension', fin) -> add_viterbi c || negb (hide_training_alignments c) = true ->
  forall beam out, (2 <= iters)%nat -> write_params beam t (viterbi fin) = Some out ->
  (forall e f lp, In (e, f, lp) out -> together (use_null c) (kNULL c) corpus e f /\ lp = ln (tprob t e f)) /\
  (forall q p ls1 i j e f, nth_error corpus q = Some p -> nth_error (links fin) q = Some ls1 -> In (i, j) ls1 -> nth_error (fst p) i = Some e -> nth_error (snd p) j = Some f -> (1 <= e)%nat -> In (e, f, ln (tprob t e f)) out).
Proof. exact params_written. Qed.
Print Assumptions C58_written.
Example C58_ex : exists ls t tension' fin, train (defaults false true false) 5 small_corpus 4 = Some (ls, t, tension', fin) /\ length (links fin) = 3%nat /\ map (test_sentence (defaults false true false) tension' t) small_corpus = links fin.
Proof.
  destruct (small_runs (defaults false true false) 5 4) as ([[[ls t] x] fin] & E). exists ls, t, x, fin. split; [exact E|]. pose proof (usable_defaults false true false) as U.
  pose proof (C58_test (defaults false true false) _ 4 U small_lengths 5 _ _ _ _ ltac:(lia) E) as K. split; [rewrite <- K, map_length; reflexivity|exact K].
Qed.

Example C58_written_ex : exists ls t fin out, train (defaults false false false) 2 tiny 4 = Some (ls, t, 4, fin) /\ links fin = [[(0, 0)]]%nat /\ write_params (1 / 10000) t (viterbi fin) = Some out /\ In (2%nat, 3%nat, ln (tprob t 2 3)) out.
Proof.
  destruct tiny_train2 as (ls & fin & T & V & L). assert (W : exists out, write_params (1 / 10000) [[]; []; [(3%nat, 1)]] (viterbi fin) = Some out) by (rewrite V; eexists; reflexivity). destruct W as (out & W).
  exists ls, [[]; []; [(3%nat, 1)]], fin, out. split; [exact T|]. split; [exact L|]. split; [exact W|].
  assert (Sm : forall p, In p tiny -> (Z.of_nat (length (fst p)) < 2 ^ 32)%Z) by (intros p [<-|[]]; reflexivity).
  destruct (C58_written (defaults false false false) tiny 4 (usable_defaults false false false) Sm 2 _ _ _ _ ltac:(lia) T eq_refl _ _ ltac:(lia) W) as (_ & K).
  apply (K 0 ([2], [3]) [(0, 0)] 0 0 2 3)%nat; try reflexivity; [rewrite L; reflexivity|left; reflexivity|lia].
Qed.

(** Finding: the pairs of the best alignments are kept in a vector that is as long as the
    last source word aligned to needs, but it is read for every source word when the
    parameters are written (fast_align.cc 193-194, 314).  If the last words of the vocabulary
    are never aligned to, as in the corpus "a ||| x" with default options, it is read
    behind its end. *)
Theorem C58_overrun_refuted : exists c corpus iters tension ls t tension' fin beam, usable_prior (use_null c) (favor_diagonal c) (prob_align_null c) tension /\ add_viterbi c = true /\
  train c iters corpus tension = Some (ls, t, tension', fin) /\ write_params beam t (viterbi fin) = None.
Proof.
  destruct tiny_train as (ls & fin & T & V). exists (defaults true false false), tiny, 2%nat, 4, ls, [[]; [(3%nat, 1)]; [(3%nat, 1)]], 4, fin, (1 / 10000). split; [exact (usable_defaults true false false)|]. split; [reflexivity|]. split; [exact T|]. exact (tiny_write _ _ V).
Qed.
Print Assumptions C58_overrun_refuted.
