(** Inputs on which the aligner is not what it is meant to be, and examples. *)
From Coq Require Import Reals List Arith ZArith Lia Lra Bool.
Import ListNotations.
From Verif Require Import FastAlign FastAlignSpec FastAlignDiagProofs FastAlignEMProofs FastAlignProofs FastAlignTrainProofs.
Local Open Scope R_scope.

(** The default options, with [diag] for --favor_diagonal and [o] for --optimize_tension *)
Definition defaults (nulls diag o : bool) : config := Config nulls 1 diag (8 / 100) o true false.

Lemma usable_defaults nulls diag o : usable_prior nulls diag (prob_align_null (defaults nulls diag o)) 4.
Proof. intros _. cbn. repeat split; intros; lra. Qed.

(** * Without a null word the diagonal prior is short of 1 *)
Lemma no_null_sum : Rsum (map (prior (defaults false true false) 4 0 1 1) (positions false 1)) = 92 / 100.
Proof.
  unfold positions. cbn [app]. rewrite diag_sum; cbn; try lra; try lia; try reflexivity.
Qed.

(** * The gradient for a sentence pair with two source words and one target word *)
Lemma weight_112 alpha : diag_total alpha 1 1 2 = exp (- alpha / 2) + 1.
Proof.
  unfold diag_total, diag_weight, offdiag. cbn [seq map]. rewrite !Rsum_cons. change (Rsum []) with 0. cbn [INR].
  replace (1 / (1 + 1) - 1 / 1) with (- (1 / 2)) by field. replace ((1 + 1) / (1 + 1) - 1 / 1) with 0 by field. rewrite Rabs_Ropp, Rabs_R0, Rabs_right by lra.
  rewrite Rmult_0_r, exp_0. replace (- alpha * (1 / 2)) with (- alpha / 2) by field. lra.
Qed.
Lemma weight_121 alpha : diag_total alpha 1 2 1 = exp (- alpha / 2).
Proof.
  unfold diag_total, diag_weight, offdiag. cbn [seq map]. rewrite !Rsum_cons. change (Rsum []) with 0. cbn [INR].
  replace (1 / 1 - 1 / (1 + 1)) with (1 / 2) by field. rewrite Rabs_right by lra. replace (- alpha * (1 / 2)) with (- alpha / 2) by field. lra.
Qed.
Lemma gradient_112 : ~ derivable_pt_lim (fun a => ln (diag_total a 1 1 2)) 4 (ComputeDLogZ 1 1 2 4).
Proof.
  intros D. pose proof (gradient_of_log 1 1 2 4 ltac:(lia)) as D'. pose proof (uniqueness_limite _ _ _ _ D D') as E.
  rewrite DLogZ_sum in E by (lia || lra). rewrite (normaliser 1 2 1 4) in E by (lia || lra). rewrite weight_121, weight_112 in E.
  assert (N : Rsum (map (fun j => Feature 1 j 1 2 * UnnormalizedProb 1 j 1 2 4) (seq 1 2)) = - (1 / 2) * exp (- (4) / 2)).
  { cbn [seq map]. rewrite !Rsum_cons. change (Rsum []) with 0. unfold UnnormalizedProb, Feature. cbn [INR].
    replace (1 / (1 + 1) - 1 / 1) with (- (1 / 2)) by field. replace ((1 + 1) / (1 + 1) - 1 / 1) with 0 by field. rewrite Rabs_Ropp, Rabs_R0, Rabs_right by lra. replace (- (1 / 2) * 4) with (- (4) / 2) by field. lra. }
  rewrite N in E. pose proof (exp_pos (- (4) / 2)) as P. set (x := exp (- (4) / 2)) in *. apply (Rmult_eq_compat_r (x * (x + 1))) in E. field_simplify in E; nra.
Qed.

(** * The feature of the alignments is taken one place off *)
Lemma emp_feat_11 : emp_feat (count_corpus (defaults false true true) 4 [] [([2%nat], [3%nat])]) = -1.
Proof.
  set (c := defaults false true true). unfold count_corpus. cbn [fold_left]. unfold count_sentence. cbn [fst snd length count_words]. unfold count_word. rewrite psum_probs, probs_eq. cbn [emp_feat].
  change (positions (use_null c) (length [2%nat])) with [1%nat]. cbn [map fold_left]. unfold count_one. cbn [emp_feat].
  assert (P : 0 < wprob c 4 [] [2%nat] 1 0 3) by (apply wprob_pos; [apply (usable_defaults false true true)|discriminate|cbn; lia|lia|constructor]).
  assert (E : share c 4 [] [2%nat] 1 0 3 1 = wprob c 4 [] [2%nat] 1 0 3) by (unfold wprob; change (positions (use_null c) (length [2%nat])) with [1%nat]; cbn [map]; rewrite Rsum_cons; change (Rsum []) with 0; lra).
  rewrite E. unfold Rdiv at 1. rewrite Rinv_r by lra. unfold Feature. cbn [start emp_feat length INR]. replace (1 / 1 - 0 / 1) with 1 by field. rewrite Rabs_right by lra. lra.
Qed.

(** * Writing the parameters *)
Definition tiny : list sentence := [([2%nat], [3%nat])].
Lemma norm_one f v : 0 < v -> NormalizeRow [(f, v)] = [(f, 1)].
Proof.
  intros H. assert (T : total [(f, v)] = v) by (unfold total; cbn [map snd]; rewrite Rsum_cons; change (Rsum []) with 0; lra). rewrite NormalizeRow_eq by (rewrite T; exact H). cbn [map fst snd]. rewrite T. unfold Rdiv. rewrite Rinv_r by lra. reflexivity.
Qed.
Lemma tiny_table x : next_table (defaults true false false) tiny x [] = [[]; [(3%nat, 1)]; [(3%nat, 1)]].
Proof.
  set (c := defaults true false false). assert (G : good_prior c x) by (intros D; discriminate). unfold next_table, count_corpus, tiny. cbn [fold_left]. unfold count_sentence. cbn [fst snd length count_words]. rewrite count_word_counts.
  change (positions (use_null c) (length [2%nat])) with [0%nat; 1%nat]. cbn [fold_left counts start]. change (word_at (kNULL c) [2%nat] 0) with 1%nat. change (word_at (kNULL c) [2%nat] 1) with 2%nat.
  assert (P : forall i, In i (positions (use_null c) (length [2%nat])) -> 0 < post c x [2%nat] 1 0 3 [] i) by (intros i Hi; apply post_pos; auto; [discriminate|cbn; lia|constructor]).
  cbn [Increment bump Normalize map]. rewrite !norm_one; [reflexivity| |]; (rewrite Rplus_0_l; apply P; cbn; auto).
Qed.
Lemma tiny_train : exists ls fin, train (defaults true false false) 2 tiny 4 = Some (ls, [[]; [(3%nat, 1)]; [(3%nat, 1)]], 4, fin) /\ viterbi fin = [[]; [3%nat]].
Proof.
  set (c := defaults true false false). change (train c 2 tiny 4) with (Some (iterate c 2 true tiny 4 [])). rewrite iterate_S, iterate_1. pose proof (tiny_table 4) as TT. fold c in TT. rewrite TT.
  change (next_tension c tiny true 4 []) with 4. eexists. eexists. split; [reflexivity|].
  unfold final_corpus, tiny. cbn [fold_left]. unfold final_sentence. cbn [fst snd length final_words viterbi flik]. unfold best_choice. rewrite probs_eq. change (positions (use_null c) (length [2%nat])) with [0%nat; 1%nat]. cbn [map use_null]. change (use_null c) with true. cbv iota. cbn [fold_left fst snd]. unfold best_one. cbn [fst snd].
  assert (E : share c 4 [[]; [(3%nat, 1)]; [(3%nat, 1)]] [2%nat] 1 0 3 0 = share c 4 [[]; [(3%nat, 1)]; [(3%nat, 1)]] [2%nat] 1 0 3 1) by reflexivity.
  destruct (Rlt_le_dec _ _) as [L|L]; [exfalso; rewrite E in L; exact (Rlt_irrefl _ L)|]. reflexivity.
Qed.
Lemma tiny_write beam fin : viterbi fin = [[]; [3%nat]] -> write_params beam [[]; [(3%nat, 1)]; [(3%nat, 1)]] (viterbi fin) = None.
Proof. intros ->. reflexivity. Qed.

(** * An example *)
Definition small_corpus : list sentence := [([2; 3], [5; 6]); ([2], [5]); ([3; 4; 2], [6; 7; 5])]%nat.
Lemma small_lengths : forall p, In p small_corpus -> (Z.of_nat (length (fst p)) < 2 ^ 32)%Z.
Proof. intros p [<-|[<-|[<-|[]]]]; reflexivity. Qed.
Lemma small_runs c iters x : exists r, train c iters small_corpus x = Some r.
Proof. eexists. reflexivity. Qed.
Lemma tiny_table2 x : next_table (defaults false false false) tiny x [] = [[]; []; [(3%nat, 1)]].
Proof.
  set (c := defaults false false false). assert (G : good_prior c x) by (intros D; discriminate). unfold next_table, count_corpus, tiny. cbn [fold_left]. unfold count_sentence. cbn [fst snd length count_words]. rewrite count_word_counts.
  change (positions (use_null c) (length [2%nat])) with [1%nat]. cbn [fold_left counts start]. change (word_at (kNULL c) [2%nat] 1) with 2%nat.
  assert (P : forall i, In i (positions (use_null c) (length [2%nat])) -> 0 < post c x [2%nat] 1 0 3 [] i) by (intros i Hi; apply post_pos; auto; [discriminate|cbn; lia|constructor]).
  cbn [Increment bump Normalize map]. rewrite !norm_one; [reflexivity|]. rewrite Rplus_0_l. apply P. cbn. auto.
Qed.
Lemma tiny_train2 : exists ls fin, train (defaults false false false) 2 tiny 4 = Some (ls, [[]; []; [(3%nat, 1)]], 4, fin) /\ viterbi fin = [[]; []; [3%nat]] /\ links fin = [[(0, 0)]]%nat.
Proof.
  set (c := defaults false false false). change (train c 2 tiny 4) with (Some (iterate c 2 true tiny 4 [])). rewrite iterate_S, iterate_1. pose proof (tiny_table2 4) as TT. fold c in TT. rewrite TT.
  change (next_tension c tiny true 4 []) with 4. eexists. eexists. split; [reflexivity|].
  unfold final_corpus, tiny. cbn [fold_left]. unfold final_sentence. cbn [fst snd length final_words viterbi flik links]. unfold best_choice. rewrite probs_eq. change (positions (use_null c) (length [2%nat])) with [1%nat]. cbn [map use_null]. change (use_null c) with false. cbv iota. cbn [fold_left fst snd]. unfold best_one. cbn [fst snd].
  assert (P : 0 < share c 4 [[]; []; [(3%nat, 1)]] [2%nat] 1 0 3 1).
  { apply share_pos; auto; [intros D; discriminate|discriminate|cbn; lia| |cbn; auto]. repeat constructor; cbn; try lra; auto. }
  destruct (Rlt_le_dec _ _) as [L|L]; [|lra]. split; reflexivity.
Qed.
