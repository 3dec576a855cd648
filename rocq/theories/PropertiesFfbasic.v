(** C97: feature functions which count words and rules. *)
From Coq Require Import List ZArith Bool Reals Lra Lia Permutation.
From Verif Require Import Rule RuleSpec Ffset FfsetSpec FfsetProofs Ffbasic FfbasicSpec FfbasicProofs.
Import ListNotations.
Local Open Scope nat_scope.

(** With any other feature functions which do not touch its feature: WordPenalty is the length of the target sentence of the
    derivation, times its value. *)
Theorem C97_words : forall a b P fid v d g es fs, apart (a ++ (WordPenalty fid v, P) :: b) -> P fid = true -> wf_deriv (rules d) -> pair_of (rules d) es fs ->
  exists h, score_goal rule (map fst (a ++ (WordPenalty fid v, P) :: b)) g d = Some h /\ h fid = (INR (length es) * v + g fid)%R.
Proof. exact word_penalty. Qed.
Print Assumptions C97_words.
(** SourceWordPenalty is the length of the source sentence, times its value. *)
Theorem C97_source : forall a b P fid v d g es fs, apart (a ++ (SourceWordPenalty fid v, P) :: b) -> P fid = true -> wf_deriv (rules d) -> pair_of (rules d) es fs ->
  exists h, score_goal rule (map fst (a ++ (SourceWordPenalty fid v, P) :: b)) g d = Some h /\ h fid = (INR (length fs) * v + g fid)%R.
Proof. exact source_penalty. Qed.
Print Assumptions C97_source.
(** Arity_n counts the rules used with n variables. *)
Theorem C97_arity : forall a b P fids n x d g, apart (a ++ (ArityPenalty fids, P) :: b) -> P x = true -> nth_error fids n = Some x -> NoDup fids -> free_of x d ->
  exists h, score_goal rule (map fst (a ++ (ArityPenalty fids, P) :: b)) g d = Some h /\ h x = (INR (rules_of_arity n (rules d)) + g x)%R.
Proof. exact arity_penalty. Qed.
Print Assumptions C97_arity.
(** WordSet counts the words of the target sentence which are in the vocabulary. *)
Theorem C97_wordset : forall a b P fid vocab d g es fs, apart (a ++ (WordSet fid false vocab, P) :: b) -> P fid = true -> Forall (fun w => (0 < w)%Z) vocab ->
  wf_deriv (rules d) -> pair_of (rules d) es fs ->
  exists h, score_goal rule (map fst (a ++ (WordSet fid false vocab, P) :: b)) g d = Some h /\ h fid = (INR (among vocab es) + g fid)%R.
Proof. exact word_set. Qed.
Print Assumptions C97_wordset.
(** With --oov it counts the words which are not, and every rule but the first. *)
Theorem C97_oov : forall a b P fid vocab d g es fs, apart (a ++ (WordSet fid true vocab, P) :: b) -> P fid = true -> Forall (fun w => (0 < w)%Z) vocab ->
  wf_deriv (rules d) -> pair_of (rules d) es fs ->
  exists h, score_goal rule (map fst (a ++ (WordSet fid true vocab, P) :: b)) g d = Some h /\
    h fid = (INR (length es - among vocab es + (rule_count (rules d) - 1)) + g fid)%R.
Proof. exact word_oov. Qed.
Print Assumptions C97_oov.

Definition zero : nat -> R := fun _ => 0%R.
Definition d_ex : dtree rule := DT rule ([-1; 7; 0], [3; -9; 4; -9])%Z zero [DT rule ([20], [30])%Z zero []; DT rule ([0; 5], [6; -9])%Z zero [DT rule ([21], [31; 32])%Z zero []]].
(** Finding: WordSet with --oov counts the variables of the rules as words out of the vocabulary: a translation with all its words in
    the vocabulary gets a positive count. *)
Theorem C97_oov_refuted : exists vocab d es fs f, wf_deriv (rules d) /\ pair_of (rules d) es fs /\ among vocab es = length es /\
  score rule [WordSet 0 true vocab] d = Some ([], f) /\ f 0 = 3%R.
Proof.
  exists [5; 7; 20; 21]%Z, d_ex, [21; 5; 7; 20]%Z, [3; 30; 4; 6; 31; 32]%Z. eexists. split; [|split; [|split; [|split]]].
  - repeat constructor; cbn; try lia.
  - apply (pair_node [-1; 7; 0] [3; -9; 4; -9] _ [[20]; [21; 5]] [[30]; [6; 31; 32]] [3; 30; 4; 6; 31; 32])%Z; [|reflexivity..|].
    + cbn. constructor; [apply (pair_node [20] [30] [] [] [] [30])%Z; [constructor|reflexivity..|repeat constructor; lia]|]. constructor; [|constructor].
      apply (pair_node [0; 5] [6; -9] _ [[21]] [[31; 32]] [6; 31; 32])%Z; [|reflexivity..|].
      * constructor; [|constructor]. apply (pair_node [21] [31; 32] [] [] [] [31; 32])%Z; [constructor|reflexivity..|repeat constructor; lia].
      * apply so_word; [lia|]. apply (so_cat (-9) [] [31; 32] [] [])%Z; [lia|constructor].
    + apply so_word; [lia|]. apply (so_cat (-9) [4; -9] [30] [[6; 31; 32]] [4; 6; 31; 32])%Z; [lia|]. apply so_word; [lia|]. apply (so_cat (-9) [] [6; 31; 32] [] [])%Z; [lia|constructor].
  - reflexivity.
  - reflexivity.
  - unfold vplus, set_value. cbn. lra.
Qed.
Print Assumptions C97_oov_refuted.
(** Finding: two of them with the same feature name do not add up, the last one replaces the first: with two vocabularies under one name
    the words of the first are not counted. *)
Theorem C97_shared_refuted : exists v1 v2 d es fs f, pair_of (rules d) es fs /\ score rule [WordSet 0 false v1; WordSet 0 false v2] d = Some ([], f) /\
  among v1 es = 1 /\ among v2 es = 0 /\ f 0 = 0%R.
Proof.
  exists [7]%Z, [8]%Z, (DT rule ([7], [3])%Z zero []), [7]%Z, [3]%Z. eexists. split; [|split; [|split; [|split]]]; try reflexivity.
  - apply (pair_node [7] [3] [] [] [] [3])%Z; [constructor|reflexivity..|repeat constructor; lia].
  - unfold set_value. cbn. lra.
Qed.
Print Assumptions C97_shared_refuted.

(** ** Examples *)
Definition l_ex : list (ffun rule * (nat -> bool)) :=
  [(WordPenalty 1 (-2), fun x => x =? 1); (SourceWordPenalty 2 3, fun x => x =? 2); (ArityPenalty [3; 4; 5], fun y => existsb (Nat.eqb y) [3; 4; 5]); (WordSet 6 false [7; 20; 8]%Z, fun x => x =? 6)].
Example C97_apart_ex : apart l_ex.
Proof.
  split.
  - intros m P [[= <- <-]|[[= <- <-]|[[= <- <-]|[[= <- <-]|[]]]]]; first [exact (keeps_arity _) | exact (keeps_set 1 (fun r _ => _)) | exact (keeps_set 2 (fun r _ => _)) | exact (keeps_set 6 (fun r _ => _))].
  - intros a m P b m' P' x EQ I O. destruct a as [|? [|? [|? [|? a]]]]; cbn [app] in EQ; injection EQ as; subst; try (destruct a; discriminate); cbn [app In] in I; repeat (destruct I as [[= <- <-]|I]); try contradiction;
      cbn [existsb] in *; rewrite ?orb_false_r in *; repeat match goal with H : orb _ _ = true |- _ => apply orb_prop in H as [H|H] | H : Nat.eqb _ _ = true |- _ => apply Nat.eqb_eq in H; subst end; reflexivity.
Qed.
Example C97_score_ex : exists f, score rule (map fst l_ex) d_ex = Some ([], f) /\ f 1 = (-8)%R /\ f 2 = 18%R /\ f 3 = 2%R /\ f 4 = 1%R /\ f 5 = 1%R /\ f 6 = 2%R.
Proof. eexists. split; [reflexivity|]. unfold vplus, set_value, zero. cbn. repeat split; lra. Qed.
Example C97_free_ex : free_of 3 d_ex.
Proof. repeat constructor. Qed.
